From Coq Require Import String.
From Verif Require Import Model.Base Model.Serialiser Model.Stream Model.FeatureVec Model.PerceptronVM Model.Mtx Spec.Mtx Proofs.Base.
Open Scope nat_scope.

(** ** The machine *)
Lemma byte_of_ok o : nth_error opcodes (byte_of o) = Some o.
Proof. destruct o; reflexivity. Qed.
Lemma byte_lt o : byte_of o < 256.
Proof. destruct o; vm_compute; repeat constructor. Qed.

Definition push {t} (x : vty t) (s : list value) : list value :=
  match t return vty t -> list value with
  | TInt => fun z => VInt z :: s
  | TBool => fun b => VBool b :: s
  | TEl BStr => fun x => VStr x :: s
  | TEl BWrd => fun x => VWrd x :: s
  | TArr BStr => fun x => VStrA x :: s
  | TArr BWrd => fun x => VWrdA x :: s
  | TAddr => fun p => VInt (snd p) :: VInt (fst p) :: s
  end x.
Definition val (i : item) : value := match i with IS s => VStr s | IW m => VWrd m end.

Section Run.
Variables (u8 : str -> str) (show : Z -> str) (coarsen : option (morpheme -> str)) (ltr : bool).
Variables (STRS : list str) (SETS : list (list str)) (GL : list value).
Variables (tagged : list (option (list morpheme))) (untagged : list lexunit) (ti wi : Z).
Variable PRG : code.
Variable feature : bool.
Notation exec := (exec_op u8 coarsen ltr STRS SETS GL tagged untagged ti wi PRG).
Notation stepm := (PerceptronVM.step u8 show coarsen ltr STRS SETS GL tagged untagged ti wi PRG feature).
Notation starm := (star u8 show coarsen ltr STRS SETS GL tagged untagged ti wi PRG feature).

Lemma star_trans a b c : starm a b -> starm b c -> starm a c.
Proof. induction 1; [auto|]. intros K. eapply star_step; eauto. Qed.
Lemma star_one a b : stepm a = Next b -> starm a b.
Proof. intros H. eapply star_step; [exact H|apply star_refl]. Qed.

Definition keep (lim : nat) (a b : nat -> option value) : Prop := forall i, i < lim -> b i = a i.
Definition runs (c : code) (s s' : list value) (lim : nat) (g : nat -> option value) : Prop :=
  forall pre post, PRG = pre ++ c ++ post -> forall L f, exists g', starm (mkmach (List.length pre) s L g f) (mkmach (List.length pre + List.length c) s' L g' f) /\ keep lim g g'.

Lemma runs_nil s lim g : runs [] s s lim g.
Proof. intros pre post E L f. exists g. rewrite Nat.add_0_r. split; [apply star_refl|intros i Hi; reflexivity]. Qed.
Lemma runs_app c1 c2 s s1 s2 lim g : runs c1 s s1 lim g -> (forall g1, keep lim g g1 -> runs c2 s1 s2 lim g1) -> runs (c1 ++ c2) s s2 lim g.
Proof.
  intros H1 H2 pre post E L f. destruct (H1 pre (c2 ++ post)) with (L := L) (f := f) as (g1 & R1 & K1); [rewrite E, <- app_assoc; reflexivity|].
  destruct (H2 g1 K1 (pre ++ c1) post) with (L := L) (f := f) as (g2 & R2 & K2); [rewrite E, <- !app_assoc; reflexivity|].
  exists g2. split.
  - eapply star_trans; [exact R1|]. rewrite app_length in R2. rewrite app_length, Nat.add_assoc. exact R2.
  - intros i Hi. rewrite (K2 i Hi). apply K1, Hi.
Qed.
Lemma runs_less c s s' lim lim' g : lim' <= lim -> runs c s s' lim g -> runs c s s' lim' g.
Proof. intros Hl H pre post E L f. destruct (H pre post E L f) as (g' & R & K). exists g'. split; [exact R|]. intros i Hi. apply K. lia. Qed.

Lemma nth_PRG pre c post k : PRG = pre ++ c ++ post -> k < List.length c -> nth_error PRG (List.length pre + k) = nth_error c k.
Proof. intros -> Hk. rewrite nth_error_app2 by lia. rewrite nth_error_app1 by lia. f_equal. lia. Qed.
Lemma stepm_op m o : nth_error PRG (pc m) = Some (byte_of o) -> stepm m = match exec o m with Some r => of_out r | None => if feature then
          match o with
          | DIEIFFALSE => match popb (stk m) with Ok (true, s) => Next (next m 1 s) | Ok (false, _) => Dead | Exc => Exn | Bad => Crash end
          | FCATSTRARR => match popsa (stk m) with
              | Ok ([], _) => Dead
              | Ok (l, s) => Next (mkmach (pc m + 1) s (loops m) (slots m) (flat_map (fun x => append_all x (fv m)) l))
              | Exc => Exn | Bad => Crash end
          | FCATSTR => of_out (PerceptronVM.bind (pops (stk m)) (fun '(x, s) => Ok (mkmach (pc m + 1) s (loops m) (slots m) (append_all x (fv m)))))
          | FCATBOOL => of_out (PerceptronVM.bind (popb (stk m)) (fun '(x, s) => Ok (mkmach (pc m + 1) s (loops m) (slots m) (append_all (if x then u "t" else u "f") (fv m)))))
          | FCATINT => of_out (PerceptronVM.bind (popi (stk m)) (fun '(x, s) => Ok (mkmach (pc m + 1) s (loops m) (slots m) (append_all (show x) (fv m)))))
          | _ => Crash
          end else Crash end.
Proof. intros H. unfold PerceptronVM.step. rewrite H, byte_of_ok. reflexivity. Qed.
Lemma runs_op o args s s' lim g :
  (forall m, stk m = s -> slots m = g -> (forall k x, nth_error args k = Some x -> arg PRG m (S k) = Ok x) -> exec o m = Some (Ok (next m (S (List.length args)) s'))) ->
  runs (byte_of o :: args) s s' lim g.
Proof.
  intros H pre post E L f. exists g. split; [|intros i Hi; reflexivity]. apply star_one.
  rewrite (stepm_op _ o).
  2:{ cbn [pc]. pose proof (nth_PRG pre (byte_of o :: args) post 0 E) as Hn. rewrite Nat.add_0_r in Hn. apply Hn. cbn. lia. }
  rewrite (H (mkmach (List.length pre) s L g f)); try reflexivity.
  intros k x Hk. unfold arg. cbn [pc]. rewrite (nth_PRG pre (byte_of o :: args) post (S k) E); [cbn; rewrite Hk; reflexivity|].
  cbn. apply -> Nat.succ_lt_mono. apply nth_error_Some. rewrite Hk. discriminate.
Qed.

(** Loops *)
Definition loop_code (slot : nat) (body : code) : code :=
  [byte_of FOREACHINIT; byte_of FOREACH; slot; List.length body + 2] ++ body ++ [byte_of ENDFOREACH; List.length body + 5].
Definition arr (b : base) (l : list item) : value :=
  match b with BStr => VStrA (map (fun i => match i with IS s => s | _ => [] end) l) | BWrd => VWrdA (map (fun i => match i with IW m => m | _ => mkm [] [] end) l) end.
Definition typed (b : base) (l : list item) : Prop := Forall (fun i => base_of i = b) l.
Lemma size_arr b l : size (arr b l) = Ok (List.length l).
Proof. destruct b; cbn; rewrite map_length; reflexivity. Qed.
Lemma item_arr b l k x : typed b l -> nth_error l k = Some x -> PerceptronVM.item (arr b l) k = Ok (val x).
Proof.
  intros Ht Hx. assert (base_of x = b) as Hb by (refine (proj1 (Forall_forall _ _) Ht x _); eapply nth_error_In; exact Hx).
  destruct b; cbn; rewrite (map_nth_error _ _ _ Hx); destruct x; try discriminate Hb; reflexivity.
Qed.
(* [res]: the result of the body for each item *)
Lemma runs_loop slot body lim g s b b' l (res : item -> item) :
  slot < 256 -> List.length body + 5 < 128 -> lim <= slot -> l <> [] -> typed b l -> typed b' (map res l) ->
  (forall x g1, In x l -> keep lim g g1 -> g1 slot = Some (val x) -> runs body s (val (res x) :: s) (S slot) g1) ->
  runs (loop_code slot body) (arr b l :: s) (arr b' (map res l) :: s) lim g.
Proof.
  intros Hs Hb Hl Hne Ht Ht' Hbody pre post E L f.
  set (A := List.length pre + 1).
  assert (forall k x, nth_error (loop_code slot body) k = Some x -> nth_error PRG (List.length pre + k) = Some x) as HP.
  { intros k x Hk. rewrite (nth_PRG pre _ post k E); [exact Hk|]. apply nth_error_Some. rewrite Hk. discriminate. }
  assert (nth_error PRG (A + 0) = Some (byte_of FOREACH)) as HA0 by (unfold A; rewrite <- Nat.add_assoc; apply HP; reflexivity).
  assert (nth_error PRG (A + 1) = Some slot) as HA1 by (unfold A; rewrite <- Nat.add_assoc; apply HP; reflexivity).
  assert (nth_error PRG (A + 2) = Some (List.length body + 2)) as HA2 by (unfold A; rewrite <- Nat.add_assoc; apply HP; reflexivity).
  assert (nth_error PRG (A + 3 + List.length body) = Some (byte_of ENDFOREACH)) as HE0.
  { unfold A. replace (_ + 1 + 3 + _) with (List.length pre + (4 + List.length body)) by lia. apply HP.
    unfold loop_code. cbn [app nth_error Nat.add]. rewrite nth_error_app2 by lia. rewrite Nat.sub_diag. reflexivity. }
  assert (nth_error PRG (A + 3 + List.length body + 1) = Some (List.length body + 5)) as HE1.
  { unfold A. replace (_ + 1 + 3 + _ + 1) with (List.length pre + (4 + (List.length body + 1))) by lia. apply HP.
    unfold loop_code. cbn [app nth_error Nat.add]. rewrite nth_error_app2 by lia. replace (_ - _) with 1 by lia. reflexivity. }
  assert (forall rest done, done ++ rest = l -> forall g1, keep lim g g1 -> exists g2, keep lim g g2 /\
    starm (mkmach A s (mkloop (List.length s) (arr b l) (List.length done) (match done with [] => VInt 0 | _ => arr b' (map res done) end) :: L) g1 f)
          (mkmach (A + 3 + List.length body + 2) (arr b' (map res l) :: s) L g2 f)) as Hloop.
  { induction rest as [|x rest IH]; intros done Hd g1 K1.
    - rewrite app_nil_r in Hd. subst done. exists g1. split; [exact K1|]. apply star_one.
      rewrite (stepm_op _ FOREACH) by (cbn [pc]; rewrite <- HA0, Nat.add_0_r; reflexivity).
      cbn [exec_op]. unfold arg. cbn [pc]. rewrite HA1, HA2. cbn [PerceptronVM.bind loops l_iter l_n l_acc]. rewrite size_arr. cbn [PerceptronVM.bind].
      rewrite Nat.eqb_refl. cbn [of_out]. destruct l as [|y l]; [congruence|]. cbn [stk slots fv]. replace (A + 2 + (List.length body + 2) + 1) with (A + 3 + List.length body + 2) by lia. reflexivity.
    - assert (nth_error l (List.length done) = Some x) as Hx by (subst l; rewrite nth_error_app2, Nat.sub_diag by lia; reflexivity).
      assert (In x l) as Hin by (eapply nth_error_In; exact Hx).
      destruct (Hbody x (set_slot g1 slot (val x)) Hin) with (pre := pre ++ [byte_of FOREACHINIT; byte_of FOREACH; slot; List.length body + 2]) (post := [byte_of ENDFOREACH; List.length body + 5] ++ post)
        (L := mkloop (List.length s) (arr b l) (List.length done) (match done with [] => VInt 0 | _ => arr b' (map res done) end) :: L) (f := f) as (g2 & R2 & K2).
      { intros i Hi. unfold set_slot. replace (i =? slot) with false by (symmetry; apply Nat.eqb_neq; lia). apply K1, Hi. }
      { unfold set_slot. rewrite Nat.eqb_refl. reflexivity. }
      { rewrite E. unfold loop_code. rewrite <- !app_assoc. reflexivity. }
      assert (keep lim g g2) as K2'.
      { intros i Hi. rewrite (K2 i) by lia. unfold set_slot. replace (i =? slot) with false by (symmetry; apply Nat.eqb_neq; lia). apply K1, Hi. }
      destruct (IH (done ++ [x])) with (g1 := g2) as (g3 & K3 & R3); [rewrite <- app_assoc; exact Hd|exact K2'|].
      exists g3. split; [exact K3|].
      eapply star_step.
      { rewrite (stepm_op _ FOREACH) by (cbn [pc]; rewrite <- HA0, Nat.add_0_r; reflexivity).
        cbn [exec_op]. unfold arg. cbn [pc]. rewrite HA1, HA2. cbn [PerceptronVM.bind loops l_iter l_n l_acc]. rewrite size_arr. cbn [PerceptronVM.bind].
        replace (List.length done =? List.length l) with false.
        2:{ symmetry. apply Nat.eqb_neq. subst l. rewrite app_length. cbn. lia. }
        rewrite (item_arr b l _ x Ht Hx). cbn [PerceptronVM.bind of_out stk slots fv loops]. reflexivity. }
      eapply star_trans.
      { rewrite app_length in R2. cbn [List.length] in R2. replace (A + 3) with (List.length pre + 4) by (unfold A; lia). exact R2. }
      eapply star_step.
      { rewrite (stepm_op _ ENDFOREACH) by (cbn [pc]; rewrite <- HE0; f_equal; unfold A; lia).
        cbn [exec_op loops l_init stk l_n l_acc l_iter]. unfold arg. cbn [pc].
        replace (List.length pre + 4 + List.length body + 1) with (A + 3 + List.length body + 1) by (unfold A; lia). rewrite HE1. cbn [PerceptronVM.bind List.length].
        replace (List.length s <? S (List.length s)) with true by (symmetry; apply Nat.ltb_lt; lia). cbn [pop PerceptronVM.bind].
        assert (base_of (res x) = b') as Hr by (refine (proj1 (Forall_forall _ _) Ht' (res x) _); apply in_map, Hin).
        instantiate (1 := mkmach A s (mkloop (List.length s) (arr b l) (List.length (done ++ [x])) (arr b' (map res (done ++ [x]))) :: L) g2 f).
        assert (match val (res x) with
              | VWrd w => match (if List.length done =? 0 then match val (res x) with VWrd _ => VWrdA [] | _ => VStrA [] end else match done with [] => VInt 0 | _ :: _ => arr b' (map res done) end) with
                 | VWrdA acc => VWrdA (acc ++ [w]) | _ => VInt 0 end
              | VStr w => match (if List.length done =? 0 then match val (res x) with VWrd _ => VWrdA [] | _ => VStrA [] end else match done with [] => VInt 0 | _ :: _ => arr b' (map res done) end) with
                 | VStrA acc => VStrA (acc ++ [w]) | _ => VInt 0 end
              | _ => VInt 0 end = arr b' (map res (done ++ [x]))) as Hacc.
        { rewrite map_app. cbn [map]. destruct done as [|y done].
          - cbn. destruct (res x), b'; try discriminate Hr; reflexivity.
          - cbn [List.length Nat.eqb]. destruct (res x), b'; try discriminate Hr; cbn [val arr]; rewrite map_app; reflexivity. }
        rewrite app_length. cbn [List.length]. rewrite Nat.add_1_r.
        replace (A + 3 + List.length body + 1) with (A + 3 + List.length body + 1) by reflexivity.
        replace (List.length pre + 4 + List.length body + 2 <? List.length body + 5) with false by (symmetry; apply Nat.ltb_ge; lia).
        replace (List.length pre + 4 + List.length body + 2 - (List.length body + 5)) with A by (unfold A; lia).
        rewrite <- Hacc. destruct done as [|y done].
        - cbn [List.length Nat.eqb]. destruct (res x); reflexivity.
        - cbn [List.length Nat.eqb]. destruct (res x), b'; try discriminate Hr; reflexivity. }
      match goal with |- starm (mkmach _ _ (mkloop _ _ _ ?acc :: _) _ _) _ => replace acc with (match done ++ [x] with [] => VInt 0 | _ => arr b' (map res (done ++ [x])) end) by (destruct done; reflexivity) end.
      exact R3. }
  destruct (Hloop l [] eq_refl g) as (g2 & K2 & R2); [intros i Hi; reflexivity|].
  exists g2. split; [|exact K2]. eapply star_step.
  { rewrite (stepm_op _ FOREACHINIT).
    2:{ cbn [pc]. pose proof (HP 0 _ eq_refl) as Hn. rewrite Nat.add_0_r in Hn. exact Hn. }
    cbn [exec_op stk pop PerceptronVM.bind of_out pc loops slots fv]. reflexivity. }
  replace (List.length pre + List.length (loop_code slot body)) with (A + 3 + List.length body + 2); [exact R2|].
  unfold loop_code, A. rewrite !app_length. cbn. lia.
Qed.
End Run.
