From Coq Require Import QArith Lqa.
From Verif Require Import Model.Base Proofs.Base Model.HMM Spec.HMM.
Open Scope nat_scope.
Local Arguments Qplus : simpl never.
Local Arguments Qmult : simpl never.
Local Arguments Qdiv : simpl never.
Local Arguments Qle : simpl never.
Local Arguments Qeq : simpl never.

(** ** Viterbi *)
Section Vit.
Variables (A B : mat) (eos : nat) (nf : bool).
Hypothesis HA : forall i j, (0 <= A i j)%Q.
Hypothesis HB : forall i k, (0 <= B i k)%Q.
Notation prob := (prob A B).

Lemma prob_nonneg ws : forall t p, (0 <= prob t ws p)%Q.
Proof.
  induction ws as [|w ws IH]; intros t p; cbn; [lra|]. destruct p as [|i p]; [lra|].
  assert (H1 := HA t i). assert (H2 := HB i (w_cls w)). assert (H3 := IH i p).
  assert (0 <= A t i * B i (w_cls w))%Q by (apply Qmult_le_0_compat; assumption). apply Qmult_le_0_compat; assumption.
Qed.
(** product for one more word *)
Fixpoint lastt (t : nat) (p : list nat) : nat := match p with [] => t | i :: r => lastt i r end.
Lemma prob_snoc ws : forall t p w i, length p = length ws ->
  (prob t (ws ++ [w]) (p ++ [i]) == prob t ws p * A (lastt t p) i * B i (w_cls w))%Q.
Proof.
  induction ws as [|x ws IH]; intros t [|j p] w i L; cbn in *; try discriminate; [ring|].
  rewrite IH by lia. ring.
Qed.
Lemma lastt_snoc p : forall t i, lastt t (p ++ [i]) = i.
Proof. induction p as [|j p IH]; intros t i; cbn; [reflexivity|]. apply IH. Qed.

(** inner loop *)
Lemma induct_spec nw pal pbe k i pre : pre <> [] -> (forall j, In j pre -> (0 <= pal j)%Q) -> 1 < nw \/ length pre = 1 ->
  let x j := (pal j * A j i * B i k)%Q in
  exists j, In j pre /\ (fst (induct A B nw pal pbe k i pre) == x j)%Q /\
    snd (induct A B nw pal pbe k i pre) = (if 1 <? nw then pbe j else []) ++ [i] /\
    forall j', In j' pre -> (x j' <= x j)%Q.
Proof.
  intros Hne Hp Hc x. unfold induct.
  assert (X0 : forall j, In j pre -> (0 <= x j)%Q).
  { intros j Hj. unfold x. assert (0 <= pal j * A j i)%Q by (apply Qmult_le_0_compat; auto). apply Qmult_le_0_compat; auto. }
  set (f := fun (ab : Q * list nat) j => let x := (pal j * A j i * B i k)%Q in
     if Qle_bool (fst ab) x then (x, (if 1 <? nw then pbe j else snd ab) ++ [i]) else ab).
  destruct Hc as [Hw|H1].
  - assert (G : forall l ab, (forall j, In j l -> In j pre) ->
      (exists j, In j pre /\ fst ab = x j /\ snd ab = pbe j ++ [i]) ->
      exists j, In j pre /\ (fst (fold_left f l ab) == x j)%Q /\ snd (fold_left f l ab) = pbe j ++ [i] /\
        (fst ab <= x j)%Q /\ forall j', In j' l -> (x j' <= x j)%Q).
    { induction l as [|a l IH]; intros ab Hl [j0 [I0 [E1 E2]]]; cbn [fold_left].
      - exists j0. rewrite E1. repeat split; auto; try reflexivity; [apply Qle_refl|intros j' []].
      - unfold f at 2 4. cbn zeta. fold (x a). destruct (Qle_bool (fst ab) (x a)) eqn:E.
        + destruct (IH (x a, (if 1 <? nw then pbe a else snd ab) ++ [i])) as [j [Ij [F1 [F2 [F3 F4]]]]].
          * intros; apply Hl; right; assumption.
          * exists a. split; [apply Hl; left; reflexivity|]. split; [reflexivity|]. cbn [snd].
            replace (1 <? nw) with true by (symmetry; apply Nat.ltb_lt; exact Hw). reflexivity.
          * exists j. split; [exact Ij|]. split; [exact F1|]. split; [exact F2|]. cbn [fst] in F3. apply Qle_bool_iff in E.
            split; [lra|]. intros j' [<-|Hj']; [exact F3|auto].
        + destruct (IH ab) as [j [Ij [F1 [F2 [F3 F4]]]]]; [intros; apply Hl; right; assumption|eauto|].
          exists j. split; [exact Ij|]. split; [exact F1|]. split; [exact F2|]. split; [exact F3|].
          assert (~ (fst ab <= x a)%Q) by (intros K; apply Qle_bool_iff in K; congruence).
          intros j' [<-|Hj']; [lra|auto]. }
    destruct pre as [|a pre]; [congruence|]. cbn [fold_left]. unfold f at 2 4. cbn [fst snd]. fold (x a).
    assert (E : Qle_bool 0 (x a) = true) by (apply Qle_bool_iff, X0; left; reflexivity). rewrite E.
    replace (1 <? nw) with true by (symmetry; apply Nat.ltb_lt; exact Hw).
    destruct (G pre (x a, pbe a ++ [i])) as [j [Ij [F1 [F2 [F3 F4]]]]].
    + intros; right; assumption.
    + exists a. split; [left; reflexivity|auto].
    + exists j. split; [exact Ij|]. split; [exact F1|]. split; [exact F2|]. intros j' [<-|Hj']; [exact F3|auto].
  - destruct pre as [|a [|b pre]]; cbn in H1; try discriminate. cbn [fold_left]. unfold f. cbn [fst snd]. fold (x a).
    assert (E : Qle_bool 0 (x a) = true) by (apply Qle_bool_iff, X0; left; reflexivity). rewrite E. cbn [fst snd].
    exists a. split; [left; reflexivity|]. split; [reflexivity|]. split; [reflexivity|]. intros j' [<-|[]]. apply Qle_refl.
Qed.

(** the state after reading [pend] since the last anchor [t] *)
Definition cal (st : vst) : nat -> Q := if length (v_pend st) mod 2 =? 1 then al1 st else al0 st.
Definition cbe (st : vst) : nat -> list nat := if length (v_pend st) mod 2 =? 1 then be1 st else be0 st.
Definition opt_end (t : nat) (ws : list vw) (i : nat) (p : list nat) : Prop :=
  compatible ws p /\ lastt t p = i /\ forall p', compatible ws p' -> lastt t p' = i -> (prob t ws p' <= prob t ws p)%Q.
Record VI (t : nat) (st : vst) : Prop := mkVI {
  vi_ne : v_tags st <> [];
  vi_tags : forall p, compatible (v_pend st) p -> In (lastt t p) (v_tags st);
  vi_first : v_pend st = [] -> v_tags st = [t];
  vi_be : forall i, In i (v_tags st) -> exists p, opt_end t (v_pend st) i p /\ (cal st i == prob t (v_pend st) p)%Q /\
            (v_pend st <> [] -> cbe st i = p) }.

Lemma compat_length ws p : compatible ws p -> length p = length ws.
Proof. intros H; induction H; cbn; congruence. Qed.
Lemma compat_snoc ws w p i : compatible ws p -> In i (w_tags w) -> compatible (ws ++ [w]) (p ++ [i]).
Proof. intros H Hi. apply Forall2_app; [exact H|]. constructor; [exact Hi|constructor]. Qed.
Lemma compat_snoc_inv ws w p : compatible (ws ++ [w]) p -> exists p' i, p = p' ++ [i] /\ compatible ws p' /\ In i (w_tags w).
Proof.
  intros H. apply Forall2_app_inv_l in H as [p1 [p2 [H1 [H2 ->]]]]. inversion H2 as [|? i ? p3 Hi Hr]; subst.
  inversion Hr; subst. exists p1, i. auto.
Qed.

Lemma existsb_In i l : existsb (Nat.eqb i) l = true <-> In i l.
Proof.
  rewrite existsb_exists. split.
  - intros [x [Hx E]]. apply Nat.eqb_eq in E. subst. exact Hx.
  - intros H. exists i. split; [exact H|apply Nat.eqb_refl].
Qed.

Lemma mod2_S n : (S n mod 2 =? 1) = negb (n mod 2 =? 1).
Proof.
  assert (H := Nat.mod_upper_bound n 2 ltac:(lia)).
  destruct (n mod 2) as [|[|?]] eqn:E; [| |lia]; rewrite <- Nat.add_1_r, Nat.add_mod, E by lia; reflexivity.
Qed.

(** reading one word, before the backtracking part *)
Definition st_read (st : vst) (w : vw) : vst :=
  let pend := v_pend st ++ [w] in
  let nw := length pend in
  let odd := (nw mod 2 =? 1) in
  let pal := if odd then al0 st else al1 st in
  let pbe := if odd then be0 st else be1 st in
  let r i := if existsb (Nat.eqb i) (w_tags w) then induct A B nw pal pbe (w_cls w) i (v_tags st) else (0%Q, []) in
  if odd then mkv (al0 st) (fun i => fst (r i)) (be0 st) (fun i => snd (r i)) (w_tags w) pend
  else mkv (fun i => fst (r i)) (al1 st) (fun i => snd (r i)) (be1 st) (w_tags w) pend.

Lemma VI_read t st w : VI t st -> w_tags w <> [] -> VI t (st_read st w).
Proof.
  intros [H1 H2 H3 H4] Hw.
  assert (Pend : v_pend (st_read st w) = v_pend st ++ [w]) by (unfold st_read; destruct (_ =? 1); reflexivity).
  assert (Tags : v_tags (st_read st w) = w_tags w) by (unfold st_read; destruct (_ =? 1); reflexivity).
  set (nw := length (v_pend st ++ [w])).
  assert (Nw : nw = S (length (v_pend st))) by (unfold nw; rewrite app_length; cbn; lia).
  set (r := fun i => induct A B nw (cal st) (cbe st) (w_cls w) i (v_tags st)).
  assert (Rd : forall i, In i (w_tags w) -> cal (st_read st w) i = fst (r i) /\ cbe (st_read st w) i = snd (r i)).
  { intros i Hi. unfold cal at 1, cbe at 1. rewrite Pend. fold nw. unfold r, cal, cbe, st_read. fold nw. rewrite Nw, mod2_S.
    apply existsb_In in Hi. destruct (length (v_pend st) mod 2 =? 1); cbn [negb al0 al1 be0 be1]; rewrite Hi; auto. }
  constructor.
  - rewrite Tags. exact Hw.
  - rewrite Pend, Tags. intros p Hp. apply compat_snoc_inv in Hp as [p' [i [-> [Hp Hi]]]]. rewrite lastt_snoc. exact Hi.
  - rewrite Pend. intros E. destruct (v_pend st); discriminate.
  - rewrite Tags, Pend. intros i Hi. destruct (Rd i Hi) as [E1 E2].
    destruct (induct_spec nw (cal st) (cbe st) (w_cls w) i (v_tags st) H1) as [j [Ij [F1 [F2 F3]]]].
    + intros j Hj. destruct (H4 j Hj) as [p [_ [Ep _]]]. rewrite Ep. apply prob_nonneg.
    + destruct (v_pend st) as [|y l] eqn:Ev; [right; rewrite (H3 eq_refl); reflexivity|left; rewrite Nw; cbn; lia].
    + destruct (H4 j Ij) as [p [[O1 [O2 O3]] [Ep Eb]]].
      exists (p ++ [i]). repeat split.
      * apply compat_snoc; assumption.
      * apply lastt_snoc.
      * intros p' Hp' Hl. apply compat_snoc_inv in Hp' as [p1 [i1 [-> [Hp1 Hi1]]]]. rewrite lastt_snoc in Hl; subst i1.
        rewrite !prob_snoc by (apply compat_length; assumption). rewrite O2.
        assert (J1 := H2 p1 Hp1). specialize (F3 _ J1). cbn beta in F3.
        destruct (H4 _ J1) as [q [[Q1 [Q2 Q3]] [Eq _]]]. rewrite Eq, Ep in F3.
        assert (Q4 := Q3 p1 Hp1 eq_refl).
        eapply Qle_trans; [|exact F3].
        apply Qmult_le_compat_r; [|apply HB]. apply Qmult_le_compat_r; [exact Q4|apply HA].
      * rewrite E1. unfold r. rewrite F1, prob_snoc, Ep, O2 by (apply compat_length; assumption). reflexivity.
      * intros _. rewrite E2. unfold r. rewrite F2. f_equal. rewrite Nw. destruct (v_pend st) as [|y l] eqn:Ev.
        -- cbn. inversion O1. reflexivity.
        -- cbn [length]. replace (1 <? S (S (length l))) with true by (symmetry; apply Nat.ltb_lt; lia). apply Eb. discriminate.
Qed.

Lemma vstep_eq st w : vstep eos A B nf st w =
  let st1 := st_read st w in
  let '(st2, out) := match w_tags w with
    | [tag] => (mkv (set1 (al0 st1) tag 1%Q) (al1 st1) (be0 st1) (be1 st1) (w_tags w) [],
                map (fun wt => EWord (fst wt) (snd wt)) (combine (v_pend st1) (cbe st1 tag)))
    | _ => (st1, [])
    end in
  if w_eof w && nf then (mkv (set1 (al0 st2) eos 1%Q) (al1 st2) (be0 st2) (be1 st2) [eos] (v_pend st2), out ++ [ENul])
  else (st2, out).
Proof.
  unfold vstep, st_read, cbe. destruct (length (v_pend st ++ [w]) mod 2 =? 1) eqn:E; cbn [v_pend al0 al1 be0 be1]; rewrite ?E;
    destruct (w_tags w) as [|x [|y l]]; reflexivity.
Qed.

Lemma VI_anchor t a1 b0 b1 f : VI t (mkv (set1 f t 1%Q) a1 b0 b1 [t] []).
Proof.
  constructor; cbn [v_tags v_pend].
  - discriminate.
  - intros p Hp. inversion Hp; subst. left; reflexivity.
  - reflexivity.
  - intros i [<-|[]]. exists []. split; [split; [constructor|split; [reflexivity|]]|split].
    + intros p' Hp' _. inversion Hp'; subst. apply Qle_refl.
    + unfold cal, set1. cbn. rewrite Nat.eqb_refl. reflexivity.
    + congruence.
Qed.

Definition ambiguous (w : vw) := 2 <= length (w_tags w).
Lemma vrun_tagging ws : forall st t, VI t st -> Forall ambiguous (v_pend st) -> Forall (proper_word nf) ws ->
  tagging A B eos nf t (v_pend st ++ ws) (snd (vrun eos A B nf st ws)).
Proof.
  induction ws as [|w ws IH]; intros st t HI Hp Hf; cbn [vrun].
  - rewrite app_nil_r. apply T_end. exact Hp.
  - inversion Hf as [|? ? [W1 [W2 W3]] Hws]; subst.
    assert (HR := VI_read t st w HI W1).
    assert (Pend : v_pend (st_read st w) = v_pend st ++ [w]) by (unfold st_read; destruct (_ =? 1); reflexivity).
    assert (Tags : v_tags (st_read st w) = w_tags w) by (unfold st_read; destruct (_ =? 1); reflexivity).
    rewrite vstep_eq. cbn zeta. destruct (w_tags w) as [|x [|y l]] eqn:Et; [congruence| |].
    + (* unambiguous *)
      destruct (vi_be _ _ HR x) as [p [[O1 [O2 O3]] [_ Eb]]]; [rewrite Tags; left; reflexivity|].
      rewrite Eb by (rewrite Pend; destruct (v_pend st); discriminate). rewrite Pend in *.
      set (out := map (fun wt : vw * nat => EWord (fst wt) (snd wt)) (combine (v_pend st ++ [w]) p)).
      assert (MP : most_probable A B t (v_pend st ++ [w]) p).
      { split; [exact O1|]. intros p' Hp'. apply O3; [exact Hp'|].
        apply compat_snoc_inv in Hp' as [p1 [i1 [-> [_ Hi1]]]]. rewrite lastt_snoc. rewrite Et in Hi1. destruct Hi1 as [->|[]]. reflexivity. }
      destruct (w_eof w && nf) eqn:Ef.
      * cbn [al0 al1 be0 be1 v_pend].
        match goal with |- context[vrun eos A B nf ?s ws] => pose proof (IH s eos (VI_anchor eos _ _ _ _) (Forall_nil _) Hws) as G;
          destruct (vrun eos A B nf s ws) as [s2 o2] end.
        cbn [snd v_pend app] in *. rewrite <- app_assoc.
        change ([ENul] ++ o2) with ((if true then [ENul] else []) ++ o2). rewrite <- Ef.
        apply T_seg with (t' := x); auto. rewrite Ef. exact G.
      * cbn [al0 al1 be0 be1 v_pend].
        match goal with |- context[vrun eos A B nf ?s ws] => pose proof (IH s x (VI_anchor x _ _ _ _) (Forall_nil _) Hws) as G;
          destruct (vrun eos A B nf s ws) as [s2 o2] end.
        cbn [snd v_pend app] in *.
        change o2 with ((if false then [ENul] else []) ++ o2). rewrite <- Ef.
        apply T_seg with (t' := x); auto. rewrite Ef. exact G.
    + (* ambiguous *)
      destruct (w_eof w && nf) eqn:Ef; [destruct (W3 eq_refl) as [? K]; congruence|].
      pose proof (IH (st_read st w) t HR) as G. destruct (vrun eos A B nf (st_read st w) ws) as [s2 o2]. cbn [snd app] in *.
      rewrite Pend, <- app_assoc in G. apply G; [|exact Hws]. apply Forall_app. split; [exact Hp|].
      constructor; [|constructor]. unfold ambiguous. rewrite Et. cbn. lia.
Qed.

Lemma tagger_tagging ws : Forall (proper_word nf) ws -> tagging A B eos nf eos ws (tagger eos A B nf ws).
Proof. intros H. apply (vrun_tagging ws (vst0 eos) eos); [apply VI_anchor|constructor|exact H]. Qed.
End Vit.

(** consequences of the specification *)
Definition ev_word (e : ev) : list vw := match e with EWord w _ => [w] | ENul => [] end.
Lemma tagging_words A B eos nf t ws evs : tagging A B eos nf t ws evs ->
  exists rest, ws = flat_map ev_word evs ++ rest /\ Forall (fun w => 2 <= length (w_tags w)) rest.
Proof.
  intros H; induction H as [t ws Hw|t seg w t' p rest evs Hs Hw [Hc _] Ht IH].
  - exists ws. auto.
  - destruct IH as [r [-> Hr]]. exists r. split; [|exact Hr]. rewrite !flat_map_app.
    assert (E : flat_map ev_word (map (fun wt => EWord (fst wt) (snd wt)) (combine (seg ++ [w]) p)) = seg ++ [w]).
    { revert Hc. generalize (seg ++ [w]). clear. intros l H; induction H as [|x i l p Hi Hl IH]; cbn; [reflexivity|]. f_equal. exact IH. }
    rewrite E. replace (flat_map ev_word (if w_eof w && nf then [ENul] else [])) with (@nil vw) by (destruct (w_eof w && nf); reflexivity).
    cbn. rewrite <- !app_assoc. reflexivity.
Qed.
Lemma tagging_own A B eos nf t ws evs : tagging A B eos nf t ws evs -> forall w i, In (EWord w i) evs -> In i (w_tags w).
Proof.
  intros H; induction H as [t ws Hw|t seg w t' p rest evs Hs Hw [Hc _] Ht IH]; intros x i Hi; [destruct Hi|].
  apply in_app_or in Hi as [Hi|Hi].
  - apply in_map_iff in Hi as [[y j] [E Hi]]. injection E as <- <-. clear -Hc Hi. revert Hi.
    induction Hc as [|a b l p Ha Hl IH]; intros Hi; [destruct Hi|]. destruct Hi as [Hi|Hi]; [injection Hi as -> ->; exact Ha|auto].
  - apply in_app_or in Hi as [Hi|Hi]; [destruct (w_eof w && nf); [destruct Hi as [Hi|[]]; discriminate|destruct Hi]|auto].
Qed.

(** ** sums *)
Lemma sum_total n f : (sum n f == total (seq 0 n) f)%Q.
Proof.
  unfold sum, total. generalize (seq 0 n). intros l.
  assert (G : forall l a, (fold_left (fun s j => (s + f j)%Q) l a == a + fold_right (fun j s => (f j + s)%Q) 0%Q l)%Q).
  { clear. induction l as [|x l IH]; intros a; cbn [fold_left fold_right]; [ring|]. rewrite IH. ring. }
  rewrite G. ring.
Qed.
Lemma total_ext l f g : (forall j, In j l -> (f j == g j)%Q) -> (total l f == total l g)%Q.
Proof.
  induction l as [|x l IH]; intros H; unfold total in *; cbn [fold_right]; [reflexivity|].
  rewrite (H x (or_introl eq_refl)), IH; [reflexivity|]. intros j Hj; apply H; right; exact Hj.
Qed.
Lemma total_div l f c : (total l (fun j => (f j / c)%Q) == total l f / c)%Q.
Proof.
  unfold Qdiv. unfold total. induction l as [|x l IH]; cbn [fold_right]; [ring|]. rewrite IH. ring.
Qed.
Lemma total_nonneg l f : (forall j, In j l -> (0 <= f j)%Q) -> (0 <= total l f)%Q.
Proof.
  induction l as [|x l IH]; intros H; unfold total in *; cbn [fold_right]; [lra|].
  assert (H1 := H x (or_introl eq_refl)). assert (H2 : (0 <= fold_right (fun j s => (f j + s)%Q) 0%Q l)%Q) by (apply IH; intros j Hj; apply H; right; exact Hj). lra.
Qed.
Lemma total_ge l f j : (forall j, In j l -> (0 <= f j)%Q) -> In j l -> (f j <= total l f)%Q.
Proof.
  induction l as [|x l IH]; intros H Hj; [destruct Hj|]. unfold total in *; cbn [fold_right].
  assert (H1 := H x (or_introl eq_refl)).
  assert (H2 := total_nonneg l f (fun j Hj => H j (or_intror Hj))). unfold total in H2.
  destruct Hj as [->|Hj]; [lra|]. assert (f j <= fold_right (fun j s => (f j + s)%Q) 0%Q l)%Q; [|lra].
  apply IH; [intros; apply H; right; assumption|exact Hj].
Qed.
Lemma total_pos l f j : (forall j, In j l -> (0 <= f j)%Q) -> In j l -> (0 < f j)%Q -> (0 < total l f)%Q.
Proof. intros H Hj Hp. assert (K := total_ge l f j H Hj). lra. Qed.
Lemma total_filter p l f : (total (filter p l) f == total l (fun j => if p j then f j else 0%Q))%Q.
Proof.
  induction l as [|x l IH]; unfold total in *; cbn [filter fold_right]; [reflexivity|].
  destruct (p x); cbn [fold_right]; rewrite IH; ring.
Qed.
Lemma total_plus l f g : (total l (fun j => (f j + g j)%Q) == total l f + total l g)%Q.
Proof. unfold total. induction l as [|x l IH]; cbn [fold_right]; [ring|]. rewrite IH. ring. Qed.
Lemma total_const l c : (total l (fun _ => c) == Qn (length l) * c)%Q.
Proof.
  unfold total. induction l as [|x l IH]; cbn [fold_right length]; [unfold Qn; cbn; ring|]. rewrite IH.
  unfold Qn. rewrite Nat2Z.inj_succ. unfold Z.succ. rewrite inject_Z_plus. change (inject_Z 1) with 1%Q. ring.
Qed.
Lemma Qn_nonneg n : (0 <= Qn n)%Q.
Proof. unfold Qn. change 0%Q with (inject_Z 0). rewrite <- Zle_Qle. lia. Qed.
Lemma Qn_pos n : 0 < n -> (0 < Qn n)%Q.
Proof. intros H. unfold Qn. change 0%Q with (inject_Z 0). rewrite <- Zlt_Qlt. lia. Qed.
Lemma in_seq0 j n : In j (seq 0 n) <-> j < n.
Proof. rewrite in_seq. lia. Qed.
Lemma Qdiv_pos a b : (0 < a)%Q -> (0 < b)%Q -> (0 < a / b)%Q.
Proof. intros Ha Hb. apply Qlt_shift_div_l; [exact Hb|]. lra. Qed.
Lemma Qdiv_self a : (0 < a)%Q -> (a / a == 1)%Q.
Proof. intros Ha. field. lra. Qed.

(** ** C22: counting *)
Lemma counts_spec eos l :
  (forall a b, c_pair (counts eos l) a b = count_occ bigram_dec (bigrams eos l) (Some a, Some b)) /\
  (forall a k, c_em (counts eos l) a k = count_occ emission_dec (emissions eos l) (Some a, k)).
Proof.
  unfold counts, bigrams, emissions.
  assert (G : forall l c,
    (forall a b, c_pair (fold_left cnt_step l c) a b = c_pair c a b +
       count_occ bigram_dec (combine (c_tag c :: tag_seq (c_tag c) l) (tag_seq (c_tag c) l)) (Some a, Some b)) /\
    (forall a k, c_em (fold_left cnt_step l c) a k = c_em c a k +
       count_occ emission_dec (combine (tag_seq (c_tag c) l) (map t_cls l)) (Some a, k))).
  { clear. induction l as [|w l IH]; intros c; cbn [fold_left]; [cbn; split; intros; lia|].
    destruct (IH (cnt_step c w)) as [I1 I2]. cbn [tag_seq map].
    set (t := match t_tags w with [] => None | [t] => Some t | _ => c_tag c end) in *.
    assert (Et : c_tag (cnt_step c w) = t) by reflexivity. rewrite Et in *. split.
    - intros a b. rewrite I1. cbn [combine count_occ].
      assert (E : c_pair (cnt_step c w) a b = c_pair c a b + (if bigram_dec (c_tag c, t) (Some a, Some b) then 1 else 0)).
      { unfold cnt_step. cbn [c_pair]. fold t. destruct (bigram_dec (c_tag c, t) (Some a, Some b)) as [E|E].
        - injection E as -> ->. unfold set2. rewrite !Nat.eqb_refl. cbn. lia.
        - destruct (c_tag c) as [x|]; [|lia]. destruct t as [y|]; [|lia]. unfold set2.
          destruct (a =? x) eqn:E1; [|cbn; lia]. destruct (b =? y) eqn:E2; [|cbn; lia].
          apply Nat.eqb_eq in E1, E2. congruence. }
      rewrite E. destruct (bigram_dec _ _); lia.
    - intros a k. rewrite I2. cbn [combine count_occ].
      assert (E : c_em (cnt_step c w) a k = c_em c a k + (if emission_dec (t, t_cls w) (Some a, k) then 1 else 0)).
      { unfold cnt_step. cbn [c_em]. fold t. destruct (emission_dec (t, t_cls w) (Some a, k)) as [E|E].
        - injection E as -> <-. unfold set2. rewrite !Nat.eqb_refl. cbn. lia.
        - destruct t as [y|]; [|lia]. unfold set2.
          destruct (a =? y) eqn:E1; [|cbn; lia]. destruct (k =? t_cls w) eqn:E2; [|cbn; lia].
          apply Nat.eqb_eq in E1, E2. congruence. }
      rewrite E. destruct (emission_dec _ _); lia. }
  destruct (G l (cnt0 eos)) as [G1 G2]. split; [intros a b; rewrite G1|intros a k; rewrite G2]; reflexivity.
Qed.

(** estimates from tagged text *)
Lemma estA_sum_pos N (pair : nat -> nat -> nat) i : 0 < N -> (0 < sum N (fun j => (Qn (pair i j) + 1)%Q))%Q.
Proof.
  intros HN. rewrite sum_total. apply total_pos with (j := 0).
  - intros j _. assert (H := Qn_nonneg (pair i j)). lra.
  - apply in_seq0; exact HN.
  - assert (H := Qn_nonneg (pair i 0)). lra.
Qed.
Lemma estA_row N (pair : nat -> nat -> nat) i : 0 < N -> (total (seq 0 N) (estA N pair i) == 1)%Q.
Proof.
  intros HN. unfold estA. rewrite (total_div (seq 0 N) (fun j => (Qn (pair i j) + 1)%Q)), <- sum_total. apply Qdiv_self, estA_sum_pos, HN.
Qed.
Lemma estA_pos N (pair : nat -> nat -> nat) i j : 0 < N -> (0 < estA N pair i j)%Q.
Proof.
  intros HN. unfold estA. apply Qdiv_pos; [|apply estA_sum_pos, HN]. assert (H := Qn_nonneg (pair i j)). lra.
Qed.
Lemma estA_value N (pair : nat -> nat -> nat) i j : 0 < N -> (estA N pair i j == (Qn (pair i j) + 1) / (total (seq 0 N) (fun j => Qn (pair i j)) + Qn N))%Q.
Proof.
  intros HN. unfold estA. rewrite sum_total, (total_plus _ (fun j => Qn (pair i j)) (fun _ => 1%Q)), total_const, seq_length.
  rewrite Qmult_1_r. reflexivity.
Qed.

Lemma inc_In cls k i : inc cls k i = true <-> In i (cls k).
Proof. apply existsb_In. Qed.
Lemma holders_In M cls i k : In k (holders M cls i) <-> k < M /\ In i (cls k).
Proof. unfold holders. rewrite filter_In, in_seq0, inc_In. reflexivity. Qed.

Lemma times_nonneg M cls em i : (0 <= times M cls em i)%Q.
Proof.
  unfold times. rewrite sum_total. apply total_nonneg. intros k _. destruct (inc cls k i); [apply Qn_nonneg|lra].
Qed.
Lemma estB_row M cls old em i : (exists k, k < M /\ In i (cls k)) -> (total (holders M cls i) (estB M cls old em i) == 1)%Q.
Proof.
  intros [k Hk]. assert (Hl : 0 < nclasses M cls i).
  { unfold nclasses. fold (holders M cls i). apply holders_In in Hk. destruct (holders M cls i); [destruct Hk|cbn; lia]. }
  assert (HT := times_nonneg M cls em i).
  rewrite (total_ext _ _ (fun k => ((Qn (em i k) + 1 / Qn (nclasses M cls i)) / (times M cls em i + 1))%Q)).
  - rewrite (total_div _ (fun k => (Qn (em i k) + 1 / Qn (nclasses M cls i))%Q)), (total_plus _ (fun k => Qn (em i k))), total_const.
    assert (E : (total (holders M cls i) (fun k => Qn (em i k)) == times M cls em i)%Q).
    { unfold holders, times. rewrite total_filter, sum_total. reflexivity. }
    rewrite E. change (length (holders M cls i)) with (nclasses M cls i).
    assert (P := Qn_pos _ Hl). field. split; lra.
  - intros k' Hk'. apply holders_In in Hk' as [_ Hk']. unfold estB. apply inc_In in Hk'. rewrite Hk'. reflexivity.
Qed.
Lemma estB_pos M cls old em i k : k < M -> In i (cls k) -> (0 < estB M cls old em i k)%Q.
Proof.
  intros H1 H2. unfold estB. assert (H3 := H2). apply inc_In in H3. rewrite H3. assert (HT := times_nonneg M cls em i).
  assert (Hl : 0 < nclasses M cls i).
  { unfold nclasses. fold (holders M cls i). assert (Hk : In k (holders M cls i)) by (apply holders_In; auto). destruct (holders M cls i); [destruct Hk|cbn; lia]. }
  apply Qdiv_pos; [|lra]. assert (H := Qn_nonneg (em i k)). assert (0 < 1 / Qn (nclasses M cls i))%Q; [|lra].
  apply Qdiv_pos; [lra|]. apply Qn_pos, Hl.
Qed.

(** Kupiec *)
Lemma kcounts_spec keos l :
  (forall k, k_occ (kcounts keos l) k = 1 + count_occ Nat.eq_dec (removelast (keos :: l)) k) /\
  (forall a b, k_pair (kcounts keos l) a b = 1 + count_occ npair_dec (combine (keos :: l) l) (a, b)).
Proof.
  unfold kcounts.
  assert (G : forall l c,
    (forall k, k_occ (fold_left kcnt_step l c) k = k_occ c k + count_occ Nat.eq_dec (removelast (k_prev c :: l)) k) /\
    (forall a b, k_pair (fold_left kcnt_step l c) a b = k_pair c a b + count_occ npair_dec (combine (k_prev c :: l) l) (a, b))).
  { clear. induction l as [|w l IH]; intros c; [cbn; split; intros; lia|]. cbn [fold_left].
    destruct (IH (kcnt_step c w)) as [I1 I2]. split.
    - intros k. rewrite I1. change (k_prev (kcnt_step c w)) with w.
      change (removelast (k_prev c :: w :: l)) with (k_prev c :: removelast (w :: l)). cbn [count_occ].
      unfold kcnt_step. cbn [k_occ]. unfold set1. destruct (Nat.eq_dec (k_prev c) k) as [->|n].
      + rewrite Nat.eqb_refl. lia.
      + replace (k =? k_prev c) with false by (symmetry; apply Nat.eqb_neq; congruence). reflexivity.
    - intros a b. rewrite I2. change (k_prev (kcnt_step c w)) with w. cbn [combine count_occ].
      unfold kcnt_step. cbn [k_pair]. unfold set2. destruct (npair_dec (k_prev c, w) (a, b)) as [E|n].
      + injection E as -> ->. rewrite !Nat.eqb_refl. cbn. lia.
      + destruct (a =? k_prev c) eqn:E1; [|reflexivity]. destruct (b =? w) eqn:E2; [|reflexivity].
        apply Nat.eqb_eq in E1, E2. congruence. }
  destruct (G l (mkk keos (fun _ => 1) (fun _ _ => 1))) as [G1 G2]. split; [intros k; rewrite G1|intros a b; rewrite G2]; reflexivity.
Qed.
Lemma csize_pos cls k i : In i (cls k) -> (0 < csize cls k)%Q.
Proof. intros H. unfold csize. apply Qn_pos. destruct (cls k); [destruct H|cbn; lia]. Qed.
Lemma kupA_row N M cls (pair : nat -> nat -> nat) i : (forall a b, 0 < pair a b) -> (exists k, k < M /\ In i (cls k)) -> (exists k j, k < M /\ j < N /\ In j (cls k)) ->
  (total (seq 0 N) (kupA N M cls pair i) == 1)%Q /\ forall j, (0 <= kupA N M cls pair i j)%Q.
Proof.
  intros Hp [k1 [K1 K2]] [k2 [j [J1 [J2 J3]]]].
  assert (T0 : forall a b k1 k2, (0 <= (if inc cls k1 a && inc cls k2 b then Qn (pair k1 k2) / (csize cls k1 * csize cls k2) else 0))%Q).
  { intros a b x y. destruct (inc cls x a) eqn:E1; [|cbn; lra]. destruct (inc cls y b) eqn:E2; [|cbn; lra]. cbn [andb].
    apply inc_In, csize_pos in E1. apply inc_In, csize_pos in E2. apply Qle_shift_div_l; [apply Qmult_lt_0_compat; assumption|].
    assert (H := Qn_nonneg (pair x y)). lra. }
  assert (P0 : forall a b, (0 <= pair_est M cls pair a b)%Q).
  { intros a b. unfold pair_est. rewrite sum_total. apply total_nonneg. intros x _. rewrite sum_total. apply total_nonneg. intros y _. apply T0. }
  assert (P1 : (0 < pair_est M cls pair i j)%Q).
  { unfold pair_est. rewrite sum_total. apply total_pos with (j := k1).
    - intros x _. rewrite sum_total. apply total_nonneg. intros; apply T0.
    - apply in_seq0; exact K1.
    - rewrite sum_total. apply total_pos with (j := k2); [intros; apply T0|apply in_seq0; exact J1|].
      assert (E1 := K2). assert (E2 := J3). apply inc_In in E1. apply inc_In in E2. rewrite E1, E2. cbn [andb].
      apply Qdiv_pos; [apply Qn_pos, Hp|]. apply Qmult_lt_0_compat; eapply csize_pos; eassumption. }
  assert (S : (0 < sum N (pair_est M cls pair i))%Q).
  { rewrite sum_total. apply total_pos with (j := j); [intros; apply P0|apply in_seq0; exact J2|exact P1]. }
  unfold kupA. destruct (Qlt_le_dec 0 (sum N (pair_est M cls pair i))) as [S'|S']; [|exfalso; lra]. split.
  - rewrite (total_div _ (pair_est M cls pair i)), <- sum_total. apply Qdiv_self, S.
  - intros j'. apply Qle_shift_div_l; [exact S|]. assert (H := P0 i j'). lra.
Qed.
Lemma kupB_row M cls old occ i : (forall k, 0 < occ k) -> (exists k, k < M /\ In i (cls k)) ->
  (total (holders M cls i) (kupB M cls old occ i) == 1)%Q /\ forall k, In k (holders M cls i) -> (0 < kupB M cls old occ i k)%Q.
Proof.
  intros Ho [k0 [K1 K2]].
  assert (T0 : forall k, (0 <= (if inc cls k i then Qn (occ k) / csize cls k else 0))%Q).
  { intros k. destruct (inc cls k i) eqn:E; [|lra]. apply inc_In, csize_pos in E. apply Qle_shift_div_l; [exact E|].
    assert (H := Qn_nonneg (occ k)). lra. }
  assert (TE : (tags_est M cls occ i == total (holders M cls i) (fun k => Qn (occ k) / csize cls k))%Q).
  { unfold tags_est, holders. rewrite sum_total, total_filter. reflexivity. }
  assert (S : (0 < tags_est M cls occ i)%Q).
  { unfold tags_est. rewrite sum_total. apply total_pos with (j := k0); [intros; apply T0|apply in_seq0; exact K1|].
    assert (E := K2). apply inc_In in E. rewrite E. apply Qdiv_pos; [apply Qn_pos, Ho|eapply csize_pos; eassumption]. }
  assert (V : forall k, In k (holders M cls i) -> kupB M cls old occ i k = (Qn (occ k) / csize cls k / tags_est M cls occ i)%Q).
  { intros k Hk. apply holders_In in Hk as [_ Hk]. unfold kupB. apply inc_In in Hk. rewrite Hk.
    destruct (Qlt_le_dec 0 (tags_est M cls occ i)); [reflexivity|exfalso; lra]. }
  split.
  - rewrite (total_ext _ _ (fun k => (Qn (occ k) / csize cls k / tags_est M cls occ i)%Q)) by (intros k Hk; rewrite V by exact Hk; reflexivity).
    rewrite (total_div _ (fun k => (Qn (occ k) / csize cls k)%Q)), <- TE. apply Qdiv_self, S.
  - intros k Hk. rewrite V by exact Hk. apply holders_In in Hk as [_ Hk]. apply Qdiv_pos; [|exact S].
    apply Qdiv_pos; [apply Qn_pos, Ho|eapply csize_pos; eassumption].
Qed.

(** ** C23 *)
Lemma rules_matrix N forbid enforce a i j :
  let a' := fold_left (enforce_step N) enforce (fold_left forbid_step forbid a) in
  (ruled N forbid enforce i j -> a' i j = ZERO) /\ (~ ruled N forbid enforce i j -> a' i j = a i j).
Proof.
  cbn zeta.
  assert (F : forall l a, (In (i, j) l -> fold_left forbid_step l a i j = ZERO) /\ (~ In (i, j) l -> fold_left forbid_step l a i j = a i j)).
  { clear. assert (K : forall l a, a i j = ZERO -> fold_left forbid_step l a i j = ZERO).
    { induction l as [|r l IH]; intros a H; cbn [fold_left]; [exact H|]. apply IH. unfold forbid_step, set2. destruct (_ && _); [reflexivity|exact H]. }
    induction l as [|[x y] l IH]; intros a; cbn [fold_left]; [split; [intros []|reflexivity]|]. split.
    - intros [E|H]; [injection E as -> ->; apply K; unfold forbid_step, set2; cbn [fst snd]; rewrite !Nat.eqb_refl; reflexivity|apply IH, H].
    - intros H. rewrite (proj2 (IH _)) by (intros K1; apply H; right; exact K1). unfold forbid_step, set2. cbn [fst snd].
      destruct (i =? x) eqn:E1; [|reflexivity]. destruct (j =? y) eqn:E2; [|reflexivity]. apply Nat.eqb_eq in E1, E2. subst. exfalso; apply H; left; reflexivity. }
  assert (FE : forall t ts, existsb (fun u => u =? t) ts = true <-> In t ts).
  { clear. intros t ts. rewrite existsb_exists. split; [intros [x [H1 H2]]; apply Nat.eqb_eq in H2; subst; exact H1|intros H; exists t; rewrite Nat.eqb_refl; auto]. }
  assert (E : forall l a, ((exists ts, In (i, ts) l /\ j < N /\ ~ In j ts) -> fold_left (enforce_step N) l a i j = ZERO) /\
     (~ (exists ts, In (i, ts) l /\ j < N /\ ~ In j ts) -> fold_left (enforce_step N) l a i j = a i j)).
  { clear -FE. assert (K : forall l a, a i j = ZERO -> fold_left (enforce_step N) l a i j = ZERO).
    { induction l as [|r l IH]; intros a H; cbn [fold_left]; [exact H|]. apply IH. unfold enforce_step. destruct (_ && _); [reflexivity|exact H]. }
    induction l as [|[x ts] l IH]; intros a; cbn [fold_left]; [split; [intros [? [[] ?]]|reflexivity]|]. split.
    - intros [ts' [[E|H] [H1 H2]]].
      + injection E as -> ->. apply K. unfold enforce_step. cbn [fst snd]. rewrite Nat.eqb_refl. apply Nat.ltb_lt in H1. rewrite H1.
        destruct (existsb _ _) eqn:E; [apply FE in E; contradiction|reflexivity].
      + apply IH. exists ts'. auto.
    - intros H. rewrite (proj2 (IH _)) by (intros [ts' [K1 K2]]; apply H; exists ts'; split; [right; exact K1|exact K2]).
      unfold enforce_step. cbn [fst snd]. destruct (i =? x) eqn:E1; [|reflexivity]. destruct (j <? N) eqn:E2; [|reflexivity].
      destruct (existsb _ _) eqn:E3; [reflexivity|]. apply Nat.eqb_eq in E1. apply Nat.ltb_lt in E2. subst. exfalso; apply H. exists ts.
      split; [left; reflexivity|]. split; [exact E2|]. intros K1. apply FE in K1. congruence. }
  unfold ruled. split.
  - intros [H|H]; [|apply E, H]. destruct (E enforce (fold_left forbid_step forbid a)) as [E1 E2].
    destruct (existsb (fun r => (i =? fst r) && (j <? N) && negb (existsb (fun t => t =? j) (snd r))) enforce) eqn:B.
    + apply E1. apply existsb_exists in B as [[x ts] [B1 B2]]. cbn [fst snd] in B2. apply andb_prop in B2 as [B2 B3]. apply andb_prop in B2 as [B2 B4].
      apply Nat.eqb_eq in B2. apply Nat.ltb_lt in B4. subst. exists ts. split; [exact B1|]. split; [exact B4|]. intros K. apply FE in K. rewrite K in B3. discriminate.
    + rewrite E2; [apply F, H|]. intros [ts [K1 [K2 K3]]]. assert (B' : existsb (fun r => (i =? fst r) && (j <? N) && negb (existsb (fun t => t =? j) (snd r))) enforce = true); [|congruence].
      apply existsb_exists. exists (i, ts). split; [exact K1|]. cbn [fst snd]. rewrite Nat.eqb_refl. apply Nat.ltb_lt in K2. rewrite K2.
      destruct (existsb (fun t => t =? j) ts) eqn:E4; [apply FE in E4; contradiction|reflexivity].
  - intros H. rewrite (proj2 (E _ _)) by (intros K; apply H; right; exact K). apply F. intros K. apply H. left; exact K.
Qed.

Lemma apply_rules_spec N forbid enforce a i j : i < N -> j < N -> (forall j, (0 <= a i j)%Q) ->
  let b i j := fold_left (enforce_step N) enforce (fold_left forbid_step forbid a) i j in
  let s := total (seq 0 N) (b i) in
  (0 <= s)%Q /\ ((0 < s)%Q -> (apply_rules N forbid enforce a i j == b i j / s)%Q) /\ ((s == 0)%Q -> apply_rules N forbid enforce a i j = 0%Q).
Proof.
  intros Hi Hj Ha b s.
  assert (S0 : (0 <= s)%Q).
  { apply total_nonneg. intros x _. unfold b. destruct (rules_matrix N forbid enforce a i x) as [R1 R2].
    assert (D : ruled N forbid enforce i x \/ ~ ruled N forbid enforce i x).
    { unfold ruled. destruct (in_dec npair_dec (i, x) forbid) as [D1|D1]; [left; left; exact D1|].
      destruct (Exists_dec (fun r => fst r = i /\ x < N /\ ~ In x (snd r)) enforce) as [D2|D2].
      - intros [y ts]. cbn [fst snd]. destruct (Nat.eq_dec y i); [|right; tauto]. destruct (lt_dec x N); [|right; tauto].
        destruct (in_dec Nat.eq_dec x ts); [right; tauto|left; tauto].
      - left; right. apply Exists_exists in D2 as [[y ts] [D3 [<- D4]]]. exists ts. auto.
      - right. intros [K|[ts [K1 K2]]]; [contradiction|]. apply D2, Exists_exists. exists (i, ts). auto. }
    destruct D as [D|D]; [rewrite R1 by exact D; discriminate|rewrite R2 by exact D; apply Ha]. }
  split; [exact S0|]. unfold apply_rules, normalise.
  replace (i <? N) with true by (symmetry; apply Nat.ltb_lt; exact Hi). replace (j <? N) with true by (symmetry; apply Nat.ltb_lt; exact Hj).
  change (sum N (fold_left (enforce_step N) enforce (fold_left forbid_step forbid a) i)) with (sum N (b i)).
  assert (SE : (sum N (b i) == s)%Q) by apply sum_total.
  split.
  - intros P. destruct (Qlt_le_dec 0 (sum N (b i))) as [K|K]; [|exfalso; lra]. rewrite SE. reflexivity.
  - intros P. destruct (Qlt_le_dec 0 (sum N (b i))) as [K|K]; [exfalso; lra|reflexivity].
Qed.
