From Coq Require Import String.
From Verif Require Import Model.Base Model.Serialiser Model.Stream Model.FeatureVec Model.PerceptronVM Model.Mtx Spec.Mtx Proofs.Base Proofs.Mtx Proofs.MtxVals.
Open Scope nat_scope.

Scheme ex_mut := Induction for ex Sort Prop with exs_mut := Induction for exs Sort Prop.
Combined Scheme ex_exs_ind from ex_mut, exs_mut.

(** ** Steps of the parser *)
Definition upd_toks (r : list tok) (s : pst) : pst := mkpst r (cde s) (cstrs s) (csets s) (strn s) (setn s) (slotn s) (slott s) (ctr s).
Definition upd_code (c : code) (s : pst) : pst := mkpst (toks s) c (cstrs s) (csets s) (strn s) (setn s) (slotn s) (slott s) (ctr s).
Definition add_code (c : code) (s : pst) : pst := upd_code (cde s ++ c) s.
Definition add_str (x : str) (s : pst) : pst := mkpst (toks s) (cde s) (cstrs s ++ [x]) (csets s) (strn s) (setn s) (slotn s) (slott s) (ctr s).
Definition add_set (x : list str) (s : pst) : pst := mkpst (toks s) (cde s) (cstrs s) (csets s ++ [x]) (strn s) (setn s) (slotn s) (slott s) (ctr s).
Lemma bnd_inv {A B} (m : P A) (k : A -> P B) s r : bnd m k s = Some r -> exists a s1, m s = Some (a, s1) /\ k a s1 = Some r.
Proof. unfold bnd. destruct (m s) as [[a s1]|]; [intros H; exists a, s1; auto|discriminate]. Qed.
Lemma p_step {A} (k : unit -> P A) s t r res : toks s = t :: r -> bnd step k s = Some res -> k tt (upd_toks r s) = Some res /\ r <> [].
Proof. intros T. unfold bnd, step. rewrite T. destruct r; [discriminate|]. intros H. split; [exact H|discriminate]. Qed.
Lemma p_cur {A} (k : tok -> P A) s t r res : toks s = t :: r -> bnd cur k s = Some res -> k t s = Some res.
Proof. intros T. unfold bnd, cur. rewrite T. auto. Qed.
Lemma p_end {A} (k : unit -> P A) s n a r res : toks s = Cl n a :: r -> bnd (at_end n) k s = Some res -> k tt s = Some res.
Proof.
  intros T. unfold at_end, bnd, cur, guard. rewrite T. unfold is_cl. cbn [closes nm andb]. destruct (el_dec n n); [|congruence]. unfold ret. auto.
Qed.
Lemma p_some_end {A} (k : unit -> P A) s n a r res : toks s = Cl n a :: r -> bnd at_some_end k s = Some res -> k tt s = Some res.
Proof. intros T. unfold at_some_end, bnd, cur, guard. rewrite T. cbn [closes]. unfold ret. auto. Qed.
Lemma p_emit {A} (k : unit -> P A) s o res : bnd (emit o) k s = Some res -> k tt (add_code [byte_of o] s) = Some res.
Proof. auto. Qed.
Lemma p_ret {A B} (a : A) (k : A -> P B) s res : bnd (ret a) k s = Some res -> k a s = Some res.
Proof. auto. Qed.
Lemma p_uint {A} (k : unit -> P A) s z res : bnd (emit_uint z) k s = Some res -> (0 <= z < 256)%Z /\ k tt (add_code [Z.to_nat z] s) = Some res.
Proof.
  unfold emit_uint, bnd, guard. destruct ((0 <=? z)%Z && (z <? 256)%Z) eqn:E; [|discriminate].
  apply andb_prop in E as [E1 E2]. apply Z.leb_le in E1. apply Z.ltb_lt in E2. cbn. unfold to_byte. rewrite Z.mod_small by lia. auto.
Qed.
Lemma p_int {A} (k : unit -> P A) s z res : bnd (emit_int z) k s = Some res -> (-128 <= z < 128)%Z /\ k tt (add_code [to_byte z] s) = Some res.
Proof.
  unfold emit_int, bnd, guard. destruct ((-128 <=? z)%Z && (z <? 128)%Z) eqn:E; [|discriminate].
  apply andb_prop in E as [E1 E2]. apply Z.leb_le in E1. apply Z.ltb_lt in E2. cbn. auto.
Qed.
Lemma p_attrib {A} (k : str -> P A) s t r a res : toks s = t :: r -> bnd (attrib a) k s = Some res -> k (lookup_at a (atts t)) s = Some res.
Proof. intros T. unfold attrib, bnd, cur. rewrite T. auto. Qed.
Lemma p_one {A} pr kd (k : unit -> P A) s res : bnd (one pr kd) k s = Some res -> exists b s1, pr kd false s = Some (b, s1) /\ k tt s1 = Some res.
Proof. intros H. apply bnd_inv in H as (a & s1 & H1 & H2). unfold one in H1. apply bnd_inv in H1 as (b & s2 & H3 & H4). injection H4 as <- <-. eauto. Qed.
Lemma p_novar {A} w (k : bool -> P A) s t r res : toks s = t :: r -> nm t <> Xvar -> nm t <> Xmacro -> bnd (try_var w) k s = Some res -> k false s = Some res.
Proof. intros T N1 N2. unfold try_var, bnd, cur. rewrite T. destruct (el_dec (nm t) Xvar); [congruence|]. destruct (el_dec (nm t) Xmacro); [congruence|]. auto. Qed.
Lemma p_noslice {A} pr i (k : bool -> P A) s t r res : toks s = t :: r -> nm t <> Xslice -> bnd (try_slice pr i) k s = Some res -> k false s = Some res.
Proof. intros T N1. unfold try_slice, bnd at 1 2, cur. rewrite T. destruct (el_dec (nm t) Xslice); [congruence|]. auto. Qed.
Lemma p_nosub {A} pr i (k : bool -> P A) s t r res : toks s = t :: r -> nm t <> Xsubscript -> bnd (try_subscript pr i) k s = Some res -> k false s = Some res.
Proof. intros T N1. unfold try_subscript, bnd at 1 2, cur. rewrite T. destruct (el_dec (nm t) Xsubscript); [congruence|]. auto. Qed.

Definition singles : list el := [Xsentlen; Xtokaddr; Xwrdidx; Xint; Xvar; Xwrdaddr; Xdef_str; Xcoarse_tags].
(* what may follow an expression *)
Definition follow (r : list tok) : Prop := match r with Cl n _ :: _ => ~ In n singles | _ => True end.
Lemma p_past {A} (k : unit -> P A) s n t r res : toks s = t :: r -> In n singles -> follow r -> bnd (past n) k s = Some res -> k tt (upd_toks r s) = Some res.
Proof.
  intros T Hn F H. apply bnd_inv in H as (a & s1 & H1 & H2). unfold past in H1. eapply p_step in H1 as [H1 Hr]; [|exact T].
  destruct r as [|t' r']; [congruence|]. eapply p_cur in H1; [|reflexivity].
  assert (is_cl n t' = false) as E.
  { unfold is_cl. destruct t'; [reflexivity|]. cbn. destruct (el_dec n0 n) as [->|]; [|reflexivity]. contradiction. }
  rewrite E in H1. injection H1 as <- <-. exact H2.
Qed.

(** ** What one expression adds to the compiler's state *)
Definition ext {X} (a b : list X) : Prop := exists c, b = a ++ c.
Lemma ext_refl {X} (a : list X) : ext a a. Proof. exists []. rewrite app_nil_r. reflexivity. Qed.
Lemma ext_trans {X} (a b c : list X) : ext a b -> ext b c -> ext a c.
Proof. intros [x ->] [y ->]. exists (x ++ y). rewrite app_assoc. reflexivity. Qed.
Lemma ext_nth {X} (a b : list X) i x : ext a b -> nth_error a i = Some x -> nth_error b i = Some x.
Proof. intros [c ->] H. rewrite nth_error_app1; [exact H|]. apply nth_error_Some. rewrite H. discriminate. Qed.
Record chg (used : list str) (p p' : pst) (c : code) : Prop := mkchg {
  g_code : cde p' = cde p ++ c;
  g_strs : ext (cstrs p) (cstrs p');
  g_sets : ext (csets p) (csets p');
  g_strn : strn p' = strn p;
  g_ctr : ctr p <= ctr p';
  g_slot : forall x, In x used -> assoc x (slotn p') = assoc x (slotn p) }.
Lemma chg_refl used p : chg used p p [].
Proof. constructor; try apply ext_refl; auto. rewrite app_nil_r. reflexivity. Qed.
Lemma chg_trans used p p1 p2 c1 c2 : chg used p p1 c1 -> chg used p1 p2 c2 -> chg used p p2 (c1 ++ c2).
Proof.
  intros H1 H2. constructor.
  - rewrite (g_code _ _ _ _ H2), (g_code _ _ _ _ H1), app_assoc. reflexivity.
  - eapply ext_trans; [apply H1|apply H2].
  - eapply ext_trans; [apply H1|apply H2].
  - rewrite (g_strn _ _ _ _ H2). apply H1.
  - pose proof (g_ctr _ _ _ _ H1). pose proof (g_ctr _ _ _ _ H2). lia.
  - intros x Hx. rewrite (g_slot _ _ _ _ H2 x Hx). apply H1, Hx.
Qed.
Lemma chg_emit used p p1 c d : chg used p p1 c -> chg used p (add_code d p1) (c ++ d).
Proof. intros H. constructor; try apply H. cbn. rewrite (g_code _ _ _ _ H), app_assoc. reflexivity. Qed.
Lemma chg_toks used p p1 c r : chg used p p1 c -> chg used p (upd_toks r p1) c.
Proof. intros H. constructor; apply H. Qed.
Lemma chg_toks_l used p p1 c r : chg used (upd_toks r p) p1 c -> chg used p p1 c.
Proof. intros H. constructor; apply H. Qed.
Lemma chg_less used used' p p1 c : (forall x, In x used' -> In x used) -> chg used p p1 c -> chg used' p p1 c.
Proof. intros Hu H. constructor; try apply H. intros x Hx. apply H, Hu, Hx. Qed.
Lemma chg_add_str used p x : chg used p (add_str x p) [].
Proof. constructor; cbn; auto; try apply ext_refl; [rewrite app_nil_r; reflexivity|exists [x]; reflexivity]. Qed.
Lemma chg_add_set used p x : chg used p (add_set x p) [].
Proof. constructor; cbn; auto; try apply ext_refl; [rewrite app_nil_r; reflexivity|exists [x]; reflexivity]. Qed.

Definition kind_of (t : ty) : kind :=
  match t with TInt => KInt | TBool => KBool | TEl BStr => KStr | TEl BWrd => KWrd | TArr BStr => KStrA | TArr BWrd => KWrdA | TAddr => KAddr end.

(** numbers *)
Lemma digit_ok d : d < 10 -> digit (N.of_nat (48 + d)) = true.
Proof. intros H. unfold digit. apply andb_true_intro. split; apply N.leb_le; lia. Qed.
Lemma read_digits_ok l : Forall (fun d => d < 10) l -> forall a, read_digits a (map (fun d => N.of_nat (48 + d)) l) = fold_left (fun a d => (10 * a + Z.of_nat d)%Z) l a.
Proof.
  induction 1 as [|d l Hd Hl IH]; intros a; [reflexivity|]. cbn [map read_digits fold_left]. rewrite digit_ok by exact Hd. rewrite IH. do 2 f_equal. lia.
Qed.
Lemma read_num n : num_ok n -> read_int (num_text n) = num_value n.
Proof.
  intros [Hn Hd]. unfold num_text, num_value. destruct (minus n).
  - cbn [app read_int]. change (blank 45%N) with false. change (45 =? 45)%N with true. cbn iota. rewrite read_digits_ok by exact Hd. reflexivity.
  - destruct (digits n) as [|d l] eqn:E; [congruence|]. cbn [app]. pose proof (read_digits_ok (d :: l) Hd 0%Z) as R. cbn [map] in *.
    set (c := N.of_nat (48 + d)) in *. inversion_clear Hd.
    assert (48 <= c <= 57)%N as Hc by (unfold c; lia). cbn [read_int].
    replace (blank c) with false. 2:{ symmetry. unfold blank. apply orb_false_intro; [apply N.eqb_neq; lia|]. apply andb_false_intro2, N.leb_gt. lia. }
    replace (c =? 45)%N with false by (symmetry; apply N.eqb_neq; lia). replace (c =? 43)%N with false by (symmetry; apply N.eqb_neq; lia). exact R.
Qed.
Lemma num_text_ne n : num_ok n -> nonempty (num_text n) = true.
Proof. intros [Hn Hd]. unfold num_text. destruct (minus n); [reflexivity|]. destruct (digits n); [congruence|reflexivity]. Qed.
Lemma signed_byte z : (-128 <= z < 128)%Z -> signed (to_byte z) = z.
Proof.
  intros H. unfold signed, to_byte. destruct (Z_lt_dec z 0) as [Hz|Hz].
  - replace (z mod 256)%Z with (z + 256)%Z by (symmetry; rewrite <- (Z_mod_plus_full z 1 256); apply Z.mod_small; lia).
    replace (Z.to_nat (z + 256) <? 128) with false by (symmetry; apply Nat.ltb_ge; lia). lia.
  - rewrite Z.mod_small by lia. replace (Z.to_nat z <? 128) with true by (symmetry; apply Nat.ltb_lt; lia). lia.
Qed.

(** ** Symbolic execution of the parser: [T] the tags ahead, [H] what is left to do *)
Lemma x_step {A} (k : unit -> P A) s t r res : toks s = t :: r -> bnd step k s = Some res -> exists s1, s1 = upd_toks r s /\ toks s1 = r /\ k tt s1 = Some res.
Proof. intros T H. eapply p_step in H as [H _]; [|exact T]. eauto. Qed.
Lemma x_past {A} (k : unit -> P A) s n t r res : toks s = t :: r -> In n singles -> follow r -> bnd (past n) k s = Some res -> exists s1, s1 = upd_toks r s /\ toks s1 = r /\ k tt s1 = Some res.
Proof. intros T Hn F H. eapply p_past in H; [|exact T|exact Hn|exact F]. eauto. Qed.
Lemma x_emit {A} (k : unit -> P A) s o l res : toks s = l -> bnd (emit o) k s = Some res -> exists s1, s1 = add_code [byte_of o] s /\ toks s1 = l /\ k tt s1 = Some res.
Proof. intros T H. apply p_emit in H. eauto. Qed.
Lemma x_uint {A} (k : unit -> P A) s z l res : toks s = l -> bnd (emit_uint z) k s = Some res -> exists s1, s1 = add_code [Z.to_nat z] s /\ toks s1 = l /\ k tt s1 = Some res /\ (0 <= z < 256)%Z.
Proof. intros T H. apply p_uint in H as [R H]. eauto. Qed.
Lemma x_int {A} (k : unit -> P A) s z l res : toks s = l -> bnd (emit_int z) k s = Some res -> exists s1, s1 = add_code [to_byte z] s /\ toks s1 = l /\ k tt s1 = Some res /\ (-128 <= z < 128)%Z.
Proof. intros T H. apply p_int in H as [R H]. eauto. Qed.

Ltac into H T L := let s := fresh "s" in let E := fresh "E" in let T1 := fresh "T1" in
  eapply L in H; [destruct H as (s & E & T1 & H); clear T; rename T1 into T; cbv beta in H|exact T].
Ltac into_r H T L := let s := fresh "s" in let E := fresh "E" in let T1 := fresh "T1" in let R := fresh "R" in
  eapply L in H; [destruct H as (s & E & T1 & H & R); clear T; rename T1 into T; cbv beta in H|exact T].
Ltac attr_red H := match type of H with context [lookup_at ?a ?l] => let v := eval cbn in (lookup_at a l) in change (lookup_at a l) with v in H end.
Ltac go1 H T :=
  lazymatch type of H with
  | bnd step _ _ = _ => into H T @x_step
  | bnd cur _ _ = _ => eapply p_cur in H; [|exact T]; cbv beta in H; cbn [nm] in H; cbv iota in H
  | bnd (at_end _) _ _ = _ => eapply p_end in H; [|exact T]; cbv beta in H
  | bnd at_some_end _ _ = _ => eapply p_some_end in H; [|exact T]; cbv beta in H
  | bnd (emit _) _ _ = _ => into H T @x_emit
  | bnd (emit_uint _) _ _ = _ => into_r H T @x_uint
  | bnd (emit_int _) _ _ = _ => into_r H T @x_int
  | bnd (past _) _ _ = _ => eapply x_past in H; [|exact T|cbn; tauto|assumption]; let s := fresh "s" in let E := fresh "E" in let T1 := fresh "T1" in destruct H as (s & E & T1 & H); clear T; rename T1 into T; cbv beta in H
  | bnd (try_var _) _ _ = _ => eapply p_novar in H; [|exact T|discriminate|discriminate]; cbv beta iota in H
  | bnd (try_slice _ _) _ _ = _ => eapply p_noslice in H; [|exact T|discriminate]; cbv beta iota in H
  | bnd (try_subscript _ _) _ _ = _ => eapply p_nosub in H; [|exact T|discriminate]; cbv beta iota in H
  | bnd (simple _ _) _ _ = _ => unfold simple at 1 in H
  | bnd (attrib _) _ _ = _ => eapply p_attrib in H; [|exact T]; cbv beta in H; cbn [atts] in H; attr_red H
  end.
Ltac go H T := repeat go1 H T.

Lemma print_op {t} (e : ex t) : exists n a r, print e = Op n a :: r.
Proof. destruct e; cbn; unfold single, elem; eauto. Qed.
Lemma follow_print {t} (e : ex t) r : follow (print e ++ r).
Proof. destruct (print_op e) as (n & a & q & ->). exact I. Qed.
Lemma follow_all es n a r : ~ In n singles -> follow (print_all es ++ Cl n a :: r).
Proof. intros H. destruct es; cbn [print_all]; [exact H|]. rewrite <- app_assoc. apply follow_print. Qed.

Definition exs_list (P : exs -> Prop) (a : P ENil) (b : forall e es, P es -> P (ECons e es)) : forall es, P es :=
  fix F (es : exs) : P es := match es with ENil => a | ECons e es => b e es (F es) end.
Notation find := Spec.Mtx.find.
Section Main.
Variables (u8 : str -> str) (show : Z -> str) (co : option (morpheme -> str)) (cof : morpheme -> str) (ltr coarse : bool).
Variables (STRS : list str) (SETS : list (list str)) (GL : list value).
Variables (tagged : list (option (list morpheme))) (untagged : list lexunit) (ti wi : Z).
Variable PRG : code.
Variable feature : bool.
Variable names : list (str * str).
Hypothesis Hco : coarse = true -> co = Some cof.
Hypothesis Hstrs : List.length STRS <= 255.
Notation runs := (runs u8 show co ltr STRS SETS GL tagged untagged ti wi PRG feature).
Notation exec := (exec_op u8 co ltr STRS SETS GL tagged untagged ti wi PRG).
Notation eval := (@eval u8 cof ltr names tagged untagged ti wi _).
Notation safe := (@safe u8 cof ltr names tagged untagged ti wi _).

Definition names_ok (p : pst) : Prop :=
  forall n, In n (map fst names) -> exists i s, assoc n (strn p) = Some i /\ find n names = Some s /\ nth_error (cstrs p) i = Some s.
Lemma names_chg used p p1 c : chg used p p1 c -> names_ok p -> names_ok p1.
Proof.
  intros G N n Hn. destruct (N n Hn) as (i & s & A & B & C). exists i, s. rewrite (g_strn _ _ _ _ G). repeat split; auto.
  eapply ext_nth; [apply G|exact C].
Qed.
Definition agree (used : list str) (sc : list (str * base)) (v : env) (p : pst) (g : nat -> option value) : Prop :=
  forall x b, find x sc = Some b -> In x used /\ exists it i, find x v = Some it /\ base_of it = b /\ assoc x (slotn p) = Some i /\ i < ctr p /\ g i = Some (val it).
Lemma agree_chg used sc v p p1 c g g1 : chg used p p1 c -> keep (ctr p) g g1 -> agree used sc v p g -> agree used sc v p1 g1.
Proof.
  intros G K A x b Hx. destruct (A x b Hx) as (Hu & it & i & A1 & A2 & A3 & A4 & A5). split; [exact Hu|]. exists it, i. repeat split; auto.
  - rewrite (g_slot _ _ _ _ G x Hu). exact A3.
  - pose proof (g_ctr _ _ _ _ G). lia.
  - rewrite (K i A4). exact A5.
Qed.
Lemma keep_refl lim g : keep lim g g. Proof. intros i Hi. reflexivity. Qed.
Lemma keep_trans lim a b c : keep lim a b -> keep lim b c -> keep lim a c.
Proof. intros H1 H2 i Hi. rewrite (H2 i Hi). apply H1, Hi. Qed.

Definition dyn {t} (used : list str) (sc : list (str * base)) (e : ex t) (p p' : pst) (c : code) : Prop :=
  ext (cstrs p') STRS -> ext (csets p') SETS -> forall v g s, agree used sc v p g -> safe v e -> runs c s (push (eval v e) s) (ctr p) g.
Definition Q {t} (e : ex t) : Prop := forall n af p r used sc b p',
  proc n (kind_of t) af p = Some (b, p') -> toks p = print e ++ r -> follow r -> names_ok p -> wf coarse names used sc e ->
  b = true /\ toks p' = r /\ exists c, chg used p p' c /\ dyn used sc e p p' c.
Definition nary_op (o : nary) : opcode := match o with All => AND | Some_of => OR end.
Definition unit_of (o : nary) : bool := match o with All => true | Some_of => false end.
(* an instruction that only works on the stack *)
Lemma r_op o s s' lim g : (forall m, stk m = s -> exec o m = Some (Ok (next m 1 s'))) -> runs [byte_of o] s s' lim g.
Proof. intros H. apply runs_op. intros m Hm _ _. apply H, Hm. Qed.
Lemma r_op1 o a s s' lim g : (forall m, stk m = s -> arg PRG m 1 = Ok a -> exec o m = Some (Ok (next m 2 s'))) -> runs [byte_of o; a] s s' lim g.
Proof. intros H. apply (runs_op _ _ _ _ _ _ _ _ _ _ _ _ _ o [a]). intros m Hm _ Ha. apply H; [exact Hm|]. apply (Ha 0 a eq_refl). Qed.

Ltac start H T n := destruct n as [|n]; [discriminate H|]; cbn [kind_of] in H;
  cbn [print] in T; unfold elem, single in T; cbn [app] in T; rewrite <- ?app_assoc in T; cbn [app] in T;
  match type of H with proc (S n) ?k ?af ?p = _ => change (proc (S n) k af p) with (proc_kind (proc n) k af p) in H end; cbn [proc_kind] in H.
(* a subexpression *)
Ltac sub H T IH used sc c G D := let b := fresh "b" in let s := fresh "s" in let Hp := fresh "Hp" in let T1 := fresh "T1" in
  apply p_one in H as (b & s & Hp & H); cbv beta in H;
  edestruct (fun r => IH _ _ _ r used sc _ _ Hp) as (_ & T1 & c & G & D); [exact T|try apply follow_print; try (cbn; intuition discriminate)|subst; eauto using names_chg, chg_toks|eauto|];
  clear T; rename T1 into T.
Ltac fin H := injection H as <- <-.
Ltac exts := solve [ assumption
  | match goal with G : chg _ _ _ _ |- _ => solve [eapply ext_trans; [exact (g_strs _ _ _ _ G)|assumption]] end
  | match goal with G : chg _ _ _ _ |- _ => solve [eapply ext_trans; [exact (g_sets _ _ _ _ G)|assumption]] end
  | match goal with G : chg _ _ _ _, G' : chg _ _ _ _ |- _ => solve [eapply ext_trans; [exact (g_strs _ _ _ _ G)|eapply ext_trans; [exact (g_strs _ _ _ _ G')|assumption]]] end
  | match goal with G : chg _ _ _ _, G' : chg _ _ _ _ |- _ => solve [eapply ext_trans; [exact (g_sets _ _ _ _ G)|eapply ext_trans; [exact (g_sets _ _ _ _ G')|assumption]]] end ].
Ltac chgs := repeat match goal with
  | |- chg _ ?p ?p _ => apply chg_refl
  | |- chg _ _ (upd_toks _ _) _ => apply chg_toks
  | |- chg _ _ (add_code _ _) _ => apply chg_emit
  | |- chg _ _ (add_str _ _) _ => eapply chg_trans; [|apply chg_add_str]
  | |- chg _ _ (add_set _ _) _ => eapply chg_trans; [|apply chg_add_set]
  | G : chg _ _ ?s _ |- chg _ _ ?s _ => eapply chg_trans; [|exact G]
  end.
Lemma dyn_use {t} used sc (e : ex t) p Z s c c0 v g g1 st : dyn used sc e Z s c -> ext (cstrs s) STRS -> ext (csets s) SETS -> chg used p Z c0 ->
  agree used sc v p g -> keep (ctr p) g g1 -> safe v e -> runs c st (push (eval v e) st) (ctr p) g1.
Proof.
  intros D E1 E2 G A K S. eapply runs_less; [exact (g_ctr _ _ _ _ G)|]. apply D; auto. eapply agree_chg; eassumption.
Qed.
Ltac use D := eapply dyn_use; [exact D|exts|exts|chgs|eassumption|eauto using keep_refl, keep_trans|eassumption].
Ltac head H T n := intros n af p r used sc b0 p' H T F N W; cbn [wf] in W; start H T n.
(* conclusion: tags, code, then the run *)
Ltac done H T := fin H; subst; split; [reflexivity|]; split; [exact T|]; eexists; split; [chgs|];
  intros HS HT v g st A S; cbn [Spec.Mtx.safe] in S; cbn [cstrs csets upd_toks add_code upd_code] in HS, HT.
Ltac seq := eapply runs_app; [|intros ? ?].
Ltac op := apply r_op; intros m Hm; cbn [exec_op]; rewrite Hm; cbn.
Ltac op1 := apply r_op1; intros m Hm Harg; cbn [exec_op]; rewrite Hm, Harg; cbn.

Lemma Q_Sentlen : Q ESentlen.
Proof. head H T n. unfold proc_int, simple in H. go H T. done H T. op. reflexivity. Qed.
Lemma Q_Tokaddr : Q ETokaddr.
Proof. head H T n. unfold proc_int, simple in H. go H T. done H T. op. reflexivity. Qed.
Lemma Q_Wrdidx : Q EWrdidx.
Proof. head H T n. unfold proc_int, simple in H. go H T. done H T. op. reflexivity. Qed.
Lemma Q_Addr : Q EAddr.
Proof. head H T n. unfold proc_addr, simple in H. go H T. done H T. op. reflexivity. Qed.
Lemma Q_Add a b : Q a -> Q b -> Q (EAdd a b).
Proof.
  intros Qa Qb. head H T n. destruct W as [W1 W2]. unfold proc_int in H. go H T.
  sub H T Qa used sc c1 G1 D1. sub H T Qb used sc c2 G2 D2. go H T. done H T. destruct S as [S1 S2].
  seq; [seq; [use D1|use D2]|]. op. rewrite Z.add_comm. reflexivity.
Qed.
Lemma Q_AddrOf a b : Q a -> Q b -> Q (EAddrOf a b).
Proof.
  intros Qa Qb. head H T n. destruct W as [W1 W2]. unfold proc_addr in H. go H T.
  sub H T Qa used sc c1 G1 D1. sub H T Qb used sc c2 G2 D2. go H T. done H T. destruct S as [S1 S2].
  seq; [use D1|]. match goal with |- Mtx.runs _ _ _ _ _ _ _ _ _ _ _ _ _ ?c ?x _ ?l ?g => change (runs c x (push (eval v b) x) l g) end. use D2.
Qed.
Lemma Q_AddA a b : Q a -> Q b -> Q (EAddA a b).
Proof.
  intros Qa Qb. head H T n. destruct W as [W1 W2]. unfold proc_addr in H. go H T.
  sub H T Qa used sc c1 G1 D1. sub H T Qb used sc c2 G2 D2. go H T. done H T. destruct S as [S1 S2].
  seq; [seq; [use D1|use D2]|]. op. cbn [Spec.Mtx.eval].
  destruct (eval v a) as [t1 w1], (eval v b) as [t2 w2]. reflexivity.
Qed.
Lemma Q_Adj a : Q a -> Q (EAdj a).
Proof.
  intros Qa. head H T n. unfold proc_addr in H. go H T. sub H T Qa used sc c1 G1 D1. go H T. done H T.
  seq; [use D1|]. op. cbn [Spec.Mtx.eval]. destruct (eval v a) as [t w]. cbn [fst snd]. rewrite adjust_eq.
  destruct (_ && _); [destruct (locate 0 _ _)|]; reflexivity.
Qed.
Lemma Q_Clamp a : Q a -> Q (EClamp a).
Proof.
  intros Qa. head H T n. unfold proc_addr in H. go H T. sub H T Qa used sc c1 G1 D1. go H T. done H T. destruct S as (S1 & S2 & S3).
  seq; [use D1|]. op. cbn [Spec.Mtx.eval]. destruct (eval v a) as [t w]. cbn [fst snd].
  assert (forall X (a b : X), match tagged with [] => a | _ :: _ => b end = b) as Hm1 by (clear -S2; intros; destruct tagged; [congruence|reflexivity]).
  rewrite Hm1. unfold zlen.
  assert (0 < Z.of_nat (List.length tagged))%Z as Hl by (clear -S2; destruct tagged; [congruence|cbn; lia]).
  rewrite (within_eq 0 _ t) by lia. rewrite len_at_eq. set (t' := within 0 _ t).
  assert (0 <= t' < Z.of_nat (List.length tagged))%Z as Ht.
  { unfold t', within. destruct (Z.ltb_spec t 0); [lia|]. destruct (Z.ltb_spec (Z.of_nat (List.length tagged) - 1) t); lia. }
  rewrite within_eq; [reflexivity|].
  destruct (nth_error tagged (Z.to_nat t')) as [x|] eqn:En; [|apply nth_error_None in En; lia].
  assert (wordoids_of x <> []) as Hx by (refine (proj1 (Forall_forall _ _) S3 x _); eapply nth_error_In; exact En).
  unfold lens. rewrite (nth_error_nth _ _ _ (map_nth_error (fun t => Z.of_nat (List.length (wordoids_of t))) _ _ En)).
  destruct (wordoids_of x); [congruence|]. cbn [List.length]. lia.
Qed.
Lemma Q_Not a : Q a -> Q (ENot a).
Proof.
  intros Qa. head H T n. unfold proc_bool in H. go H T. sub H T Qa used sc c1 G1 D1. go H T. done H T.
  seq; [use D1|]. op. reflexivity.
Qed.
Lemma Q_Rel rl a b : Q a -> Q b -> Q (ERel rl a b).
Proof.
  intros Qa Qb. head H T n. destruct W as [W1 W2]. unfold proc_bool, proc_cmp in H.
  assert (forall o (m : mach) s x y, match o with EQ | NEQ | LT | LTE | GT | GTE => True | _ => False end -> stk m = VInt y :: VInt x :: s ->
    exec o m = Some (Ok (next m 1 (VBool (if ltr then compare o y x else compare o x y) :: s)))) as Hex
   by (intros o m s x y Ho Hm; destruct o; try contradiction; cbn [exec_op]; rewrite Hm; reflexivity).
  destruct rl; cbn [rel_el] in T; (eapply p_novar in H; [|exact T|discriminate|discriminate]); cbv beta iota in H; go H T;
    sub H T Qa used sc c1 G1 D1; sub H T Qb used sc c2 G2 D2; go H T; done H T; destruct S as [S1 S2];
    (seq; [seq; [use D1|use D2]|]); apply r_op; intros m Hm; (erewrite Hex; [|exact I|exact Hm]); cbn [Spec.Mtx.eval push].
  - change EQ with (rel_op Req). rewrite !compare_eq. reflexivity.
  - change NEQ with (rel_op Rneq). rewrite !compare_eq. reflexivity.
  - change LT with (rel_op Rlt). rewrite !compare_eq. reflexivity.
  - change LTE with (rel_op Rlte). rewrite !compare_eq. reflexivity.
  - change GT with (rel_op Rgt). rewrite !compare_eq. reflexivity.
  - change GTE with (rel_op Rgte). rewrite !compare_eq. reflexivity.
Qed.

Lemma Q_Int k : Q (EInt k).
Proof.
  head H T n. unfold proc_int in H. go H T. unfold get_int, get_int_opt in H.
  apply bnd_inv in H as (z & s1 & H1 & H). apply bnd_inv in H1 as (o & s2 & H1 & H2). go H1 T.
  rewrite (num_text_ne k W) in H1. injection H1 as <- <-. injection H2 as <- <-. rewrite (read_num k W) in H. go H T. done H T.
  op1. rewrite signed_byte by assumption. reflexivity.
Qed.
Lemma Q_Surf a : Q a -> Q (ESurf a).
Proof. intros Qa. head H T n. unfold proc_str in H. go H T. sub H T Qa used sc c1 G1 D1. go H T. done H T. seq; [use D1|]. op. reflexivity. Qed.
Lemma Q_Lemma a : Q a -> Q (ELemma a).
Proof. intros Qa. head H T n. unfold proc_str in H. go H T. sub H T Qa used sc c1 G1 D1. go H T. done H T. seq; [use D1|]. op. reflexivity. Qed.
Lemma Q_Coarse a : Q a -> Q (ECoarse a).
Proof.
  intros Qa. head H T n. destruct W as [W1 W2]. unfold proc_str in H. go H T. sub H T Qa used sc c1 G1 D1. go H T. done H T. seq; [use D1|].
  apply r_op; intros m Hm; cbn [exec_op]. rewrite (Hco W1), Hm. reflexivity.
Qed.
Lemma Q_Tags a : Q a -> Q (ETags a).
Proof. intros Qa. head H T n. unfold proc_str_arr in H. go H T. sub H T Qa used sc c1 G1 D1. go H T. done H T. seq; [use D1|]. op. reflexivity. Qed.
Lemma Q_Ambg a : Q a -> Q (EAmbg a).
Proof.
  intros Qa. head H T n. destruct W as [W1 W2]. unfold proc_str_arr in H. go H T. sub H T Qa used sc c1 G1 D1. go H T. done H T. destruct S as [S1 S2]. seq; [use D1|].
  apply r_op; intros m Hm; cbn [exec_op]. rewrite (Hco W1), Hm. cbn [popi pop ivl push PerceptronVM.bind]. rewrite get_token_eq, (ambgset_eq _ _ S2). reflexivity.
Qed.
Lemma exwords m z s : stk m = VInt z :: s -> exec EXWRDARR m = Some (Ok (next m 1 (VWrdA (words_at tagged z) :: s))).
Proof.
  intros Hm. cbn [exec_op]. rewrite Hm. cbn [popi pop ivl PerceptronVM.bind]. rewrite words_at_eq. destruct (z <? 0)%Z; [reflexivity|].
  destruct (nth_error tagged (Z.to_nat z)); reflexivity.
Qed.
Lemma Q_Words a : Q a -> Q (EWords a).
Proof.
  intros Qa. head H T n. unfold proc_wrd_arr in H. go H T. sub H T Qa used sc c1 G1 D1. go H T. done H T. seq; [use D1|].
  apply r_op; intros m Hm. rewrite (exwords m _ _ Hm). reflexivity.
Qed.
Lemma Q_Word a : Q a -> Q (EWord a).
Proof.
  intros Qa. head H T n. unfold proc_wrd in H. go H T. sub H T Qa used sc c1 G1 D1. go H T. done H T. seq; [use D1|]. op.
  rewrite get_wordoid_eq. cbn [Spec.Mtx.eval]. destruct (eval v a) as [t w]. reflexivity.
Qed.
Lemma Q_Var b x : Q (EVar b x).
Proof.
  head H T n. assert (exists w : sty, exists ty i, (b = BStr /\ w = SStr \/ b = BWrd /\ w = SWrd) /\ assoc x (slotn p) = Some i /\ nth_error (slott p) i = Some ty /\
    (emit GETVAR ;;; emit_uint (Z.of_nat i) ;;; past Xvar ;;; ret true) p = Some (b0, p')) as (w & ty & i & Hb & Hx & _ & H1).
  { destruct b; cbn [proc_kind] in H; [unfold proc_str in H|unfold proc_wrd in H]; apply bnd_inv in H as (vb & s1 & H1 & H);
      unfold try_var in H1; (eapply p_cur in H1; [|exact T]); cbn [nm] in H1; (destruct (el_dec Xvar Xvar) as [_|Hx]; [|congruence]);
      go H1 T; (destruct (assoc x (slotn p)) as [i|] eqn:Ex; [|discriminate]); (destruct (nth_error (slott p) i) as [ty|] eqn:Et; [|discriminate]);
      (destruct (sty_eqb ty _) eqn:Es; [|discriminate]); (assert (vb = true) as -> by
        (repeat (apply bnd_inv in H1 as (? & ? & _ & H1)); injection H1 as <- _; reflexivity)); cbv iota in H; injection H as <- <-; [exists SStr|exists SWrd]; exists ty, i; auto. }
  go H1 T. done H1 T. destruct (A x b W) as (Hu & it & j & A1 & A2 & A3 & A4 & A5). rewrite Hx in A3. injection A3 as ->.
  rewrite Nat2Z.id. intros pre post EP L f. exists g. split; [|apply keep_refl]. apply star_one.
  assert (nth_error PRG (List.length pre) = Some (byte_of GETVAR) /\ nth_error PRG (List.length pre + 1) = Some j) as [P0 P1].
  { rewrite EP. cbn [app]. split; [rewrite nth_error_app2, Nat.sub_diag by lia; reflexivity|]. rewrite nth_error_app2 by lia. replace (_ + 1 - _) with 1 by lia. reflexivity. }
  rewrite (stepm_op _ _ _ _ _ _ _ _ _ _ _ _ _ (mkmach (List.length pre) st L g f) GETVAR P0). cbn [exec_op]. unfold arg. cbn [pc]. rewrite P1. cbn [PerceptronVM.bind slots]. rewrite A5. cbn [of_out]. unfold next. cbn.
  rewrite A1. destruct it; cbn in A2; subst b; reflexivity.
Qed.

Lemma x_int_opt a o s t r : toks s = t :: r -> num_ok_opt o -> lookup_at a (atts t) = (match o with Some n => num_text n | None => [] end) -> get_int_opt a s = Some (option_map num_value o, s).
Proof.
  intros T W E. unfold get_int_opt, attrib, bnd, cur. rewrite T. cbn [ret]. unfold ret. rewrite E. destruct o as [k|]; [|reflexivity].
  rewrite (num_text_ne k W), (read_num k W). reflexivity.
Qed.
Lemma slice_attr b e : lookup_at Astart (num_attr Astart b ++ num_attr Aend e) = (match b with Some n => num_text n | None => [] end)
  /\ lookup_at Aend (num_attr Astart b ++ num_attr Aend e) = (match e with Some n => num_text n | None => [] end).
Proof. destruct b, e; split; reflexivity. Qed.
Lemma x_slice {t} (x : ex t) n used sc b e p r vb p' : Q x -> num_ok_opt b -> num_ok_opt e -> wf coarse names used sc x -> names_ok p ->
  toks p = Op Xslice (num_attr Astart b ++ num_attr Aend e) :: print x ++ Cl Xslice (num_attr Astart b ++ num_attr Aend e) :: r ->
  try_slice (proc n) (kind_of t) p = Some (vb, p') ->
  vb = true /\ toks p' = r /\ exists c1 s1, chg used p p' (c1 ++ [byte_of SLICE; to_byte (numv b); to_byte (numv e)]) /\ dyn used sc x p s1 c1 /\
    (-128 <= numv b < 128)%Z /\ (-128 <= numv e < 128)%Z /\ cstrs p' = cstrs s1 /\ csets p' = csets s1.
Proof.
  intros Qx W1 W2 W3 N T H. unfold try_slice in H. go H T. destruct (el_dec Xslice Xslice) as [_|?]; [|congruence]. go H T.
  sub H T Qx used sc c1 G1 D1. go H T. destruct (slice_attr b e) as [La Lb].
  apply bnd_inv in H as (o1 & q1 & H1 & H). erewrite x_int_opt in H1; [|exact T|exact W1|exact La]. injection H1 as <- <-.
  replace (match option_map num_value b with Some z => z | None => 0%Z end) with (numv b) in H by (destruct b; reflexivity). go H T.
  apply bnd_inv in H as (o1 & q1 & H1 & H). erewrite x_int_opt in H1; [|exact T|exact W2|exact Lb]. injection H1 as <- <-.
  replace (match option_map num_value e with Some z => z | None => 0%Z end) with (numv e) in H by (destruct e; reflexivity). go H T. fin H. subst.
  split; [reflexivity|]. split; [exact T|]. exists c1. match goal with D : dyn _ _ _ _ ?s _ |- _ => exists s end. split; [|split; [exact D1|auto]].
  apply chg_toks. change [byte_of SLICE; to_byte (numv b); to_byte (numv e)] with (([byte_of SLICE] ++ [to_byte (numv b)]) ++ [to_byte (numv e)]). rewrite !app_assoc.
  do 3 apply chg_emit. eapply chg_toks_l. exact G1.
Qed.
Lemma r_slice {X} (mk : list X -> value) b e l st lim g : (mk = mk) -> (forall m s, stk m = mk l :: s -> forall p q, arg PRG m 1 = Ok p -> arg PRG m 2 = Ok q ->
    exec SLICE m = Some (PerceptronVM.bind (slice l (signed p) (signed q)) (fun r => Ok (next m 3 (mk r :: s))))) ->
  (-128 <= numv b < 128)%Z -> (-128 <= numv e < 128)%Z -> slice_ok (List.length l) b e ->
  runs [byte_of SLICE; to_byte (numv b); to_byte (numv e)] (mk l :: st) (mk (cut l b e) :: st) lim g.
Proof.
  intros _ Hex B E S. apply (runs_op _ _ _ _ _ _ _ _ _ _ _ _ _ SLICE [to_byte (numv b); to_byte (numv e)]). intros m Hm _ Ha.
  rewrite (Hex m st Hm _ _ (Ha 0 _ eq_refl) (Ha 1 _ eq_refl)). rewrite !signed_byte by assumption. rewrite (slice_cut l b e S). reflexivity.
Qed.
Lemma Q_SliceS b e x : Q x -> Q (ESliceS b e x).
Proof.
  intros Qx. head H T n. destruct W as (W1 & W2 & W3). unfold proc_str in H. eapply p_novar in H; [|exact T|discriminate|discriminate]. cbv beta iota in H.
  apply bnd_inv in H as (vb & s1 & H1 & H). destruct (x_slice x n used sc b e p r vb s1 Qx W1 W2 W3 N T H1) as (-> & T1 & c1 & q & G & D & B1 & B2 & E1 & E2).
  cbv iota in H. fin H. split; [reflexivity|]. split; [exact T1|]. eexists. split; [exact G|]. intros HS HT v g st A S. cbn [Spec.Mtx.safe] in S. destruct S as [S1 S2].
  rewrite E1 in HS. rewrite E2 in HT. seq; [use D|]. cbn [push Spec.Mtx.eval].
  apply (r_slice VStr b e); auto. intros m s Hm k1 k2 A1 A2. cbn [exec_op]. rewrite A1, A2, Hm. reflexivity.
Qed.
Lemma Q_SliceA bb b e x : Q x -> Q (ESliceA bb b e x).
Proof.
  intros Qx. head H T n. destruct W as (W1 & W2 & W3).
  assert (exists vb s1, try_slice (proc n) (kind_of (TArr bb)) p = Some (vb, s1) /\ (vb = true -> b0 = true /\ s1 = p')) as (vb & s1 & H1 & H2).
  { destruct bb; cbn [proc_kind kind_of] in *; [unfold proc_str_arr in H|unfold proc_wrd_arr in H]; (eapply p_novar in H; [|exact T|discriminate|discriminate]); cbv beta iota in H;
      apply bnd_inv in H as (vb & s1 & H1 & H); exists vb, s1; (split; [exact H1|]); intros ->; cbv iota in H; fin H; auto. }
  destruct (x_slice x n used sc b e p r vb s1 Qx W1 W2 W3 N T H1) as (-> & T1 & c1 & q & G & D & B1 & B2 & E1 & E2).
  destruct (H2 eq_refl) as [-> ->].
  split; [reflexivity|]. split; [exact T1|]. eexists. split; [exact G|]. intros HS HT v g st A S. cbn [Spec.Mtx.safe] in S. destruct S as [S1 S2].
  rewrite E1 in HS. rewrite E2 in HT. seq; [use D|]. destruct bb; cbn [push Spec.Mtx.eval items slice_of] in *.
  - apply (r_slice VStrA b e); auto. intros m s Hm k1 k2 A1 A2. cbn [exec_op]. rewrite A1, A2, Hm. reflexivity.
  - apply (r_slice VWrdA b e); auto. intros m s Hm k1 k2 A1 A2. cbn [exec_op]. rewrite A1, A2, Hm. reflexivity.
Qed.
Lemma Q_Sub bb i x : Q x -> Q (ESub bb i x).
Proof.
  intros Qx. head H T n. destruct W as (W1 & W2).
  assert (exists vb s1, try_subscript (proc n) (kind_of (TArr bb)) p = Some (vb, s1) /\ (vb = true -> b0 = true /\ s1 = p')) as (vb & s1 & H1 & H2).
  { destruct bb; cbn [proc_kind kind_of] in *; [unfold proc_str in H|unfold proc_wrd in H]; (eapply p_novar in H; [|exact T|discriminate|discriminate]); cbv beta iota in H;
      try ((eapply p_noslice in H; [|exact T|discriminate]); cbv beta iota in H);
      apply bnd_inv in H as (vb & s1 & H1 & H); exists vb, s1; (split; [exact H1|]); intros ->; cbv iota in H; fin H; auto. }
  clear H. rename H1 into H. unfold try_subscript in H. go H T. destruct (el_dec Xsubscript Xsubscript) as [_|?]; [|congruence].
  unfold get_int in H. apply bnd_inv in H as (z & s3 & H1 & H). apply bnd_inv in H1 as (o & s4 & H1 & H3).
  erewrite (x_int_opt Aidx (Some i)) in H1; [|exact T|exact W1|reflexivity]. injection H1 as <- <-. injection H3 as <- <-. cbn [option_map] in H. go H T.
  sub H T Qx used sc c1 G1 D1. go H T. fin H. destruct (H2 eq_refl) as [-> <-]. clear H2. subst.
  split; [reflexivity|]. split; [exact T|]. eexists. split; [chgs|]. intros HS HT v g st A S. cbn [Spec.Mtx.safe] in S. destruct S as [S1 S2]. cbn [cstrs csets upd_toks add_code upd_code] in HS, HT.
  rewrite <- app_assoc. cbn [app]. seq; [use D1|].
  destruct bb; cbn [push Spec.Mtx.eval items elt_of] in *; apply r_op1; intros m Hm Ha; cbn [exec_op]; rewrite Ha, Hm; cbn [PerceptronVM.bind pop].
  - rewrite (@subscript_elt str [] _ i S2). reflexivity.
  - rewrite (@subscript_elt morpheme (mkm [] []) _ i S2). reflexivity.
Qed.
(* constants *)
Lemma x_str_ref c s t r o s1 used : toks s = t :: r -> atts t = const_attr c -> const_ok names c -> names_ok s -> str_ref s = Some (o, s1) ->
  exists i, o = Some i /\ toks s1 = t :: r /\ chg used s s1 [] /\ nth_error (cstrs s1) i = Some (the_const names c).
Proof.
  intros T Ha W N H. unfold str_ref in H. eapply p_attrib in H; [|exact T]. cbv beta in H. rewrite Ha in H. destruct c as [x|x]; cbn [const_attr] in *; attr_red H.
  - cbn [nonempty] in H. eapply p_attrib in H; [|exact T]. cbv beta in H. rewrite Ha in H. attr_red H. cbn in W. destruct x as [|k x]; [congruence|]. cbn [nonempty] in H.
    injection H as <- <-. eexists. split; [reflexivity|]. split; [exact T|]. split; [apply chg_add_str|]. cbn. rewrite nth_error_app2, Nat.sub_diag by lia. reflexivity.
  - destruct W as [W1 W2]. destruct x as [|k x]; [congruence|]. cbn [nonempty] in H. destruct (N _ W2) as (i & q & A1 & A2 & A3). rewrite A1 in H. injection H as <- <-.
    exists i. split; [reflexivity|]. split; [exact T|]. split; [apply chg_refl|]. cbn [the_const]. rewrite A2. exact A3.
Qed.
Lemma get_str_ok i x : nth_error STRS i = Some x -> get_str STRS i = Ok x.
Proof.
  intros H. unfold get_str. assert (i < List.length STRS) by (apply nth_error_Some; rewrite H; discriminate). replace (i =? 255) with false by (symmetry; apply Nat.eqb_neq; lia). rewrite H. reflexivity.
Qed.
Lemma Q_Streq k e : Q e -> Q (EStreq k e).
Proof.
  intros Qe. head H T n. destruct W as [W1 W2]. unfold proc_bool in H. go H T. apply bnd_inv in H as (o & s1 & H1 & H).
  eapply (fun s t r o s1 => x_str_ref k s t r o s1 used) in H1 as (i & -> & T1 & G0 & Hi); [|exact T|reflexivity|exact W1|exact N]. clear T. rename T1 into T. cbn [the] in H. apply p_ret in H. cbv beta in H. go H T.
  sub H T Qe used sc c1 G1 D1. go H T. done H T. rewrite <- app_assoc. cbn [app]. seq; [use D1|]. rewrite Nat2Z.id. apply r_op1. intros m Hm Ha. cbn [exec_op]. rewrite Ha. cbn [PerceptronVM.bind].
  rewrite (get_str_ok i (the_const names k)).
  2:{ eapply ext_nth; [|exact Hi]. exts. }
  cbn [PerceptronVM.bind]. rewrite Hm. cbn [push pops pop svl PerceptronVM.bind]. do 4 f_equal. cbn [Spec.Mtx.eval]. unfold str_eqb.
  destruct (list_eq_dec N.eq_dec (the_const names k) (eval v e)), (list_eq_dec N.eq_dec (eval v e) (the_const names k)); congruence.
Qed.
Lemma Q_Join o e : Q e -> Q (EJoin o e).
Proof.
  intros Qe. head H T n. destruct W as [W1 W2]. unfold proc_str in H. go H T. apply bnd_inv in H as (i & s1 & H1 & H).
  assert (exists sep, toks s1 = Op Xjoin (match o with Some c => const_attr c | None => [] end) :: print e ++ Cl Xjoin (match o with Some c => const_attr c | None => [] end) :: r /\ chg used p s1 [] /\
     sep = (match o with Some c => the_const names c | None => [cDOT] end) /\ (forall S, ext (cstrs s1) S -> List.length S <= 255 -> get_str S (match i with Some i => i | None => 255 end) = Ok sep)) as (sep & T1 & G0 & Hsep & Hget).
  { destruct o as [k|].
    - eapply (fun s t r o s1 => x_str_ref k s t r o s1 used) in H1 as (j & -> & T1 & G0 & Hi); [|exact T|reflexivity|exact W1|exact N]. eexists. split; [exact T1|]. split; [exact G0|]. split; [reflexivity|].
      intros S HS HL. unfold get_str. pose proof (ext_nth _ _ _ _ HS Hi) as Hn. assert (j < List.length S) by (apply nth_error_Some; rewrite Hn; discriminate).
      replace (j =? 255) with false by (symmetry; apply Nat.eqb_neq; lia). rewrite Hn. reflexivity.
    - unfold str_ref in H1. go H1 T. cbn [nonempty] in H1. go H1 T. cbn [nonempty] in H1. injection H1 as <- <-. exists [cDOT]. split; [exact T|]. split; [apply chg_refl|]. split; [reflexivity|]. intros; reflexivity. }
  clear T. rename T1 into T. cbv beta in H. go H T. sub H T Qe used sc c1 G1 D1. go H T. done H T. destruct S as [S1 S2]. rewrite <- app_assoc. cbn [app]. seq; [use D1|]. rewrite Nat2Z.id.
  apply r_op1. intros m Hm Ha. cbn [exec_op]. rewrite Ha. cbn [PerceptronVM.bind]. rewrite Hget; [|exts|exact Hstrs]. cbn [PerceptronVM.bind]. rewrite Hm. cbn [push popsa pop sal PerceptronVM.bind Spec.Mtx.eval].
  rewrite (join_ok_eq _ _ S2). reflexivity.
Qed.
Lemma x_set_ref x s t r o s1 : toks s = t :: r -> atts t = [(Aval, x)] -> x <> [] -> set_ref s = Some (o, s1) ->
  exists i, o = Some i /\ s1 = add_set (words x) s /\ nth_error (csets s1) i = Some (words x).
Proof.
  intros T Ha W H. unfold set_ref in H. eapply p_attrib in H; [|exact T]. cbv beta in H. rewrite Ha in H. attr_red H. cbn [nonempty] in H.
  eapply p_attrib in H; [|exact T]. cbv beta in H. rewrite Ha in H. attr_red H. destruct x as [|k x]; [congruence|]. cbn [nonempty] in H. injection H as <- <-.
  eexists. split; [reflexivity|]. split; [reflexivity|]. cbn [csets add_set]. rewrite nth_error_app2, Nat.sub_diag by lia. reflexivity.
Qed.
Lemma Q_set (o : opcode) (n0 : el) (x : str) (t : ty) (e : ex t) n p r used sc b0 p' :
  Q e -> x <> [] -> wf coarse names used sc e -> names_ok p -> ~ In n0 singles ->
  toks p = Op n0 [(Aval, x)] :: print e ++ Cl n0 [(Aval, x)] :: r ->
  (! i <-- set_ref ;;; ! i <-- the i ;;; step ;;; one (proc n) (kind_of t) ;;; emit o ;;; emit_uint (Z.of_nat i) ;;; at_end n0 ;;; step ;;; ret true) p = Some (b0, p') ->
  b0 = true /\ toks p' = r /\ exists c1 s1 Z i, chg used p p' (c1 ++ [byte_of o; i]) /\ dyn used sc e Z s1 c1 /\ chg used p Z [] /\ cstrs p' = cstrs s1 /\ csets p' = csets s1 /\ nth_error (csets p') i = Some (words x).
Proof.
  intros Qe W1 W2 N Hn T H. apply bnd_inv in H as (j & s1 & H1 & H). eapply (x_set_ref x) in H1 as (i & -> & E1 & Hi); [|exact T|reflexivity|exact W1].
  assert (toks s1 = Op n0 [(Aval, x)] :: print e ++ Cl n0 [(Aval, x)] :: r) as T1 by (subst; exact T). clear T. rename T1 into T.
  cbn [the] in H. apply p_ret in H. cbv beta in H. go H T.
  assert (chg used p s1 []) as G0 by (subst; apply chg_add_set).
  apply p_one in H as (b & s2 & Hp & H); cbv beta in H. edestruct (fun r => Qe _ _ _ r used sc _ _ Hp) as (_ & T1 & c1 & G1 & D1); [exact T|exact Hn|subst s; eapply names_chg; [apply chg_toks; exact G0|exact N]|exact W2|].
  clear T; rename T1 into T. go H T. fin H. split; [reflexivity|]. split; [exact T|]. exists c1, s2, s, i. subst s0 s3 s4. split; [|split; [exact D1|split; [|split; [reflexivity|split; [reflexivity|]]]]].
  - apply chg_toks. change [byte_of o; i] with ([byte_of o] ++ [i]). rewrite app_assoc. rewrite Nat2Z.id. do 2 apply chg_emit. change c1 with ([] ++ c1). eapply chg_trans; [|exact G1]. subst s. apply chg_toks, G0.
  - subst s. apply chg_toks, G0.
  - cbn [csets upd_toks add_code upd_code]. eapply ext_nth; [apply (g_sets _ _ _ _ G1)|]. subst s. exact Hi.
Qed.
Lemma get_set_ok i x : nth_error SETS i = Some x -> get_set SETS i = Ok x.
Proof. intros H. unfold get_set. rewrite H. reflexivity. Qed.
Lemma Q_Strin x e : Q e -> Q (EStrin x e).
Proof. intros Qe. head H T n; destruct W as [W1 W2]; unfold proc_bool in H;
  (eapply p_novar in H; [|exact T|discriminate|discriminate]); cbv beta iota in H; (eapply p_cur in H; [|exact T]); cbn [nm] in H; cbv iota beta in H;
  (eapply (Q_set _ _ _ _ e n p r used sc) in H; [|exact Qe|exact W1|exact W2|exact N|cbn; intuition discriminate|exact T]);
  destruct H as (-> & T1 & c1 & s1 & Z & i & G & D & G0 & E1 & E2 & Hi); split; [reflexivity|]; split; [exact T1|]; eexists; split; [exact G|];
  intros HS HT v g st A S; cbn [Spec.Mtx.safe] in S; pose proof (ext_nth _ _ _ _ HT Hi) as Hi'; rewrite E1 in HS; rewrite E2 in HT;
  (seq; [eapply dyn_use; [exact D|exact HS|exact HT|exact G0|exact A|apply keep_refl|exact S]|]); apply r_op1; intros m Hm Ha; cbn [exec_op]; rewrite Ha; cbn [PerceptronVM.bind]; rewrite (get_set_ok _ _ Hi'); cbn [PerceptronVM.bind]; rewrite Hm; cbn [push]. cbn [pops pop svl PerceptronVM.bind]. rewrite isin_eq. reflexivity. Qed.
Lemma existsb_ext' {X} (f g : X -> bool) l : (forall x, f x = g x) -> existsb f l = existsb g l.
Proof. intros H. induction l as [|x l IH]; [reflexivity|]. cbn. rewrite H, IH. reflexivity. Qed.
Lemma forallb_ext' {X} (f g : X -> bool) l : (forall x, f x = g x) -> forallb f l = forallb g l.
Proof. intros H. induction l as [|x l IH]; [reflexivity|]. cbn. rewrite H, IH. reflexivity. Qed.
Lemma Q_Any x e : Q e -> Q (EAny x e).
Proof. intros Qe. head H T n; destruct W as [W1 W2]; unfold proc_bool in H;
  (eapply p_novar in H; [|exact T|discriminate|discriminate]); cbv beta iota in H; (eapply p_cur in H; [|exact T]); cbn [nm] in H; cbv iota beta in H;
  (eapply (Q_set _ _ _ _ e n p r used sc) in H; [|exact Qe|exact W1|exact W2|exact N|cbn; intuition discriminate|exact T]);
  destruct H as (-> & T1 & c1 & s1 & Z & i & G & D & G0 & E1 & E2 & Hi); split; [reflexivity|]; split; [exact T1|]; eexists; split; [exact G|];
  intros HS HT v g st A S; cbn [Spec.Mtx.safe] in S; pose proof (ext_nth _ _ _ _ HT Hi) as Hi'; rewrite E1 in HS; rewrite E2 in HT;
  (seq; [eapply dyn_use; [exact D|exact HS|exact HT|exact G0|exact A|apply keep_refl|exact S]|]); apply r_op1; intros m Hm Ha; cbn [exec_op]; rewrite Ha; cbn [PerceptronVM.bind]; rewrite (get_set_ok _ _ Hi'); cbn [PerceptronVM.bind]; rewrite Hm; cbn [push]. cbn [popsa pop sal PerceptronVM.bind]. rewrite (existsb_ext' _ (in_set x)) by (intros; apply isin_eq). reflexivity. Qed.
Lemma Q_All x e : Q e -> Q (EAll x e).
Proof. intros Qe. head H T n; destruct W as [W1 W2]; unfold proc_bool in H;
  (eapply p_novar in H; [|exact T|discriminate|discriminate]); cbv beta iota in H; (eapply p_cur in H; [|exact T]); cbn [nm] in H; cbv iota beta in H;
  (eapply (Q_set _ _ _ _ e n p r used sc) in H; [|exact Qe|exact W1|exact W2|exact N|cbn; intuition discriminate|exact T]);
  destruct H as (-> & T1 & c1 & s1 & Z & i & G & D & G0 & E1 & E2 & Hi); split; [reflexivity|]; split; [exact T1|]; eexists; split; [exact G|];
  intros HS HT v g st A S; cbn [Spec.Mtx.safe] in S; pose proof (ext_nth _ _ _ _ HT Hi) as Hi'; rewrite E1 in HS; rewrite E2 in HT;
  (seq; [eapply dyn_use; [exact D|exact HS|exact HT|exact G0|exact A|apply keep_refl|exact S]|]); apply r_op1; intros m Hm Ha; cbn [exec_op]; rewrite Ha; cbn [PerceptronVM.bind]; rewrite (get_set_ok _ _ Hi'); cbn [PerceptronVM.bind]; rewrite Hm; cbn [push]. cbn [popsa pop sal PerceptronVM.bind]. rewrite (forallb_ext' _ (in_set x)) by (intros; apply isin_eq). reflexivity. Qed.

(* and, or *)
Notation alls := (safe_all u8 cof ltr names tagged untagged ti wi).
Definition nval (o : nary) (v : env) (es : exs) : bool := match o with All => all_true u8 cof ltr names tagged untagged ti wi v es | Some_of => some_true u8 cof ltr names tagged untagged ti wi v es end.
(* what is left on the stack under the result *)
Fixpoint junk (o : nary) (v : env) (es : exs) : list value :=
  match es with
  | ENil => []
  | ECons e es => match es with ENil => [] | _ => if Bool.eqb (nval o v es) (unit_of o) then [] else junk o v es ++ [VBool (eval v e)] end
  end.
Definition dyns (o : nary) (used : list str) (sc : list (str * base)) (es : exs) (p p' : pst) (c : code) : Prop :=
  ext (cstrs p') STRS -> ext (csets p') SETS -> forall v g s, agree used sc v p g -> alls v es -> runs c s (VBool (nval o v es) :: junk o v es ++ s) (ctr p) g.
Definition Qs (es : exs) : Prop := forall o n p m a r used sc b p',
  proc n (KOps (nary_op o)) false p = Some (b, p') -> toks p = print_all es ++ Cl m a :: r -> ~ In m singles -> names_ok p -> wfs coarse names used sc es ->
  b = (match es with ENil => false | _ => true end) /\ toks p' = Cl m a :: r /\ exists c, chg used p p' c /\ (match es with ENil => c = [] | _ => dyns o used sc es p p' c end).
Lemma nval_cons o v e es : nval o v (ECons e es) = (match o with All => eval v e && nval o v es | Some_of => eval v e || nval o v es end).
Proof. destruct o; reflexivity. Qed.
Lemma nval_unit o v e es : nval o v (ECons e es) = unit_of o -> nval o v es = unit_of o.
Proof. rewrite nval_cons. destruct o; cbn [unit_of]; [intros H; apply andb_prop in H; tauto|intros H; apply orb_false_elim in H; tauto]. Qed.
Lemma junk_unit o v e es : nval o v es = unit_of o -> junk o v (ECons e es) = [].
Proof. intros H. cbn [junk]. destruct es; [reflexivity|]. rewrite H, Bool.eqb_reflx. reflexivity. Qed.
Lemma Qs_Nil : Qs ENil.
Proof.
  intros o n p m a r used sc b p' H T Hm N W. cbn [print_all app] in T. destruct n as [|n]; [discriminate H|].
  change (proc_ops (proc n) (nary_op o) p = Some (b, p')) in H. unfold proc_ops in H. go H T. cbn [closes] in H. fin H.
  split; [reflexivity|]. split; [exact T|]. exists []. split; [apply chg_refl|reflexivity].
Qed.
Lemma Qs_Cons e es : Q e -> Qs es -> Qs (ECons e es).
Proof.
  intros Qe Qes o n p m a r used sc b p' H T Hm N W. cbn [print_all wfs] in *. destruct W as [W1 W2]. rewrite <- app_assoc in T. destruct n as [|n]; [discriminate H|].
  change (proc_ops (proc n) (nary_op o) p = Some (b, p')) in H. unfold proc_ops in H.
  destruct (print_op e) as (hn & ha & hr & Hh). eapply p_cur in H; [|rewrite T, Hh; reflexivity]. cbv beta in H. cbn [closes] in H.
  apply p_one in H as (b1 & s1 & Hp & H). cbv beta in H. edestruct (fun r => Qe _ _ _ r used sc _ _ Hp) as (_ & T1 & c1 & G1 & D1); [exact T|apply follow_all; exact Hm|exact N|exact W1|].
  apply bnd_inv in H as (more & s2 & Hq & H). edestruct (fun r => Qes o _ _ m a r used sc _ _ Hq) as (-> & T2 & c2 & G2 & D2); [exact T1|exact Hm|eapply names_chg; [exact G1|exact N]|exact W2|].
  clear T Hh T1. destruct es as [|e2 es2].
  - apply p_ret in H. fin H. split; [reflexivity|]. split; [exact T2|]. exists (c1 ++ c2). split; [eapply chg_trans; eassumption|].
    subst c2. rewrite app_nil_r. intros HS HT v g s A [S1 _]. rewrite nval_cons.
    replace (match o with All => _ | Some_of => _ end) with (eval v e) by (destruct o; cbn; [rewrite andb_true_r|rewrite orb_false_r]; reflexivity).
    cbn [app junk]. change (VBool (eval v e) :: s) with (push (eval v e) s). use D1.
  - go H T2. fin H. subst. split; [reflexivity|]. split; [exact T2|]. exists ((c1 ++ c2) ++ [byte_of (nary_op o)]). split; [apply chg_emit; eapply chg_trans; eassumption|].
    intros HS HT v g s A [S1 S2]. cbn [cstrs csets add_code upd_code] in HS, HT.
    set (A2 := nval o v (ECons e2 es2)).
    eapply runs_app with (s1 := VBool A2 :: junk o v (ECons e2 es2) ++ VBool (eval v e) :: s).
    + eapply runs_app with (s1 := VBool (eval v e) :: s); [change (runs c1 s (push (eval v e) s) (ctr p) g); use D1|]. intros g1 K1.
      pose proof (D2 HS HT v g1 (VBool (eval v e) :: s)) as R. eapply runs_less; [apply G1|]. apply R; [eapply agree_chg; [exact G1|exact K1|exact A]|exact S2].
    + intros g1 _. rewrite nval_cons. fold A2. change (junk o v (ECons e (ECons e2 es2))) with (if Bool.eqb A2 (unit_of o) then [] else junk o v (ECons e2 es2) ++ [VBool (eval v e)]).
      destruct (Bool.eqb_spec A2 (unit_of o)) as [Hu|Hu].
      * rewrite junk_unit by (eapply nval_unit; exact Hu). apply r_op. intros mm Hmm. rewrite Hu in *. destruct o; cbn [nary_op exec_op unit_of] in *; rewrite Hmm; cbn; [rewrite andb_true_r|rewrite orb_false_r]; reflexivity.
      * rewrite <- app_assoc. cbn [app]. apply r_op. intros mm Hmm. clear D2. assert (A2 = negb (unit_of o)) as Hn by (destruct A2, o; cbn in *; congruence). rewrite Hn in *.
        destruct o; cbn [nary_op exec_op unit_of negb] in *; rewrite Hmm; cbn; [rewrite andb_false_r|rewrite orb_true_r]; reflexivity.
Qed.
Lemma safes_all v o es : safes u8 cof ltr names tagged untagged ti wi v o es -> alls v es /\ nval o v es = unit_of o.
Proof.
  induction es as [|e es IH] using exs_list; cbn [safes safe_all].
  - intros _. split; [exact I|]. destruct o; reflexivity.
  - intros (S1 & S2 & S3). destruct (IH S3) as [I1 I2]. split; [auto|]. rewrite nval_cons, I2. destruct o; rewrite S2; reflexivity.
Qed.
Lemma Q_Nary o e es : Qs (ECons e es) -> Q (ENary o e es).
Proof.
  intros Qe. head H T n. unfold proc_bool in H. 
  assert ((step;;; one (proc n) (KOps (nary_op o));;; at_end (nary_el o);;; step;;; ret true) p = Some (b0, p')) as H'.
  { destruct o; cbn [nary_el] in T; (eapply p_novar in H; [|exact T|discriminate|discriminate]); cbv beta iota in H; (eapply p_cur in H; [|exact T]); exact H. }
  clear H. rename H' into H. go H T. apply p_one in H as (b & s1 & Hp & H); cbv beta in H.
  edestruct (fun r => Qe o _ _ (nary_el o) [] r used sc _ _ Hp) as (_ & T1 & c & G & D); [cbn [print_all]; rewrite <- app_assoc; exact T|destruct o; cbn; intuition discriminate|subst; eauto using names_chg, chg_toks|exact W|].
  clear T. rename T1 into T. go H T. done H T.
  assert (alls v (ECons e es) /\ junk o v (ECons e es) = [] /\ nval o v (ECons e es) = eval v (ENary o e es)) as (S1 & S2 & S3).
  { destruct S as [S0 S]. apply safes_all in S as [Sa Sb]. split; [split; [exact S0|exact Sa]|]. split; [apply junk_unit, Sb|]. rewrite nval_cons. destruct o; reflexivity. }
  assert (chg used p (upd_toks (print e ++ print_all es ++ Cl (nary_el o) [] :: r) p) []) as G0 by (apply chg_toks, chg_refl).
  cbn [app]. pose proof (D HS HT v g st) as R. rewrite S2, S3 in R. apply R; [|exact S1]. eapply agree_chg; [exact G0|apply keep_refl|exact A].
Qed.
(* for-each *)
Lemma p_code {A} (k : code -> P A) s res : bnd get_code k s = Some res -> k (cde s) s = Some res.
Proof. auto. Qed.
Lemma p_poke {A} a b (k : unit -> P A) s res : bnd (poke a b) k s = Some res -> k tt (upd_code (firstn a (cde s) ++ [b] ++ skipn (S a) (cde s)) s) = Some res.
Proof. auto. Qed.
Lemma ret_inv {A} (a b : A) s s' : ret a s = Some (b, s') -> a = b /\ s' = s.
Proof. unfold ret. intros H. injection H. auto. Qed.
Lemma loop_tail b (body : ex (TEl b)) n slot s2 a r used sc bb p' : Q body ->
  toks s2 = print body ++ Cl Xfor_each a :: r -> names_ok s2 -> wf coarse names used sc body ->
  (emit FOREACHINIT ;;; ! c0 <-- get_code ;;; emit FOREACH ;;; emit_uint (Z.of_nat slot) ;;; ! c1 <-- get_code ;;; emit_uint 0 ;;;
   one (proc n) (kind_of (TEl b)) ;;; at_some_end ;;; ! c2 <-- get_code ;;; emit ENDFOREACH ;;; emit_int (Z.of_nat (List.length c2 + 2 - List.length c0)) ;;;
   poke (List.length c1) (to_byte (Z.of_nat (List.length c2 + 2 - S (List.length c1)))) ;;; ret true) s2 = Some (bb, p') ->
  toks p' = Cl Xfor_each a :: r /\ exists cb Z s3, slot < 256 /\ List.length cb + 5 < 128 /\ chg used s2 p' (loop_code slot cb) /\
    ctr Z = ctr s2 /\ slotn Z = slotn s2 /\ dyn used sc body Z s3 cb /\ cstrs p' = cstrs s3 /\ csets p' = csets s3.
Proof.
  intros Qb T N W H. go H T. apply p_code in H. cbv beta in H. go H T. apply p_code in H. cbv beta in H. go H T.
  apply p_one in H as (b1 & s5 & Hp & H); cbv beta in H.
  edestruct (fun r => Qb _ _ _ r used sc _ _ Hp) as (_ & T1 & cb & G & D); [exact T|cbn; intuition discriminate|subst; exact N|exact W|].
  clear T. rename T1 into T. go H T. apply p_code in H. cbv beta in H. go H T.
  assert (cde s5 = cde s2 ++ [byte_of FOREACHINIT; byte_of FOREACH; slot; 0] ++ cb) as Hc.
  { rewrite (g_code _ _ _ _ G). subst. cbn [cde add_code upd_code]. rewrite Nat2Z.id, <- !app_assoc. reflexivity. }
  assert (List.length (cde s5) + 2 - List.length (cde s) = List.length cb + 5) as L0.
  { rewrite Hc. subst s. cbn [cde add_code upd_code]. rewrite !app_length. cbn. lia. }
  assert (List.length (cde s1) = List.length (cde s2) + 3) as L1.
  { subst s1 s0 s. cbn [cde add_code upd_code]. rewrite !app_length. cbn. lia. }
  assert (List.length (cde s5) + 2 - S (List.length (cde s1)) = List.length cb + 2) as L2.
  { rewrite L1, Hc. rewrite !app_length. cbn. lia. }
  rewrite L0 in *. rewrite L2 in *.
  assert (to_byte (Z.of_nat (List.length cb + 5)) = List.length cb + 5) as B1 by (unfold to_byte; rewrite Z.mod_small by lia; lia).
  assert (to_byte (Z.of_nat (List.length cb + 2)) = List.length cb + 2) as B2 by (unfold to_byte; rewrite Z.mod_small by lia; lia).
  rewrite B1 in *. rewrite B2 in *. apply p_poke in H. cbv beta in H. apply ret_inv in H as [_ H].
  assert (toks p' = toks s6 /\ cstrs p' = cstrs s6 /\ csets p' = csets s6 /\ strn p' = strn s6 /\ slotn p' = slotn s6 /\ ctr p' = ctr s6) as (P1 & P2 & P3 & P4 & P5 & P6) by (rewrite H; repeat split; reflexivity).
  apply (f_equal cde) in H. cbn [cde upd_code] in H.

  split; [rewrite P1; exact T|]. exists cb, s3, s5. split; [lia|]. split; [lia|]. split; [|rewrite P2, P3; subst; repeat split; auto].
  assert (chg used s2 s5 ([byte_of FOREACHINIT; byte_of FOREACH; slot; 0] ++ cb)) as G5.
  { eapply (chg_trans _ _ s3); [|exact G]. subst. change [byte_of FOREACHINIT; byte_of FOREACH; slot; 0] with (((([] ++ [byte_of FOREACHINIT]) ++ [byte_of FOREACH]) ++ [slot]) ++ [0]).
    rewrite Nat2Z.id. change (Z.to_nat 0) with 0. repeat apply chg_emit. apply chg_refl. }
  constructor; rewrite ?P2, ?P3, ?P4, ?P5, ?P6; try (subst s6 s4; apply G5).
  rewrite H. subst s6 s4. cbn [cde add_code upd_code]. rewrite Hc, L1.
  replace (((cde s2 ++ [byte_of FOREACHINIT; byte_of FOREACH; slot; 0] ++ cb) ++ [byte_of ENDFOREACH]) ++ [List.length cb + 5])
    with ((cde s2 ++ [byte_of FOREACHINIT; byte_of FOREACH; slot]) ++ [0] ++ cb ++ [byte_of ENDFOREACH; List.length cb + 5]) by (rewrite <- !app_assoc; reflexivity).
  assert (List.length (cde s2) + 3 = List.length (cde s2 ++ [byte_of FOREACHINIT; byte_of FOREACH; slot])) as L3 by (rewrite app_length; reflexivity).
  rewrite firstn_app, skipn_app, L3, firstn_all, Nat.sub_diag, (skipn_all2 (n := S _)) by lia.
  replace (S _ - _) with 1 by lia. cbn [firstn skipn app]. unfold loop_code. rewrite app_nil_r, <- !app_assoc. reflexivity.
Qed.
Definition add_slot (x : str) (p : pst) : pst := mkpst (toks p) (cde p) (cstrs p) (csets p) (strn p) (setn p) ((x, ctr p) :: slotn p) (slott p) (S (ctr p)).
Definition add_type (t : sty) (p : pst) : pst := mkpst (toks p) (cde p) (cstrs p) (csets p) (strn p) (setn p) (slotn p) (slott p ++ [t]) (ctr p).
Lemma p_slot {A} x (k : nat -> P A) s l res : toks s = l -> bnd (new_slot x) k s = Some res -> exists s1, s1 = add_slot x s /\ toks s1 = l /\ k (ctr s) s1 = Some res.
Proof. intros T H. exists (add_slot x s). auto. Qed.
Lemma p_guard {A} b (k : unit -> P A) s res : bnd (guard b) k s = Some res -> b = true /\ k tt s = Some res.
Proof. unfold bnd, guard. destruct b; [auto|discriminate]. Qed.
Lemma chg_slot used x p : ~ In x used -> chg used p (add_slot x p) [].
Proof.
  intros Hx. constructor; cbn; auto; try apply ext_refl; [rewrite app_nil_r; reflexivity|]. intros y Hy. rewrite (proj2 (str_eqb_neq _ _)) by (intros ->; contradiction). reflexivity.
Qed.
Lemma chg_type used t p : chg used p (add_type t p) [].
Proof. constructor; cbn; auto; try apply ext_refl. rewrite app_nil_r. reflexivity. Qed.
Lemma agree_slot used sc v p g x : ~ In x used -> agree used sc v p g -> agree (x :: used) sc v (add_slot x p) g.
Proof.
  intros Hx A y b Hy. destruct (A y b Hy) as (Hu & it & i & A1 & A2 & A3 & A4 & A5). split; [right; exact Hu|]. exists it, i. repeat split; auto; [|cbn; lia].
  cbn. rewrite (proj2 (str_eqb_neq _ _)) by (intros ->; contradiction). exact A3.
Qed.
Definition inj (b : base) : vty (TEl b) -> Spec.Mtx.item := match b with BStr => fun s => IS s | BWrd => fun w => IW w end.
Lemma push_inj b (w : vty (TEl b)) st : val (inj b w) :: st = push w st.
Proof. destruct b; reflexivity. Qed.
Lemma typed_inj {X} b (f : X -> vty (TEl b)) l : typed b (map (fun i => inj b (f i)) l).
Proof. unfold typed. apply Forall_forall. intros i Hi. apply in_map_iff in Hi as (y & <- & _). destruct b; reflexivity. Qed.
Lemma push_map {X} b (mk : X -> Spec.Mtx.item) (F : Spec.Mtx.item -> vty (TEl b)) l st : push (map_of b (fun x => F (mk x)) l) st = arr b (map (fun i => inj b (F i)) (map mk l)) :: st.
Proof. destruct b; cbn [map_of push arr inj]; rewrite !map_map; reflexivity. Qed.
Lemma loop_dyn b bx x (body : ex (TEl b)) p s1 Z s3 ci cb used sc v g st (l : list Spec.Mtx.item) :
  ~ In x used -> chg (x :: used) (add_slot x p) s1 ci -> ctr Z = ctr s1 -> slotn Z = slotn s1 ->
  dyn (x :: used) ((x, bx) :: sc) body Z s3 cb -> ext (cstrs s3) STRS -> ext (csets s3) SETS ->
  ctr p < 256 -> List.length cb + 5 < 128 -> l <> [] -> typed bx l ->
  agree used sc v p g -> (forall g1, keep (ctr p) g g1 -> runs ci st (arr bx l :: st) (ctr p) g1) -> Forall (fun i => safe ((x, i) :: v) body) l ->
  runs (ci ++ loop_code (ctr p) cb) st (arr b (map (fun i => inj b (eval ((x, i) :: v) body)) l) :: st) (ctr p) g.
Proof.
  intros Hx G EZ ES D HS HT Hc Hl Hne Ht A Hit Hsafe. eapply runs_app; [apply Hit, keep_refl|]. intros g1 K1.
  apply (runs_loop u8 show co ltr STRS SETS GL tagged untagged ti wi PRG feature (ctr p) cb (ctr p) g1 st bx b l); auto.
  - apply typed_inj.
  - intros i g2 Hi K2 Hg. rewrite push_inj. pose proof (g_ctr _ _ _ _ G) as Hctr. cbn in Hctr.
    eapply runs_less; [rewrite <- EZ in Hctr; exact Hctr|].
    apply D; [exact HS|exact HT| |refine (proj1 (Forall_forall _ _) Hsafe i Hi)].
    assert (agree (x :: used) sc v (add_slot x p) g) as A1 by (apply agree_slot; assumption).
    assert (base_of i = bx) as Hb by (refine (proj1 (Forall_forall _ _) Ht i Hi)).
    intros y b' Hy. cbn [Spec.Mtx.find] in *. destruct (list_eq_dec N.eq_dec y x) as [->|Hyx].
    + injection Hy as <-. split; [left; reflexivity|]. exists i, (ctr p). repeat split; auto.
      * rewrite ES, (g_slot _ _ _ _ G x (or_introl eq_refl)). cbn. rewrite str_eqb_refl. reflexivity.
      * rewrite EZ. exact Hctr.
    + destruct (A y b' Hy) as (Hu & it & j & B1 & B2 & B3 & B4 & B5). split; [right; exact Hu|]. exists it, j. repeat split; auto.
      * rewrite ES, (g_slot _ _ _ _ G y (or_intror Hu)). cbn. rewrite (proj2 (str_eqb_neq _ _)) by congruence. exact B3.
      * rewrite EZ. lia.
      * rewrite (K2 j B4), (K1 j B4). exact B5.
Qed.
Lemma into_loop b n p a rest af b0 p' : toks p = Op Xfor_each a :: rest -> proc (S n) (kind_of (TArr b)) af p = Some (b0, p') ->
  exists b1 s1, proc n (KLoop (kind_of (TEl b))) false p = Some (b1, s1) /\ (step ;;; ret true) s1 = Some (b0, p').
Proof.
  intros T H. destruct b; cbn [kind_of] in *; change (proc (S n) ?k af p) with (proc_kind (proc n) k af p) in H; cbn [proc_kind] in H; [unfold proc_str_arr in H|unfold proc_wrd_arr in H];
  go H T; apply p_one in H as (b1 & s1 & Hp & H); eauto.
Qed.
Lemma Q_ForS b x it body : Q it -> Q body -> Q (EForS b x it body).
Proof.
  intros Qi Qb n af p r used sc b0 p' H T F N W. cbn [wf] in W. destruct W as (W1 & W2 & W3 & W4). cbn [print] in T. unfold elem in T. cbn [app] in T. rewrite <- !app_assoc in T. cbn [app] in T.
  destruct n as [|n]; [discriminate H|]. eapply into_loop in H as (b1 & s1 & Hp & H); [|exact T].
  destruct n as [|n]; [discriminate Hp|]. change (proc_loop (proc n) (kind_of (TEl b)) p = Some (b1, s1)) in Hp. unfold proc_loop in Hp. go Hp T. apply p_guard in Hp as [_ Hp].
  eapply p_slot in Hp as (p1 & E1 & T1 & Hp); [|exact T]. clear T. rename T1 into T. go Hp T. apply bnd_inv in Hp as (b2 & s2 & Hi & Hp).
  assert (chg used p p1 []) as G1 by (subst p1; apply chg_slot, W2).
  edestruct (fun r => Qi _ _ _ r (x :: used) sc _ _ Hi) as (-> & T1 & ci & Gi & Di); [exact T|apply follow_print|subst s; eapply names_chg; [apply chg_toks; exact G1|exact N]|exact W3|].
  clear T. rename T1 into T. apply bnd_inv in Hp as ([] & s3 & Ht & Hp). assert (s3 = add_type SStr s2) as E3 by (injection Ht; auto). clear Ht.
  assert (toks s3 = print body ++ Cl Xfor_each [(Aas, x)] :: r) as T3 by (subst s3; exact T). clear T.
  assert (chg (x :: used) p1 s3 ci) as G3 by (subst s3 s; rewrite <- (app_nil_r ci); eapply chg_trans; [eapply chg_toks_l; exact Gi|apply chg_type]).
  eapply (loop_tail b body _ (ctr p) _ _ _ (x :: used) ((x, BStr) :: sc)) in Hp as (T & cb & Z & s5 & Hc & Hl & Gb & EZ1 & EZ2 & D & ES & ET); [|exact Qb|exact T3|eapply names_chg; [exact G3|eapply names_chg; [exact G1|exact N]]|exact W4].
  go H T. fin H. split; [reflexivity|]. split; [subst; exact T|]. exists (ci ++ loop_code (ctr p) cb). split.
  - subst s0. apply chg_toks. change (ci ++ loop_code (ctr p) cb) with ([] ++ ci ++ loop_code (ctr p) cb). eapply chg_trans; [exact G1|]. eapply (chg_less (x :: used)); [intros y Hy; right; exact Hy|]. eapply chg_trans; [exact G3|exact Gb].
  - intros HS HT v g st A S. cbn [Spec.Mtx.safe] in S. destruct S as (S1 & S2 & S3). subst s0. cbn [cstrs csets upd_toks] in HS, HT. cbn [Spec.Mtx.eval]. rewrite (push_map b IS (fun i => eval ((x, i) :: v) body)). rewrite ES in HS. rewrite ET in HT.
    assert (ext (cstrs s3) STRS /\ ext (csets s3) SETS) as [HS3 HT3].
    { split; [eapply ext_trans; [apply (g_strs _ _ _ _ Gb)|rewrite ES; exact HS]|eapply ext_trans; [apply (g_sets _ _ _ _ Gb)|rewrite ET; exact HT]]. }
    eapply (loop_dyn b BStr x body p s3 Z s5); eauto.
    + subst p1. exact G3.
    + destruct (eval v it); [congruence|discriminate].
    + unfold typed. apply Forall_forall. intros i Hin. apply in_map_iff in Hin as (y & <- & _). reflexivity.
    + intros g1 K1. replace (arr BStr (map IS (eval v it)) :: st) with (push (eval v it) st) by (cbn [push arr]; rewrite map_map, map_id; reflexivity).
      eapply runs_less; [|apply Di; [subst s3; exact HS3|subst s3; exact HT3| |exact S1]].
      * subst s p1. cbn. lia.
      * subst s p1. assert (agree (x :: used) sc v (add_slot x p) g1) as A1; [|exact A1]. apply agree_slot; [exact W2|]. eapply agree_chg; [apply chg_refl|exact K1|exact A].
    + apply Forall_forall. intros i Hin. apply in_map_iff in Hin as (y & <- & Hy). refine (proj1 (Forall_forall _ _) S3 y Hy).
Qed.
Lemma Q_ForW b x i0 body : Q i0 -> Q body -> Q (EForW b x i0 body).
Proof.
  intros Qi0 Qb. pose proof (Q_Words i0 Qi0) as Qi. intros n af p r used sc b0 p' H T F N W. cbn [wf] in W. destruct W as (W1 & W2 & W3 & W4). change (print (EForW b x i0 body)) with (elem Xfor_each [(Aas, x)] (print (EWords i0) ++ print body)) in T. set (it := EWords i0) in *. unfold elem in T. cbn [app] in T. rewrite <- !app_assoc in T. cbn [app] in T.
  destruct n as [|n]; [discriminate H|]. eapply into_loop in H as (b1 & s1 & Hp & H); [|exact T].
  destruct n as [|n]; [discriminate Hp|]. change (proc_loop (proc n) (kind_of (TEl b)) p = Some (b1, s1)) in Hp. unfold proc_loop in Hp. go Hp T. apply p_guard in Hp as [_ Hp].
  eapply p_slot in Hp as (p1 & E1 & T1 & Hp); [|exact T]. clear T. rename T1 into T. go Hp T. apply bnd_inv in Hp as (b2 & s2 & Hi & Hp).
  assert (b2 = false /\ s2 = s) as [-> ->].
  { clear -Hi T. destruct n as [|n]; [discriminate Hi|]. change (proc_kind (proc n) KStrA true s = Some (b2, s2)) in Hi. cbn [proc_kind] in Hi. unfold proc_str_arr in Hi.
    assert (exists a q, toks s = Op Xex_wordoids a :: q) as (a & q & T1) by (rewrite T; cbn; eauto). clear T. go Hi T1. injection Hi. auto. }
  clear Hi. apply bnd_inv in Hp as ([] & s6 & Hi & Hp). apply bnd_inv in Hi as (b2 & s2 & Hi & Hk).
  assert (chg used p p1 []) as G1 by (subst p1; apply chg_slot, W2).
  edestruct (fun r => Qi _ _ _ r (x :: used) sc _ _ Hi) as (-> & T1 & ci & Gi & Di); [exact T|apply follow_print|subst s; eapply names_chg; [apply chg_toks; exact G1|exact N]|exact W3|].
  clear T. rename T1 into T. rename s6 into s3. assert (s3 = add_type SWrd s2) as E3 by (injection Hk; auto). clear Hk.
  assert (toks s3 = print body ++ Cl Xfor_each [(Aas, x)] :: r) as T3 by (subst s3; exact T). clear T.
  assert (chg (x :: used) p1 s3 ci) as G3 by (subst s3 s; rewrite <- (app_nil_r ci); eapply chg_trans; [eapply chg_toks_l; exact Gi|apply chg_type]).
  eapply (loop_tail b body _ (ctr p) _ _ _ (x :: used) ((x, BWrd) :: sc)) in Hp as (T & cb & Z & s5 & Hc & Hl & Gb & EZ1 & EZ2 & D & ES & ET); [|exact Qb|exact T3|eapply names_chg; [exact G3|eapply names_chg; [exact G1|exact N]]|exact W4].
  go H T. fin H. split; [reflexivity|]. split; [subst; exact T|]. exists (ci ++ loop_code (ctr p) cb). split.
  - subst s0. apply chg_toks. change (ci ++ loop_code (ctr p) cb) with ([] ++ ci ++ loop_code (ctr p) cb). eapply chg_trans; [exact G1|]. eapply (chg_less (x :: used)); [intros y Hy; right; exact Hy|]. eapply chg_trans; [exact G3|exact Gb].
  - intros HS HT v g st A S. cbn [Spec.Mtx.safe] in S. destruct S as (S1 & S2 & S3). subst s0. cbn [cstrs csets upd_toks] in HS, HT. change (words_at tagged (eval v i0)) with (eval v it) in *. change (eval v (EForW b x i0 body)) with (map_of b (fun m => eval ((x, IW m) :: v) body) (eval v it)). rewrite (push_map b IW (fun i => eval ((x, i) :: v) body)). rewrite ES in HS. rewrite ET in HT.
    assert (ext (cstrs s3) STRS /\ ext (csets s3) SETS) as [HS3 HT3].
    { split; [eapply ext_trans; [apply (g_strs _ _ _ _ Gb)|rewrite ES; exact HS]|eapply ext_trans; [apply (g_sets _ _ _ _ Gb)|rewrite ET; exact HT]]. }
    eapply (loop_dyn b BWrd x body p s3 Z s5); eauto.
    + subst p1. exact G3.
    + destruct (eval v it); [congruence|discriminate].
    + unfold typed. apply Forall_forall. intros i Hin. apply in_map_iff in Hin as (y & <- & _). reflexivity.
    + intros g1 K1. replace (arr BWrd (map IW (eval v it)) :: st) with (push (eval v it) st) by (cbn [push arr]; rewrite map_map, map_id; reflexivity).
      eapply runs_less; [|apply Di; [subst s3; exact HS3|subst s3; exact HT3| |exact S1]].
      * subst s p1. cbn. lia.
      * subst s p1. assert (agree (x :: used) sc v (add_slot x p) g1) as A1; [|exact A1]. apply agree_slot; [exact W2|]. eapply agree_chg; [apply chg_refl|exact K1|exact A].
    + apply Forall_forall. intros i Hin. apply in_map_iff in Hin as (y & <- & Hy). refine (proj1 (Forall_forall _ _) S3 y Hy).
Qed.
Theorem proc_ok : (forall t (e : ex t), Q e) /\ (forall es, Qs es).
Proof.
  apply ex_exs_ind.
  - apply Q_Sentlen.
  - apply Q_Tokaddr.
  - apply Q_Wrdidx.
  - apply Q_Int.
  - intros; apply Q_Add; assumption.
  - apply Q_Var.
  - intros; apply Q_SliceS; assumption.
  - intros; apply Q_SliceA; assumption.
  - intros; apply Q_Sub; assumption.
  - intros; apply Q_Surf; assumption.
  - intros; apply Q_Lemma; assumption.
  - intros; apply Q_Coarse; assumption.
  - intros; apply Q_Join; assumption.
  - intros; apply Q_Tags; assumption.
  - intros; apply Q_Ambg; assumption.
  - intros; apply Q_Words; assumption.
  - intros; apply Q_ForS; assumption.
  - intros; apply Q_ForW; assumption.
  - intros; apply Q_Word; assumption.
  - apply Q_Addr.
  - intros; apply Q_AddrOf; assumption.
  - intros; apply Q_AddA; assumption.
  - intros; apply Q_Adj; assumption.
  - intros; apply Q_Clamp; assumption.
  - intros; apply Q_Nary, Qs_Cons; assumption.
  - intros; apply Q_Not; assumption.
  - intros; apply Q_Rel; assumption.
  - intros; apply Q_Streq; assumption.
  - intros; apply Q_Strin; assumption.
  - intros; apply Q_Any; assumption.
  - intros; apply Q_All; assumption.
  - apply Qs_Nil.
  - intros; apply Qs_Cons; assumption.
Qed.
End Main.
