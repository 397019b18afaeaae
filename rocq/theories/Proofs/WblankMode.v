From Coq Require Import String.
From Verif Require Import Model.Base Proofs.Base Model.Modes Proofs.Modes Model.WblankMode Spec.WblankMode.

(** ** white space *)
Lemma space_spec c : is_space c = true <-> space c.
Proof.
  unfold is_space, space. rewrite orb_true_iff, andb_true_iff, !N.leb_le, ceq_eq. unfold cSP. cbn [In]. split.
  - intros [[H1 H2]|H]; [|auto 10]. assert (H : (c = 9 \/ c = 10 \/ c = 11 \/ c = 12 \/ c = 13)%N) by lia. intuition.
  - intros H. intuition lia.
Qed.
Lemma space_false c : is_space c = false <-> ~ space c.
Proof. rewrite <- space_spec. destruct (is_space c); intuition congruence. Qed.
Lemma spaces_forall w : spaces w <-> Forall (fun c => is_space c = true) w.
Proof. unfold spaces. rewrite !Forall_forall. split; intros H x Hx; apply space_spec; apply H, Hx. Qed.
Lemma ltrim_spec s : exists l, s = l ++ ltrim s /\ spaces l /\ forall c x, ltrim s = c :: x -> ~ space c.
Proof.
  induction s as [|c s (l & E & H1 & H2)]; cbn [ltrim]; [exists []; repeat split; [constructor|discriminate]|].
  destruct (is_space c) eqn:S.
  - exists (c :: l). split; [cbn; rewrite E at 1; reflexivity|]. split; [constructor; [apply space_spec, S|exact H1]|exact H2].
  - exists []. split; [reflexivity|]. split; [constructor|]. intros d x [= <- _]. apply space_false, S.
Qed.
Lemma spaces_rev l : spaces l -> spaces (rev l).
Proof. unfold spaces. rewrite !Forall_forall. intros H x Hx. apply H, in_rev, Hx. Qed.
Lemma trim_spec s : Trimmed s (trim s).
Proof.
  unfold trim. destruct (ltrim_spec (rev s)) as (r & E & Hr & Hr'). destruct (ltrim_spec (rev (ltrim (rev s)))) as (l & E2 & Hl & Hl').
  set (t := ltrim (rev (ltrim (rev s)))) in *.
  exists l, (rev r). split; [|split; [exact Hl|split; [apply spaces_rev, Hr|split; [exact Hl'|]]]].
  - rewrite app_assoc, <- E2, <- rev_app_distr, <- E, rev_involutive. reflexivity.
  - intros c x Et. apply (Hr' c (rev (l ++ x))).
    rewrite <- (rev_involutive (ltrim (rev s))), E2, Et, app_assoc, rev_app_distr. reflexivity.
Qed.

(** ** the regular expression *)
Lemma span_spec f s : s = fst (span f s) ++ snd (span f s) /\ Forall (fun c => f c = true) (fst (span f s)) /\
  (forall c r, snd (span f s) = c :: r -> f c = false).
Proof.
  induction s as [|c s (E & H1 & H2)]; cbn [span]; [repeat split; [constructor|discriminate]|].
  destruct (f c) eqn:F; cbn [fst snd].
  - split; [cbn; rewrite E at 1; reflexivity|]. split; [constructor; assumption|exact H2].
  - split; [reflexivity|]. split; [constructor|]. intros d r [= <- _]. exact F.
Qed.
Lemma span_app f w r : Forall (fun c => f c = true) w -> (forall c x, r = c :: x -> f c = false) -> span f (w ++ r) = (w, r).
Proof.
  intros Hw Hr. induction Hw as [|c w Hc Hw IH]; cbn [app span].
  - destruct r as [|c x]; [reflexivity|]. cbn [span]. rewrite (Hr c x eq_refl). reflexivity.
  - rewrite Hc, IH. reflexivity.
Qed.
Lemma lit_spec p s r : lit p s = Some r <-> s = p ++ r.
Proof.
  unfold lit. split.
  - destruct (starts_with s p) eqn:S; [|discriminate]. apply starts_spec in S as [x ->]. rewrite skip_app. intros [= ->]. reflexivity.
  - intros ->. rewrite (proj2 (starts_spec (p ++ r) p)) by eauto. rewrite skip_app. reflexivity.
Qed.
Lemma spaces1_some s r : spaces1 s = Some r -> exists w, s = w ++ r /\ spaces w /\ w <> [].
Proof.
  unfold spaces1. destruct (span_spec is_space s) as (E & H1 & _). destruct (span is_space s) as [w r0]. cbn [fst snd] in *.
  destruct w as [|c w]; [discriminate|]. intros [= <-]. exists (c :: w). split; [exact E|]. split; [apply spaces_forall, H1|discriminate].
Qed.
Lemma spaces1_app w r : spaces w -> w <> [] -> spaces1 (w ++ cQ :: r) = Some (cQ :: r).
Proof.
  intros H N. unfold spaces1. rewrite span_app; [destruct w; [congruence|reflexivity]|apply spaces_forall, H|].
  intros c x [= <- _]. reflexivity.
Qed.
Lemma quoted_spec s w r : quoted s = Some (w, r) <-> s = cQ :: w ++ cQ :: r /\ no_quote w.
Proof.
  unfold quoted. split.
  - destruct (lit [cQ] s) as [s1|] eqn:L; [|discriminate]. apply lit_spec in L as ->. cbn [app].
    destruct (span_spec (fun c => negb (c =?c cQ)) s1) as (E & H1 & H2). destruct (span (fun c => negb (c =?c cQ)) s1) as [w0 [|q r0]]; cbn [fst snd] in *; [discriminate|].
    destruct w0 as [|c w0]; [discriminate|]. intros [= <- <-]. specialize (H2 q r0 eq_refl). apply negb_false_iff, ceq_eq in H2 as ->. split; [rewrite E; reflexivity|].
    split; [|discriminate]. intros HI. rewrite Forall_forall in H1. specialize (H1 _ HI). apply negb_true_iff, ceq_neq in H1. apply H1; reflexivity.
  - intros [-> [H1 H2]]. change (cQ :: w ++ cQ :: r) with ([cQ] ++ w ++ cQ :: r). rewrite (proj2 (lit_spec _ _ _) eq_refl).
    rewrite span_app; [destruct w; [congruence|reflexivity]| |].
    + rewrite Forall_forall. intros c Hc. apply negb_true_iff, ceq_neq. intros ->. exact (H1 Hc).
    + intros c x [= <- _]. reflexivity.
Qed.
Lemma autobil_spec w : is_autobil w = true <-> exists x, x <> [] /\ w = x ++ u "autobil.bin".
Proof.
  unfold is_autobil. rewrite andb_true_iff, Nat.ltb_lt, str_eqb_eq. split.
  - intros [L E]. exists (firstn (length w - length (u "autobil.bin")) w). split.
    + intros F. apply (f_equal (@length _)) in F. rewrite firstn_length in F. cbn [length] in F. lia.
    + rewrite <- E at 2. symmetry. apply firstn_skipn.
  - intros (x & N & ->). rewrite app_length. replace (length x + length (u "autobil.bin") - length (u "autobil.bin")) with (length x) by lia.
    rewrite skip_app. split; [|reflexivity]. destruct x; [congruence|]. cbn [length]. lia.
Qed.
Lemma old_spec s a b c r : old_transfer s = Some (a, b, c, r) <-> exists t, OldCall t a b c /\ s = t ++ r.
Proof.
  unfold old_transfer. split.
  - destruct (lit (u "apertium-transfer") s) as [s1|] eqn:L; cbn [bind]; [|discriminate]. apply lit_spec in L as ->.
    destruct (spaces1 s1) as [s2|] eqn:S1; cbn [bind]; [|discriminate]. apply spaces1_some in S1 as (w1 & -> & A1 & N1).
    destruct (quoted s2) as [[a0 s3]|] eqn:Q1; cbn [bind]; [|discriminate]. apply quoted_spec in Q1 as [-> NA].
    destruct (spaces1 s3) as [s4|] eqn:S2; cbn [bind]; [|discriminate]. apply spaces1_some in S2 as (w2 & -> & A2 & N2).
    destruct (quoted s4) as [[b0 s5]|] eqn:Q2; cbn [bind]; [|discriminate]. apply quoted_spec in Q2 as [-> NB].
    destruct (spaces1 s5) as [s6|] eqn:S3; cbn [bind]; [|discriminate]. apply spaces1_some in S3 as (w3 & -> & A3 & N3).
    destruct (quoted s6) as [[c0 s7]|] eqn:Q3; cbn [bind]; [|discriminate]. apply quoted_spec in Q3 as [-> NC].
    destruct (is_autobil c0) eqn:AB; [|discriminate]. apply autobil_spec in AB. intros [= <- <- <- <-].
    eexists. split; [exists w1, w2, w3; repeat (split; [eassumption|]); reflexivity|].
    change (u "'") with [cQ]. appeq.
  - intros (t & (w1 & w2 & w3 & A1 & A2 & A3 & N1 & N2 & N3 & NA & NB & NC & AB & ->) & ->).
    change (u "'") with [cQ].
    rewrite <- app_assoc, (proj2 (lit_spec _ _ _) eq_refl). cbn [bind].
    repeat rewrite <- app_assoc. cbn [app]. rewrite spaces1_app by assumption. cbn [bind].
    repeat rewrite <- app_assoc. cbn [app]. rewrite (proj2 (quoted_spec _ a _)) by (split; [reflexivity|assumption]). cbn [bind].
    repeat rewrite <- app_assoc. cbn [app]. rewrite spaces1_app by assumption. cbn [bind].
    repeat rewrite <- app_assoc. cbn [app]. rewrite (proj2 (quoted_spec _ b _)) by (split; [reflexivity|assumption]). cbn [bind].
    repeat rewrite <- app_assoc. cbn [app]. rewrite spaces1_app by assumption. cbn [bind].
    repeat rewrite <- app_assoc. cbn [app]. rewrite (proj2 (quoted_spec _ c _)) by (split; [reflexivity|assumption]). cbn [bind].
    rewrite (proj2 (autobil_spec c) AB). reflexivity.
Qed.
Lemma old_none s : old_transfer s = None -> forall t a b c r, OldCall t a b c -> s <> t ++ r.
Proof. intros H t a b c r O E. rewrite (proj2 (old_spec s a b c r)) in H; [discriminate|eauto]. Qed.
Lemma old_nonempty t a b c : OldCall t a b c -> length t <> 0.
Proof. intros (w1 & w2 & w3 & _ & _ & _ & _ & _ & _ & _ & _ & _ & _ & ->). discriminate. Qed.

Lemma conv_cons x s s' : (forall t a b c r, OldCall t a b c -> x :: s <> t ++ r) -> Converted s s' -> Converted (x :: s) (x :: s').
Proof.
  intros N H. destruct H as [s H|pre t a b c s s' O H L].
  - apply cv_none. intros [|x0 p] t y a b c O E; [exact (N _ _ _ _ _ O E)|]. cbn in E. injection E as _ E. exact (H _ _ _ _ _ _ O E).
  - apply (cv_call (x :: pre)); [exact O|exact H|].
    intros [|x0 p] t' y a' b' c' O' E; [destruct (N _ _ _ _ _ O' E)|]. cbn in E. injection E as _ E. apply (L _ _ _ _ _ _ O') in E. cbn. lia.
Qed.
Lemma replace_all_ok fuel : forall s, length s < fuel -> Converted s (replace_all fuel s).
Proof.
  induction fuel as [|f IH]; intros s L; [lia|]. cbn [replace_all].
  destruct (old_transfer s) as [[[[a b] c] r]|] eqn:O.
  - apply old_spec in O as (t & O & ->). pose proof (old_nonempty _ _ _ _ O) as N. rewrite app_length in L.
    apply (cv_call [] t a b c r (replace_all f r)); [exact O|apply IH; lia|cbn; lia].
  - destruct s as [|x s].
    + apply cv_none. intros x t y a b c HO E. apply (f_equal (@length _)) in E. rewrite !app_length in E. apply old_nonempty in HO. cbn in E. lia.
    + apply conv_cons; [intros; eapply old_none; eassumption|]. apply IH. cbn in L. lia.
Qed.

(** ** stages *)
Lemma split_spec s : Pipeline s (fst (split s) :: snd (split s)).
Proof.
  induction s as [|c s IH]; cbn [split]; [cbn; apply pl_one; intros []|].
  destruct (split s) as [h t]. cbn [fst snd] in *. ceq_case c cPIPE; cbn [fst snd].
  - apply (pl_more [] s (h :: t)); [intros []|exact IH].
  - inversion IH as [s0 N|s0 r l N P]; subst.
    + apply pl_one. intros [->|H]; [apply E; reflexivity|exact (N H)].
    + apply (pl_more (c :: h) r t); [|exact P]. intros [->|H]; [apply E; reflexivity|exact (N H)].
Qed.
Lemma blank_spec c : mem c [cSP; cTAB; 13%N; cNL] = true <-> blank_char c.
Proof. rewrite mem_In. reflexivity. Qed.
Lemma insert_z_spec s : exists name args, s = name ++ args /\ insert_z s = name ++ u " -z" ++ args /\ Forall (fun c => ~ blank_char c) name /\
  (args = [] \/ exists c r, args = c :: r /\ blank_char c).
Proof.
  induction s as [|c s (n & a & E1 & E2 & H1 & H2)]; cbn [insert_z].
  - exists [], []. repeat split; [constructor|left; reflexivity].
  - destruct (mem c [cSP; cTAB; 13%N; cNL]) eqn:M.
    + exists [], (c :: s). repeat split; [constructor|right; exists c, s; split; [reflexivity|apply blank_spec, M]].
    + exists (c :: n), a. split; [cbn; rewrite E1 at 1; reflexivity|]. split; [rewrite E2; reflexivity|]. split; [|exact H2].
      constructor; [|exact H1]. rewrite <- blank_spec, M. discriminate.
Qed.
Lemma occ_false s p : has s p = false -> ~ occurs p s.
Proof. intros H (a & b & E). exact (has_false _ _ H _ _ E). Qed.
Lemma add_z_ok z s : WithZ z s (add_z z s).
Proof.
  unfold add_z. destruct z; cbn [andb]; [|constructor]. destruct (has s (u " -z")) eqn:H; cbn [negb].
  - apply wz_has, has_spec, H.
  - destruct (insert_z_spec s) as (n & a & E1 & E2 & H1 & H2). rewrite E2. apply occ_false in H. rewrite E1 in *. apply wz_add; assumption.
Qed.
Lemma or_spec s p q : has s p || has s q = true <-> occurs p s \/ occurs q s.
Proof. rewrite orb_true_iff, !has_spec. reflexivity. Qed.
Lemma or_false s p q : has s p || has s q = false -> ~ (occurs p s \/ occurs q s).
Proof. intros H C. apply or_spec in C. congruence. Qed.
Lemma helper_ok m s : exists o, Helped m s o /\ o <> [] /\ add_helper (has m (u "apertium-wblank-")) (has m (u "apertium-restore-caps")) s = join o.
Proof.
  unfold add_helper. destruct (has m (u "apertium-wblank-")) eqn:H.
  - exists [s]. split; [apply hp_done, has_spec, H|split; [discriminate|reflexivity]].
  - apply occ_false in H. destruct (has s (u "automorf.bin") || has s (u "automorf.hfst")) eqn:A.
    + exists [s; u "apertium-wblank-attach"]. split; [apply hp_attach; [exact H|apply or_spec, A]|split; [discriminate|reflexivity]].
    + apply or_false in A. destruct (has s (u "autogen.bin") || has s (u "autogen.hfst")) eqn:G.
      * apply or_spec in G. destruct (has m (u "apertium-restore-caps")) eqn:C; cbn [negb andb].
        -- exists [s]. split; [apply hp_caps; [exact H|exact A|exact G|apply has_spec, C]|split; [discriminate|reflexivity]].
        -- exists [u "apertium-wblank-detach"; s]. split; [apply hp_detach; [exact H|exact A|exact G|apply occ_false, C]|split; [discriminate|reflexivity]].
      * apply or_false in G. rewrite andb_false_r. exists [s]. split; [apply hp_other; [exact H|exact A|exact G]|split; [discriminate|reflexivity]].
Qed.
Lemma stage_ok z m s : exists o, StageOut z m s o /\ o <> [] /\ stage z (has m (u "apertium-wblank-")) (has m (u "apertium-restore-caps")) s = join o.
Proof.
  unfold stage. destruct (helper_ok m (add_z z (trim s))) as (o & H & N & E). exists o. split; [|split; [exact N|exact E]].
  exists (trim s), (add_z z (trim s)). split; [apply trim_spec|]. split; [apply add_z_ok|exact H].
Qed.
Lemma join_app a b : a <> [] -> b <> [] -> join (a ++ b) = join a ++ u " | " ++ join b.
Proof.
  intros Ha Hb. induction a as [|x a IH]; [congruence|]. destruct a as [|y a].
  - cbn [app]. destruct b; [congruence|]. reflexivity.
  - change (join ((x :: y :: a) ++ b)) with (x ++ u " | " ++ join ((y :: a) ++ b)). rewrite IH by discriminate.
    change (join (x :: y :: a)) with (x ++ u " | " ++ join (y :: a)). rewrite !app_assoc. reflexivity.
Qed.
Lemma stages_ok z m t : forall h, exists ls, Forall2 (StageOut z m) (h :: t) ls /\ concat ls <> [] /\
  stages (stage z (has m (u "apertium-wblank-")) (has m (u "apertium-restore-caps"))) h t = join (concat ls).
Proof.
  induction t as [|h' t IH]; intros h; cbn [stages]; destruct (stage_ok z m h) as (o & H & N & E).
  - exists [o]. split; [constructor; [exact H|constructor]|]. cbn [concat]. rewrite app_nil_r. split; [exact N|exact E].
  - destruct (IH h') as (ls & F & NL & E'). exists (o :: ls). split; [constructor; assumption|]. cbn [concat]. split.
    + destruct o; [congruence|discriminate].
    + rewrite join_app by assumption. rewrite E, E'. reflexivity.
Qed.
Theorem mode_ok z input : Rewritten z input (wblank_mode z input).
Proof.
  unfold wblank_mode. set (m0 := read_lines input). set (m := trim m0).
  assert (P := split_spec (convert m)). destruct (split (convert m)) as [h t]. cbn [fst snd] in P.
  destruct (stages_ok z m t h) as (ls & F & _ & E).
  exists m0, m, (convert m), (h :: t), ls. split; [reflexivity|]. split; [apply trim_spec|]. split; [|split; [exact P|split; [exact F|]]].
  - unfold convert. destruct (has m (u "lt-proc -b")) eqn:H; [left; split; [apply has_spec, H|reflexivity]|].
    right. split; [apply occ_false, H|]. apply replace_all_ok. lia.
  - rewrite <- E. reflexivity.
Qed.

(** ** the specification determines the output *)
Lemma prefix_unique (l1 l2 x1 x2 : str) : spaces l1 -> spaces l2 -> (forall c y, x1 = c :: y -> ~ space c) -> (forall c y, x2 = c :: y -> ~ space c) ->
  l1 ++ x1 = l2 ++ x2 -> l1 = l2 /\ x1 = x2.
Proof.
  intros H1. revert l2. induction H1 as [|c l1 Hc H1 IH]; intros l2 H2 N1 N2 E; destruct H2 as [|d l2 Hd H2]; cbn [app] in E.
  - auto.
  - destruct (N1 d _ E Hd).
  - destruct (N2 c _ (eq_sym E) Hc).
  - injection E as -> E. destruct (IH l2 H2 N1 N2 E) as [-> ->]. auto.
Qed.
Lemma trimmed_unique s t1 t2 : Trimmed s t1 -> Trimmed s t2 -> t1 = t2.
Proof.
  intros (l1 & r1 & E1 & L1 & R1 & A1 & B1) (l2 & r2 & E2 & L2 & R2 & A2 & B2).
  assert (K : forall l r t l' r' t', l ++ t ++ r = l' ++ t' ++ r' -> spaces l -> spaces r -> spaces l' -> spaces r' ->
     t = [] -> (forall c x, t' = c :: x -> ~ space c) -> t' = []).
  { intros l r t l' r' t' E L R L' R' -> A'. destruct t' as [|c x]; [reflexivity|]. exfalso. apply (A' c x eq_refl).
    assert (H : In c (l ++ [] ++ r)) by (rewrite E; apply in_or_app; right; left; reflexivity).
    apply in_app_or in H as [H|H]; [unfold spaces in L; rewrite Forall_forall in L; exact (L _ H)|unfold spaces in R; rewrite Forall_forall in R; exact (R _ H)]. }
  destruct t1 as [|c1 x1] eqn:T1.
  - symmetry. refine (K l1 r1 [] l2 r2 t2 _ L1 R1 L2 R2 eq_refl A2). congruence.
  - destruct t2 as [|c2 x2] eqn:T2.
    + refine (K l2 r2 [] l1 r1 (c1 :: x1) _ L2 R2 L1 R1 eq_refl A1). congruence.
    + rewrite <- T1, <- T2 in *.
      assert (E : l1 ++ (t1 ++ r1) = l2 ++ (t2 ++ r2)) by congruence.
      apply prefix_unique in E as [_ E]; [| assumption | assumption | subst t1; intros c y [= <- _]; eapply A1; reflexivity | subst t2; intros c y [= <- _]; eapply A2; reflexivity].
      apply (f_equal (@rev _)) in E. rewrite !rev_app_distr in E.
      apply prefix_unique in E as [_ E]; [| apply spaces_rev; assumption | apply spaces_rev; assumption | |].
      * apply (f_equal (@rev _)) in E. rewrite !rev_involutive in E. exact E.
      * intros c y EE. apply (f_equal (@rev _)) in EE. rewrite rev_involutive in EE. exact (B1 c (rev y) EE).
      * intros c y EE. apply (f_equal (@rev _)) in EE. rewrite rev_involutive in EE. exact (B2 c (rev y) EE).
Qed.
Lemma app_len_eq {A} (a b c d : list A) : a ++ b = c ++ d -> length a = length c -> a = c /\ b = d.
Proof.
  revert c. induction a as [|x a IH]; intros [|y c] E L; cbn in L; try discriminate; [auto|].
  cbn [app] in E. injection E as -> E. injection L as L. destruct (IH c E L) as [-> ->]. auto.
Qed.
Lemma converted_unique s x : Converted s x -> forall y, Converted s y -> x = y.
Proof.
  induction 1 as [s N|pre t a b c s s' O H IH L]; intros y HY.
  - inversion HY as [s0 N0|pre t a b c s0 s0' O H L]; subst; [reflexivity|]. destruct (N pre t s0 a b c O eq_refl).
  - remember (pre ++ t ++ s) as whole eqn:W. destruct HY as [s0 N0|pre2 t2 a2 b2 c2 s2 s2' O2 H2 L2].
    + destruct (N0 pre t s a b c O W).
    + assert (EL : length pre = length pre2).
      { assert (length pre <= length pre2) by (eapply L; [exact O2|reflexivity]). assert (length pre2 <= length pre) by (eapply L2; [exact O|exact W]). lia. }
      apply app_len_eq in W; [|congruence]. destruct W as [-> W].
      assert (Q1 := proj2 (old_spec (t ++ s) a b c s) (ex_intro _ t (conj O eq_refl))).
      assert (Q2 := proj2 (old_spec (t2 ++ s2) a2 b2 c2 s2) (ex_intro _ t2 (conj O2 eq_refl))).
      rewrite W, Q1 in Q2. injection Q2 as -> -> -> ->. rewrite (IH _ H2). reflexivity.
Qed.
Lemma cut_unique (f : char -> Prop) (a b c d : str) : Forall (fun x => ~ f x) a -> Forall (fun x => ~ f x) c ->
  (b = [] \/ exists x r, b = x :: r /\ f x) -> (d = [] \/ exists x r, d = x :: r /\ f x) -> a ++ b = c ++ d -> a = c /\ b = d.
Proof.
  intros Ha. revert c. induction Ha as [|x a Hx Ha IH]; intros c Hc Hb Hd E; destruct Hc as [|y c Hy Hc]; cbn [app] in E.
  - auto.
  - destruct Hb as [->|(z & r & -> & F)]; [discriminate|]. injection E as -> _. contradiction.
  - destruct Hd as [->|(z & r & -> & F)]; [discriminate|]. injection E as -> _. contradiction.
  - injection E as -> E. destruct (IH c Hc Hb Hd E) as [-> ->]. auto.
Qed.
Lemma pipe_forall s : ~ In cPIPE s -> Forall (fun x => ~ x = cPIPE) s.
Proof. intros H. rewrite Forall_forall. intros x Hx ->. contradiction. Qed.
Lemma pipeline_unique s l : Pipeline s l -> forall l', Pipeline s l' -> l = l'.
Proof.
  induction 1 as [s N|s r l N P IH]; intros l' H'.
  - inversion H' as [s0 N0|s0 r l N0 P]; subst; [reflexivity|]. destruct N. apply in_or_app. right. left. reflexivity.
  - remember (s ++ u "|" ++ r) as w eqn:W. destruct H' as [s0 N0|s0 r0 l0 N0 P0].
    + subst. destruct N0. apply in_or_app. right. left. reflexivity.
    + apply (cut_unique (fun x => x = cPIPE)) in W; [|apply pipe_forall, N0|apply pipe_forall, N|right; exists cPIPE, r0; split; reflexivity|right; exists cPIPE, r; split; reflexivity].
      destruct W as [-> W]. injection W as ->. rewrite (IH _ P0). reflexivity.
Qed.
Lemma withz_unique z s x y : WithZ z s x -> WithZ z s y -> x = y.
Proof.
  intros [w|w H|n a H H1 H2] HY.
  - inversion HY. reflexivity.
  - inversion HY as [| |n a H' H1 H2]; subst; [reflexivity|contradiction].
  - remember (n ++ a) as w eqn:W. remember true as zz eqn:Z. destruct HY as [w0|w0 H0|n0 a0 H0 H10 H20].
    + discriminate.
    + subst. contradiction.
    + apply (cut_unique blank_char) in W as [-> ->]; auto.
Qed.
Lemma helped_unique m s x y : Helped m s x -> Helped m s y -> x = y.
Proof. intros H1 H2. destruct H1; destruct H2; try contradiction; reflexivity. Qed.
Theorem rewritten_unique z i x y : Rewritten z i x -> Rewritten z i y -> x = y.
Proof.
  intros (m0 & m & m1 & l & ls & -> & T & C & P & F & ->) (m0' & m' & m1' & l' & ls' & -> & T' & C' & P' & F' & ->).
  rewrite (trimmed_unique _ _ _ T' T) in *.
  assert (EM : m1' = m1). { destruct C as [[C1 ->]|[C1 C2]], C' as [[D1 ->]|[D1 D2]]; try contradiction; [reflexivity|eapply converted_unique; eassumption]. }
  rewrite EM in *. rewrite (pipeline_unique _ _ P' _ P) in *.
  assert (E : ls' = ls).
  { clear - F F'. revert ls' F'. induction F as [|a b l ls H F IH]; intros ls' F'; inversion F' as [|a' b' l0 ls0 H' F0]; subst; [reflexivity|].
    f_equal; [|apply IH; assumption]. destruct H as (t & t' & A1 & A2 & A3), H' as (t2 & t2' & B1 & B2 & B3).
    rewrite (trimmed_unique _ _ _ A1 B1) in *. rewrite (withz_unique _ _ _ _ A2 B2) in *. eapply helped_unique; eassumption. }
  rewrite E. reflexivity.
Qed.

(** ** a second run changes nothing *)
Definition sl (s : str) : list str := fst (split s) :: snd (split s).
Lemma sl_cons c s : c <> cPIPE -> sl (c :: s) = (c :: fst (split s)) :: snd (split s).
Proof. intros N. unfold sl. cbn [split]. destruct (split s). apply ceq_neq in N. rewrite N. reflexivity. Qed.
Lemma sl_pipe s : sl (cPIPE :: s) = [] :: sl s.
Proof. unfold sl. cbn [split]. destruct (split s). reflexivity. Qed.
Lemma sl_app a b : ~ In cPIPE a -> sl (a ++ b) = (a ++ fst (split b)) :: snd (split b).
Proof.
  induction a as [|c a IH]; intros N; [reflexivity|]. cbn [app]. rewrite sl_cons by (intros ->; apply N; left; reflexivity).
  assert (IH' : sl (a ++ b) = (a ++ fst (split b)) :: snd (split b)) by (apply IH; intros H; apply N; right; exact H).
  unfold sl in IH'. injection IH' as E1 E2. rewrite E1, E2. reflexivity.
Qed.
Lemma ltrim_space c s : is_space c = true -> ltrim (c :: s) = ltrim s.
Proof. intros H. cbn [ltrim]. rewrite H. reflexivity. Qed.
Lemma space_pipe c : is_space c = true -> c <> cPIPE.
Proof. intros H ->. discriminate. Qed.
Lemma ltrim_idem s : ltrim (ltrim s) = ltrim s.
Proof. induction s as [|c s IH]; [reflexivity|]. cbn [ltrim]. destruct (is_space c) eqn:E; [exact IH|]. cbn [ltrim]. rewrite E. reflexivity. Qed.
Lemma trim_of s t : Trimmed s t -> trim s = t.
Proof. intros H. eapply trimmed_unique; [apply trim_spec|exact H]. Qed.
Lemma trim_cons c s : is_space c = true -> trim (c :: s) = trim s.
Proof.
  intros H. apply trim_of. destruct (trim_spec s) as (l & r & E & A & B & C & D). exists (c :: l), r.
  split; [cbn; rewrite E at 1; reflexivity|]. split; [constructor; [apply space_spec, H|exact A]|]. repeat split; assumption.
Qed.
Lemma trim_snoc c s : is_space c = true -> trim (s ++ [c]) = trim s.
Proof.
  intros H. apply trim_of. destruct (trim_spec s) as (l & r & E & A & B & C & D). exists l, (r ++ [c]).
  split; [rewrite E at 1; appeq|]. split; [exact A|]. split; [apply Forall_app; split; [exact B|constructor; [apply space_spec, H|constructor]]|]. split; assumption.
Qed.
Lemma trim_trim s : trim (trim s) = trim s.
Proof.
  apply trim_of. destruct (trim_spec s) as (l & r & E & A & B & C & D). exists [], []. rewrite app_nil_r. repeat split; try constructor; assumption.
Qed.
Lemma sl_snoc s : forall c, c <> cPIPE -> exists init x, sl s = init ++ [x] /\ sl (s ++ [c]) = init ++ [x ++ [c]].
Proof.
  induction s as [|d s IH]; intros c N; cbn [app].
  - exists [], []. split; [reflexivity|]. rewrite sl_cons by exact N. reflexivity.
  - destruct (IH c N) as (init & x & E1 & E2). ceq_case d cPIPE.
    + rewrite !sl_pipe, E1, E2. exists ([] :: init), x. split; reflexivity.
    + rewrite !sl_cons by exact E. unfold sl in E1, E2. destruct init as [|i0 init]; cbn [app] in E1, E2; injection E1 as -> ->; injection E2 as -> ->.
      * exists [], (d :: x). split; reflexivity.
      * exists ((d :: i0) :: init), x. split; reflexivity.
Qed.
Lemma sl_ltrim s : map trim (sl (ltrim s)) = map trim (sl s).
Proof.
  induction s as [|c s IH]; [reflexivity|]. cbn [ltrim]. destruct (is_space c) eqn:E; [|reflexivity].
  rewrite IH, sl_cons by (apply space_pipe, E). unfold sl. cbn [map]. rewrite trim_cons by exact E. reflexivity.
Qed.
Lemma sl_rtrim r s : spaces r -> map trim (sl (s ++ r)) = map trim (sl s).
Proof.
  revert s. induction r as [|c r IH]; intros s H; [rewrite app_nil_r; reflexivity|]. inversion H as [|? ? Hc Hr]; subst.
  replace (s ++ c :: r) with ((s ++ [c]) ++ r) by appeq. rewrite (IH _ Hr).
  apply space_spec in Hc. destruct (sl_snoc s c (space_pipe _ Hc)) as (i & x & E1 & E2). rewrite E1, E2, !map_app. cbn [map]. rewrite trim_snoc by exact Hc. reflexivity.
Qed.
Lemma sl_ltrim' l s : spaces l -> map trim (sl (l ++ s)) = map trim (sl s).
Proof.
  induction 1 as [|c l Hc Hl IH]; [reflexivity|]. cbn [app]. apply space_spec in Hc. rewrite sl_cons by (apply space_pipe, Hc). rewrite <- IH.
  unfold sl. cbn [map]. rewrite trim_cons by exact Hc. reflexivity.
Qed.
Lemma sl_trim s : map trim (sl (trim s)) = map trim (sl s).
Proof.
  destruct (trim_spec s) as (l & r & E & A & B & C & D). rewrite E at 2. rewrite sl_ltrim' by exact A. rewrite sl_rtrim by exact B. reflexivity.
Qed.
Lemma sl_join L : L <> [] -> Forall (fun x => ~ In cPIPE x) L -> map trim (sl (join L)) = map trim L.
Proof.
  intros N H. induction H as [|x L Hx H IH]; [congruence|]. destruct L as [|y L].
  - cbn [join]. replace x with (x ++ []) at 1 by apply app_nil_r. rewrite sl_app by exact Hx. cbn. rewrite app_nil_r. reflexivity.
  - transitivity (map trim ((x ++ [cSP]) :: sl ([cSP] ++ join (y :: L)))).
    { f_equal. change (join (x :: y :: L)) with (x ++ (cSP :: cPIPE :: cSP :: join (y :: L))). etransitivity; [apply sl_app; exact Hx|].
      unfold sl. generalize (join (y :: L)). intros k. cbn [app split]. destruct (split k) as [h t]. reflexivity. }
    cbn [map].
    rewrite trim_snoc by reflexivity. rewrite sl_ltrim' by (constructor; [cbv; auto 10|constructor]). rewrite IH by discriminate. reflexivity.
Qed.
Lemma pipeline_sl s l : Pipeline s l -> l = sl s.
Proof. intros H. eapply pipeline_unique; [exact H|apply split_spec]. Qed.

(** patterns without white space at their ends and without bars *)
Definition solid (p : str) : Prop := (exists c x, p = c :: x /\ ~ space c) /\ (exists c x, p = x ++ [c] /\ ~ space c) /\ ~ In cPIPE p.
Lemma suffix_occ p c s : occurs p s -> occurs p (c :: s).
Proof. intros (a & b & ->). exists (c :: a), b. reflexivity. Qed.
Lemma occ_app p a s b : occurs p s -> occurs p (a ++ s ++ b).
Proof. intros (x & y & ->). exists (a ++ x), (y ++ b). appeq. Qed.
Lemma occ_unspace_l p l s : solid p -> spaces l -> occurs p (l ++ s) -> occurs p s.
Proof.
  intros ((c & x & -> & N) & _) H. induction H as [|d l Hd H IH]; intros O; [exact O|]. apply IH. destruct O as ([|a0 a] & b & E); cbn [app] in E.
  - injection E as -> _. contradiction.
  - injection E as _ E. exists a, b. exact E.
Qed.
Lemma occ_rev p s : occurs p s -> occurs (rev p) (rev s).
Proof. intros (a & b & ->). exists (rev b), (rev a). rewrite !rev_app_distr, app_assoc. reflexivity. Qed.
Lemma solid_rev p : solid p -> solid (rev p).
Proof.
  intros ((c & x & E & N) & (d & y & E' & N') & NP). split; [|split].
  - exists d, (rev y). rewrite E', rev_app_distr. split; [reflexivity|exact N'].
  - exists c, (rev x). rewrite E. split; [reflexivity|exact N].
  - intros H. apply in_rev in H. contradiction.
Qed.
Lemma occ_trim p s t : solid p -> Trimmed s t -> occurs p s -> occurs p t.
Proof.
  intros S (l & r & -> & A & B & _) O. apply (occ_unspace_l _ _ _ S A) in O. apply occ_rev in O. rewrite rev_app_distr in O.
  apply (occ_unspace_l _ _ _ (solid_rev _ S) (spaces_rev _ B)) in O. apply occ_rev in O. rewrite !rev_involutive in O. exact O.
Qed.
Lemma occ_sl p s : solid p -> occurs p s -> Exists (occurs p) (sl s).
Proof.
  intros S. destruct S as ((c0 & x0 & E0 & _) & _ & NP). induction s as [|c s IH]; intros (a & b & E).
  - destruct a; [subst p; discriminate|discriminate].
  - destruct a as [|a0 a]; cbn [app] in E.
    + rewrite E. rewrite sl_app by exact NP. left. exists [], (fst (split b)). reflexivity.
    + injection E as <- E. assert (O : occurs p s) by (exists a, b; exact E). specialize (IH O). ceq_case c cPIPE.
      * rewrite sl_pipe. right. exact IH.
      * rewrite sl_cons by exact E1. unfold sl in IH. inversion IH; subst; [left; apply suffix_occ; assumption|right; assumption].
Qed.
Lemma occ_join p L : Exists (occurs p) L -> occurs p (join L).
Proof.
  induction 1 as [x L H|x L H IH].
  - destruct L; cbn [join]; [exact H|]. apply (occ_app p [] x). exact H.
  - destruct L as [|y L]; [inversion H|]. change (join (x :: y :: L)) with (x ++ u " | " ++ join (y :: L)).
    rewrite app_assoc. rewrite <- (app_nil_r (join (y :: L))). apply occ_app, IH.
Qed.
Lemma in_sl x s : In x (sl s) -> (forall c, In c x -> In c s) /\ ~ In cPIPE x.
Proof.
  revert x. induction s as [|c s IH]; intros x H.
  - destruct H as [<-|[]]. split; [intros c []|intros []].
  - ceq_case c cPIPE.
    + rewrite sl_pipe in H. destruct H as [<-|H]; [split; [intros c []|intros []]|]. destruct (IH x H) as [H1 H2]. split; [intros c Hc; right; apply H1, Hc|exact H2].
    + rewrite sl_cons in H by exact E. destruct H as [<-|H].
      * destruct (IH (fst (split s)) (or_introl eq_refl)) as [H1 H2]. split; [intros d [<-|Hd]; [left; reflexivity|right; apply H1, Hd]|].
        intros [->|Hp]; [apply E; reflexivity|exact (H2 Hp)].
      * destruct (IH x (or_intror H)) as [H1 H2]. split; [intros d Hd; right; apply H1, Hd|exact H2].
Qed.
Lemma trimmed_in s t : Trimmed s t -> forall c, In c t -> In c s.
Proof. intros (l & r & -> & _) c H. apply in_or_app. right. apply in_or_app. left. exact H. Qed.
Lemma filter_id (s : str) : ~ In cNL s -> filter (fun c => negb (c =?c cNL)) s = s.
Proof.
  induction s as [|c s IH]; intros N; [reflexivity|]. cbn [filter]. ceq_case c cNL; [destruct N; left; reflexivity|]. cbn [negb]. rewrite IH; [reflexivity|]. intros H; apply N; right; exact H.
Qed.
Lemma solid_b p : (match p with c :: _ => negb (is_space c) | [] => false end && match rev p with c :: _ => negb (is_space c) | [] => false end && negb (mem cPIPE p)) = true -> solid p.
Proof.
  intros H. apply andb_true_iff in H as [H H3]. apply andb_true_iff in H as [H1 H2]. split; [|split].
  - destruct p as [|c x]; [discriminate|]. exists c, x. split; [reflexivity|]. apply space_false, negb_true_iff, H1.
  - destruct (rev p) as [|c x] eqn:R; [discriminate|]. exists c, (rev x). split; [rewrite <- (rev_involutive p), R; reflexivity|]. apply space_false, negb_true_iff, H2.
  - apply mem_nIn, negb_true_iff, H3.
Qed.
Lemma occ_lines p s : ~ In cNL p -> occurs p s -> occurs p (read_lines s).
Proof. intros N (a & b & ->). unfold read_lines. rewrite !filter_app. rewrite (filter_id p) by exact N. exists (filter (fun c => negb (c =?c cNL)) a), (filter (fun c => negb (c =?c cNL)) b). reflexivity. Qed.
Lemma single_concat (L : list str) : concat (map (fun x => [x]) L) = L.
Proof. induction L; cbn; congruence. Qed.
Lemma join_in c L : In c (join L) -> In c [cSP; cPIPE] \/ exists x, In x L /\ In c x.
Proof.
  induction L as [|x L IH]; [intros []|]. destruct L as [|y L]; [intros H; right; exists x; split; [left; reflexivity|exact H]|].
  change (join (x :: y :: L)) with (x ++ u " | " ++ join (y :: L)). intros H. apply in_app_or in H as [H|H]; [right; exists x; split; [left; reflexivity|exact H]|].
  apply in_app_or in H as [H|H]; [left; cbv in H |- *; intuition|]. destruct (IH H) as [K|(z & Hz & K)]; [left; exact K|right; exists z; split; [right; exact Hz|exact K]].
Qed.
Theorem mode_idempotent input : occurs (u "lt-proc -b") input -> wblank_mode false (wblank_mode false input) = wblank_mode false input.
Proof.
  intros LB. destruct (mode_ok false input) as (m0 & m & m1 & l & ls & E0 & T & C & P & F & EO).
  assert (SB : solid (u "lt-proc -b")) by (apply solid_b; reflexivity).
  assert (SH : solid (u "apertium-wblank-")) by (apply solid_b; reflexivity).
  assert (SC : solid (u "apertium-restore-caps")) by (apply solid_b; reflexivity).
  assert (LB0 : occurs (u "lt-proc -b") m0) by (rewrite E0; apply occ_lines; [intros H; cbv in H; intuition discriminate|exact LB]).
  assert (LBm := occ_trim _ _ _ SB T LB0). destruct C as [[_ ->]|[C _]]; [|contradiction].
  apply pipeline_sl in P. set (L := concat ls) in *.
  (* every stage of the output *)
  assert (HL : forall y, In y L -> trim y = y /\ ~ In cPIPE y /\ ~ In cNL y).
  { intros y Hy. unfold L in Hy. apply in_concat in Hy as (o & Ho & Hy).
    assert (K : exists x, In x l /\ StageOut false m x o).
    { clear - F Ho. induction F as [|a b l ls H F IH]; [destruct Ho|]. destruct Ho as [->|Ho]; [exists a; split; [left; reflexivity|exact H]|]. destruct (IH Ho) as (x & Hx & S). exists x; split; [right; exact Hx|exact S]. }
    destruct K as (x & Hx & t & t' & TT & W & HH). inversion W; subst t'; clear W.
    rewrite P in Hx. apply in_sl in Hx as [Hx1 Hx2].
    assert (Q : trim t = t /\ ~ In cPIPE t /\ ~ In cNL t).
    { split; [rewrite <- (trim_of _ _ TT); apply trim_trim|]. split; [intros K; apply Hx2; eapply trimmed_in; eassumption|].
      intros K. apply (trimmed_in _ _ TT), Hx1, (trimmed_in _ _ T) in K. rewrite E0 in K. apply filter_In in K as [_ K]. discriminate. }
    assert (QA : forall h, In h [u "apertium-wblank-attach"; u "apertium-wblank-detach"] -> trim h = h /\ ~ In cPIPE h /\ ~ In cNL h).
    { intros h [<-|[<-|[]]]; (split; [reflexivity|split; intros K; cbv in K; intuition discriminate]). }
    inversion HH; subst o; cbn [In] in Hy; decompose [or] Hy; try contradiction; subst y; first [exact Q|apply QA; cbn; auto]. }
  assert (NE : L <> []).
  { rewrite P in F. inversion F as [|a b l0 ls0 H F0]; subst. unfold L. cbn [concat]. destruct H as (t & t' & _ & _ & HH). inversion HH; discriminate. }
  assert (JN : ~ In cNL (join L)).
  { intros H. apply join_in in H as [H|(x & Hx & H)]; [cbv in H; intuition discriminate|]. exact (proj2 (proj2 (HL x Hx)) H). }
  assert (MT : map trim L = L). { rewrite <- (map_id L) at 2. apply map_ext_in. intros y Hy. apply HL, Hy. }
  assert (EL : map trim (sl m) = l -> True) by auto. clear EL.
  (* patterns survive *)
  assert (SV : forall p, solid p -> occurs p m -> occurs p (trim (join L))).
  { intros p S O. eapply occ_trim; [exact S|apply trim_spec|]. apply occ_join. apply (occ_sl _ _ S) in O. rewrite <- P in O. rewrite Exists_exists in O |- *.
    destruct O as (x & Hx & O). clear - Hx O F S. unfold L. induction F as [|a b l ls H F IH]; [destruct Hx|]. destruct Hx as [->|Hx].
    - destruct H as (t & t' & TT & W & HH). inversion W; subst t'. exists t. split; [cbn [concat]; apply in_or_app; left; inversion HH; cbn; auto|]. eapply occ_trim; eassumption.
    - destruct (IH Hx) as (y & Hy & O'). exists y. split; [cbn [concat]; apply in_or_app; right; exact Hy|exact O']. }
  assert (HH2 : forall y, In y L -> Helped (trim (join L)) y [y]).
  { intros y Hy. destruct (has (trim (join L)) (u "apertium-wblank-")) eqn:EH; [apply hp_done, has_spec, EH|]. apply occ_false in EH.
    assert (NH : forall h, occurs (u "apertium-wblank-") h -> ~ In h L).
    { intros h O K. apply EH. eapply occ_trim; [exact SH|apply trim_spec|]. apply occ_join. rewrite Exists_exists. exists h. auto. }
    unfold L in Hy. apply in_concat in Hy as (o & Ho & Hy).
    assert (K : exists x, StageOut false m x o).
    { clear - F Ho. induction F as [|a b l ls H F IH]; [destruct Ho|]. destruct Ho as [->|Ho]; [exists a; exact H|exact (IH Ho)]. }
    destruct K as (x & t & t' & TT & W & HH). inversion W; subst t'; clear W.
    assert (HI : forall h, In h o -> In h L) by (intros h Hh; unfold L; apply in_concat; exists o; auto).
    inversion HH; subst o.
    - destruct EH. apply SV; assumption.
    - destruct (NH (u "apertium-wblank-attach")); [exists [], (u "attach"); reflexivity|apply HI; cbn; auto].
    - destruct (NH (u "apertium-wblank-detach")); [exists [], (u "detach"); reflexivity|apply HI; cbn; auto].
    - destruct Hy as [->|[]]. apply hp_caps; auto.
    - destruct Hy as [->|[]]. apply hp_other; auto. }
  eapply rewritten_unique; [apply mode_ok|]. set (out := wblank_mode false input) in *.
  exists (join L), (trim (join L)), (trim (join L)), (sl (trim (join L))), (map (fun x => [x]) L).
  split; [|split; [apply trim_spec|split; [left; split; [apply SV; assumption|reflexivity]|split; [apply split_spec|split]]]].
  - unfold without_nl. rewrite EO. change (filter (fun c => negb (N.eqb c cNL)) (join L ++ [cNL])) with (filter (fun c => negb (c =?c cNL)) (join L ++ [cNL])).
    rewrite filter_app, filter_id by exact JN. cbn. rewrite app_nil_r. reflexivity.
  - assert (E : map trim (sl (trim (join L))) = L).
    { rewrite sl_trim, sl_join; [exact MT|exact NE|]. rewrite Forall_forall. intros x Hx. apply HL, Hx. }
    revert E. generalize (sl (trim (join L))) as k. intros k E. rewrite <- E at 2. clear - HH2 E. assert (HK : forall x, In x k -> Helped (trim (join L)) (trim x) [trim x]).
    { intros x Hx. apply HH2. rewrite <- E. apply in_map, Hx. }
    clear E. induction k as [|x k IH]; [constructor|]. cbn [map]. constructor; [|apply IH; intros; apply HK; right; assumption].
    exists (trim x), (trim x). split; [apply trim_spec|]. split; [constructor|]. apply HK. left. reflexivity.
  - rewrite single_concat. exact EO.
Qed.
