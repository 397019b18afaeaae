From Verif Require Import Model.Base Proofs.Base Model.TransferUnit Model.TrxPatterns Model.TrxMachine Model.PostchunkRules Spec.TransferUnit Spec.TrxPatterns
  Proofs.TrxPatterns Proofs.TrxRules Proofs.TrxMatch Proofs.TrxMachine Proofs.TransferRun Model.ChunkLoop.

(** ** patterns of one item: nothing can be read after the dollar *)
Definition dol : lab := LChar cDOL.
Record JInv (t : trans) : Prop := {
  j_pos : 0 < t_next t;
  j_bound : forall p l q, In (p, l, q) (t_edges t) -> p < t_next t /\ q < t_next t;
  j_zero : forall p, ~ In (p, dol, 0) (t_edges t);
  j_out : forall p' p l q, In (p', dol, p) (t_edges t) -> In (p, l, q) (t_edges t) -> exists n, l = LRule n;
  j_in : forall p q p' l, In (p, dol, q) (t_edges t) -> In (p', l, q) (t_edges t) -> l = dol }.
Lemma j_no : JInv no_trans.
Proof. constructor; cbn; try lia; intros; tauto. Qed.
(** a new transition to a new state *)
Lemma j_new t p l : JInv t -> p < t_next t -> (forall p', In (p', dol, p) (t_edges t) -> exists n, l = LRule n) ->
  JInv (mkt (S (t_next t)) (t_edges t ++ [(p, l, t_next t)]) (t_finals t)).
Proof.
  intros J Hp Hl. assert (Fresh : forall a m b, In (a, m, b) (t_edges t) -> a <> t_next t /\ b <> t_next t) by (intros a m b H; destruct (j_bound t J _ _ _ H); lia).
  constructor; cbn [t_next t_edges].
  - lia.
  - intros a m b H. apply in_app_or in H as [H|[[= <- <- <-]|[]]]; [destruct (j_bound t J _ _ _ H); lia|lia].
  - intros a H. apply in_app_or in H as [H|[H|[]]]; [exact (j_zero t J _ H)|]. injection H as _ _ E. assert (K := j_pos t J). lia.
  - intros a b m c H1 H2. apply in_app_or in H1 as [H1|[H1|[]]]; apply in_app_or in H2 as [H2|[H2|[]]].
    + exact (j_out t J _ _ _ _ H1 H2).
    + injection H2 as <- <- <-. exact (Hl _ H1).
    + injection H1 as _ _ <-. destruct (Fresh _ _ _ H2) as [K _]. contradiction.
    + injection H1 as _ _ <-. injection H2 as E _ _. lia.
  - intros a b c m H1 H2. apply in_app_or in H1 as [H1|[H1|[]]]; apply in_app_or in H2 as [H2|[H2|[]]].
    + exact (j_in t J _ _ _ _ H1 H2).
    + injection H2 as <- <- <-. destruct (Fresh _ _ _ H1) as [_ K]. contradiction.
    + injection H1 as _ _ <-. destruct (Fresh _ _ _ H2) as [_ K]. contradiction.
    + injection H1 as _ -> _. injection H2 as _ <- _. reflexivity.
Qed.
Lemma j_insert1 t p l t' q : JInv t -> p < t_next t -> (forall p', In (p', dol, p) (t_edges t) -> exists n, l = LRule n) -> insert1 t l p = (t', q) ->
  JInv t' /\ q < t_next t' /\ In (p, l, q) (t_edges t').
Proof.
  intros J Hp Hl E. apply insert1_spec in E as [[-> H]|(-> & -> & _)].
  - split; [exact J|]. split; [apply (j_bound t J _ _ _ H)|exact H].
  - split; [apply j_new; assumption|]. cbn. split; [lia|apply in_or_app; right; left; reflexivity].
Qed.
Lemma j_final t q : JInv t -> JInv (set_final t q).
Proof. intros J. unfold set_final. destruct (in_dec _ _ _); [exact J|]. constructor; cbn; apply J. Qed.

Section One.
Variable defs : list (str * list cat_item).
Hypothesis wf : forall c items, lookup_cat defs c = Some items -> Forall item_wf items.
Lemma j_insert_trans t src c items t' f : JInv t -> src < t_next t -> (forall p', ~ In (p', dol, src) (t_edges t)) -> lookup_cat defs c = Some items ->
  insert_trans t src (def_cat items) = Some (t', f) -> JInv t' /\ f < t_next t' /\ forall p', ~ In (p', dol, f) (t_edges t').
Proof.
  intros J Hs Hd L E. unfold insert_trans in E. destruct (join_finals (def_cat items)) as [[cm g]|] eqn:JF; [|discriminate]. injection E as <- <-.
  destruct (joined_props defs (defs_key_ok defs wf) c cm g) as (P0 & Pg & PE & _); [exists items; auto|].
  set (b := t_next t). assert (B0 := j_pos t J).
  assert (NEW : forall a m d, In (a, m, d) (map (shift b) (t_edges cm) ++ [(src, LEps, b)]) -> (b <= a \/ a = src /\ m = LEps) /\ a < b + t_next cm /\ b <= d < b + t_next cm /\ m <> dol /\ forall n, m <> LRule n).
  { intros a m d H. apply in_app_or in H as [H|[[= <- <- <-]|[]]].
    - apply in_map_iff in H as ([[x y] z] & E & H). cbn in E. injection E as <- <- <-. destruct (PE _ _ _ H) as (A & B & C & D). repeat split; try lia; auto.
    - split; [right; auto|]. unfold b. split; [lia|]. split; [lia|]. split; discriminate. }
  assert (OLD : forall a m d, In (a, m, d) (t_edges t) -> a < b /\ d < b) by (intros; eapply j_bound; eauto).
  assert (SRC : src < b) by exact Hs.
  assert (KD : forall p d, In (p, dol, d) (t_edges t ++ map (shift b) (t_edges cm) ++ [(src, LEps, b)]) -> In (p, dol, d) (t_edges t)).
  { intros p d H. apply in_app_or in H as [H|H]; [exact H|]. destruct (NEW _ _ _ H) as (_ & _ & _ & D & _). contradiction. }
  split; [|split].
  - constructor; cbn [t_next t_edges].
    + lia.
    + intros a m d H. apply in_app_or in H as [H|H]; [destruct (OLD _ _ _ H); lia|]. destruct (NEW _ _ _ H) as (_ & A & B & _). lia.
    + intros p H. apply KD in H. exact (j_zero t J _ H).
    + intros p' p l q H1 H2. apply KD in H1. apply in_app_or in H2 as [H2|H2]; [exact (j_out t J _ _ _ _ H1 H2)|].
      destruct (NEW _ _ _ H2) as ([A|[-> _]] & _); [destruct (OLD _ _ _ H1); lia|]. exfalso. exact (Hd _ H1).
    + intros p q p' l H1 H2. apply KD in H1. apply in_app_or in H2 as [H2|H2]; [exact (j_in t J _ _ _ _ H1 H2)|].
      destruct (NEW _ _ _ H2) as (_ & _ & A & _). destruct (OLD _ _ _ H1). lia.
  - cbn. lia.
  - cbn [t_edges]. intros p H. apply KD in H. destruct (OLD _ _ _ H). lia.
Qed.
Record JR (r : rst) : Prop := { jr_t : JInv (r_t r); jr_states : forall c q, look_state (r_states r) 0 c = Some q -> q < t_next (r_t r) /\ q <> 0 }.
Lemma look_cons s0 c0 q0 m c : look_state (((s0, c0), q0) :: m) 0 c = Some q0 \/ look_state (((s0, c0), q0) :: m) 0 c = look_state m 0 c.
Proof. unfold look_state. cbn [find fst snd]. destruct ((s0 =? 0) && str_eqb c0 c); [left; reflexivity|right; reflexivity]. Qed.
Lemma insert1_grow t l p t' q : insert1 t l p = (t', q) -> t_next t <= t_next t'.
Proof. intros E. apply insert1_spec in E as [[-> _]|(-> & _)]; cbn; lia. Qed.
Lemma item_j r c r' q : JR r -> pattern_item defs r 0 c = Some (r', q) -> JR r' /\ q < t_next (r_t r') /\ q <> 0.
Proof.
  intros [J S] E. unfold pattern_item in E. destruct (look_state (r_states r) 0 c) as [q0|] eqn:L; [injection E as <- <-; split; [constructor; assumption|apply S in L; auto]|].
  destruct (lookup_cat defs c) as [items|] eqn:LC; [|discriminate]. destruct (insert1 (r_t r) (LChar cCARET) 0) as [t1 tmp] eqn:I1. cbn [Nat.eqb] in E.
  destruct (j_insert1 (r_t r) 0 (LChar cCARET) t1 tmp J (j_pos _ J) (fun p' H => match j_zero _ J p' H with end) I1) as (J1 & B1 & E1).
  assert (G1 := insert1_grow _ _ _ _ _ I1).
  assert (D1 : forall p', ~ In (p', dol, tmp) (t_edges t1)). { intros p' H. assert (K := j_in _ J1 _ _ _ _ H E1). discriminate K. }
  destruct (insert_trans t1 tmp (def_cat items)) as [[t3 f]|] eqn:I3; [|discriminate].
  destruct (j_insert_trans t1 tmp c items t3 f J1 B1 D1 LC I3) as (J3 & B3 & D3).
  assert (G3 : t_next t1 <= t_next t3). { unfold insert_trans in I3. destruct (join_finals (def_cat items)) as [[cm g]|]; [|discriminate]. injection I3 as <- _. cbn. lia. }
  destruct (insert1 t3 (LChar cDOL) f) as [t4 q4] eqn:I4. injection E as <- <-.
  destruct (j_insert1 t3 f (LChar cDOL) t4 q4 J3 B3 (fun p' H => match D3 p' H with end) I4) as (J4 & B4 & E4). assert (G4 := insert1_grow _ _ _ _ _ I4).
  assert (Q : q4 <> 0). { intros ->. exact (j_zero _ J4 _ E4). }
  split; [constructor; [exact J4|]|auto]. cbn [r_t r_states]. intros c' q' K. destruct (look_cons 0 c q4 (r_states r) c') as [E|E]; rewrite E in K; [injection K as <-; auto|].
  apply S in K. lia.
Qed.
Lemma rule_j r c r' : JR r -> rule defs r [c] = Some r' -> JR r'.
Proof.
  intros [J S] E. unfold rule in E. cbn [pattern] in E. destruct (pattern_item defs _ 0 c) as [[r1 s]|] eqn:P; [|discriminate].
  destruct (item_j (mkrst (r_t r) (r_states r) (r_seen r) (Datatypes.S (r_count r))) c r1 s) as ([J1 S1] & B1 & Q1); [constructor; assumption|exact P|].
  destruct (existsb _ _); [injection E as <-; constructor; assumption|]. destruct (insert1 (r_t r1) _ s) as [t1 f] eqn:I1. injection E as <-.
  destruct (j_insert1 (r_t r1) s _ t1 f J1 B1 (fun p' H => ex_intro _ _ eq_refl) I1) as (J2 & _). constructor; cbn [r_t r_states]; [apply j_final, J2|].
  intros c' q' K. apply S1 in K. apply insert1_grow in I1. unfold set_final. destruct (in_dec _ _ _); cbn; lia.
Qed.
Lemma rules_j ps : Forall (fun cs => exists c, cs = [c]) ps -> forall r r', JR r -> rules defs r ps = Some r' -> JR r'.
Proof.
  induction 1 as [|cs ps (c & ->) _ IH]; intros r r' J E; cbn [rules] in E; [injection E as <-; exact J|].
  destruct (rule defs r [c]) as [r1|] eqn:R; [|discriminate]. exact (IH _ _ (rule_j r c r1 J R) E).
Qed.
Lemma compile_j ps t : Forall (fun cs => exists c, cs = [c]) ps -> compile defs ps = Some t -> JInv t.
Proof.
  intros H E. unfold compile in E. destruct (rules defs _ ps) as [r|] eqn:R; [|discriminate]. injection E as <-. refine (jr_t _ (rules_j ps H _ _ _ R)).
  constructor; [apply j_no|discriminate].
Qed.
End One.
Lemma after_dollar t : JInv t -> forall s y q, path (t_edges t) s y q -> forall x, y = x ++ [MMark cDOL] -> exists p, In (p, dol, q) (t_edges t).
Proof.
  intros J s y q P. induction P as [s|s y q r P IH H|s y q l m r P IH H T]; intros x E.
  - destruct x; discriminate.
  - destruct (IH _ E) as [p K]. destruct (j_out t J _ _ _ _ K H) as [n C]. discriminate C.
  - apply app_inj_tail in E as [_ ->]. destruct l; cbn in T; try contradiction. subst c. exists q. exact H.
Qed.
Lemma nothing_after t : JInv t -> forall s y q, path (t_edges t) s y q -> forall x m, y <> x ++ [MMark cDOL; m].
Proof.
  intros J s y q P. induction P as [s|s y q r P IH H|s y q l m r P IH H T]; intros x m' E.
  - destruct x; discriminate.
  - exact (IH _ _ E).
  - change [MMark cDOL; m'] with ([MMark cDOL] ++ [m']) in E. rewrite app_assoc in E. apply app_inj_tail in E as [E _].
    destruct (after_dollar t J _ _ _ P _ E) as [p K]. destruct (j_out t J _ _ _ _ K H) as [n ->]. destruct m; exact T.
Qed.

Section Match.
Variable lower : char -> char.
Variable defs : list (str * list cat_item).
Variable ps : list (list str).
Variable t : trans.
Hypothesis wf : forall c items, lookup_cat defs c = Some items -> Forall item_wf items.
Hypothesis comp : compile defs ps = Some t.
Hypothesis ones : Forall (fun cs => exists c, cs = [c]) ps.
Lemma blank_kills x : em_blank t (em_run t (x ++ [MMark cDOL])) = [].
Proof.
  unfold em_blank. rewrite <- run_snoc, <- app_assoc. cbn [app].
  destruct (em_run t (x ++ [MMark cDOL; MMark cSP])) eqn:E; [reflexivity|]. exfalso.
  assert (L := proj1 (em_live t (x ++ [MMark cDOL; MMark cSP]))). rewrite E in L. destruct (L eq_refl) as [q P].
  exact (nothing_after t (compile_j defs wf ps t ones comp) _ _ _ P _ _ eq_refl).
Qed.
Lemma init_rules : em_rules t (em_init t) = [].
Proof.
  destruct (em_rules t (em_init t)) as [|n l] eqn:E; [reflexivity|]. exfalso.
  assert (V : visible t (fed lower []) n) by (apply em_rules_spec; change (em_run t (fed lower [])) with (em_init t); rewrite E; left; reflexivity).
  apply visible_matched in V. apply (matched_sound lower defs ps t wf comp [] (Forall_nil _)) in V as (cs & N & _ & F). inversion F. subst cs.
  apply nth_error_In in N. destruct (proj1 (Forall_forall _ _) ones _ N) as [c C]. discriminate C.
Qed.
(** which rule is chosen for a name *)
Lemma classify_spec m r : classify (list (list nat)) (em_rules t) m [] = Some r <-> In r (em_rules t m) /\ forall k, In k (em_rules t m) -> r <= k.
Proof.
  unfold classify. induction (em_rules t m) as [|a l IH] in r |- *; cbn [fold_right existsb].
  - split; [discriminate|intros [[] _]].
  - destruct (fold_right _ None l) as [y|].
    + destruct (proj1 (IH y) eq_refl) as [A B]. split.
      * intros [= <-]. split; [destruct (Nat.min_spec a y) as [[_ ->]|[_ ->]]; [left; reflexivity|right; exact A]|]. intros k [->|H]; [apply Nat.le_min_l|]. specialize (B k H). lia.
      * intros [H1 H2]. f_equal. assert (r <= a) by (apply H2; left; reflexivity). assert (r <= y) by (apply H2; right; exact A). destruct H1 as [->|H1]; [lia|]. specialize (B r H1). lia.
    + assert (N : l = []). { destruct l as [|b l]; [reflexivity|]. exfalso. assert (X : exists k, In k (b :: l) /\ forall j, In j (b :: l) -> k <= j).
        { clear. induction (b :: l) as [|x m IH] eqn:E using list_ind; [discriminate|]. clear. revert x. induction m as [|y m IH]; intros x; [exists x; split; [left; reflexivity|intros j [->|[]]; lia]|].
          destruct (IH y) as (k & K1 & K2). destruct (le_lt_dec x k); [exists x|exists k]; (split; [cbn in *; tauto|]); intros j [->|H]; try lia; specialize (K2 j H); lia. }
        destruct X as (k & K). apply IH in K. discriminate K. }
      subst l. split; [intros [= <-]; split; [left; reflexivity|intros k [->|[]]; lia]|]. intros [[->|[]] _]. reflexivity.
Qed.
Lemma classify_none m : classify (list (list nat)) (em_rules t) m [] = None <-> em_rules t m = [].
Proof.
  unfold classify. destruct (em_rules t m) as [|a l]; [split; reflexivity|]. split; [|discriminate]. cbn [fold_right existsb]. destruct (fold_right _ None l); discriminate.
Qed.
Lemma name_syms r s : Forall (fun i => match i with RChar c => c <> cBS /\ c <> cLT /\ c <> cLC | REsc _ => True | RTag _ => False end) r ->
  (s = [] \/ exists c s', s = c :: s' /\ (c = cLT \/ c = cLC)) -> pname_syms lower (reading_str r ++ s) false = map (sy lower) r ++ [MMark cDOL].
Proof.
  intros H Hs. induction H as [|i r Hi _ IH].
  - cbn [reading_str flat_map app map]. destruct Hs as [->|(c & s' & -> & [->| ->])]; reflexivity.
  - change (reading_str (i :: r)) with (item_str i ++ reading_str r). destruct i as [c|c|g]; cbn [item_str app map sy] in *; [| |contradiction].
    + cbn [pname_syms]. destruct Hi as (A & B & C). rewrite (proj2 (ceq_neq _ _) A), (proj2 (ceq_neq _ _) B), (proj2 (ceq_neq _ _) C). cbn [orb]. f_equal. exact IH.
    + cbn [pname_syms]. rewrite ceq_refl. f_equal. exact IH.
Qed.
Lemma em_name_run r s : Forall (fun i => match i with RChar c => c <> cBS /\ c <> cLT /\ c <> cLC | REsc _ => True | RTag _ => False end) r ->
  (s = [] \/ exists c s', s = c :: s' /\ (c = cLT \/ c = cLC)) -> em_name lower t (em_init t) (reading_str r ++ s) = em_run t ((MMark cCARET :: map (sy lower) r) ++ [MMark cDOL]).
Proof. intros H Hs. unfold em_name. rewrite name_syms by assumption. reflexivity. Qed.
Lemma fed_one r : fed lower [r] = (MMark cCARET :: map (sy lower) r) ++ [MMark cDOL].
Proof. reflexivity. Qed.
Lemma name_chosen r n : no_dollar lower r -> (classify (list (list nat)) (em_rules t) (em_run t (fed lower [r])) [] = Some n <->
  rule_matches lower defs ps n [r] /\ forall m, rule_matches lower defs ps m [r] -> n <= m).
Proof.
  intros ND. assert (NDs : Forall (no_dollar lower) [r]) by (constructor; [exact ND|constructor]). rewrite <- (chosen lower defs ps t wf comp [r] NDs). rewrite classify_spec. unfold classifies. split.
  - intros [A B]. apply em_rules_spec in A. split; [exact A|]. split; [intros []|]. intros m V _. apply B, em_rules_spec, V.
  - intros (A & _ & B). split; [apply em_rules_spec, A|]. intros k K. apply B; [apply em_rules_spec, K|intros []].
Qed.
Lemma name_none r : no_dollar lower r -> (classify (list (list nat)) (em_rules t) (em_run t (fed lower [r])) [] = None <-> forall n, ~ rule_matches lower defs ps n [r]).
Proof.
  intros ND. assert (NDs : Forall (no_dollar lower) [r]) by (constructor; [exact ND|constructor]). rewrite <- (none_chosen lower defs ps t wf comp [r] NDs). split.
  - intros E n C. apply (chosen lower defs ps t wf comp [r] NDs), (name_chosen r n ND) in C. congruence.
  - intros H. destruct (classify _ _ _ _) as [n|] eqn:E; [|reflexivity]. exfalso. apply (name_chosen r n ND), (chosen lower defs ps t wf comp [r] NDs) in E. exact (H n E).
Qed.
Lemma dead_none m : em_empty m = true -> classify (list (list nat)) (em_rules t) m [] = None.
Proof. destruct m; [reflexivity|discriminate]. Qed.
End Match.
