(** C62: apertium-transfer -b, text to text.  Spec/TransferText.v: what a rule does with its units; Spec/TransferRun.v: [Transferred].
    Model: Model/TransferAct.v (applyRule), Model/TransferRules.v (interpreter, C45), Model/TransferUnit.v (tokens, C54),
    Model/TrxPatterns.v, Model/TrxMachine.v (compiled patterns, C55), Model/ChunkLoop.v (the loop, C31). *)
From Coq Require Import String ZArith.
From Verif Require Import Model.Base Proofs.Base Model.ChunkLoop Model.ChunkTokens Model.TransferRules Model.TransferUnit Model.TransferAct Model.TrxPatterns Model.TrxMachine
  Spec.ChunkTokens Spec.TransferUnit Spec.TrxPatterns Spec.TransferRun Spec.TransferRules Spec.TransferText Spec.TransferReject Spec.TrxReject
  Proofs.TransferRules Proofs.TransferUnit Proofs.TrxMachine Proofs.TransferRun Proofs.TransferText Proofs.TransferDefined Proofs.TrxReject Proofs.TransferReject Props.C45 Props.C54 Props.C55 Props.C56 Model.TransferRules.

Section Prog.
Variable attr_match : str -> str -> str.
Variable attr_replace : str -> str -> str -> str.
Variable copy_case case_from : str -> str -> str.
Variable get_case lower_str : str -> str.
Variable lists : str -> list str.
Variable dict_case : bool.
Variable macros : str -> nat.
Variable macro_map : list (nat * list instr).
Variable bodies : list (list instr).
Variable lower : char -> char.
Variable chunk : bool.                               (* <transfer default="chunk"> *)
Definition transfer_run (fuel : nat) (t : trans) (f : nat) (toks : list tkn) (vars : str -> str) :=
  lloop false (list (list nat)) (em_init t) (em_word lower t) (em_blank t) em_empty (em_rules t) (option rst)
    (tact attr_match attr_replace copy_case case_from get_case lower_str lists dict_case macros macro_map fuel bodies) (tdefault chunk)
    f toks (lstart _ (em_init t) _ [] (Some (tstart vars))).
(** the program on a text: with enough stack for the macros it ends, without stopping early, having written [out]; [g]: the variables *)
Definition transfer_prog (t : trans) (vars : str -> str) (text out : str) (g : tglob) : Prop :=
  exists toks, tlex false TTop text [] = Some (toks, None) /\
  exists F0, forall F, F0 <= F -> exists f0 st c, l_g _ _ st = Some c /\ g = mkg (r_vars c) (r_vwb c) (r_in_lu c) /\ forall f, f0 <= f -> transfer_run F t f toks vars = Some (out, st).
End Prog.

Lemma tdefault_passed chunk x : lunit_ok x -> tdefault chunk (token x) = passed_on chunk x.
Proof.
  intros H. destruct (u_tl x) as [|i r] eqn:E; [unfold tdefault, passed_on; rewrite E,  (proj2 (C54_disappears_iff chunk x H) E); reflexivity|].
  assert (NE : u_tl x <> []) by (rewrite E; discriminate). unfold tdefault. destruct chunk; unfold passed_on.
  - rewrite (C54_default_chunk x H NE). unfold C54.chunk_name. rewrite E. reflexivity.
  - rewrite (C54_default_unit x H NE), E. reflexivity.
Qed.
Lemma words_units ws : Forall (fun w => exists x, lunit_ok x /\ token x = w) ws -> exists us, ws = map token us /\ Forall lunit_ok us.
Proof. induction 1 as [|w ws (x & Hx & <-) _ (l & -> & Hl)]; [exists []; auto|]. exists (x :: l). split; [reflexivity|auto]. Qed.

(** A text is answered with o exactly if the rules describe o: the longest match, the first rule, its meaning on the units matched
    (and no others); and there is at most one answer. *)
Theorem C62_transfer_partial : forall attr_match attr_replace copy_case case_from get_case lower_str lists dict_case macros macro_map lower chunk
    defs ps t bodies l final vars,
  TrxPatterns.compile defs ps = Some t -> well_formed defs -> Forall (fun cs => cs <> []) ps -> wf_file ps macro_map bodies ->
  Forall (fun bx => BText (fst bx) /\ lunit_ok (snd bx) /\ dollar_free lower (u_sl (snd bx))) l -> BText final ->
  let prog := transfer_prog attr_match attr_replace copy_case case_from get_case lower_str lists dict_case macros macro_map bodies lower chunk t vars (units_text l final) in
  (forall o g, prog o g <->
    Transferred lunit (fun n us => rule_matches lower defs ps n (map u_sl us)) tglob
      (unit_rule attr_match attr_replace copy_case case_from get_case lower_str lists dict_case macros macro_map bodies) (passed_on chunk) (mkg vars (fun _ => []) false) l final o g) /\
  (forall o1 g1 o2 g2, prog o1 g1 -> prog o2 g2 -> o1 = o2 /\ g1 = g2).
Proof.
  intros am ar cc cf gc ls lists dc macros mm lower chunk defs ps t bodies l final vars HC HW HN WFK HL HF prog. destruct (wf_file_rejecting _ _ _ WFK) as [WF KEEP].
  assert (HL' : Forall (fun bx : str * lunit => BText (fst bx) /\ lunit_ok (snd bx)) l) by (eapply Forall_impl; [|exact HL]; cbn; tauto).
  assert (HU : Forall lunit_ok (map snd l)) by (apply Forall_map; eapply Forall_impl; [|exact HL]; cbn; tauto).
  assert (TL := tlex_units false l final HL' HF).
  set (M := fun n us => rule_matches lower defs ps n (map u_sl us)).
  assert (MN : forall n us, M n us -> us <> []).
  { intros n us (cs & E & _ & F) ->. inversion F. subst cs. apply nth_error_In in E. exact (proj1 (Forall_forall _ _) HN _ E eq_refl). }
  assert (C0 := tstart_clean mm bodies vars).
  assert (RUN : forall F, exists out g', (exists f0 st, l_g _ _ st = g' /\ forall f, f0 <= f -> transfer_run am ar cc cf gc ls lists dc macros mm bodies lower chunk F t f (utoks lunit token l final) vars = Some (out, st)) /\
    forall o h, Transferred lunit M (option rst) (app_f am ar cc cf gc ls lists dc macros mm bodies F) (passed_on chunk) (Some (tstart vars)) l final o h <-> o = out /\ h = g').
  { intros F.
    destruct (run_text lunit token lower defs ps t HW HC HN u_sl lunit_ok (em_word lower t) (em_word_unit lower t) (em_word_dead lower t) false (option rst) (option rst)
      (fun g1 g2 => g1 = g2 /\ match g1 with Some st => Clean mm bodies st | None => True end)
      (tact am ar cc cf gc ls lists dc macros mm F bodies) (fun r g ws bs => tact am ar cc cf gc ls lists dc macros mm F bodies r g (firstn (plen ps r) ws) bs)
      (app_f am ar cc cf gc ls lists dc macros mm bodies F) (tdefault chunk) (passed_on chunk)) with (l := l) (final := final) (g1 := Some (tstart vars)) (g2 := Some (tstart vars)) as (out & g' & (f0 & st & (RS & _) & R) & T).
    - intros r g1 g2 ws bs [<- HCl] HP. apply words_units in HP as (us & -> & HUs).
      destruct g1 as [st|].
      + rewrite <- (tact_local am ar cc cf gc ls lists dc macros mm ps bodies HN WF F r st us bs HCl HUs).
        assert (Q := tact_clean am ar cc cf gc ls lists dc macros mm ps bodies HN WF F r st us bs HCl HUs).
        destruct (tact am ar cc cf gc ls lists dc macros mm F bodies r (Some st) (map token us) bs) as [[[o lf] z] g1]. eauto.
      + cbn. exists None. auto.
    - intros r g ws bs. rewrite firstn_firstn, Nat.min_id. reflexivity.
    - intros. apply (tact_neg am ar cc cf gc ls lists dc macros mm bodies KEEP).
    - intros r g us bs F1 (cs & E & _ & F2) _.
      assert (L : List.length us = plen ps r).
      { unfold plen. rewrite (nth_error_nth _ _ [] E). clear - F2. remember (map u_sl us) as rs eqn:ER. revert us ER. induction F2 as [|c s cs rs H F2 IH]; intros [|y us] ER; try discriminate ER; [reflexivity|]. injection ER as _ ER. cbn. f_equal. apply IH, ER. }
      rewrite firstn_all2 by (rewrite map_length, L; reflexivity).
      destruct (tact am ar cc cf gc ls lists dc macros mm F bodies r g (map token us) bs) as [[[o lf] z] g1] eqn:EA. exists z. exact EA.
    - intros n g us bs o1 l1 g1 o2 l2 g2 [z1 E1] [z2 E2]. rewrite E1 in E2. injection E2 as <- <- _ <-. auto.
    - intros x Hx. apply tdefault_passed, Hx.
    - eapply Forall_impl; [|exact HL]. intros bx (_ & B & C). split; [exact B|exact C].
    - split; [reflexivity|exact C0].
    - exists out, g'. split; [|exact T]. exists f0, st. split; [exact RS|exact R]. }
  split.
  - intros o g. split.
    + intros (toks & E & F0 & K). rewrite TL in E. injection E as <-. destruct (K F0 (le_n _)) as (f1 & st1 & c & EC & -> & R1). destruct (RUN F0) as (out & g' & (f0 & st & ES & R) & T).
      specialize (R1 (Nat.max f0 f1) (Nat.le_max_r _ _)). specialize (R (Nat.max f0 f1) (Nat.le_max_l _ _)). assert (R' := eq_trans (eq_sym R) R1). injection R' as -> ->.
      assert (T1 := proj2 (T o g') (conj eq_refl eq_refl)). rewrite EC in ES. rewrite <- ES in T1.
      exact (to_spec am ar cc cf gc ls lists dc macros mm ps bodies HN WF KEEP M MN (passed_on chunk) F0 l final o (tstart vars) c T1 C0 HU).
    + intros T0. destruct (of_spec am ar cc cf gc ls lists dc macros mm ps bodies HN WF KEEP M MN (passed_on chunk) _ l final o g T0 (tstart vars) eq_refl C0 HU) as (F0 & st' & -> & K).
      exists (utoks lunit token l final). split; [exact TL|]. exists F0. intros F HF0. destruct (RUN F) as (out & g' & (f0 & st & ES & R) & T).
      destruct (proj1 (T _ _) (K F HF0)) as [-> <-]. exists f0, st, st'. split; [exact ES|]. split; [reflexivity|exact R].
  - intros o1 g1 o2 g2 (toks & E & F1 & K1) (toks2 & E2 & F2 & K2). rewrite E in E2. injection E2 as <-.
    destruct (K1 (Nat.max F1 F2) (Nat.le_max_l _ _)) as (f1 & st1 & c1 & EC1 & -> & R1). destruct (K2 (Nat.max F1 F2) (Nat.le_max_r _ _)) as (f2 & st2 & c2 & EC2 & -> & R2).
    specialize (R1 (Nat.max f1 f2) (Nat.le_max_l _ _)). specialize (R2 (Nat.max f1 f2) (Nat.le_max_r _ _)). assert (R' := eq_trans (eq_sym R1) R2). injection R' as -> ->.
    assert (E' := eq_trans (eq_sym EC1) EC2). injection E' as ->. auto.
Qed.
Print Assumptions C62_transfer_partial.
(** and if rules and macros are always defined (Spec/TransferText.v, [defined_file]), every text is answered *)
Theorem C62_answers_partial : forall attr_match attr_replace copy_case case_from get_case lower_str lists dict_case macros macro_map lower chunk
    defs ps t bodies l final vars rank,
  TrxPatterns.compile defs ps = Some t -> well_formed defs -> Forall (fun cs => cs <> []) ps -> wf_file ps macro_map bodies -> defined_file macros macro_map rank ps bodies ->
  Forall (fun bx => BText (fst bx) /\ lunit_ok (snd bx) /\ dollar_free lower (u_sl (snd bx))) l -> BText final ->
  exists o g, transfer_prog attr_match attr_replace copy_case case_from get_case lower_str lists dict_case macros macro_map bodies lower chunk t vars (units_text l final) o g.
Proof.
  intros am ar cc cf gc ls lists dc macros mm lower chunk defs ps t bodies l final vars rank HC HW HN WF DF HL HF.
  destruct (run_text lunit token lower defs ps t HW HC HN u_sl lunit_ok (em_word lower t) (em_word_unit lower t) (em_word_dead lower t) false unit unit (fun _ _ => True)
    (fun _ _ _ _ => ([], [], (-1)%Z, tt)) (fun _ _ _ _ => ([], [], (-1)%Z, tt)) (fun _ _ _ _ o lf _ => o = [] /\ lf = []) (tdefault chunk) (passed_on chunk)) with (l := l) (final := final) (g1 := tt) (g2 := tt) as (out & g' & _ & T).
  - intros. exists tt. auto.
  - reflexivity.
  - reflexivity.
  - intros. auto.
  - intros n g us bs o1 l1 [] o2 l2 [] [-> ->] [-> ->]. auto.
  - intros x Hx. apply tdefault_passed, Hx.
  - eapply Forall_impl; [|exact HL]. intros bx (_ & B & C). split; [exact B|exact C].
  - exact I.
  - destruct DF as [DM DB]. assert (T0 := proj2 (T out g') (conj eq_refl eq_refl)).
    destruct (skeleton lunit (fun n us => rule_matches lower defs ps n (map u_sl us)) unit tglob (fun _ _ _ _ o lf _ => o = [] /\ lf = []) (unit_rule am ar cc cf gc ls lists dc macros mm bodies) (passed_on chunk) (passed_on chunk) tt l final out g') with (g2 := mkg vars (fun _ => []) false) as (o & g & X); [|exact T0|].
    + intros n g us bs (cs & E & _ & F2). apply (rule_tot am ar cc cf gc ls lists dc macros mm rank DM ps bodies n cs g us bs WF DB HN E).
      clear - F2. remember (map u_sl us) as rs eqn:ER. revert us ER. induction F2 as [|c s cs rs H F2 IH]; intros [|y us] ER; try discriminate ER; [reflexivity|]. injection ER as _ ER. cbn. f_equal. apply IH, ER.
    + exists o, g. apply (proj1 (C62_transfer_partial am ar cc cf gc ls lists dc macros mm lower chunk defs ps t bodies l final vars HC HW HN WF HL HF) o g), X.
Qed.
Print Assumptions C62_answers_partial.

(** ** Rules that reject themselves *)
(** the same for files whose rules may reject themselves (Spec/TransferReject.v); which rule takes the place of one that rejects itself:
    Spec/TrxReject.v, [seen]; for words without an escaped backslash *)
Theorem C62_transfer_reject_partial : forall attr_match attr_replace copy_case case_from get_case lower_str lists dict_case macros macro_map lower chunk
    defs ps t bodies l final vars,
  TrxPatterns.compile defs ps = Some t -> well_formed defs -> Forall (fun cs => cs <> []) ps -> wf_rejecting ps macro_map bodies ->
  Forall (fun bx => BText (fst bx) /\ lunit_ok (snd bx) /\ dollar_free lower (u_sl (snd bx)) /\ backslash_free lower (u_sl (snd bx))) l -> BText final ->
  let prog := transfer_prog attr_match attr_replace copy_case case_from get_case lower_str lists dict_case macros macro_map bodies lower chunk t vars (units_text l final) in
  (forall o g, prog o g <->
    TransferredR lunit (fun n us => Spec.TrxReject.seen lower defs ps (map u_sl us) n) tglob
      (unit_rule_r attr_match attr_replace copy_case case_from get_case lower_str lists dict_case macros macro_map bodies) (passed_on chunk) [] (mkg vars (fun _ => []) false) l final o g) /\
  (forall o1 g1 o2 g2, prog o1 g1 -> prog o2 g2 -> o1 = o2 /\ g1 = g2).
Proof.
  intros am ar cc cf gc ls lists dc macros mm lower chunk defs ps t bodies l final vars HC HW HN WF HL HF prog.
  assert (HL' : Forall (fun bx : str * lunit => BText (fst bx) /\ lunit_ok (snd bx)) l) by (eapply Forall_impl; [|exact HL]; cbn; tauto).
  assert (HU : Forall lunit_ok (map snd l)) by (apply Forall_map; eapply Forall_impl; [|exact HL]; cbn; tauto).
  assert (TL := tlex_units false l final HL' HF).
  set (M := fun n us => Spec.TrxReject.seen lower defs ps (map u_sl us) n).
  assert (MM : forall n us, M n us -> exists cs, nth_error ps (n - 1) = Some cs /\ List.length us = List.length cs).
  { intros n us (ms & H & _). assert (RM : rule_matches lower defs ps n (map u_sl us)) by (apply rule_uses_matches; eauto). destruct RM as (cs & E & _ & F2). exists cs. split; [exact E|].
    clear - F2. remember (map u_sl us) as rs eqn:ER. revert us ER. induction F2 as [|c s cs rs H F2 IH]; intros [|y us] ER; try discriminate ER; [reflexivity|]. injection ER as _ ER. cbn. f_equal. apply IH, ER. }
  assert (MN : forall n us, M n us -> us <> []).
  { intros n us H ->. destruct (MM n [] H) as (cs & E & L). destruct cs; [|discriminate]. apply nth_error_In in E. exact (proj1 (Forall_forall _ _) HN _ E eq_refl). }
  assert (C0 := tstart_clean mm bodies vars).
  assert (RUN : forall F, exists out g', (exists f0 st, l_g _ _ st = g' /\ forall f, f0 <= f -> transfer_run am ar cc cf gc ls lists dc macros mm bodies lower chunk F t f (utoks lunit token l final) vars = Some (out, st)) /\
    forall o h, TransferredR lunit M (option rst) (app_r am ar cc cf gc ls lists dc macros mm bodies F) (passed_on chunk) [] (Some (tstart vars)) l final o h <-> o = out /\ h = g').
  { intros F.
    destruct (run_text_r lunit token lower defs ps t HW HC HN u_sl (fun x => lunit_ok x /\ backslash_free lower (u_sl x)) (fun x H => proj2 H) (em_word lower t) (fun x M H => em_word_unit lower t x M (proj1 H)) (em_word_dead lower t) false (option rst) (option rst)
      (fun g1 g2 => g1 = g2 /\ match g1 with Some st => Clean mm bodies st | None => True end)
      (tact am ar cc cf gc ls lists dc macros mm F bodies) (fun r g ws bs => tact am ar cc cf gc ls lists dc macros mm F bodies r g (firstn (plen ps r) ws) bs)
      (app_r am ar cc cf gc ls lists dc macros mm bodies F) (tdefault chunk) (passed_on chunk)) with (l := l) (final := final) (g1 := Some (tstart vars)) (g2 := Some (tstart vars)) as (out & g' & (f0 & st & (RS & _) & R) & T).
    - intros r g1 g2 ws bs [<- HCl] HP.
      assert (HP' : Forall (fun w => exists x, lunit_ok x /\ token x = w) ws) by (eapply Forall_impl; [|exact HP]; intros w (x & [X _] & E); eauto). apply words_units in HP' as (us & -> & HUs).
      destruct g1 as [st|].
      + rewrite <- (tact_local am ar cc cf gc ls lists dc macros mm ps bodies HN WF F r st us bs HCl HUs).
        assert (Q := tact_clean am ar cc cf gc ls lists dc macros mm ps bodies HN WF F r st us bs HCl HUs).
        destruct (tact am ar cc cf gc ls lists dc macros mm F bodies r (Some st) (map token us) bs) as [[[o lf] z] g1]. eauto.
      + cbn. exists None. auto.
    - intros r g ws bs. rewrite firstn_firstn, Nat.min_id. reflexivity.
    - intros r g ws bs o lf z g' E Hz. assert (Z := tact_code am ar cc cf gc ls lists dc macros mm ps bodies HN WF F r g (firstn (plen ps r) ws) bs). cbn beta in E. rewrite E in Z. cbn [fst snd] in Z.
      destruct Z as [Z| ->]; [lia|]. rewrite Nat2Z.id. reflexivity.
    - intros r g us bs F1 H _. destruct (MM r us H) as (cs & E & LC).
      assert (L : List.length us = plen ps r) by (unfold plen; rewrite (nth_error_nth _ _ [] E); exact LC).
      rewrite firstn_all2 by (rewrite map_length, L; reflexivity).
      destruct (tact am ar cc cf gc ls lists dc macros mm F bodies r g (map token us) bs) as [[[o lf] z] g1] eqn:EA. exists z. auto.
    - intros n g us bs z1 o1 l1 g1 z2 o2 l2 g2 (y1 & -> & E1) (y2 & -> & E2). rewrite E1 in E2. injection E2 as <- <- <- <-. auto.
    - intros x [Hx _]. apply tdefault_passed, Hx.
    - eapply Forall_impl; [|exact HL]. intros bx (_ & B & C & D). split; [split; [exact B|exact D]|exact C].
    - split; [reflexivity|exact C0].
    - exists out, g'. split; [|exact T]. exists f0, st. split; [exact RS|exact R]. }
  split.
  - intros o g. split.
    + intros (toks & E & F0 & K). rewrite TL in E. injection E as <-. destruct (K F0 (le_n _)) as (f1 & st1 & c & EC & -> & R1). destruct (RUN F0) as (out & g' & (f0 & st & ES & R) & T).
      specialize (R1 (Nat.max f0 f1) (Nat.le_max_r _ _)). specialize (R (Nat.max f0 f1) (Nat.le_max_l _ _)). assert (R' := eq_trans (eq_sym R) R1). injection R' as -> ->.
      assert (T1 := proj2 (T o g') (conj eq_refl eq_refl)). rewrite EC in ES. rewrite <- ES in T1.
      exact (to_spec_r am ar cc cf gc ls lists dc macros mm ps bodies HN WF M MN (passed_on chunk) F0 [] l final o (tstart vars) c T1 C0 HU).
    + intros T0. destruct (of_spec_r am ar cc cf gc ls lists dc macros mm ps bodies HN WF M MN (passed_on chunk) [] _ l final o g T0 (tstart vars) eq_refl C0 HU) as (F0 & st' & -> & K).
      exists (utoks lunit token l final). split; [exact TL|]. exists F0. intros F HF0. destruct (RUN F) as (out & g' & (f0 & st & ES & R) & T).
      destruct (proj1 (T _ _) (K F HF0)) as [-> <-]. exists f0, st, st'. split; [exact ES|]. split; [reflexivity|exact R].
  - intros o1 g1 o2 g2 (toks & E & F1 & K1) (toks2 & E2 & F2 & K2). rewrite E in E2. injection E2 as <-.
    destruct (K1 (Nat.max F1 F2) (Nat.le_max_l _ _)) as (f1 & st1 & c1 & EC1 & -> & R1). destruct (K2 (Nat.max F1 F2) (Nat.le_max_r _ _)) as (f2 & st2 & c2 & EC2 & -> & R2).
    specialize (R1 (Nat.max f1 f2) (Nat.le_max_l _ _)). specialize (R2 (Nat.max f1 f2) (Nat.le_max_r _ _)). assert (R' := eq_trans (eq_sym R1) R2). injection R' as -> ->.
    assert (E' := eq_trans (eq_sym EC1) EC2). injection E' as ->. auto.
Qed.
Print Assumptions C62_transfer_reject_partial.
(** and every text is answered if rules and macros are always defined *)
Theorem C62_answers_reject_partial : forall attr_match attr_replace copy_case case_from get_case lower_str lists dict_case macros macro_map lower chunk
    defs ps t bodies l final vars rank,
  TrxPatterns.compile defs ps = Some t -> well_formed defs -> Forall (fun cs => cs <> []) ps -> wf_rejecting ps macro_map bodies -> defined_file macros macro_map rank ps bodies ->
  Forall (fun bx => BText (fst bx) /\ lunit_ok (snd bx) /\ dollar_free lower (u_sl (snd bx)) /\ backslash_free lower (u_sl (snd bx))) l -> BText final ->
  exists o g, transfer_prog attr_match attr_replace copy_case case_from get_case lower_str lists dict_case macros macro_map bodies lower chunk t vars (units_text l final) o g.
Proof.
  intros am ar cc cf gc ls lists dc macros mm lower chunk defs ps t bodies l final vars rank HC HW HN WF DF HL HF. destruct DF as [DM DB].
  assert (MM : forall n us, Spec.TrxReject.seen lower defs ps (map u_sl us) n -> exists cs, nth_error ps (n - 1) = Some cs /\ List.length us = List.length cs).
  { intros n us (ms & H & _). assert (RM : rule_matches lower defs ps n (map u_sl us)) by (apply rule_uses_matches; eauto). destruct RM as (cs & E & _ & F2). exists cs. split; [exact E|].
    clear - F2. remember (map u_sl us) as rs eqn:ER. revert us ER. induction F2 as [|c s cs rs H F2 IH]; intros [|y us] ER; try discriminate ER; [reflexivity|]. injection ER as _ ER. cbn. f_equal. apply IH, ER. }
  destruct (transferred_total lunit (fun x => dollar_free lower (u_sl x) /\ backslash_free lower (u_sl x)) (fun n us => Spec.TrxReject.seen lower defs ps (map u_sl us) n) tglob
    (unit_rule_r am ar cc cf gc ls lists dc macros mm bodies) (passed_on chunk) (S (List.length ps))) with (m := List.length l) (j := S (List.length ps)) (bn := @nil nat) (g := mkg vars (fun _ : str => @nil N) false) (l := l) (final := final) as (o & g & T).
  - intros us HO. exists (em_rules t (em_run t (fed lower (map u_sl us)))). intros n. rewrite em_rules_spec. symmetry. apply visible_seen; try assumption; apply Forall_map; (eapply Forall_impl; [|exact HO]); intros x [A B]; assumption.
  - intros n us H. destruct (MM n us H) as (cs & E & L). assert (B : n - 1 < List.length ps) by (apply nth_error_Some; rewrite E; discriminate). split; [lia|]. intros ->. destruct cs; [|discriminate]. apply nth_error_In in E. exact (proj1 (Forall_forall _ _) HN _ E eq_refl).
  - intros n g us bs H _. destruct (MM n us H) as (cs & E & L). exact (rule_tot_r am ar cc cf gc ls lists dc macros mm rank DM ps bodies n cs g us bs DB HN E L).
  - reflexivity.
  - cbn. lia.
  - constructor.
  - constructor.
  - apply Forall_map. eapply Forall_impl; [|exact HL]. intros bx (_ & _ & C & D). auto.
  - exists o, g. apply (proj1 (C62_transfer_reject_partial am ar cc cf gc ls lists dc macros mm lower chunk defs ps t bodies l final vars HC HW HN WF HL HF) o g), T.
Qed.
Print Assumptions C62_answers_reject_partial.

(** ** A case.  The patterns and units of C56.  Rule 1: both words; rule 2 (adjective noun): macro m0 on the adjective, then turned
    round, the adjective agreeing with the noun (C45's rule); rule 3: macro m0 on the noun, then a chunk with the noun.
    The macro lengthens the variable "c", and changes its word's lemma the second time. *)
Definition exmacros : list (nat * list instr) :=
  [(1, [IChoose [(Some (CEqual false (XVar 20 (u "c")) (XLit 21 (u "x"))), [ILet (LClip 22 TL (u "lem") 0 true) (XLit 23 (u "changed"))]); (None, [])];
        IAppend (u "c") [XLit 24 (u "x")]])].
Definition exbodies : list (list instr) :=
  [[IOut [XLu [XClip 30 TL (u "whole") 0 true []]; XB 31; XLu [XClip 32 TL (u "whole") 1 true []]]];
   ICall (u "m0") [0%Z] :: swap_rule;
   [ICall (u "m0") [0%Z]; IOut [XChunk (u "np") [] (u "aa") [XLit 40 (u "<NP>")] [XLu [XClip 41 TL (u "lem") 0 true []; XClip 42 TL (u "tag") 0 true []]]]];
   []].
Definition exrun (F : nat) (bodies : list (list instr)) (l : list (str * lunit)) (final : str) : option (option (str * (str * str))) :=
  option_map (fun t => match tlex false TTop (units_text l final) [] with
    | Some (toks, None) => match transfer_run amatch areplace (fun _ s => s) (fun _ s => s) (fun s => s) (fun s => s) (fun _ => []) false (fun _ => 0) exmacros bodies exlower false F t 60 toks (fun _ => []) with
       | Some (o, st) => match l_g _ _ st with Some c => Some (o, (r_vars c (u "c"), r_vwb c (u "v"))) | None => None end | None => None end
    | _ => None end) (TrxPatterns.compile exdefs exrules).
Example C62_case_run : exrun 2 exbodies exunits (u ".") =
  Some (Some (u " [<p>][[t:b:x]]^gato<n><sg>$ [<b>] ^grande<n><sg>$ ^*qux$, ^grande<adj>$; ^ver<vblex>$! ^np<NP>{^changed<np>$}$.", (u "xx", u "[[t:b:x]]"))).
Proof. vm_compute. reflexivity. Qed.
Example C62_case_wf : wf_file exrules exmacros exbodies.
Proof.
  split; [|split].
  - assert (G : forall l, NoDup (map fst l) -> functional l).
    { intros l. induction l as [|[i x] l IH]; intros ND id t t' H1 H2; [destruct H1|]. inversion ND as [|? ? NI ND']; subst.
      destruct H1 as [H1|H1]; destruct H2 as [H2|H2].
      - congruence.
      - injection H1 as -> ->. destruct (NI (in_map fst _ _ H2)).
      - injection H2 as -> ->. destruct (NI (in_map fst _ _ H1)).
      - apply (IH ND' id); assumption. }
    apply G. vm_compute. repeat constructor; cbn; intuition discriminate.
  - repeat constructor.
  - repeat constructor.
Qed.
Example C62_case_defined : defined_file (fun _ => 0) exmacros (fun _ => 0) exrules exbodies.
Proof.
  split.
  - intros [|[|k]] npar body E; [|discriminate E|discriminate E]. injection E as <- <-. repeat (constructor; cbn); auto.
  - exists 1. assert (C : forall n, 0 < n -> def_i (fun _ => 0) exmacros (fun _ => 0) n 1 (ICall (u "m0") [0%Z])).
    { intros n Hn. split; [constructor; [unfold word_no; lia|constructor]|]. split; [lia|]. eexists. reflexivity. }
    unfold exbodies, swap_rule. repeat (apply Forall2_cons || apply Forall2_nil); repeat (apply Forall_cons || apply Forall_nil); try (apply C; cbn; lia); cbn;
      repeat (apply Forall_cons || apply Forall_nil); cbn; repeat split; auto. left. discriminate.
Qed.
(** the same file with another second rule: it writes "!", and unless the noun is <n> it rejects itself *)
Definition rejecting : list (list instr) :=
  [nth 0 exbodies []; [IOut [XLit 51 (u "!")]; IChoose [(Some (CEqual false (XClip 52 TL (u "tag") 1 true []) (XLit 53 (u "<n>"))), []); (None, [IReject 0])]; IOut [XLu [XClip 54 TL (u "whole") 1 true []]]]; nth 2 exbodies []; []].
Example C62_case_rejecting_run : exrun 2 rejecting exunits (u ".") =
  Some (Some (u " [<p>]! [<b>] ^grande<adj>$ [<b>] ^np<NP>{[[t:b:x]]^gato<n><sg>$}$ ^*qux$, ^grande<adj>$; ^ver<vblex>$! ^np<NP>{^changed<np>$}$.", (u "xx", []))).
Proof. vm_compute. reflexivity. Qed.
Example C62_case_rejecting : wf_rejecting exrules exmacros rejecting.
Proof.
  split; [|split].
  - assert (G : forall l, NoDup (map fst l) -> functional l).
    { intros l. induction l as [|[i x] l IH]; intros ND id t t' H1 H2; [destruct H1|]. inversion ND as [|? ? NI ND']; subst.
      destruct H1 as [H1|H1]; destruct H2 as [H2|H2].
      - congruence.
      - injection H1 as -> ->. destruct (NI (in_map fst _ _ H2)).
      - injection H2 as -> ->. destruct (NI (in_map fst _ _ H1)).
      - apply (IH ND' id); assumption. }
    apply G. vm_compute. repeat constructor; cbn; intuition discriminate.
  - repeat constructor.
  - repeat constructor.
Qed.
(* the other hypotheses: C56_case_hyps *)
(** FINDING: a rule that names a position beyond its pattern is given a word read ahead, if the search for the longest match has read
    one: rule 3 matches one noun, and what position 2 is depends on the text that follows the noun, which is not part of the match
    and is transferred again afterwards (with a longest match of one word, two have been read: the rule "noun adjective" was possible). *)
Definition peeking : list (list instr) := [[]; []; [IOut [XLit 1 (u "<"); XClip 2 TL (u "lem") 1 true []; XLit 3 (u ">")]]; []].
Definition noun := mku None (ch "cat" ++ [RTag (u "n"); RTag (u "sg")]) (ch "gato" ++ [RTag (u "n"); RTag (u "sg")]) [].
Definition verb := mku None (ch "see" ++ [RTag (u "vblex")]) (ch "ver" ++ [RTag (u "vblex")]) [].
Theorem C62_lookahead_refuted :
  exrun 2 peeking [([], noun); (u " ", verb)] (u ".") = Some (Some (u "<ver> ^ver<vblex>$.", ([], []))) /\
  exrun 2 peeking [([], noun)] (u ".") = Some (Some (u "<>.", ([], []))).
Proof. vm_compute. split; reflexivity. Qed.
(** a rule may also change that word, without effect on it *)
Theorem C62_lookahead_write_refuted :
  exrun 2 [[]; []; [ILet (LClip 2 TL (u "lem") 1 true) (XLit 3 (u "oir")); IOut [XClip 4 TL (u "lem") 1 true []]]; []] [([], noun); (u " ", verb)] (u ".") = Some (Some (u "oir ^ver<vblex>$.", ([], []))).
Proof. vm_compute. reflexivity. Qed.
