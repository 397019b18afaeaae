(** A sequence of rule applications. *)
From Coq Require Import String ZArith.
From Verif Require Import Model.Base Proofs.Base Model.TransferRules Spec.TransferRules Spec.TransferBlanks Proofs.TransferRules Proofs.TransferBlanks.
Lemma push_all n bl : forall q, length q + length bl <= n -> push_blanks n q bl = q ++ bl.
Proof.
  induction bl as [|b bl IH]; intros q H; [symmetry; apply app_nil_r|]. cbn [length] in H.
  change (push_blanks n q (b :: bl)) with (push_blanks n (if length q <? n then q ++ [b] else q) bl). replace (length q <? n) with true by (symmetry; apply Nat.ltb_lt; lia). rewrite IH by (rewrite app_length; cbn; lia). rewrite <- app_assoc. reflexivity.
Qed.
Section Seqs.
Variable attr_match : str -> str -> str.
Variable attr_replace : str -> str -> str -> str.
Variable copy_case case_from : str -> str -> str.
Variable get_case lower : str -> str.
Variable lists : str -> list str.
Variable dict_case : bool.
Variable macros : str -> nat.
Variable macro_map : list (nat * list instr).
Variable N : list (nat * tinstr).
Hypothesis HN : functional N.
Hypothesis HM : Forall (fun m => incl (flat_map nodes_i (snd m)) N /\ forallb simple_i (snd m) = true) macro_map.
Notation apply_rule := (apply_rule attr_match attr_replace copy_case case_from get_case lower lists dict_case macros macro_map).
Notation apply_rules := (apply_rules attr_match attr_replace copy_case case_from get_case lower lists dict_case macros macro_map).
Notation Rule := (Rule attr_match attr_replace copy_case case_from get_case lower lists dict_case macros macro_map).
Notation Rules := (Rules attr_match attr_replace copy_case case_from get_case lower lists dict_case macros macro_map).
Definition app_ok (a : list tword * list str * list instr) : Prop :=
  Forall (fun w => good_wb (w_wb w)) (fst (fst a)) /\ length (snd (fst a)) = length (fst (fst a)) - 1 /\ incl (flat_map nodes_i (snd a)) N /\ forallb simple_i (snd a) = true.
Lemma load_proj ws bl st : r_bq st = [] -> length bl = length ws - 1 -> proj (load ws bl st) = s_load ws bl (proj st).
Proof. intros B H. unfold load, s_load, proj. cbn. rewrite B, <- H, firstn_all, push_all by (cbn; lia). reflexivity. Qed.
Lemma load_inv ws bl st : Inv N plain st -> Forall (fun w => good_wb (w_wb w)) ws -> Inv N plain (load ws bl st).
Proof. intros (A & C & G1 & G2 & G3) H. split; [exact A|]. split; [exact C|]. split; [exact H|]. split; [exact G2|exact G3]. Qed.
Lemma unload_inv st : Inv N plain st -> Inv N plain (with_frame (with_words st []) None).
Proof. intros (A & C & G1 & G2 & G3). split; [exact A|]. split; [exact C|]. split; [constructor|]. split; [exact G2|exact G3]. Qed.
Lemma rule_bq body s z s' : Rule body s z s' -> s_bq s' = [].
Proof. intros (s1 & _ & ->). reflexivity. Qed.
Lemma rules_sound f l : Forall app_ok l -> forall st zs st', Inv N plain st -> r_bq st = [] -> apply_rules f l st = Some (zs, st') -> Rules l (proj st) zs (proj st') /\ Inv N plain st'.
Proof.
  induction 1 as [|[[ws bl] body] l (A1 & A2 & A3 & A4) H IH]; intros st zs st' HI HB E; cbn [TransferRules.apply_rules] in E; [injection E as <- <-; split; [constructor|exact HI]|]. cbn [fst snd] in *.
  destruct (apply_rule f ws bl body st) as [[z st1]|] eqn:E1; [|discriminate]. destruct (apply_rules f l st1) as [[zs1 st2]|] eqn:E2; [|discriminate]. injection E as <- <-.
  unfold TransferRules.apply_rule in E1. destruct (process_rule _ _ _ _ _ _ _ _ _ _ _ _ _) as [[z0 st0]|] eqn:E0; [|discriminate]. injection E1 as <- <-.
  destruct (rule_correct attr_match attr_replace copy_case case_from get_case lower lists dict_case macros macro_map N HN HM body (load ws bl st) (load_inv _ _ _ HI A1) A3 A4) as [K _].
  destruct (K _ _ _ E0) as [R I0]. rewrite load_proj in R by assumption.
  destruct (IH _ _ _ (unload_inv _ I0) (rule_bq _ _ _ _ R) E2) as [R2 I2]. split; [|exact I2]. apply (rs_cons _ _ _ _ _ _ _ _ _ _ _ _ _ _ _ _ _ _ _ R R2).
Qed.
Lemma rules_complete l : Forall app_ok l -> forall st zs s', Inv N plain st -> r_bq st = [] -> Rules l (proj st) zs s' ->
  exists f0 st', (forall f, f0 <= f -> apply_rules f l st = Some (zs, st')) /\ proj st' = s' /\ Inv N plain st'.
Proof.
  induction 1 as [|[[ws bl] body] l (A1 & A2 & A3 & A4) H IH]; intros st zs s' HI HB R.
  - inversion R; subst. exists 0, st. split; [reflexivity|]. split; [reflexivity|exact HI].
  - inversion R as [|ws0 bl0 body0 l0 s0 z s1 zs1 s2 R1 R2]; subst. cbn [fst snd] in *. rewrite <- load_proj in R1 by assumption.
    destruct (rule_correct attr_match attr_replace copy_case case_from get_case lower lists dict_case macros macro_map N HN HM body (load ws bl st) (load_inv _ _ _ HI A1) A3 A4) as [_ K].
    destruct (K _ _ R1) as (f1 & st1 & E1 & P1 & I1). subst s1.
    destruct (IH (with_frame (with_words st1 []) None) _ _ (unload_inv _ I1) (rule_bq _ _ _ _ R1) R2) as (f2 & st2 & E2 & P2 & I2).
    exists (Nat.max f1 f2), st2. split; [|split; [exact P2|exact I2]]. intros f Hf. cbn [TransferRules.apply_rules]. unfold TransferRules.apply_rule. rewrite E1 by lia. rewrite E2 by lia. reflexivity.
Qed.
End Seqs.
