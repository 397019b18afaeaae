(** Without <mlu> the flag [s_unit] is not set outside a unit. *)
From Coq Require Import String ZArith.
From Verif Require Import Model.Base Proofs.Base Model.TransferRules Spec.TransferRules Proofs.TransferRules.

Scheme Exec_m := Minimality for Exec Sort Prop
with Appended_m := Minimality for Appended Sort Prop
with Printed_m := Minimality for Printed Sort Prop
with Seq_m := Minimality for Seq Sort Prop
with Choose_m := Minimality for Choose Sort Prop
with Body_m := Minimality for Body Sort Prop.
Combined Scheme all_m from Exec_m, Appended_m, Printed_m, Seq_m, Choose_m, Body_m.

Section NoMlu.
Variable attr_match : str -> str -> str.
Variable attr_replace : str -> str -> str -> str.
Variable copy_case case_from : str -> str -> str.
Variable get_case lower : str -> str.
Variable lists : str -> list str.
Variable dict_case : bool.
Variable macros : str -> nat.
Variable macro_map : list (nat * list instr).
Notation den := (den attr_match copy_case case_from get_case dict_case).
Notation den_list := (den_list attr_match copy_case case_from get_case dict_case).
Hypothesis HM : Forall (fun m => forallb no_mlu_i (snd m) = true) macro_map.

Definition calm (e : expr) : Prop := forall c s t bl s1, no_mlu_e e = true -> s_unit s = false -> den c e s = Some (t, bl, s1) -> s_unit s1 = false.
Lemma calm_list l : Forall calm l -> forall c s t bl s1, forallb no_mlu_e l = true -> s_unit s = false -> den_list c l s = Some (t, bl, s1) -> s_unit s1 = false.
Proof.
  induction 1 as [|x l Hx H IH]; intros c s t bl s1 Hn Hs D; cbn [TransferRules.den_list] in D; [injection D as <- <- <-; exact Hs|].
  cbn [forallb] in Hn. apply andb_prop in Hn as [Hn1 Hn2]. destruct (den c x s) as [[[a b1] s2]|] eqn:D1; [|discriminate]. destruct (den_list c l s2) as [[[b b2] s3]|] eqn:D2; [|discriminate].
  injection D as <- <- <-. exact (IH c s2 b b2 s3 Hn2 (Hx c s a b1 s2 Hn1 Hs D1) D2).
Qed.
Lemma calm_all e : calm e.
Proof.
  induction e as [id sd part pos q link|id v|id|id n|id sd part pos|id pos e IH|l IH|l IH|l IH|a b cc t0 l IHt IHl] using expr_ind2; intros c s t bl s1 Hn Hs D.
  - cbn [TransferRules.den] in D. destruct link as [|k link]; unfold at_word in D; (destruct (s_word_at s pos) as [i|]; [|injection D as <- <- <-; exact Hs]); (destruct (nth_error (s_words s) i) as [w|]; [|discriminate]).
    + destruct sd; try (injection D as <- <- <-; exact Hs); (destruct (is_lemma part && (1 <? s_ll s)); [|injection D as <- <- <-; exact Hs]); rewrite Hs in D; destruct (c_let c); injection D as <- <- <-; exact Hs.
    + injection D as <- <- <-; exact Hs.
  - injection D as <- <- <-; exact Hs.
  - cbn [TransferRules.den] in D. destruct (s_bq s); [injection D as <- <- <-; exact Hs|]. injection D as <- <- <-. destruct (c_out c); exact Hs.
  - injection D as <- <- <-; exact Hs.
  - cbn [TransferRules.den] in D. unfold at_word in D. destruct (s_word_at s pos) as [i|]; [|injection D as <- <- <-; exact Hs]. destruct (nth_error (s_words s) i) as [w|]; [|discriminate]. injection D as <- <- <-; exact Hs.
  - cbn [TransferRules.den] in D. unfold at_word in D. destruct (s_word_at s pos) as [i|]; [|injection D as <- <- <-; exact Hs]. destruct (nth_error (s_words s) i) as [w|]; [|discriminate].
    destruct (den c e s) as [[[d bl'] s2]|] eqn:D1; [|discriminate]. injection D as <- <- <-. exact (IH c s d bl' s2 Hn Hs D1).
  - exact (calm_list l IH c s t bl s1 Hn Hs D).
  - cbn [TransferRules.den] in D. match type of D with match ?x with _ => _ end = _ => destruct x as [[[w bl'] s2]|]; [|discriminate] end. destruct (unit_wb s2 bl'); [|discriminate]. injection D as <- <- <-. reflexivity.
  - discriminate.
  - change (match name_of copy_case dict_case s a b cc with
      | None => None
      | Some n => match den_list c t0 s with
                  | Some (t, b1, s1) => match den_list c l s1 with
                                        | Some (b, b2, s2) => Some (cCARET :: n ++ t ++ [cLC] ++ b ++ [cRC; cDOL], b1 ++ b2, s2)
                                        | None => None end
                  | None => None
                  end
      end = Some (t, bl, s1)) in D.
    cbn [no_mlu_e] in Hn. apply andb_prop in Hn as [Hn1 Hn2]. destruct (name_of copy_case dict_case s a b cc); [|discriminate].
    destruct (den_list c t0 s) as [[[x b1] s2]|] eqn:D1; [|discriminate]. destruct (den_list c l s2) as [[[y b2] s3]|] eqn:D2; [|discriminate]. injection D as <- <- <-.
    exact (calm_list l IHl c s2 y b2 s3 Hn2 (calm_list t0 IHt c s x b1 s2 Hn1 Hs D1) D2).
Qed.
Notation Seq := (Seq attr_match attr_replace copy_case case_from get_case lower lists dict_case macros macro_map).
Notation Rules := (Rules attr_match attr_replace copy_case case_from get_case lower lists dict_case macros macro_map).
Lemma calm_exec :
  (forall i s z s', Exec attr_match attr_replace copy_case case_from get_case lower lists dict_case macros macro_map i s z s' -> no_mlu_i i = true -> s_unit s = false -> s_unit s' = false) /\
  (forall n l s s', Appended attr_match attr_replace copy_case case_from get_case lower lists dict_case macros macro_map n l s s' -> forallb no_mlu_e l = true -> s_unit s = false -> s_unit s' = false) /\
  (forall l s s', Printed attr_match attr_replace copy_case case_from get_case lower lists dict_case macros macro_map l s s' -> forallb no_mlu_e l = true -> s_unit s = false -> s_unit s' = false) /\
  (forall l s z s', Seq l s z s' -> forallb no_mlu_i l = true -> s_unit s = false -> s_unit s' = false) /\
  (forall l s z s', Choose attr_match attr_replace copy_case case_from get_case lower lists dict_case macros macro_map l s z s' -> forallb (fun o => forallb no_mlu_i (snd o)) l = true -> s_unit s = false -> s_unit s' = false) /\
  (forall l s s', Body attr_match attr_replace copy_case case_from get_case lower lists dict_case macros macro_map l s s' -> forallb no_mlu_i l = true -> s_unit s = false -> s_unit s' = false).
Proof.
  assert (MAC : forall n k b, nth_error macro_map (macros n) = Some (k, b) -> forallb no_mlu_i b = true).
  { intros n k b E. exact (proj1 (Forall_forall _ _) HM (k, b) (nth_error_In _ _ E)). }
  apply all_m; try (intros; cbn in *; congruence).
  - intros id n e s t bl s1 D Hn Hs. exact (calm_all e _ (s_set_vwb s (upd (s_vwb s) n [])) t bl s1 Hn Hs D).
  - intros n l s s1 H IH Hn Hs. exact (IH Hn Hs).
  - intros l s s1 H IH Hn Hs. exact (IH Hn Hs).
  - intros n args npar body ps s s1 E _ _ _ B IH _ Hs. exact (IH (MAC _ _ _ E) Hs).
  - intros n args body s s1 E B IH _ Hs. exact (IH (MAC _ _ _ E) Hs).
  - intros l s z s1 H IH Hn Hs. exact (IH Hn Hs).
  - intros n e l s t bl s1 s2 D H IH Hn Hs. cbn in Hn. apply andb_prop in Hn as [Hn1 Hn2]. apply (IH Hn2). exact (calm_all e _ s t bl s1 Hn1 Hs D).
  - intros e l s t bl s1 s2 D H IH Hn Hs. cbn in Hn. apply andb_prop in Hn as [Hn1 Hn2]. apply (IH Hn2). exact (calm_all e _ s t bl s1 Hn1 Hs D).
  - intros i l s s1 z s2 H1 IH1 H2 IH2 Hn Hs. cbn in Hn. apply andb_prop in Hn as [Hn1 Hn2]. exact (IH2 Hn2 (IH1 Hn1 Hs)).
  - intros i l s z s1 H1 IH1 _ Hn Hs. cbn in Hn. apply andb_prop in Hn as [Hn1 Hn2]. exact (IH1 Hn1 Hs).
  - intros c b l s z s1 _ H IH Hn Hs. cbn in Hn. apply andb_prop in Hn as [Hn1 Hn2]. exact (IH Hn1 Hs).
  - intros c b l s z s1 _ H IH Hn Hs. cbn in Hn. apply andb_prop in Hn as [Hn1 Hn2]. exact (IH Hn2 Hs).
  - intros b l s z s1 H IH _ Hn Hs. cbn in Hn. apply andb_prop in Hn as [Hn1 Hn2]. exact (IH Hn1 Hs).
  - intros b l s s1 z s2 H1 IH1 H2 IH2 Hn Hs. cbn in Hn. apply andb_prop in Hn as [Hn1 Hn2]. exact (IH2 Hn2 (IH1 Hn1 Hs)).
  - intros i l s z s1 s2 H1 IH1 H2 IH2 Hn Hs. cbn in Hn. apply andb_prop in Hn as [Hn1 Hn2]. exact (IH2 Hn2 (IH1 Hn1 Hs)).
Qed.
Lemma calm_rules l s zs s' : Rules l s zs s' -> Forall (fun a => forallb no_mlu_i (snd a) = true) l -> s_unit s = false -> s_unit s' = false.
Proof.
  induction 1 as [s|ws bl body l s z s1 zs s2 (s0 & R & ->) H IH]; intros Hn Hs; [exact Hs|]. inversion_clear Hn as [|? ? Hn1 Hn2]. apply (IH Hn2).
  destruct calm_exec as (_ & _ & _ & K & _). exact (K body (s_load ws bl s) z s0 R Hn1 Hs).
Qed.
End NoMlu.
