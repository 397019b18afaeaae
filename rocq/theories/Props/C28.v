(** C28: combining word-bound blanks keeps every blank's content. *)
From Coq Require Import String.
From Verif Require Import Model.Base Proofs.Base Model.TransferRules Spec.WBlank Proofs.TransferRules Proofs.WBlank.

(** an empty blank is neutral *)
Theorem C28_neutral : forall a, combine_wblanks [] a = Some a /\ combine_wblanks a [] = Some a.
Proof. intros a. split; [reflexivity|apply combine_nil_r]. Qed.
Print Assumptions C28_neutral.
(** two word-bound blanks give one, with the contents of the first followed by those of the second *)
Theorem C28_contents : forall l1 l2, l1 <> [] -> l2 <> [] -> Forall closed l1 ->
  combine_wblanks (wblank l1) (wblank l2) = Some (wblank (l1 ++ l2)).
Proof. intros l1 l2 H1 H2 H3. apply combine_wf; [exact H1|exact H2|apply closed_joined; assumption]. Qed.
Print Assumptions C28_contents.
(** the order of combining does not matter - for arbitrary strings, except for backslashes and ]] alone (see below) *)
Theorem C28_assoc : forall a b c, (forall k, a <> repeat cBS (S k) ++ [cRB; cRB]) -> (forall k, b <> repeat cBS (S k) ++ [cRB; cRB]) ->
  exists x y z, combine_wblanks a b = Some x /\ combine_wblanks b c = Some y /\ combine_wblanks x c = Some z /\ combine_wblanks a y = Some z.
Proof.
  assert (G : forall a, (forall k, a <> repeat cBS (S k) ++ [cRB; cRB]) -> good_wb a).
  { intros a H b. destruct a as [|a0 a]; [discriminate|]. destruct b as [|b0 b]; [rewrite combine_nil_r; discriminate|]. rewrite combine_eq by discriminate. unfold cut.
    destruct (ends_with (a0 :: a) [cRB; cRB]) eqn:E; [|discriminate]. destruct (2 <? length (a0 :: a)) eqn:L; [|discriminate]. apply ends_spec in E as [r E]. rewrite E in L |- *. rewrite cut2_app.
    assert (O : odd_bs (rev r) false <> None).
    { intros O. assert (K : forall l e, odd_bs l e = None -> l = repeat cBS (length l)).
      { induction l as [|c l IH]; intros e Q; [reflexivity|]. cbn in Q. destruct (ceq_spec c cBS) as [->|Hc]; [|rewrite ?(proj2 (ceq_neq _ _) Hc) in Q; discriminate]. rewrite ?ceq_refl in Q. cbn. f_equal. apply (IH _ Q). }
      apply K in O. destruct (length (rev r)) as [|n] eqn:LR; [rewrite rev_length in LR; destruct r; [discriminate L|discriminate LR]|].
      apply (H n). rewrite E. rewrite <- (rev_involutive r), O, rev_reps. reflexivity. }
    destruct (odd_bs (rev r) false) as [[]|]; [discriminate|discriminate|destruct (O eq_refl)]. }
  intros a b c Ha Hb. destruct (combine_assoc a b c (G _ Ha) (G _ Hb)) as (E & N1 & N2).
  destruct (combine_wblanks a b) as [x|]; [|destruct (N1 eq_refl)]. assert (N3 := G _ Hb c). destruct (combine_wblanks b c) as [y|]; [|destruct (N3 eq_refl)].
  destruct (combine_wblanks x c) as [z|] eqn:Z; [|destruct (N2 eq_refl)]. exists x, y, z. repeat split; [exact Z|symmetry; exact E].
Qed.
Print Assumptions C28_assoc.

Example C28_example : combine_wblanks (wblank [u "t:b:1"; u "t:i:2"]) (wblank [u "t:a:3"]) = Some (u "[[t:b:1; t:i:2; t:a:3]]").
Proof. rewrite C28_contents; [reflexivity|discriminate|discriminate|]. repeat constructor; [exists (u "t:b:1"), 0|exists (u "t:i:2"), 0]; (split; [reflexivity|intros r'; destruct r' as [|? [|? [|? [|? [|? r']]]]]; try discriminate; destruct r'; discriminate]). Qed.
(** FINDING: for a blank of backslashes and ]] alone the counting loop (transfer_base.cc:152-156) runs below index 0 *)
Theorem C28_backslashes_refuted : forall k b, b <> [] -> combine_wblanks (repeat cBS (S k) ++ [cRB; cRB]) b = None.
Proof.
  intros k b Hb. rewrite combine_eq; [|discriminate|exact Hb]. unfold cut. rewrite (proj2 (ends_spec _ _)) by (eexists; reflexivity). rewrite cut2_app, rev_reps.
  replace (2 <? _) with true by (symmetry; apply Nat.ltb_lt; rewrite app_length; cbn; lia).
  assert (K : forall n e, odd_bs (repeat cBS n) e = None) by (induction n as [|n IH]; intros e; [reflexivity|cbn; rewrite ?ceq_refl; apply IH]). rewrite K. reflexivity.
Qed.
Print Assumptions C28_backslashes_refuted.
(** an escaped ]] does not end the first blank and is kept *)
Example C28_escaped : combine_wblanks (u "[[t:b:\]]") (u "[[t:a]]") = Some (u "[[t:b:\]]; t:a]]").
Proof. reflexivity. Qed.
