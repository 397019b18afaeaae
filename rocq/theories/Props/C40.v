(** C40: a wrong number of file arguments is rejected, with the accepted numbers and the actual one. *)
From Coq Require Import String.
From Verif Require Import Model.Base Model.ShellUtils Spec.ShellUtils Proofs.ShellUtils.

Theorem C40_range : forall (num : Z -> str) (actual lower upper : Z),
  (expect_range num actual lower upper = None <-> (lower <= actual < upper)%Z) /\
  (forall l, accepted lower upper l -> ~ (lower <= actual < upper)%Z -> expect_range num actual lower upper = Some (message num l actual)) /\
  (exists l, accepted lower upper l).
Proof.
  intros num actual lower upper. destruct (expect_ok num actual lower upper) as [H1 H2]. split; [|split].
  - split; [|exact H1]. intros E. destruct (Z_le_dec lower actual), (Z_lt_dec actual upper); try lia;
    rewrite (H2 ltac:(lia) _ (range_accepted _ _)) in E; discriminate.
  - intros l A N. apply H2; assumption.
  - eexists. apply range_accepted.
Qed.
Print Assumptions C40_range.

(** the form with one number *)
Theorem C40_exactly : forall (num : Z -> str) (actual n : Z),
  (expect_exactly num actual n = None <-> actual = n) /\
  (actual <> n -> expect_exactly num actual n = Some (message num [n] actual)).
Proof.
  intros num actual n. unfold expect_exactly. destruct (C40_range num actual n (n + 1)) as (H1 & H2 & _). split.
  - rewrite H1. lia.
  - intros N. apply H2; [|lia]. intros [|k].
    + replace (n + Z.of_nat 0 <? n + 1)%Z with true by (symmetry; apply Z.ltb_lt; lia). cbn. f_equal. lia.
    + replace (n + Z.of_nat (S k) <? n + 1)%Z with false by (symmetry; apply Z.ltb_ge; lia). destruct k; reflexivity.
Qed.
Print Assumptions C40_exactly.

Example C40_example : let num := fun z => [(48 + Z.to_N z)%N] in
  expect_range num 2 1 4 = None /\ expect_range num 4 1 4 = Some (u "expected 1, 2, or 3 file arguments, got 4") /\
  expect_range num 0 1 3 = Some (u "expected 1, or 2 file arguments, got 0") /\
  expect_exactly num 3 2 = Some (u "expected 2 file arguments, got 3").
Proof. vm_compute. repeat split. Qed.
