From Coq Require Import String.
From Verif Require Import Model.Base Model.ShellUtils Spec.ShellUtils.
Fixpoint range (n : nat) (i : Z) : list Z := match n with O => [] | S n => i :: range n (i + 1)%Z end.
Lemma range_nth n : forall i k, nth_error (range n i) k = if (k <? n)%nat then Some (i + Z.of_nat k)%Z else None.
Proof.
  induction n as [|n IH]; intros i [|k]; try reflexivity; cbn [range nth_error].
  - cbn. f_equal. lia.
  - rewrite IH. change (S k <? S n)%nat with (k <? n)%nat. destruct (k <? n)%nat; [f_equal; lia|reflexivity].
Qed.
Lemma nth_ext {A} (l : list A) : forall l', (forall k, nth_error l k = nth_error l' k) -> l = l'.
Proof.
  induction l as [|x l IH]; intros [|y l'] H; [reflexivity|discriminate (H 0)|discriminate (H 0)|].
  pose proof (H 0) as H0. injection H0 as ->. f_equal. apply IH. intros k. exact (H (S k)).
Qed.
Lemma accepted_range lower upper l : accepted lower upper l -> l = range (Z.to_nat (upper - lower)) lower.
Proof.
  intros H. apply nth_ext. intros k. rewrite H, range_nth.
  destruct (Z.ltb_spec (lower + Z.of_nat k) upper), (Nat.ltb_spec k (Z.to_nat (upper - lower))); try reflexivity; lia.
Qed.
Lemma range_accepted lower upper : accepted lower upper (range (Z.to_nat (upper - lower)) lower).
Proof.
  intros k. rewrite range_nth. destruct (Z.ltb_spec (lower + Z.of_nat k) upper), (Nat.ltb_spec k (Z.to_nat (upper - lower))); try reflexivity; lia.
Qed.
Lemma listing_range num n : forall i upper, (upper = i + Z.of_nat n)%Z -> listing num n i upper = enumerate num (range n i).
Proof.
  induction n as [|n IH]; intros i upper E; [reflexivity|]. cbn [listing range]. rewrite IH by lia.
  destruct n as [|[|n]].
  - replace (i <? upper - 1)%Z with false by (symmetry; apply Z.ltb_ge; lia). replace (i =? upper - 2)%Z with false by (symmetry; apply Z.eqb_neq; lia).
    cbn [range enumerate app]. apply app_nil_r.
  - replace (i <? upper - 1)%Z with true by (symmetry; apply Z.ltb_lt; lia). replace (i =? upper - 2)%Z with true by (symmetry; apply Z.eqb_eq; lia). reflexivity.
  - replace (i <? upper - 1)%Z with true by (symmetry; apply Z.ltb_lt; lia). replace (i =? upper - 2)%Z with false by (symmetry; apply Z.eqb_neq; lia). reflexivity.
Qed.
Theorem expect_ok num actual lower upper :
  ((lower <= actual < upper)%Z -> expect_range num actual lower upper = None) /\
  (~ (lower <= actual < upper)%Z -> forall l, accepted lower upper l -> expect_range num actual lower upper = Some (message num l actual)).
Proof.
  unfold expect_range. split.
  - intros H. replace (actual <? lower)%Z with false by (symmetry; apply Z.ltb_ge; lia). replace (upper <=? actual)%Z with false by (symmetry; apply Z.leb_gt; lia). reflexivity.
  - intros H l A. apply accepted_range in A as ->.
    assert (E : ((actual <? lower) || (upper <=? actual))%Z = true) by (apply orb_true_iff; rewrite Z.ltb_lt, Z.leb_le; lia). rewrite E.
    unfold message. f_equal. f_equal. f_equal. destruct (Z.le_gt_cases lower upper); [apply listing_range; lia|].
    replace (Z.to_nat (upper - lower)) with 0 by lia. reflexivity.
Qed.
