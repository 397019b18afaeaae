(** C22: HMM parameter initialisation (exact arithmetic). *)
From Coq Require Import String QArith.
From Verif Require Import Model.Base Model.HMM Spec.HMM Proofs.HMM.
Open Scope nat_scope.

(** supervised: the counts are the numbers of tag bigrams and of (tag, class) pairs of the corpus *)
Theorem C22_counts : forall eos l,
  (forall a b, c_pair (counts eos l) a b = count_occ bigram_dec (bigrams eos l) (Some a, Some b)) /\
  (forall a k, c_em (counts eos l) a k = count_occ emission_dec (emissions eos l) (Some a, k)).
Proof. exact counts_spec. Qed.
Print Assumptions C22_counts.

(** transition rows are probability distributions with positive entries: add-one smoothing *)
Theorem C22_transition_rows : forall N (p : nat -> nat -> nat) i, 0 < N ->
  (total (seq 0 N) (estA N p i) == 1)%Q /\ forall j, (0 < estA N p i j)%Q /\
  (estA N p i j == (Qn (p i j) + 1) / (total (seq 0 N) (fun j => Qn (p i j)) + Qn N))%Q.
Proof. exact (fun N p i H => conj (estA_row N p i H) (fun j => conj (estA_pos N p i j H) (estA_value N p i j H))). Qed.
Print Assumptions C22_transition_rows.

(** emission rows, over the ambiguity classes that contain the tag *)
Theorem C22_emission_rows : forall M cls old em i, (exists k, k < M /\ In i (cls k)) ->
  (total (holders M cls i) (estB M cls old em i) == 1)%Q /\
  forall k, k < M -> In i (cls k) -> (0 < estB M cls old em i k)%Q.
Proof. exact (fun M cls old em i H => conj (estB_row M cls old em i H) (fun k H1 H2 => estB_pos M cls old em i k H1 H2)). Qed.
Print Assumptions C22_emission_rows.

(** Kupiec: counts start at 1 *)
Theorem C22_kupiec_counts : forall keos l,
  (forall k, k_occ (kcounts keos l) k = 1 + count_occ Nat.eq_dec (removelast (keos :: l)) k) /\
  (forall a b, k_pair (kcounts keos l) a b = 1 + count_occ npair_dec (combine (keos :: l) l) (a, b)).
Proof. exact kcounts_spec. Qed.
Print Assumptions C22_kupiec_counts.
Lemma kpos keos l : (forall k, 0 < k_occ (kcounts keos l) k) /\ (forall a b, 0 < k_pair (kcounts keos l) a b).
Proof. destruct (kcounts_spec keos l) as [H1 H2]. split; [intros k; rewrite H1; lia|intros a b; rewrite H2; lia]. Qed.
Theorem C22_kupiec_rows : forall N M cls old keos l i, (exists k, k < M /\ In i (cls k)) -> i < N ->
  ((total (seq 0 N) (kupA N M cls (k_pair (kcounts keos l)) i) == 1)%Q /\
   forall j, (0 <= kupA N M cls (k_pair (kcounts keos l)) i j)%Q) /\
  (total (holders M cls i) (kupB M cls old (k_occ (kcounts keos l)) i) == 1)%Q /\
   forall k, In k (holders M cls i) -> (0 < kupB M cls old (k_occ (kcounts keos l)) i k)%Q.
Proof.
  intros N M cls old keos l i [k [Hk Hi]] HN.
  exact (conj (kupA_row N M cls _ i (proj2 (kpos keos l)) (ex_intro _ k (conj Hk Hi)) (ex_intro _ k (ex_intro _ i (conj Hk (conj HN Hi)))))
              (kupB_row M cls old _ i (proj1 (kpos keos l)) (ex_intro _ k (conj Hk Hi)))).
Qed.
Print Assumptions C22_kupiec_rows.

(** Case: three tags, classes {0},{1},{1,2}. *)
Definition excls (k : nat) : list nat := nth k [[0]; [1]; [1; 2]] [].
Definition excorpus := [mktw [1] 2; mktw [2] 2; mktw [0] 0; mktw [] 2; mktw [1] 1; mktw [0] 0].
Example C22_case_counts : c_pair (counts 0 excorpus) 1 2 = 1 /\ c_pair (counts 0 excorpus) 1 0 = 1 /\
  c_pair (counts 0 excorpus) 0 1 = 1 /\ c_em (counts 0 excorpus) 1 2 = 1 /\ c_em (counts 0 excorpus) 1 1 = 1.
Proof. repeat split. Qed.
Example C22_case_A : Qred (estA 3 (c_pair (counts 0 excorpus)) 1 2) = (2 # 5)%Q.
Proof. vm_compute. reflexivity. Qed.
Example C22_case_B : Qred (estB 3 excls (fun _ _ => 0%Q) (c_em (counts 0 excorpus)) 1 2) = (1 # 2)%Q.
Proof. vm_compute. reflexivity. Qed.
Example C22_case_hyp : exists k, k < 3 /\ In 2 (excls k).
Proof. exists 2. cbn. auto. Qed.

(** Remark with proof: a tagged word that is still ambiguous (an error in the corpus, only warned about) is counted
    with the tag of the word before it. *)
Theorem C22_ambiguous_word_counts_previous_tag : forall eos t k1 k2 a b rest,
  tag_seq (Some eos) (mktw [t] k1 :: mktw (a :: b :: rest) k2 :: []) = [Some t; Some t] /\
  c_pair (counts eos [mktw [t] k1; mktw (a :: b :: rest) k2]) t t >= 1.
Proof.
  intros. split; [reflexivity|]. rewrite (proj1 (counts_spec _ _)). unfold bigrams. cbn [tag_seq t_tags combine count_occ].
  destruct (bigram_dec (Some t, Some t) (Some t, Some t)) as [_|n]; [|congruence].
  destruct (bigram_dec _ _); lia.
Qed.
Print Assumptions C22_ambiguous_word_counts_previous_tag.
