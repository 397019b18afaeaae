(** C16: unigram training accumulates exact fractional counts. *)
From Coq Require Import String QArith Permutation.
From Verif Require Import Model.Base Model.AMap Model.Unigram Spec.Unigram Proofs.Unigram.
Open Scope nat_scope.

(** stored count of one analysis / of a (row, column) pair; 0 if absent *)
Definition count1 (st : ust) (x : analysis) : nat := match find analysis_dec x (model1 st) with Some n => n | None => 0 end.
Definition count2 {K L} (dK : forall x y : K, {x = y} + {x <> y}) (dL : forall x y : L, {x = y} + {x <> y})
  (m : list (K * list (L * nat))) (k : K) (l : L) : nat :=
  match find dK k m with Some r => match find dL l r with Some n => n | None => 0 end | None => 0 end.

(** model 1 *)
Theorem C16_model1 : forall corpus st, train M1 corpus = Some st -> forall x,
  0 < coef st /\ (Qn (count1 st x) / Qn (coef st) == frac analysis_dec ev1 corpus x)%Q.
Proof. exact frac1. Qed.
Print Assumptions C16_model1.

(** model 2: (tags of the first morpheme and all later morphemes, lemma) *)
Theorem C16_model2 : forall corpus st, train M2 corpus = Some st -> forall a l,
  0 < coef st /\
  (Qn (count2 a_dec lemma_dec (model2 st) a l) / Qn (coef st) == frac (pair_dec a_dec lemma_dec) ev2 corpus (a, l))%Q.
Proof. exact frac2. Qed.
Print Assumptions C16_model2.

(** model 3: its three tables *)
Theorem C16_model3 : forall corpus st, train M3 corpus = Some st ->
  (forall i l, Qn (count2 i_dec lemma_dec (m3_l_t st) i l) / Qn (coef st)
               == frac (pair_dec i_dec lemma_dec) ev_l_t corpus (i, l))%Q /\
  (forall i l, Qn (count2 i_dec lemma_dec (m3_cl_ct st) i l) / Qn (coef st)
               == frac (pair_dec i_dec lemma_dec) ev_cl_ct corpus (i, l))%Q /\
  (forall l i, Qn (count2 lemma_dec i_dec (m3_ct_cl st) l i) / Qn (coef st)
               == frac (pair_dec lemma_dec i_dec) ev_ct_cl corpus (l, i))%Q.
Proof. exact frac3. Qed.
Print Assumptions C16_model3.

(** training succeeds on every corpus of non-empty lists of well-formed analyses, and fails if a token has none *)
Theorem C16_succeeds : forall k corpus,
  Forall (fun tok => tok <> [] /\ Forall wf_analysis tok) corpus -> train k corpus <> None.
Proof. exact train_ok. Qed.
Print Assumptions C16_succeeds.

(** the order of the corpus does not matter *)
Theorem C16_order : forall c1 c2 s1 s2, Permutation c1 c2 -> train M1 c1 = Some s1 -> train M1 c2 = Some s2 ->
  forall x, (Qn (count1 s1 x) / Qn (coef s1) == Qn (count1 s2 x) / Qn (coef s2))%Q.
Proof.
  intros c1 c2 s1 s2 HP H1 H2 x. rewrite (proj2 (C16_model1 _ _ H1 x)), (proj2 (C16_model1 _ _ H2 x)).
  apply frac_perm, HP.
Qed.
Print Assumptions C16_order.

Example C16_example :
  let an w t := mkan [mkm (u w) [u t]] in
  let corpus := [[an "a" "n"; an "a" "v"]; [an "a" "n"]; [an "a" "n"; an "b" "v"; an "a" "n"]]%string in
  Forall (fun tok => tok <> [] /\ Forall wf_analysis tok) corpus /\
  match train M1 corpus with
  | Some st => coef st = 6 /\ count1 st (an "a" "n")%string = 13 /\ frac analysis_dec ev1 corpus (an "a" "n")%string == 13 # 6
  | None => False end.
Proof.
  split; [|vm_compute; repeat split].
  repeat (constructor; [split; [discriminate|]; repeat constructor; discriminate|]); constructor.
Qed.
