(** C23: effect of forbid and enforce rules on the transition matrix (exact arithmetic).
    [ruled N forbid enforce i j]: (i, j) is forbidden, or an enforce rule for i does not list j. *)
From Coq Require Import String QArith Lqa.
From Verif Require Import Model.Base Model.HMM Spec.HMM Proofs.HMM.
Open Scope nat_scope.

(** weights before normalisation: the constant 1e-10 for ruled-out transitions, the old weight for all others *)
Theorem C23_weights : forall N forbid enforce a i j,
  let a' := fold_left (enforce_step N) enforce (fold_left forbid_step forbid a) in
  (ruled N forbid enforce i j -> a' i j = ZERO) /\ (~ ruled N forbid enforce i j -> a' i j = a i j).
Proof. exact rules_matrix. Qed.
Print Assumptions C23_weights.

(** result: there is one positive scale per row with mass *)
Theorem C23_result : forall N forbid enforce a i, i < N -> (forall j, (0 <= a i j)%Q) ->
  (exists j, j < N /\ (ruled N forbid enforce i j \/ (0 < a i j)%Q)) ->
  exists s, (0 < s)%Q /\
    (forall j, j < N -> ruled N forbid enforce i j -> (apply_rules N forbid enforce a i j == (1 # 10000000000) / s)%Q) /\
    (forall j, j < N -> ~ ruled N forbid enforce i j -> (apply_rules N forbid enforce a i j == a i j / s)%Q) /\
    (total (seq 0 N) (apply_rules N forbid enforce a i) == 1)%Q.
Proof.
  intros N forbid enforce a i Hi Ha [j0 [J1 J2]].
  set (b := fun i j => fold_left (enforce_step N) enforce (fold_left forbid_step forbid a) i j).
  set (s := total (seq 0 N) (b i)).
  assert (B0 : forall j, (0 <= b i j)%Q).
  { intros j. unfold b. destruct (Qlt_le_dec (fold_left (enforce_step N) enforce (fold_left forbid_step forbid a) i j) 0) as [L|L]; [|exact L].
    exfalso. destruct (rules_matrix N forbid enforce a i j) as [R1 R2].
    apply (fun (H : ~ ~ (ruled N forbid enforce i j \/ ~ ruled N forbid enforce i j)) => H); [tauto|]. intros [D|D].
    - rewrite R1 in L by exact D. unfold ZERO in L. lra.
    - rewrite R2 in L by exact D. specialize (Ha j). lra. }
  assert (S : (0 < s)%Q).
  { apply total_pos with (j := j0); [intros; apply B0|apply in_seq0; exact J1|]. unfold b.
    destruct (rules_matrix N forbid enforce a i j0) as [R1 R2]. destruct J2 as [J2|J2]; [rewrite R1 by exact J2; reflexivity|].
    destruct (Qlt_le_dec 0 (fold_left (enforce_step N) enforce (fold_left forbid_step forbid a) i j0)) as [L|L]; [exact L|]. exfalso.
    apply (fun (H : ~ ~ (ruled N forbid enforce i j0 \/ ~ ruled N forbid enforce i j0)) => H); [tauto|]. intros [D|D].
    - rewrite R1 in L by exact D. unfold ZERO in L. lra.
    - rewrite R2 in L by exact D. lra. }
  assert (V : forall j, j < N -> (apply_rules N forbid enforce a i j == b i j / s)%Q).
  { intros j Hj. destruct (apply_rules_spec N forbid enforce a i j Hi Hj Ha) as [_ [V _]]. apply V, S. }
  exists s. split; [exact S|]. split; [|split].
  - intros j Hj D. rewrite (V j Hj). unfold b. rewrite (proj1 (rules_matrix N forbid enforce a i j) D). reflexivity.
  - intros j Hj D. rewrite (V j Hj). unfold b. rewrite (proj2 (rules_matrix N forbid enforce a i j) D). reflexivity.
  - rewrite (total_ext _ _ (fun j => (b i j / s)%Q)) by (intros j Hj; apply V; apply in_seq0; exact Hj).
    rewrite (total_div _ (b i)). apply Qdiv_self, S.
Qed.
Print Assumptions C23_result.

(** relative weights of the transitions that are not ruled out are kept *)
Corollary C23_relative_weights : forall N forbid enforce a i j1 j2, i < N -> j1 < N -> j2 < N -> (forall j, (0 <= a i j)%Q) ->
  (exists j, j < N /\ (ruled N forbid enforce i j \/ (0 < a i j)%Q)) ->
  ~ ruled N forbid enforce i j1 -> ~ ruled N forbid enforce i j2 ->
  (apply_rules N forbid enforce a i j1 * a i j2 == apply_rules N forbid enforce a i j2 * a i j1)%Q.
Proof.
  intros N forbid enforce a i j1 j2 Hi H1 H2 Ha Hm D1 D2. destruct (C23_result N forbid enforce a i Hi Ha Hm) as [s [S [_ [V _]]]].
  rewrite (V j1 H1 D1), (V j2 H2 D2). field. lra.
Qed.
Print Assumptions C23_relative_weights.
(** a row without mass and without rules becomes 0 *)
Theorem C23_empty_row : forall N forbid enforce a i j, i < N -> j < N -> (forall j, j < N -> (a i j == 0)%Q) -> (forall j, (0 <= a i j)%Q) ->
  (forall j, j < N -> ~ ruled N forbid enforce i j) -> apply_rules N forbid enforce a i j = 0%Q.
Proof.
  intros N forbid enforce a i j Hi Hj H0 Ha Hr. destruct (apply_rules_spec N forbid enforce a i j Hi Hj Ha) as [_ [_ V]]. apply V.
  rewrite (total_ext _ _ (fun _ => 0%Q)).
  - rewrite total_const. ring.
  - intros x Hx. apply in_seq0 in Hx. rewrite (proj2 (rules_matrix N forbid enforce a i x) (Hr x Hx)). apply H0, Hx.
Qed.
Print Assumptions C23_empty_row.

(** A forbidden bigram is not impossible: its probability is positive, and it is certain when every transition of
    the row is ruled out. *)
Theorem C23_forbidden_still_possible : forall N forbid enforce a i j, i < N -> j < N -> (forall j, (0 <= a i j)%Q) ->
  ruled N forbid enforce i j -> (0 < apply_rules N forbid enforce a i j)%Q.
Proof.
  intros N forbid enforce a i j Hi Hj Ha D.
  destruct (C23_result N forbid enforce a i Hi Ha (ex_intro _ j (conj Hj (or_introl D)))) as [s [S [V _]]].
  rewrite (V j Hj D). apply Qdiv_pos; [reflexivity|exact S].
Qed.
Print Assumptions C23_forbidden_still_possible.

(** Case: tag 0 may not precede 1; tag 1 must precede 0. *)
Definition exa : mat := fun i j => match i, j with 0, 0 => (1 # 2)%Q | 0, 1 => (1 # 4)%Q | 0, 2 => (1 # 4)%Q | 1, _ => (1 # 3)%Q | _, _ => 0%Q end.
Example C23_case : Qred (Qdiv (apply_rules 3 [(0, 1)] [(1, [0])] exa 0 2) (apply_rules 3 [(0, 1)] [(1, [0])] exa 0 0)) = (1 # 2)%Q /\
  ruled 3 [(0, 1)] [(1, [0])] 0 1 /\ ruled 3 [(0, 1)] [(1, [0])] 1 2 /\ ~ ruled 3 [(0, 1)] [(1, [0])] 0 2.
Proof.
  split; [vm_compute; reflexivity|]. unfold ruled. split; [left; left; reflexivity|]. split.
  - right. exists [0]. split; [left; reflexivity|]. split; [lia|]. cbn. intuition discriminate.
  - cbn. intros [[H|[]]|[ts [[H|[]] _]]]; discriminate.
Qed.
