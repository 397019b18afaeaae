(** Specification for C41. *)
From Coq Require Import QArith.
From Verif Require Import Model.Base Model.FeatureVec.
Open Scope nat_scope.
Section Spec.
Variable A : Type.
Variable nmorph : A -> nat.
Variable feats : list (option A) -> list (list A) -> nat -> nat -> ufvec.

(** what a hypothesis' vector must be: the features of the trained tokens of its tag sequence *)
Definition fired (sent : list (list A)) (gold t : list (option A)) (i : nat) : ufvec :=
  match nth_error sent i, nth_error gold i, nth_error t i with
  | Some (_ :: _ :: _), Some (Some _), Some (Some a) => flat_map (feats (firstn (S i) t) sent i) (seq 0 (nmorph a))
  | _, _, _ => []
  end.
Definition all_fired sent gold t : ufvec := flat_map (fired sent gold t) (seq 0 (length t)).

(** the tag sequence has the gold analysis at every trained token before i *)
Definition trained (sent : list (list A)) (gold : list (option A)) (j : nat) (g : A) : Prop :=
  nth_error gold j = Some (Some g) /\ exists toks, nth_error sent j = Some toks /\ 2 <= length toks.
Definition agrees sent gold (i : nat) (t : list (option A)) : Prop :=
  forall j g, j < i -> trained sent gold j g -> nth_error t j = Some (Some g).

End Spec.
