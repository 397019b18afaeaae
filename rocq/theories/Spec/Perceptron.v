(** Specification for C20. *)
From Coq Require Import QArith.
From Verif Require Import Model.Base Model.FeatureVec.
Open Scope nat_scope.
Section Spec.
Variable A : Type.
Variable nmorph : A -> nat.
Variable feats : list (option A) -> list (list A) -> nat -> nat -> ufvec.

(** a legal tagging: one entry per token, an analysis of that very token, or none if the token has none *)
Definition legal (sent : list (list A)) (out : list (option A)) : Prop :=
  Forall2 (fun toks o => match o with Some a => In a toks | None => toks = [] end) sent out.

Definition qsum (l : list Q) : Q := fold_right Qplus 0%Q l.
(** the score of a tagging: over the ambiguous tokens, over their morphemes, the weights of the features fired *)
Definition score_at (w : fvec) (sent : list (list A)) (out : list (option A)) (i : nat) : Q :=
  match nth_error sent i, nth_error out i with
  | Some (_ :: _ :: _), Some (Some a) =>
      qsum (map (fun j => dot_unary w (feats (firstn (S i) out) sent i j)) (seq 0 (nmorph a)))
  | _, _ => 0%Q
  end.
Definition total (w : fvec) (sent : list (list A)) (out : list (option A)) : Q :=
  qsum (map (score_at w sent out) (seq 0 (length out))).

(** number of taggings: product of the numbers of analyses of the ambiguous tokens *)
Definition combinations (sent : list (list A)) : nat :=
  fold_right (fun toks n => match toks with [] => n | _ => length toks * n end) 1 sent.
End Spec.
