(** Specification for C01: a text as words separated by maximal runs of spaces. *)
From Verif Require Import Model.Base.

(** [Collapsed i o]: [o] is [i] with every maximal run of spaces replaced by one space.
    A text is either space-free, or a space-free prefix, then a run of [S n] spaces, then a
    text that does not start with a space. *)
Inductive Collapsed : str -> str -> Prop :=
| C_plain w : ~ In cSP w -> Collapsed w w
| C_run w n i o : ~ In cSP w -> hd_error i <> Some cSP -> Collapsed i o ->
    Collapsed (w ++ repeat cSP (S n) ++ i) (w ++ [cSP] ++ o).

(** No two consecutive spaces. *)
Definition NoDoubleSpace (o : str) : Prop :=
  forall a b, o <> a ++ [cSP; cSP] ++ b.
