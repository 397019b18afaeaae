(** Specification for C25. *)
From Verif Require Import Model.Base Model.Regex.

(** an attr-item: a non-empty list of tags, written t1.t2. ... *)
Fixpoint item (tags : list str) : str :=
  match tags with [] => [] | [t] => t | t :: r => t ++ cDOT :: item r end.
(** the text it stands for: <t1><t2>... *)
Definition tag_text (tags : list str) : str := flat_map (fun t => cLT :: t ++ [cGT]) tags.
(** characters of a tag the theorem covers: everything but . and \ (which are syntax of attr-item) and the regular
    expression metacharacters the code does not quote *)
Definition plain (c : char) : Prop := ~ In c [cBS; cDOT; cCARET; cDOL; cPIPE; cLP; cRP; cLB; cRB; cLC; cRC].
Definition good_tags (tags : list str) : Prop :=
  tags <> [] /\ Forall (fun t => t <> [] /\ Forall plain t /\ ~ In (last t cNUL) [cDASH; cAMP]) tags.

(** m is the longest of the texts at the leftmost position of s where one of them occurs *)
Definition leftmost_longest (texts : list str) (s a m b : str) : Prop :=
  s = a ++ m ++ b /\ In m texts /\
  forall a' m' b', s = a' ++ m' ++ b' -> In m' texts -> length a <= length a' /\ (length a = length a' -> length m' <= length m).
