(** Specification for C28: word-bound blanks [[c1; c2; ...]]. *)
From Verif Require Import Model.Base.
Fixpoint joined (l : list str) : str := match l with [] => [] | [c] => c | c :: l' => c ++ [cSEMI; cSP] ++ joined l' end.
Definition wblank (l : list str) : str := [cLB; cLB] ++ joined l ++ [cRB; cRB].
(** the text ends in an even number of backslashes: what follows it is not escaped *)
Definition closed (c : str) : Prop := exists r k, c = r ++ repeat cBS (2 * k) /\ forall r', r <> r' ++ [cBS].
