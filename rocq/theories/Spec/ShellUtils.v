(** Specification for C40: the message names the accepted numbers. *)
From Coq Require Import String.
From Verif Require Import Model.Base.
Fixpoint enumerate (num : Z -> str) (l : list Z) : str :=
  match l with
  | [] => []
  | [x] => num x
  | [x; y] => num x ++ u ", or " ++ num y
  | x :: r => num x ++ u ", " ++ enumerate num r
  end.
Definition message (num : Z -> str) (accepted : list Z) (actual : Z) : str :=
  u "expected " ++ enumerate num accepted ++ u " file arguments, got " ++ num actual.
(** l lists the numbers from lower to upper - 1 *)
Definition accepted (lower upper : Z) (l : list Z) : Prop :=
  forall k, nth_error l k = if (lower + Z.of_nat k <? upper)%Z then Some (lower + Z.of_nat k)%Z else None.
