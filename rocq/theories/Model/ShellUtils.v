(** apertium/shell_utils.cc:12-33 (expect_file_arguments).  [num]: how a stream prints an int. *)
From Coq Require Import String.
From Verif Require Import Model.Base.
Section S.
Variable num : Z -> str.
(* the for loop, 16-24; n: iterations left *)
Fixpoint listing (n : nat) (i upper : Z) : str :=
  match n with
  | O => []
  | S n => num i ++ (if i <? upper - 1 then u ", " else [])%Z ++ (if i =? upper - 2 then u "or " else [])%Z ++ listing n (i + 1) upper
  end.
(* None: returns; Some s: throws UnexpectedFileArgumentCount(s) *)
Definition expect_range (actual lower upper : Z) : option str :=
  if ((actual <? lower) || (upper <=? actual))%Z
  then Some (u "expected " ++ listing (Z.to_nat (upper - lower)) lower upper ++ u " file arguments, got " ++ num actual)
  else None.
(* 31-33 *)
Definition expect_exactly (actual exactly : Z) : option str := expect_range actual exactly (exactly + 1).
End S.
