(** apertium/apertium_posttransfer.cc:44-61 [processStream].
    [in.get()] on the list of remaining characters; end of list = U_EOF (break).
    Output buffer flushing on NUL (lines 54-56) is not observable in the text and is not modelled. *)
From Verif Require Import Model.Base.

(* apertium_posttransfer.cc:46-60; argument [last_space] is the local of line 46 *)
Fixpoint loop (last_space : bool) (inp : str) : str :=
  match inp with
  | [] => []                                                   (* line 51 *)
  | c :: rest =>
      (if negb last_space || negb (c =?c cSP) then [c] else [])  (* line 53-54 *)
      ++ loop (c =?c cSP) rest                                   (* line 59 *)
  end.

(* apertium_posttransfer.cc:44 *)
Definition processStream (inp : str) : str := loop false inp.
