(** apertium/constant_manager.cc:58-92: [map<UString,int> constants]. Values are the non-negative
    constants (a negative int is outside multibyte_write's range and aborts the program). *)
From Verif Require Import Model.Base Model.Codec.

Definition constants := list (str * N).
(* constant_manager.cc:58-62 *)
Definition setConstant (k : str) (v : N) (m : constants) : constants := map_set str_lt k v m.
(* constant_manager.cc:64-68: operator[] of a missing key yields (and inserts) 0 *)
Fixpoint getConstant (k : str) (m : constants) : N :=
  match m with [] => 0%N | (k', v) :: r => if str_eqb k k' then v else getConstant k r end.

Section IO.
  Variable putN : N -> bytes.  Variable getN : reader N.
  Variable putS : str -> bytes. Variable getS : reader str.
  (* constant_manager.cc:70-81 *)
  Definition write (m : constants) : bytes :=
    putN (N.of_nat (length m)) ++ flat_map (fun kv => putS (fst kv) ++ putN (snd kv)) m.
  (* constant_manager.cc:83-93 *)
  Definition read : reader constants :=
    n <- getN ;;
    l <- repeat_get (N.to_nat n) (k <- getS ;; v <- getN ;; ret (k, v)) ;;
    ret (map_of_list str_lt [] l).
End IO.
