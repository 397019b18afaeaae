(** C38: constants: get returns what was last set, and they survive write and read. *)
From Coq Require Import String.
From Verif Require Import Model.Base Model.Codec Proofs.Codec Model.ConstantManager Proofs.ConstantManager.

(** the value of a constant after any history of setConstant calls is the last one set, 0 if none *)
Theorem C38_history : forall (l : list (str * N)) (k : str),
  getConstant k (fold_left (fun m kv => setConstant (fst kv) (snd kv) m) l []) =
  fold_left (fun v kv => if str_eqb k (fst kv) then snd kv else v) l 0%N.
Proof. exact const_history. Qed.
Print Assumptions C38_history.

Theorem C38_roundtrip :
  forall (putN : N -> bytes) (getN : reader N) (fits : N -> Prop), RT putN getN fits ->
  forall (putS : str -> bytes) (getS : reader str) (fitsS : str -> Prop), RT putS getS fitsS ->
  forall (l : list (str * N)) (rest : bytes),
  let m := fold_left (fun m kv => setConstant (fst kv) (snd kv) m) l [] in
  fits (N.of_nat (length m)) -> Forall (fun kv => fitsS (fst kv) /\ fits (snd kv)) m ->
  read getN getS (write putN putS m ++ rest) = Some (m, rest).
Proof. exact const_roundtrip. Qed.
Print Assumptions C38_roundtrip.

Example C38_example :
  let m := fold_left (fun m kv => setConstant (fst kv) (snd kv) m) [(u "kEOF", 3); (u "kA", 1); (u "kEOF", 5)]%N [] in
  m = [(u "kA", 1); (u "kEOF", 5)]%N /\
  read mb_get mb_getS (write mb_put mb_putS m ++ [8]%N) = Some (m, [8]%N).
Proof. vm_compute. repeat split. Qed.
