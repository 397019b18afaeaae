(** Shared vocabulary of all models: characters, strings, streams.

    Characters are abstract code units ([N]).  Byte-level tools (wblank-*.cc) use bytes,
    UString-level code uses UTF-16 code units; no model depends on the bound, except where said. *)
From Coq Require Export List Arith NArith ZArith Lia Bool.
From Coq Require Import String Ascii.
Export ListNotations.

Definition char := N.
Definition str := list char.

(** ASCII codes that the code compares against. *)
Definition cNUL  : char := 0%N.
Definition cTAB  : char := 9%N.
Definition cNL   : char := 10%N.
Definition cSP   : char := 32%N.
Definition cHASH : char := 35%N.   (* # *)
Definition cDOL  : char := 36%N.   (* $ *)
Definition cSTAR : char := 42%N.   (* * *)
Definition cPLUS : char := 43%N.   (* + *)
Definition cDASH : char := 45%N.   (* - *)
Definition cDOT  : char := 46%N.   (* . *)
Definition cSLASH: char := 47%N.   (* / *)
Definition cCOLON: char := 58%N.   (* : *)
Definition cSEMI : char := 59%N.   (* ; *)
Definition cLT   : char := 60%N.   (* < *)
Definition cEQ   : char := 61%N.   (* = *)
Definition cGT   : char := 62%N.   (* > *)
Definition cQM   : char := 63%N.   (* ? *)
Definition cAT   : char := 64%N.   (* @ *)
Definition cLB   : char := 91%N.   (* [ *)
Definition cBS   : char := 92%N.   (* \ *)
Definition cRB   : char := 93%N.   (* ] *)
Definition cCARET: char := 94%N.   (* ^ *)
Definition cUND  : char := 95%N.   (* _ *)
Definition cLC   : char := 123%N.  (* { *)
Definition cPIPE : char := 124%N.  (* | *)
Definition cRC   : char := 125%N.  (* } *)
Definition cTILDE: char := 126%N.  (* ~ *)

Definition ceq (a b : char) : bool := N.eqb a b.
Infix "=?c" := ceq (at level 70).

(** Readable literals for examples: [u "abc"]. *)
Definition u (s : string) : str := List.map N_of_ascii (list_ascii_of_string s).

Definition str_eqb (a b : str) : bool :=
  if list_eq_dec N.eq_dec a b then true else false.
Definition mem (c : char) (l : str) : bool := existsb (N.eqb c) l.
