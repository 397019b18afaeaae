(** apertium/endian_double_util.cc:26-93.  A [double] is its memory image: 8 bytes, lowest address first. *)
From Verif Require Import Model.Base Model.Codec.

Definition dbl := list N.
Definition dsize : nat := 8.
Definition dzero : dbl := repeat 0%N 8.     (* the double 0 *)

Inductive endian := Big | Little.           (* WORDS_BIGENDIAN defined or not *)

(* endian_double_util.cc:67-80 and 82-93 [write] (FILE and ostream versions): Big: fwrite of the 8 bytes;
   Little: for i = 7 .. 0 write s[i] *)
Fixpoint write_down (n : nat) (s : dbl) : bytes :=
  match n with 0 => [] | S i => nth i s 0%N :: write_down i s end.
Definition write_double (e : endian) (d : dbl) : bytes :=
  match e with Big => d | Little => write_down dsize d end.

Fixpoint set_nth (i : nat) (x : N) (s : dbl) : dbl :=
  match s, i with
  | [], _ => []
  | _ :: r, 0 => x :: r
  | y :: r, S j => y :: set_nth j x r
  end.

(* endian_double_util.cc:36-42: for i = 7 .. 0 read s[i]; None = a byte was missing *)
Fixpoint read_down (n : nat) (s : dbl) (r : bytes) : option (dbl * bytes) :=
  match n with
  | 0 => Some (s, r)
  | S i => match r with [] => None | b :: r' => read_down i (set_nth i b s) r' end
  end.

(* endian_double_util.cc:26-45 [read] from a FILE: [garbage] is the uninitialised local; a short file gives 0
   on a little-endian host and the garbage on a big-endian one (fread's result is ignored there). *)
Definition read_double (e : endian) (garbage : dbl) (r : bytes) : dbl * bytes :=
  match e with
  | Big => if length r <? dsize then (firstn (length r) r ++ skipn (length r) garbage, [])
           else (firstn dsize r, skipn dsize r)
  | Little => match read_down dsize garbage r with Some x => x | None => (dzero, []) end
  end.
