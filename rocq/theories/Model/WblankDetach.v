(** apertium/wblank-detach.cc:24-112 [main]: byte-level state machine.
    Input is the list of bytes of stdin; output the bytes written to stdout.
    Not modelled: the argument check (lines 26-30), stream buffering and flushing. *)
From Verif Require Import Model.Base.

(* wblank-detach.cc:38-43 *)
Record st := mk { blank : str; in_token : bool; in_blank : bool; in_wblank : bool; had_wblank : bool }.
Definition st0 : st := mk [] false false false false.

(* wblank-detach.cc:102 *)
Definition marker : str := [cLB; cLB; cSLASH; cRB; cRB].

(* wblank-detach.cc:92: [blank[0] == '[' && blank[1] == '[']; a std::string of length n has
   blank[n] = 0, blank is never empty here (its last byte is the ']' just added, line 82). *)
Definition starts_wb (b : str) : bool :=
  match b with x :: y :: _ => (x =?c cLB) && (y =?c cLB) | _ => false end.

(* wblank-detach.cc:70-78: the four flags after the if/else-if chain *)
Definition flags (s : st) (c : char) : st :=
  if negb (in_token s) && (c =?c cLB) then
    mk (blank s) (in_token s) true (in_blank s || in_wblank s) (had_wblank s)
  else if in_wblank s && (c =?c cRB) then s
  else if in_blank s && (c =?c cRB) then s
  else if negb (in_blank s) && (c =?c cCARET) then
    mk (blank s) true (in_blank s) (in_wblank s) (had_wblank s)
  else if negb (in_blank s) && (c =?c cDOL) then
    mk (blank s) false (in_blank s) (in_wblank s) (had_wblank s)
  else s.

(* wblank-detach.cc:59-67: c == '\0' *)
Definition step_nul (s : st) : st * str := (st0, blank s ++ [cNUL]).

(* wblank-detach.cc:69-105: an unescaped, non-NUL byte *)
Definition step_chr (s : st) (c : char) : st * str :=
  let s1 := flags s c in
  let s2 := if in_blank s1 then mk (blank s1 ++ [c]) (in_token s1) true (in_wblank s1) (had_wblank s1) else s1 in
  let o := if in_blank s1 then [] else [c] in
  if in_wblank s2 && (c =?c cRB) then
    (mk (blank s2) (in_token s2) (in_blank s2) false (had_wblank s2), o)
  else if in_blank s2 && (c =?c cRB) then
    (mk [] (in_token s2) false (in_wblank s2) (had_wblank s2 || starts_wb (blank s2)), o ++ blank s2)
  else if had_wblank s2 && negb (in_blank s2) && (c =?c cDOL) then
    (mk (blank s2) (in_token s2) (in_blank s2) (in_wblank s2) false, o ++ marker)
  else (s2, o).

Definition step (s : st) (c : char) : st * str :=
  if c =?c cNUL then step_nul s else step_chr s c.

(* wblank-detach.cc:47-57: the escape branch; [n] is the byte after the backslash *)
Definition step_esc (s : st) (n : char) : st * str :=
  if in_blank s then (mk (blank s ++ [cBS; n]) (in_token s) (in_blank s) (in_wblank s) (had_wblank s), [])
  else (s, [cBS; n]).

(* wblank-detach.cc:46-106.  [std::cin.peek()] at end of input is EOF (-1), which is true, so the
   escape branch is taken and [static_cast<char>(std::cin.get())] is the byte 0xFF; [peek()] of a NUL
   is 0, so a backslash before NUL is an ordinary byte. At the end of input [blank] is dropped. *)
Fixpoint run (s : st) (inp : str) : str :=
  match inp with
  | [] => []
  | c :: rest =>
      if c =?c cBS then
        match rest with
        | [] => snd (step_esc s 255%N)
        | n :: rest' =>
            if n =?c cNUL then let (s', o) := step s c in o ++ run s' rest
            else let (s', o) := step_esc s n in o ++ run s' rest'
        end
      else let (s', o) := step s c in o ++ run s' rest
  end.

Definition detach (inp : str) : str := run st0 inp.
