(** Specification for C04/C05. *)
From Verif Require Import Model.Base.
From Verif Require Export Spec.WblankDetach.

(** Items of a stream with spanning word-bound blanks ([[w]] ... [[/]]). *)
Inductive aitem :=
| AText (t : tchar)
| AFlush
| ASuper (b : list tchar)      (* [b] *)
| AUnit (b : list tchar)       (* ^b$ *)
| AOpen (w : str)              (* [[w]] *)
| AClose.                      (* [[/]] *)

Definition arender (i : aitem) : str :=
  match i with
  | AText t => render_t t
  | AFlush => [cNUL]
  | ASuper b => [cLB] ++ render_ts b ++ [cRB]
  | AUnit b => [cCARET] ++ render_ts b ++ [cDOL]
  | AOpen w => [cLB; cLB] ++ w ++ [cRB; cRB]
  | AClose => close_marker
  end.

(** semicolon-separated elements, surrounding spaces removed, empty ones dropped *)
Fixpoint split_semi (cur : str) (s : str) : list str :=
  match s with
  | [] => [cur]
  | c :: r => if c =?c cSEMI then cur :: split_semi [] r else split_semi (cur ++ [c]) r
  end.
Fixpoint strip_left (s : str) : str :=
  match s with c :: r => if c =?c cSP then strip_left r else s | [] => [] end.
Definition strip (s : str) : str := rev (strip_left (rev (strip_left s))).
Definition elements (w : str) : list str :=
  filter (fun x => negb (str_eqb x [])) (map strip (split_semi [] w)).

(** keep the first occurrence of each element *)
Fixpoint uniq (seen l : list str) : list str :=
  match l with
  | [] => []
  | x :: r => if existsb (str_eqb x) seen then uniq seen r else x :: uniq (seen ++ [x]) r
  end.

Fixpoint join_semi (l : list str) : str :=
  match l with [] => [] | [x] => x | x :: r => x ++ [cSEMI; cSP] ++ join_semi r end.

(** The word-bound blank a unit must carry inside the open blanks [opens] (innermost first):
    all their elements, outermost first, without repetitions. *)
Definition carried (opens : list str) : str :=
  match uniq [] (flat_map elements (rev opens)) with
  | [] => []
  | l => [cLB; cLB] ++ join_semi l ++ [cRB; cRB]
  end.

(** Expected output: every unit is preceded by the blank it is inside of; opening and closing
    markers disappear; everything else is verbatim. *)
Fixpoint expected (opens : list str) (l : list aitem) : str :=
  match l with
  | [] => []
  | AOpen w :: r => expected (w :: opens) r
  | AClose :: r => expected (tl opens) r
  | AUnit b :: r => carried opens ++ arender (AUnit b) ++ expected opens r
  | i :: r => arender i ++ expected opens r
  end.

Definition awf (i : aitem) : bool :=
  match i with
  | AText t => wf_t [cLB; cRB; cCARET; cDOL] t
  | AFlush => true
  | ASuper b => forallb (wf_t [cLB; cRB]) b
  | AUnit b => forallb (wf_t [cCARET; cDOL]) b
  | AOpen w => forallb (fun c => negb (mem c [cBS; cNUL; cLB; cRB])) w && negb (str_eqb w [cSLASH])
  | AClose => true
  end.

(** No word-bound blank is open at a flush. [d] = number of open blanks. *)
Fixpoint flush_closed (d : nat) (l : list aitem) : bool :=
  match l with
  | [] => true
  | AOpen _ :: r => flush_closed (S d) r
  | AClose :: r => flush_closed (pred d) r
  | AFlush :: r => (d =? 0) && flush_closed d r
  | _ :: r => flush_closed d r
  end.
