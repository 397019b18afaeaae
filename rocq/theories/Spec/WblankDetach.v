(** Specification for C02/C03: well-formed Apertium streams with word-bound blanks, as data. *)
From Verif Require Import Model.Base.

(** the closing marker of a detached word-bound blank *)
Definition close_marker : str := [cLB; cLB; cSLASH; cRB; cRB].

(** one character of text, possibly escaped *)
Inductive tchar := Plain (c : char) | Escaped (c : char).
Definition render_t (t : tchar) : str := match t with Plain c => [c] | Escaped c => [cBS; c] end.
Definition render_ts (l : list tchar) : str := flat_map render_t l.

(** items of a stream *)
Inductive item :=
| Text (t : tchar)                       (* a character outside everything *)
| Flush                                  (* NUL *)
| Superblank (b : list tchar)            (* [b] *)
| Unit (b : list tchar)                  (* ^b$ *)
| WUnit (w : list tchar) (b : list tchar). (* [[w]]^b$ : a unit with its word-bound blank *)

Definition render (i : item) : str :=
  match i with
  | Text t => render_t t
  | Flush => [cNUL]
  | Superblank b => [cLB] ++ render_ts b ++ [cRB]
  | Unit b => [cCARET] ++ render_ts b ++ [cDOL]
  | WUnit w b => [cLB; cLB] ++ render_ts w ++ [cRB; cRB] ++ [cCARET] ++ render_ts b ++ [cDOL]
  end.

(** the same stream with the word-bound blank of each unit closed after it *)
Definition render_closed (i : item) : str :=
  match i with WUnit w b => render i ++ close_marker | _ => render i end.

(** a plain character must not be one of [bad], and nothing is NUL *)
Definition wf_t (bad : str) (t : tchar) : bool :=
  match t with
  | Plain c => negb (mem c (cBS :: cNUL :: bad))
  | Escaped c => negb (c =?c cNUL)
  end.

Definition wf (i : item) : bool :=
  match i with
  | Text t => wf_t [cLB; cRB; cCARET; cDOL] t
  | Flush => true
  | Superblank b => forallb (wf_t [cLB; cRB]) b
  | Unit b => forallb (wf_t [cCARET; cDOL]) b
  | WUnit w b => forallb (wf_t [cLB; cRB]) w && forallb (wf_t [cCARET; cDOL]) b
  end.

(** [Marked i o]: [o] is [i] with closing markers inserted directly after some dollars. *)
Inductive Marked : str -> str -> Prop :=
| M_nil : Marked [] []
| M_copy c i o : Marked i o -> Marked (c :: i) (c :: o)
| M_mark i o : Marked i o -> Marked (cDOL :: i) (cDOL :: close_marker ++ o).

(** [Subseq i o]: the bytes of [i] occur in [o] in order. *)
Inductive Subseq : str -> str -> Prop :=
| SS_nil o : Subseq [] o
| SS_take c i o : Subseq i o -> Subseq (c :: i) (c :: o)
| SS_skip c i o : Subseq i o -> Subseq i (c :: o).

Definition ends_in_backslash (i : str) : Prop := exists p, i = p ++ [cBS].
