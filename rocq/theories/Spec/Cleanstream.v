(** Specification for C09. *)
From Verif Require Import Model.Base.
From Verif Require Export Spec.WblankDetach.  (* tchar and rendering *)

Inductive citem :=
| CText (t : tchar)             (* loose text *)
| CSuper (b : list tchar)       (* [b] *)
| CUnit (b : list tchar)        (* ^b$ *)
| CStray.                       (* a $ that closes nothing *)

Definition crender (i : citem) : str :=
  match i with
  | CText t => render_t t
  | CSuper b => [cLB] ++ render_ts b ++ [cRB]
  | CUnit b => [cCARET] ++ render_ts b ++ [cDOL]
  | CStray => [cDOL]
  end.

(** A unit as it is emitted: verbatim, but an unescaped ^ inside it gets an escape. *)
Definition esc_caret (t : tchar) : str :=
  match t with Plain c => if c =?c cCARET then [cBS; cCARET] else [c] | Escaped c => [cBS; c] end.
Definition emitted (b : list tchar) : str := [cCARET] ++ flat_map esc_caret b ++ [cDOL].

Definition cwf_t (bad : str) (t : tchar) : bool :=
  match t with Plain c => negb (mem c (cBS :: bad)) | Escaped _ => true end.
Definition cwf (i : citem) : bool :=
  match i with
  | CText t => cwf_t [cLB; cCARET; cDOL] t
  | CSuper b => forallb (cwf_t [cRB]) b
  | CUnit b => forallb (cwf_t [cDOL]) b
  | CStray => true
  end.

(** Default options: units verbatim; one space per superblank, and one more before a unit if there was
    loose text since the previous unit.  [loose] = such text has been seen. *)
Fixpoint clean_spaced (loose : bool) (l : list citem) : str :=
  match l with
  | [] => []
  | CText _ :: r => clean_spaced true r
  | CStray :: r => clean_spaced loose r
  | CSuper _ :: r => [cSP] ++ clean_spaced loose r
  | CUnit b :: r => (if loose then [cSP] else []) ++ emitted b ++ clean_spaced false r
  end.

(** The units of a stream. *)
Definition units (l : list citem) : list str :=
  flat_map (fun i => match i with CUnit b => [emitted b] | _ => [] end) l.

(** General form: separator [ws], written always ([always]) or only after loose text, superblanks kept or not. *)
Fixpoint clean (ws : char) (always keep loose : bool) (l : list citem) : str :=
  match l with
  | [] => []
  | CText _ :: r => clean ws always keep true r
  | CStray :: r => clean ws always keep loose r
  | CSuper b :: r => [ws] ++ (if keep then crender (CSuper b) else []) ++ clean ws always keep loose r
  | CUnit b :: r => (if loose || always then [ws] else []) ++ emitted b ++ clean ws always keep false r
  end.
