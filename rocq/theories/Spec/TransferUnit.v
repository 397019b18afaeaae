(** Lexical units as apertium-transfer reads them (C54): [[blank]]^source/target/other.../reference$ *)
From Verif Require Import Model.Base.

(** a character, a character after a backslash, or a tag *)
Inductive ritem := RChar (c : char) | REsc (c : char) | RTag (t : str).
Definition reading := list ritem.
Definition item_str (i : ritem) : str := match i with RChar c => [c] | REsc c => [cBS; c] | RTag t => cLT :: t ++ [cGT] end.
Definition reading_str (r : reading) : str := flat_map item_str r.
(** characters of the format must be escaped; a tag may contain a slash *)
Definition item_ok (i : ritem) : Prop :=
  match i with
  | RChar c => ~ In c [cBS; cLB; cSLASH; cLT; cDOL; cCARET; cNUL]
  | REsc c => True
  | RTag t => Forall (fun c => ~ In c [cBS; cGT; cLT; cLB; cDOL; cCARET; cNUL]) t
  end.
(** the content of a word-bound blank; its first character is not a backslash *)
Inductive wbitem := WChar (c : char) | WEsc (c : char).
Definition wbitem_str (i : wbitem) : str := match i with WChar c => [c] | WEsc c => [cBS; c] end.
Definition wbitem_ok (i : wbitem) : Prop := match i with WChar c => ~ In c [cBS; cCARET; cDOL; cNUL] | WEsc _ => True end.
Definition wb_str (w : list wbitem) : str := [cLB; cLB] ++ flat_map wbitem_str w ++ [cRB; cRB].
Definition wb_ok (w : list wbitem) : Prop := Forall wbitem_ok w /\ match w with WEsc _ :: _ => False | _ => True end.

Record lunit := mku { u_wb : option (list wbitem); u_sl : reading; u_tl : reading; u_more : list reading }.
Definition lunit_ok (x : lunit) : Prop :=
  match u_wb x with Some w => wb_ok w | None => True end /\
  Forall item_ok (u_sl x) /\ Forall item_ok (u_tl x) /\ Forall (Forall item_ok) (u_more x).
Definition wblank (x : lunit) : str := match u_wb x with Some w => wb_str w | None => [] end.
(** between the caret and the dollar *)
Definition body (x : lunit) : str :=
  reading_str (u_sl x) ++ cSLASH :: reading_str (u_tl x) ++ flat_map (fun r => cSLASH :: reading_str r) (u_more x).
Definition unit_str (x : lunit) : str := wblank x ++ cCARET :: body x ++ [cDOL].
(** the last reading, if there are three or more *)
Definition reference (x : lunit) : str := reading_str (last (u_more x) []).
(** the unit without source and reference: what is passed on if no rule takes the unit *)
Definition translated (x : lunit) : str := wblank x ++ cCARET :: reading_str (u_tl x) ++ [cDOL].
(** blank, unit, blank, unit, ..., final text *)
Fixpoint units_text (l : list (str * lunit)) (final : str) : str :=
  match l with [] => final | (b, x) :: r => b ++ unit_str x ++ units_text r final end.
