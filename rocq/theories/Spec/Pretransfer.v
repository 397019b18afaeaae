(** Specification for C06-C08. *)
From Verif Require Import Model.Base.
From Verif Require Export Spec.WblankDetach.   (* tchar, render_t, render_ts: text with escapes *)

(** Streams whose units are arbitrary dollar-free strings. *)
Inductive pitem :=
| PText (t : tchar)                    (* text between units, including NUL *)
| PSuper (b : list tchar)              (* [b] *)
| PUnit (b : str)                      (* ^b$ *)
| PWUnit (w : list tchar) (b : str).   (* [[w]]^b$ *)

Definition wb_text (w : list tchar) : str := [cLB; cLB] ++ render_ts w ++ [cRB; cRB].

Definition prender (i : pitem) : str :=
  match i with
  | PText t => render_t t
  | PSuper b => [cLB] ++ render_ts b ++ [cRB]
  | PUnit b => [cCARET] ++ b ++ [cDOL]
  | PWUnit w b => wb_text w ++ [cCARET] ++ b ++ [cDOL]
  end.

(** plain characters exclude [bad] and the backslash; an escaped character is arbitrary *)
Definition pwf_t (bad : str) (t : tchar) : bool :=
  match t with Plain c => negb (mem c (cBS :: bad)) | Escaped _ => true end.

Definition pwf (i : pitem) : bool :=
  match i with
  | PText t => pwf_t [cLB; cCARET] t
  | PSuper b => forallb (pwf_t [cRB]) b && match b with Plain c :: _ => negb (c =?c cLB) | _ => true end
  | PUnit b => negb (mem cDOL b)
  | PWUnit w b => forallb (pwf_t [cRB]) w && negb (mem cDOL b)
  end.

(** [UnitSeq wb o]: [o] is a non-empty sequence of lexical units ^p1$ ... ^pn$ each of the later ones
    preceded by an optional space and the word-bound blank [wb]; no piece contains a dollar. *)
Inductive UnitSeq (wb : str) : str -> Prop :=
| US_one p : ~ In cDOL p -> UnitSeq wb ([cCARET] ++ p ++ [cDOL])
| US_more p sp o : ~ In cDOL p -> (sp = [] \/ sp = [cSP]) -> UnitSeq wb o ->
    UnitSeq wb ([cCARET] ++ p ++ [cDOL] ++ sp ++ wb ++ o).

(** The documented shape of a unit: parts (lemma and tags) joined by + or ~, and an optional queue
    "# q" after any of the parts. *)
Inductive joiner := Plus | Tilde.
Definition tag := str.
Record part := mkpart { lemma : str; tags : list tag }.
Definition render_tags (l : list tag) : str := flat_map (fun t => [cLT] ++ t ++ [cGT]) l.
Definition render_part (p : part) : str := lemma p ++ render_tags (tags p).
Definition render_joiner (j : joiner) : str := match j with Plus => [cPLUS] | Tilde => [cTILDE] end.
Definition render_rest (l : list (joiner * part)) : str :=
  flat_map (fun jp => render_joiner (fst jp) ++ render_part (snd jp)) l.
Definition render_queue (q : option str) : str := match q with None => [] | Some x => cHASH :: x end.

(** first part, parts before the queue, queue, parts after the queue *)
Definition body (p : part) (l1 : list (joiner * part)) (q : option str) (l2 : list (joiner * part)) : str :=
  render_part p ++ render_rest l1 ++ render_queue q ++ render_rest l2.

(** the separator a joiner becomes *)
Definition sep (compound_sep : bool) (wb : str) (j : joiner) : str :=
  match j with
  | Plus => [cDOL; cSP] ++ wb ++ [cCARET]
  | Tilde => if compound_sep then [cDOL] ++ wb ++ [cCARET] else []
  end.
Definition split_rest (cs : bool) (wb : str) (l : list (joiner * part)) : str :=
  flat_map (fun jp => sep cs wb (fst jp) ++ render_part (snd jp)) l.

(** the expected unit sequence: queue moved behind the first lemma *)
Definition split_body (cs : bool) (wb : str) (p : part) l1 (q : option str) l2 : str :=
  lemma p ++ render_queue q ++ render_tags (tags p) ++ split_rest cs wb l1 ++ split_rest cs wb l2.

Definition none_of (bad s : str) : bool := forallb (fun c => negb (mem c bad)) s.
Definition tag_ok (t : tag) : bool := none_of [cGT; cDOL; cHASH] t.
Definition first_ok (p : part) : bool :=
  none_of [cLT; cDOL] (lemma p) && negb (match tags p with [] => true | _ => false end) && forallb tag_ok (tags p).
Definition later_ok (jp : joiner * part) : bool :=
  none_of [cLT; cDOL; cHASH; cPLUS; cTILDE] (lemma (snd jp)) && forallb tag_ok (tags (snd jp)).
Definition queue_ok (q : option str) : bool :=
  match q with None => true | Some x => none_of [cLT; cDOL; cPLUS] x end.
(** after a queue the next part is joined by + (a ~ would belong to the queue text) *)
Definition after_ok (q : option str) (l2 : list (joiner * part)) : bool :=
  match q, l2 with
  | Some _, (Tilde, _) :: _ => false
  | _, _ => true
  end.
