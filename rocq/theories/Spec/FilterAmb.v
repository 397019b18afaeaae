(** Specification for C68: one lexical unit for every ambiguity class of a text. *)
From Coq Require Import Sorted.
From Verif Require Import Model.Base Model.TaggerWord Model.MorphoStream Spec.MorphoStream.

(** word i is the first with its class (a class is the set of tags of a word with readings) *)
Definition first_of_class (ws : list tword) (i : nat) : Prop :=
  exists w, nth_error ws i = Some w /\ tags w <> [] /\ forall j w', j < i -> nth_error ws j = Some w' -> tags w' <> tags w.
(** the lexical unit of a word *)
Definition unit_line (w : tword) : str := cCARET :: sf w ++ flat_map (fun x => cSLASH :: snd x) (forms w) ++ [cDOL; cNL].
(** the classes of the words of a text *)
Definition classes (ws : list (tword * bool)) : list (list nat) := filter (fun c => match c with [] => false | _ => true end) (map (fun x => tags (fst x)) ws).
(** an ordinary part of an analysis: it can stand alone *)
Definition alone (x : str * nat) : Prop := part_ok false (fst x) /\ fst x <> [] /\ starts_star (fst x) = false /\ ~ In cNUL (fst x).
