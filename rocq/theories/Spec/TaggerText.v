(** Specification for C48: what the tagger writes. *)
From Verif Require Import Model.Base Model.TaggerWord Spec.MorphoStream.

(** the reading of a lexical unit that is written: one of its analyses *)
Definition choice (l : lu) (c : str) : Prop :=
  match l_read l with Known ans => exists a, In a ans /\ c = text a | Unknown _ => c = cSTAR :: l_sf l end.
(** its text; [ssf]: with the surface form *)
Definition lu_out (ssf : bool) (l : lu) (c : str) : str :=
  l_blank l ++ cCARET :: (if ssf then l_sf l ++ [cSLASH] else []) ++ c ++ [cDOL].
Inductive lus_out (ssf : bool) : list lu -> str -> Prop :=
  | LO_nil : lus_out ssf [] []
  | LO_cons l r c s : choice l c -> lus_out ssf r s -> lus_out ssf (l :: r) (lu_out ssf l c ++ s).
(** every document is answered by NUL if null flush is on (also the last one, ended by the end of the input) *)
Inductive docs_out (ssf nf : bool) : list doc -> str -> Prop :=
  | DO_nil : docs_out ssf nf [] []
  | DO_cons d r s s' : lus_out ssf (d_lus d) s -> docs_out ssf nf r s' ->
      docs_out ssf nf (d :: r) (s ++ d_end d ++ (if nf then [cNUL] else []) ++ s').
(** analyses of one part each, or a single analysis *)
Definition uniform (parts : list tok -> list (str * nat)) (l : lu) : Prop :=
  match l_read l with Known ans => Forall (fun a => length (parts a) = 1) ans \/ length ans = 1 | Unknown _ => True end.
(** no part of an analysis starts with an asterisk *)
Definition starless (parts : list tok -> list (str * nat)) (l : lu) : Prop :=
  match l_read l with Known ans => Forall (fun a => Forall (fun x => starts_star (fst x) = false) (parts a)) ans | Unknown _ => True end.
(** every discard rule is a longer text than the number of analyses (see C37) *)
Definition long_rules (discardr : list str) (l : lu) : Prop :=
  match l_read l with Known ans => forall p, In p discardr -> length ans < length p | Unknown _ => True end.
