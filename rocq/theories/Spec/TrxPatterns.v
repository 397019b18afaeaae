(** The meaning of patterns in transfer rule files (C55). *)
From Verif Require Import Model.Base Model.TransferUnit Model.TrxPatterns Spec.TransferUnit.

(** lemma="...": a star stands for one or more characters, everything else for itself *)
Inductive lemma_matches : str -> str -> Prop :=
| lm_nil : lemma_matches [] []
| lm_char c p w : c <> cSTAR -> lemma_matches p w -> lemma_matches (c :: p) (c :: w)
| lm_star v p w : v <> [] -> lemma_matches p w -> lemma_matches (cSTAR :: p) (v ++ w).
(** tags="...": a star stands for one or more tags *)
Inductive tags_match : list str -> list str -> Prop :=
| tm_nil : tags_match [] []
| tm_tag t p w : t <> [cSTAR] -> tags_match p w -> tags_match (t :: p) (t :: w)
| tm_star v p w : v <> [] -> tags_match p w -> tags_match ([cSTAR] :: p) (v ++ w).
(** a cat-item and a word, given by its characters and tags: no lemma means any (non-empty) one; without tags it is the attribute
    name that counts *)
Definition item_matches (i : cat_item) (chars : str) (tags : list str) : Prop :=
  let lemma := match ci_tags i with [] => ci_name i | _ => ci_lemma i end in
  (match lemma with [] => chars <> [] | _ => lemma_matches lemma chars end) /\ tags_match (ci_tags i) tags.
(** a word of the text: characters followed by tags, in lower case *)
Definition word_chars (r : reading) : str := flat_map (fun i => match i with RChar c | REsc c => [c] | RTag _ => [] end) r.
Definition word_tags (r : reading) : list str := flat_map (fun i => match i with RTag t => [t] | _ => [] end) r.
Definition plain (r : reading) : Prop := exists a b, r = a ++ b /\ word_tags a = [] /\ word_chars b = [].
Definition word_matches (lower : char -> char) (defs : list (str * list cat_item)) (c : str) (r : reading) : Prop :=
  plain r /\ exists items i, lookup_cat defs c = Some items /\ In i items /\ item_matches i (map lower (word_chars r)) (word_tags r).
(** the n-th rule (from 1) matches these words *)
Definition rule_matches (lower : char -> char) (defs : list (str * list cat_item)) (ps : list (list str)) (n : nat) (ws : list reading) : Prop :=
  exists cs, nth_error ps (n - 1) = Some cs /\ 1 <= n /\ Forall2 (word_matches lower defs) cs ws.
(** what the matcher is fed for words with blanks between them *)
Definition symbols (lower : char -> char) (r : reading) : list msym :=
  MMark cCARET :: map (fun i => match i with RChar c | REsc c => MChar (lower c) | RTag t => MTag (cLT :: t ++ [cGT]) end) r ++ [MMark cDOL].
Fixpoint fed (lower : char -> char) (ws : list reading) : list msym :=
  match ws with
  | [] => []
  | [w] => symbols lower w
  | w :: r => symbols lower w ++ MMark cSP :: fed lower r
  end.
(** two stars in a row are not allowed, nor is a dollar; no backslash *)
Definition item_wf (i : cat_item) : Prop :=
  (forall a b, ci_lemma i <> a ++ cSTAR :: cSTAR :: b) /\ (forall a b, ci_name i <> a ++ cSTAR :: cSTAR :: b) /\
  (forall a b, ci_tags i <> a ++ [cSTAR] :: [cSTAR] :: b) /\
  ~ In cDOL (ci_lemma i) /\ ~ In cDOL (ci_name i) /\ ~ In cBS (ci_lemma i) /\ ~ In cBS (ci_name i).
