(** Which rules can take the place of a rule that rejects itself (C55, C62): a rule stays hidden behind an earlier one that matches the
    same words with its stars in the same places. *)
From Verif Require Import Model.Base Model.TransferUnit Model.TrxPatterns Spec.TransferUnit Spec.TrxPatterns.

(** [lemma_uses p w m]: lemma="p" matches w; m says of every character of w whether it is matched by a star *)
Inductive lemma_uses : str -> str -> list bool -> Prop :=
| lu_nil : lemma_uses [] [] []
| lu_char c p w m : c <> cSTAR -> lemma_uses p w m -> lemma_uses (c :: p) (c :: w) (false :: m)
| lu_star v p w m : v <> [] -> lemma_uses p w m -> lemma_uses (cSTAR :: p) (v ++ w) (repeat true (length v) ++ m).
Inductive tags_use : list str -> list str -> list bool -> Prop :=
| tu_nil : tags_use [] [] []
| tu_tag t p w m : t <> [cSTAR] -> tags_use p w m -> tags_use (t :: p) (t :: w) (false :: m)
| tu_star v p w m : v <> [] -> tags_use p w m -> tags_use ([cSTAR] :: p) (v ++ w) (repeat true (length v) ++ m).
(** no lemma is a star *)
Definition item_uses (i : cat_item) (chars : str) (tags : list str) (m : list bool) : Prop :=
  let lemma := match ci_tags i with [] => ci_name i | _ => ci_lemma i end in
  exists m1 m2, m = m1 ++ m2 /\ (match lemma with [] => chars <> [] /\ m1 = repeat true (length chars) | _ => lemma_uses lemma chars m1 end) /\ tags_use (ci_tags i) tags m2.
Definition word_uses (lower : char -> char) (defs : list (str * list cat_item)) (c : str) (r : reading) (m : list bool) : Prop :=
  plain r /\ exists items i, lookup_cat defs c = Some items /\ In i items /\ item_uses i (map lower (word_chars r)) (word_tags r) m.
(** the n-th rule matches these words with its stars there *)
Definition rule_uses (lower : char -> char) (defs : list (str * list cat_item)) (ps : list (list str)) (n : nat) (ws : list reading) (ms : list (list bool)) : Prop :=
  exists cs, nth_error ps (n - 1) = Some cs /\ 1 <= n /\ length ws = length ms /\ Forall2 (fun c wm => word_uses lower defs c (fst wm) (snd wm)) cs (combine ws ms).
(** rule n is seen: it is the first of the rules that match with their stars in some places *)
Definition seen (lower : char -> char) (defs : list (str * list cat_item)) (ps : list (list str)) (ws : list reading) (n : nat) : Prop :=
  exists ms, rule_uses lower defs ps n ws ms /\ forall m, rule_uses lower defs ps m ws ms -> n <= m.
