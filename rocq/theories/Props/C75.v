(** C75: the two dictionaries made by lexchoice.xsl and lexchoicebil.xsl.  The parameter r2l=yes is for the direction from left to right. *)
From Coq Require Import String.
From Verif Require Import Proofs.Base Proofs.DictScripts Model.Base Model.DictScripts Model.LexChoice Spec.DictScripts Spec.LexChoice Proofs.LexChoice.
Open Scope nat_scope.

(** Every translation of the dictionary is still there by way of the two new ones. *)
Theorem C75_complete regex d a D x y : dict_ok D -> translates regex d [El (u "dictionary"%string) a D] x y ->
  exists m, translates regex LR (lex_dict false (dir_eqb d LR) (El (u "dictionary"%string) a D)) x m /\ translates regex LR (lex_dict true (dir_eqb d LR) (El (u "dictionary"%string) a D)) m y.
Proof. intros OK. apply reach, OK. Qed.
Print Assumptions C75_complete.
(** Whatever the first one chooses, the second one has a translation for it that is in the dictionary. *)
Theorem C75_choices_partial regex d a D x m : dict_ok D -> none_ignored D -> translates regex LR (lex_dict false (dir_eqb d LR) (El (u "dictionary"%string) a D)) x m ->
  exists y, translates regex LR (lex_dict true (dir_eqb d LR) (El (u "dictionary"%string) a D)) m y /\ translates regex d [El (u "dictionary"%string) a D] x y.
Proof. intros OK NI. apply choice; assumption. Qed.
Print Assumptions C75_choices_partial.
(** Where every entry is one pair of words: exactly what both do, and that the sense can be read from the word. *)
Theorem C75_senses_partial regex d a D x m : dict_ok D -> (forall ea ek, entry D ea ek -> plain_entry d ek) ->
  translates regex LR (lex_dict false (dir_eqb d LR) (El (u "dictionary"%string) a D)) x m <-> exists v y, translates_as regex d D true x v y /\ m = marked v x.
Proof. intros OK PL. apply senses_added; assumption. Qed.
Print Assumptions C75_senses_partial.
Theorem C75_translated_partial regex d a D m y : dict_ok D -> (forall ea ek, entry D ea ek -> plain_entry d ek) ->
  translates regex LR (lex_dict true (dir_eqb d LR) (El (u "dictionary"%string) a D)) m y <-> exists x v, translates_as regex d D false x v y /\ m = marked v x.
Proof. intros OK PL. apply senses_translated; assumption. Qed.
Print Assumptions C75_translated_partial.
Theorem C75_unique x x' v v' : unmarked x -> unmarked x' -> marked v x = marked v' x' -> x = x' /\ v = v'.
Proof. apply marked_unique. Qed.
Print Assumptions C75_unique.

(** ** A dictionary that meets the premises, and one with an entry to be ignored *)
Definition word (w : string) : list xml := [Tx (u w); El (u "s"%string) [(u "n"%string, u "n"%string)] []].
Definition en (a : list (str * str)) (l r : string) : xml :=
  El (u "e"%string) a [El (u "p"%string) [] [El (u "l"%string) [] (word l); El (u "r"%string) [] (word r)]].
Definition doc (es : list xml) : list xml := [El (u "section"%string) [] es].
Definition bank : list xml := doc [en [(u "slr"%string, u "money"%string)] "bank" "banc"; en [(u "slr"%string, u "river"%string)] "bank" "riba"].
Definition ignored : list xml := doc [en [(u "i"%string, u "yes"%string)] "bank" "banc"].
Lemma word_content w : Forall content (word w).
Proof. repeat constructor. Qed.
Lemma word_tidy w : tidy (word w).
Proof. exists [Tx (u w)], [El (u "s"%string) [(u "n"%string, u "n"%string)] []], (u w). repeat split; try (repeat constructor). cbn. apply app_nil_r. Qed.
Lemma en_ok a l r : entry_ok (en a l r).
Proof. constructor. constructor; [|constructor]. apply (O_pair [] _ [] (word l) [] (word r)); [reflexivity | apply word_content | apply word_content]. Qed.
Lemma doc_ok es : Forall entry_ok es -> dict_ok (doc es).
Proof.
  intros F. split.
  - intros a k [E|[]]. injection E as <- <-. exact F.
  - intros a k b j [E|[]]. discriminate E.
Qed.
Example C75_bank_ok : dict_ok bank.
Proof. apply doc_ok. constructor; [apply en_ok|]. constructor; [apply en_ok|]. constructor. Qed.
Example C75_bank_plain d ea ek : entry bank ea ek -> plain_entry d ek.
Proof.
  intros (sa & sk & [E|[]] & J). injection E as <- <-. destruct J as [J|[J|[]]]; injection J as <- <-.
  - apply (L_pair d _ [] [El (u "l"%string) [] (word "bank"); El (u "r"%string) [] (word "banc")] [] (word "bank") [] (word "banc")); [reflexivity|reflexivity|destruct d; apply word_tidy].
  - apply (L_pair d _ [] [El (u "l"%string) [] (word "bank"); El (u "r"%string) [] (word "riba")] [] (word "bank") [] (word "riba")); [reflexivity|reflexivity|destruct d; apply word_tidy].
Qed.
Example C75_bank_none : none_ignored bank.
Proof.
  split.
  - intros a k ea ek [E|[]] J. injection E as <- <-. destruct J as [J|[J|[]]]; injection J as <- <-; discriminate.
  - intros a k b j ea ek [E|[]]. discriminate E.
Qed.
Example C75_bank_run : lex_dict false true (El (u "dictionary"%string) [] bank) <> lex_dict true true (El (u "dictionary"%string) [] bank) /\
  spell (kids (nth 1 (kids (nth 0 (kids (nth 0 (kids (nth 4 (kids (nth 0 (lex_dict false true (El (u "dictionary"%string) [] bank)) nl)) nl)) nl)) nl)) nl)) = map Ch (u "bank__money"%string) ++ [Tag (u "n"%string)].
Proof. split; [vm_compute; discriminate | vm_compute; reflexivity]. Qed.
(** A word of an entry to be ignored gets a sense, for which there is no translation. *)
Theorem C75_ignored_refuted regex d a : dict_ok ignored /\ exists x m, translates regex LR (lex_dict false (dir_eqb d LR) (El (u "dictionary"%string) a ignored)) x m /\
  ~ exists y, translates regex LR (lex_dict true (dir_eqb d LR) (El (u "dictionary"%string) a ignored)) m y.
Proof.
  assert (OK : dict_ok ignored) by (apply doc_ok; constructor; [apply en_ok|constructor]). split; [exact OK|].
  assert (PL : forall ea ek, entry ignored ea ek -> plain_entry d ek).
  { intros ea ek (sa & sk & [E|[]] & J). injection E as <- <-. destruct J as [J|[]]. injection J as <- <-.
    apply (L_pair d _ [] [El (u "l"%string) [] (word "bank"); El (u "r"%string) [] (word "banc")] [] (word "bank") [] (word "banc")); [reflexivity|reflexivity|destruct d; apply word_tidy]. }
  exists (spell (if dir_eqb d LR then word "bank" else word "banc")), (spell (if dir_eqb d LR then word "bank" else word "banc")). split.
  - apply (C75_senses_partial regex d a ignored _ _ OK PL). exists None, (spell (if dir_eqb d LR then word "banc" else word "bank")). split; [|reflexivity].
    exists [(u "i"%string, u "yes"%string)], [El (u "p"%string) [] [El (u "l"%string) [] (word "bank"); El (u "r"%string) [] (word "banc")]]. split; [exists [], [en [(u "i"%string, u "yes"%string)] "bank" "banc"]; split; left; reflexivity|]. split; [left; reflexivity|]. split; [destruct d; reflexivity|]. split; [destruct d; reflexivity|].
    apply (one_pair regex d ignored [] [El (u "l"%string) [] (word "bank"); El (u "r"%string) [] (word "banc")] [] (word "bank") [] (word "banc")); [reflexivity | split; reflexivity].
  - intros (y & H). apply (C75_translated_partial regex d a ignored _ _ OK PL) in H. destruct H as (x & v & (ea & ek & (sa & sk & [E|[]] & J) & [N|N] & _) & _); [discriminate N|].
    injection E as <- <-. destruct J as [J|[]]. injection J as <- <-. apply N. reflexivity.
Qed.
Print Assumptions C75_ignored_refuted.
