(** C72: apertium-filter-rules and apertium-filter-xml. *)
From Coq Require Import String.
From Verif Require Import Model.Base Model.DictScripts Spec.DictScripts Proofs.Base Proofs.DictScripts.
Open Scope nat_scope.

(** The elements left are those with no element of another variety on the way to them, without v; an element is of the varieties asked for if its v lists them all. *)
Theorem C72_rules ws langs ours n a k : (forall v, ours v = true <-> forall l, In l langs -> word ws l v) ->
  elements [] (filter_rules ws langs (El n a k)) =
  after_selection (fun n => existsb (str_eqb n) (map u ["with-param"; "param"; "list-item"; "lit"; "lit-tag"; "attr-item"; "def-var"]%string)) (u "v"%string) ours (elements [] (El n a k)).
Proof. apply rules_elements. Qed.
Print Assumptions C72_rules.
(** apertium-filter-xml: the attribute and the elements to spare are given, and one variety in common is enough.  Comments are left out first. *)
Theorem C72_xml attr keep var ours root n a k : no_comments root = [El n a k] -> (forall v, ours v = true <-> exists w, item w v /\ item w var) ->
  elements [] (filter_xml attr keep var root) = after_selection (fun n => existsb (str_eqb n) keep) attr ours (elements [] (El n a k)).
Proof. apply xml_elements. Qed.
Print Assumptions C72_xml.

(** ** Instances *)
Definition blank (c : char) : bool := (c =? 32)%N || (c =? 10)%N.
Example C72_ours ws langs v : forallb (fun l => isin l (words ws v [])) langs = true <-> forall l, In l langs -> word ws l v.
Proof. rewrite forallb_forall. split; intros H l I; [apply words_spec, isin_In; auto|apply isin_In, words_spec; auto]. Qed.
Example C72_ours_xml var v : existsb (fun l => isin l (commas var [])) (commas v []) = true <-> exists w, item w v /\ item w var.
Proof. rewrite existsb_exists. split; intros (w & I & J); exists w; rewrite ?isin_In, ?commas_spec in *; auto. Qed.
Notation V := (fun v : string => [(u "v"%string, u v)]).
Notation el := (fun n : string => El (u n)).
Definition file1 : xml := el "transfer"%string []
  [el "rules"%string (V "a b"%string) [el "rule"%string (V "b"%string) [Tx (u "x"%string); el "lit"%string (V "c"%string) []]; el "rule"%string (V "a c"%string) []; el "rule"%string [] []]].
Example C72_run : filter_rules blank [u "b"%string] file1 =
  el "transfer"%string [] [el "rules"%string [] [el "rule"%string [] [Tx (u "x"%string); el "lit"%string (V "c"%string) []]; el "rule"%string [] []]].
Proof. vm_compute. reflexivity. Qed.
Example C72_xml_run : filter_xml (u "v"%string) [u "lit"%string] (u "c,d"%string) (el "x"%string [] [Mk []; el "y"%string (V "a,d"%string) []; el "z"%string (V "a, d"%string) []; el "lit"%string (V "a"%string) []]) =
  el "x"%string [] [el "y"%string [] []; el "lit"%string (V "a"%string) []].
Proof. vm_compute. reflexivity. Qed.

(** ** What does not hold *)
(** The text after a removed element goes with it. *)
Theorem C72_tail_refuted : exists k, filter_rules blank [u "b"%string] (el "rules"%string [] (el "rule"%string (V "a"%string) [] :: Tx (u "text"%string) :: k)) = filter_rules blank [u "b"%string] (el "rules"%string [] k).
Proof. exists [el "rule"%string [] []]. vm_compute. reflexivity. Qed.
Print Assumptions C72_tail_refuted.
