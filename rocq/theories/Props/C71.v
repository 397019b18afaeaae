(** C71: translate-to-default-equivalent. *)
From Coq Require Import String.
From Verif Require Import Model.Base Model.DictScripts Spec.DictScripts Proofs.Base Proofs.DictScripts.
Open Scope nat_scope.

(** In each direction the new dictionary has, section by section and in order, the entries of the old one that can be used in it and are not a translation that is not the default. *)
Theorem C71_default_partial d root : well_made root ->
  exists k, translate root = [Tx [10%N]; El (u "dictionary"%string) [] k; Tx [10%N]] /\
    answers (usable d) (El (u "dictionary"%string) [] k) = answers (fun a => usable d a && default_for d a) root.
Proof. apply translate_answers. Qed.
Print Assumptions C71_default_partial.
(** The mark of the default is a final space and D. *)
Theorem C71_mark s : ends_D s = true <-> exists x, s = x ++ u " D"%string.
Proof. apply ends_D_spec. Qed.
Print Assumptions C71_mark.
(** The alphabet, the symbols and the paradigms are copied, whatever the dictionary. *)
Theorem C71_rest n a k : In n (map u ["alphabet"; "sdefs"; "pardefs"]%string) ->
  exists k', translate (El (u "dictionary"%string) a k) = [Tx [10%N]; El (u "dictionary"%string) [] k'; Tx [10%N]] /\
    filter (is_el n) k' = filter (is_el n) k.
Proof. apply translate_rest. Qed.
Print Assumptions C71_rest.

(** ** Instances *)
Notation at_ := (fun n v : string => (u n, u v)).
Notation w := (fun x : string => [El (u "p"%string) [] [Tx (u x)]]).
Notation e := (El (u "e"%string)).
Definition dict1 : xml := El (u "dictionary"%string) []
  [El (u "alphabet"%string) [] []; Tx [10%N];
   El (u "section"%string) [at_ "id" "main"; at_ "type" "standard"]%string
     [e [at_ "slr" "0 D"]%string (w "a"%string); e [at_ "slr" "1"]%string (w "b"%string); e [at_ "slr" "1"; at_ "r" "LR"]%string (w "c"%string);
      e [at_ "srl" "1"; at_ "slr" "2 D"]%string (w "d"%string); e [at_ "r" "RL"]%string (w "f"%string)]].
Example C71_well_made : well_made dict1.
Proof.
  eexists _, _. split; [reflexivity|]. intros b secs I n c es J. cbn [In] in I.
  destruct I as [I|[I|[I|[]]]]; try discriminate. injection I as <- <-. cbn [In] in J.
  destruct J as [J|[J|[J|[J|[J|[]]]]]]; injection J as <- <- <-; split; try reflexivity; intros _; repeat split; cbn; try discriminate; intros; try discriminate; try reflexivity; congruence.
Qed.
Example C71_run d : answers (fun a => usable d a && default_for d a) dict1 =
  map (fun k => (u "main"%string, u "standard"%string, k)) (match d with LR => [w "a"; w "d"]%string | RL => [w "a"; w "b"; w "f"]%string end).
Proof. destruct d; vm_compute; reflexivity. Qed.

(** ** What does not hold *)
(** A translation for one direction only that is the default of the other: it is then used in both. *)
Theorem C71_restriction_refuted : exists root k, translate root = [Tx [10%N]; El (u "dictionary"%string) [] k; Tx [10%N]] /\
  answers (usable RL) root = [] /\ answers (usable RL) (El (u "dictionary"%string) [] k) <> [].
Proof.
  exists (El (u "dictionary"%string) [] [El (u "section"%string) [at_ "id" "main"; at_ "type" "standard"]%string [e [at_ "r" "LR"; at_ "srl" "0 D"]%string (w "a"%string)]]).
  eexists. split; [reflexivity|]. split; [reflexivity|]. vm_compute. discriminate.
Qed.
Print Assumptions C71_restriction_refuted.
(** An entry whose mark is empty is lost. *)
Theorem C71_empty_refuted : exists a k, answers (usable LR) (El (u "dictionary"%string) [] [El (u "section"%string) [] [e a k]]) <> [] /\
  exists k', translate (El (u "dictionary"%string) [] [El (u "section"%string) [] [e a k]]) = [Tx [10%N]; El (u "dictionary"%string) [] k'; Tx [10%N]] /\ forall d, answers (usable d) (El (u "dictionary"%string) [] k') = [].
Proof.
  exists [at_ "slr" ""]%string, (w "a"%string). split; [discriminate|]. eexists. split; [reflexivity|]. intros d. destruct d; reflexivity.
Qed.
Print Assumptions C71_empty_refuted.
(** Entries with marks lose their other attributes: an ignored entry is no longer ignored. *)
Theorem C71_ignored_refuted : exists a b, att (u "i"%string) a = Some (u "yes"%string) /\ att (u "i"%string) b = None /\ forall k, td (e a k) = td (e b k).
Proof. exists [at_ "slr" "0 D"; at_ "i" "yes"]%string, [at_ "slr" "0 D"]%string. repeat split. Qed.
Print Assumptions C71_ignored_refuted.
