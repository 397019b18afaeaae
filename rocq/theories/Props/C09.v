(** C09: apertium-cleanstream emits only the lexical units. *)
From Coq Require Import String.
From Verif Require Import Model.Base Model.Cleanstream Spec.Cleanstream Proofs.Cleanstream.

Theorem C09_default : forall l : list citem, forallb cwf l = true ->
  cleanstream true false (flat_map crender l) = Some (clean_spaced false l).
Proof. exact cleanstream_default. Qed.
Print Assumptions C09_default.

(** all option combinations *)
Theorem C09_options : forall sp kb (l : list citem), forallb cwf l = true ->
  cleanstream sp kb (flat_map crender l)
  = Some (clean (if sp then cSP else cNL) (negb sp) kb false l ++ (if sp then [] else [cNL])).
Proof. exact cleanstream_items. Qed.
Print Assumptions C09_options.

(** -n, no superblanks: one line per unit *)
Theorem C09_one_per_line : forall l : list citem, forallb cwf l = true ->
  forallb (fun i => match i with CSuper _ => false | _ => true end) l = true ->
  cleanstream false false (flat_map crender l) = Some (flat_map (fun x => cNL :: x) (units l) ++ [cNL]).
Proof. exact cleanstream_lines. Qed.
Print Assumptions C09_one_per_line.

(** it terminates on every input *)
Theorem C09_total : forall sp kb inp, cleanstream sp kb inp <> None.
Proof. exact cleanstream_total. Qed.
Print Assumptions C09_total.

Example C09_example :
  let l := [CText (Plain 65%N); CUnit (map Plain (u "a<n>")); CUnit [Escaped cDOL; Plain cCARET]; CStray; CText (Escaped cLB); CSuper [Plain cCARET];
            CUnit (map Plain (u "b"))] in
  forallb cwf l = true /\ cleanstream true false (flat_map crender l) = Some (u " ^a<n>$^\$\^$  ^b$").
Proof. vm_compute. split; reflexivity. Qed.
