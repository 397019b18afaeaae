(** C06: apertium-pretransfer leaves everything outside lexical units unchanged. *)
From Coq Require Import String.
From Verif Require Import Model.Base Model.Pretransfer Spec.Pretransfer Proofs.Pretransfer.

(** There is a rewriting [g] of single units, yielding a non-empty unit sequence, such that on every
    well-formed stream the program only applies [g] to the units and keeps all other text. *)
Theorem C06_outside_unchanged : forall cs : bool,
  exists g : str -> str -> str,
  (forall wb b, ~ In cDOL b -> UnitSeq wb (g wb b)) /\
  forall l : list pitem, forallb pwf l = true -> exists fuel0, forall fuel, fuel0 <= fuel ->
    processStream fuel false cs (flat_map prender l) =
    Done (flat_map (fun i => match i with
                             | PUnit b => g [] b
                             | PWUnit w b => wb_text w ++ g (wb_text w) b
                             | _ => prender i end) l).
Proof. exact pretransfer_outside. Qed.
Print Assumptions C06_outside_unchanged.

(** A single bracket inside a word-bound blank makes the program swallow the character after it. *)
Theorem C06_wblank_kept_refuted :
  processStream 20 false false (u "[[a]b]]^x$") = Done (u "[[a]]]^x$").
Proof. vm_compute. reflexivity. Qed.
Print Assumptions C06_wblank_kept_refuted.

(** Escapes inside a unit are not recognised: an escaped dollar ends the unit. *)
Theorem C06_escaped_dollar_refuted :
  processStream 20 false false (u "^a<n>+b\$c<n>$") = Done (u "^a<n>$ ^b\$c<n>$")
  /\ processStream 20 false false (u "^a<n>\$+b<n>$") = Done (u "^a<n>\$+b<n>$").
Proof. vm_compute. split; reflexivity. Qed.
Print Assumptions C06_escaped_dollar_refuted.

Example C06_example :
  let l := [PText (Plain 65%N); PSuper [Escaped cRB; Plain cLB]; PWUnit (map Plain (u "t:b")) (u "a<n>+b<v>");
            PText (Plain cNUL); PUnit (u "*x")] in
  forallb pwf l = true /\
  processStream 20 false false (flat_map prender l)
  = Done (u "A[\][][[t:b]]^a<n>$ [[t:b]]^b<v>$" ++ [cNUL] ++ u "^*x$")%list.
Proof. vm_compute. split; reflexivity. Qed.
