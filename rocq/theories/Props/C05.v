(** C05: apertium-wblank-attach has defined behaviour -- on every NUL-free input; refuted across flushes. *)
From Verif Require Import Model.Base Model.WblankAttach Spec.WblankAttach Proofs.WblankAttach.

Theorem C05_attach_defined_partial : forall i : str, ~ In cNUL i -> exists o, attach i = Done o.
Proof. exact attach_defined. Qed.
Print Assumptions C05_attach_defined_partial.

(** [[a]] NUL [[/]] : pop_back on an empty vector. *)
Theorem C05_attach_defined_refuted : exists i o, attach i = UB o.
Proof. exact attach_ub. Qed.
Print Assumptions C05_attach_defined_refuted.

(** With flushes, definedness (and the exact output) holds when no word-bound blank is open at a flush. *)
Theorem C05_attach_defined_flush_partial : forall l : list aitem, forallb awf l = true -> flush_closed 0 l = true ->
  attach (flat_map arender l) = Done (expected [] l).
Proof. exact attach_expected. Qed.
Print Assumptions C05_attach_defined_flush_partial.
