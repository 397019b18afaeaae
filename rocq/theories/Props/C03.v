(** C03: apertium-wblank-detach never loses input -- holds for every flushed input, refuted in general. *)
From Verif Require Import Model.Base Model.WblankDetach Spec.WblankDetach Proofs.WblankDetach.

(** Any bytes whatsoever followed by a flush (NUL): nothing is lost, only markers are inserted. *)
Theorem C03_flushed_input_kept_partial : forall i : str, Marked (i ++ [cNUL]) (detach (i ++ [cNUL])).
Proof. exact detach_flushed. Qed.
Print Assumptions C03_flushed_input_kept_partial.

(** Without the flush an unclosed blank at the end of input is dropped ("[a" gives ""). *)
Theorem C03_no_loss_refuted : exists i, ~ Subseq i (detach i).
Proof. exact detach_loses. Qed.
Print Assumptions C03_no_loss_refuted.

(** A final lone backslash makes the tool emit a byte 0xFF that is not in the (ASCII) input. *)
Theorem C03_no_invention_refuted : exists i, Forall (fun c => (c < 128)%N) i /\ In 255%N (detach i).
Proof. exact detach_invents. Qed.
Print Assumptions C03_no_invention_refuted.
