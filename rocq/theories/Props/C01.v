(** C01: apertium-posttransfer collapses runs of spaces and changes nothing else. *)
From Coq Require Import String.
From Verif Require Import Model.Base Model.Posttransfer Spec.Posttransfer Proofs.Posttransfer.

Theorem C01_collapse : forall i : str, Collapsed i (processStream i).
Proof. exact processStream_collapsed. Qed.
Print Assumptions C01_collapse.

Theorem C01_collapse_unique : forall i o : str, Collapsed i o -> processStream i = o.
Proof. exact Collapsed_det_loop. Qed.
Print Assumptions C01_collapse_unique.

Theorem C01_no_double_space : forall i : str, NoDoubleSpace (processStream i).
Proof. exact processStream_nodouble. Qed.
Print Assumptions C01_no_double_space.

Theorem C01_idempotent : forall i : str, processStream (processStream i) = processStream i.
Proof. exact processStream_idem. Qed.
Print Assumptions C01_idempotent.

Example C01_example : processStream (u "a   b  c ") = u "a b c ".
Proof. vm_compute. reflexivity. Qed.
