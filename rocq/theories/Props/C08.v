(** C08: apertium-pretransfer terminates -- on every input without surface forms; refuted with them. *)
From Verif Require Import Model.Base Model.Pretransfer Spec.Pretransfer Proofs.Pretransfer.

Theorem C08_terminates_partial : forall cs inp fuel, length inp < fuel ->
  processStream fuel false cs inp <> Fuel.
Proof. intros cs inp fuel. exact (processStream_terminates cs fuel inp). Qed.
Print Assumptions C08_terminates_partial.

(** With surface forms, a caret followed by no slash makes it loop for ever. *)
Theorem C08_terminates_refuted : forall cs inp, ~ In cSLASH inp -> forall fuel,
  processStream fuel true cs (cCARET :: inp) = Fuel.
Proof. exact processStream_hangs. Qed.
Print Assumptions C08_terminates_refuted.

Example C08_example : ~ In cSLASH [97%N; cDOL].
Proof. intros [H|[H|[]]]; discriminate H. Qed.
