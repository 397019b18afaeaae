(** C11: a Collection survives write and read. *)
From Coq Require Import String.
From Verif Require Import Model.Base Model.Codec Proofs.Codec Model.Collection Spec.Collection Proofs.Collection.

(** For every encoder of numbers that reads back what it wrote, and every collection built by any history of
    calls whose numbers fit the encoder: a fresh Collection that reads the written bytes is equal to the one
    written (same index for the same set, same size) and the rest of the stream is left unread. *)
Theorem C11_roundtrip : forall (putN : N -> bytes) (getN : reader N) (fits : N -> Prop), RT putN getN fits ->
  forall (l : list op) (rest : bytes),
  let c := fold_left (fun c o => fst (model_step c o)) l empty in
  fits (N.of_nat (size c)) ->
  Forall (fun s => fits (N.of_nat (length s)) /\ Forall fits s /\ sorted N.ltb s = true) (element c) ->
  read getN empty (write putN c ++ rest) = Some (c, rest).
Proof.
  intros putN getN fits H l rest c H1 H2. apply (RT_coll putN getN fits H).
  apply history_coll_ok; assumption.
Qed.
Print Assumptions C11_roundtrip.

(** Reading into a Collection that already holds sets does not reproduce the indices of the file. *)
Theorem C11_reuse_refuted : exists (c c0 : coll), (exists l, c = fold_left (fun c o => fst (model_step c o)) l empty) /\
  (exists l, c0 = fold_left (fun c o => fst (model_step c o)) l empty) /\
  match read mb_get c0 (write mb_put c) with Some (c', []) => at_ 0 c' <> at_ 0 c | _ => False end.
Proof.
  exists (fst (add [7]%N empty)), (fst (add [5]%N empty)). split; [exists [Add [7]%N]; reflexivity|].
  split; [exists [Add [5]%N]; reflexivity|]. vm_compute. discriminate.
Qed.
Print Assumptions C11_reuse_refuted.

Example C11_example :
  let c := fold_left (fun c o => fst (model_step c o)) [Add [1;200]; Add []; Add [1;200]; Add [70000]]%N empty in
  RT mb_put mb_get mb_fits /\ mb_fits (N.of_nat (size c)) /\
  Forall (fun s => mb_fits (N.of_nat (length s)) /\ Forall mb_fits s /\ sorted N.ltb s = true) (element c) /\
  read mb_get empty (write mb_put c ++ [9]%N) = Some (c, [9]%N).
Proof.
  split; [exact mb_RT|]. split; [reflexivity|]. split; [|vm_compute; reflexivity].
  repeat constructor; cbn; try reflexivity.
Qed.
