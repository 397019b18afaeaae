(** C02: apertium-wblank-detach only inserts closing markers, exactly one per unit carrying a blank. *)
From Coq Require Import String.
From Verif Require Import Model.Base Model.WblankDetach Spec.WblankDetach Proofs.WblankDetach.

(** Every well-formed stream: the output is the stream with each word-bound blank closed. *)
Theorem C02_detach_wellformed : forall l : list item, forallb wf l = true ->
  detach (flat_map render l) = flat_map render_closed l.
Proof. exact detach_wf. Qed.
Print Assumptions C02_detach_wellformed.

(** Every byte stream not cut inside an escape: only markers after dollars are inserted, and the only
    thing that can be missing is a NUL-free tail that starts with a bracket (an unclosed blank). *)
Theorem C02_detach_only_inserts : forall i : str, ~ ends_in_backslash i ->
  exists p q, i = p ++ q /\ Marked p (detach i) /\ ~ In cNUL q /\ (q = [] \/ hd_error q = Some cLB).
Proof. exact detach_marked_gen. Qed.
Print Assumptions C02_detach_only_inserts.

Example C02_example :
  let l := [Text (Plain 97%N); WUnit (map Plain (u "t:b:1")) (map Plain (u "a<n>")); Superblank [Escaped cRB];
            Unit [Plain cLB]; Flush] in
  forallb wf l = true /\ detach (flat_map render l) = u "a[[t:b:1]]^a<n>$[[/]][\]]^[$" ++ [cNUL].
Proof. vm_compute. split; reflexivity. Qed.
