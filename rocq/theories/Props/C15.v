(** C15: copying tagger data. The full property ("all fields are copied") is FALSE of the code: the discard
    rules are not copied, and the copied ambiguity-class collection points into the source object. *)
From Coq Require Import String.
From Verif Require Import Model.Base Model.Codec Model.TaggerData Proofs.TaggerData Model.TaggerDataCopy Proofs.TaggerDataCopy.

(** what does hold: every field but the discard list is the source's (constructor and assignment) *)
Theorem C15_fields_partial : forall P (p0 : P) (dst src : td P),
  let eqf (a b : td P) := open_class a = open_class b /\ forbid_rules a = forbid_rules b /\ array_tags a = array_tags b /\
    tag_index a = tag_index b /\ enforce_rules a = enforce_rules b /\ prefer_rules a = prefer_rules b /\
    constants a = constants b /\ output a = output b /\ plist a = plist b in
  eqf (td_copy dst src) src /\ eqf (td_copy_ctor p0 src) src /\
  discard (td_copy dst src) = discard dst.
Proof. cbn. repeat split. Qed.
Print Assumptions C15_fields_partial.

(** the discard rules of the source are lost by every copy construction *)
Theorem C15_discard_refuted : forall P (p0 : P) (src : td P), discard src <> [] ->
  discard (td_copy_ctor p0 src) <> discard src.
Proof. intros P p0 src H. cbn. congruence. Qed.
Print Assumptions C15_discard_refuted.

(** For a collection built by any history of additions: its copy reads the same sets while the source is alive ... *)
Theorem C15_collection_copy_alive : forall (l : list (list N)) (n : nat),
  let (st, c) := s_build l in let (st', c') := s_copy st c in
  s_size c' = s_size c /\ s_at st' c' n = s_at st c n.
Proof. exact copy_alive. Qed.
Print Assumptions C15_collection_copy_alive.

(** ... and none at all once the source has been destroyed: every element pointer dangles. *)
Theorem C15_collection_copy_dangles_refuted : forall (l : list (list N)) (n : nat),
  let (st, c) := s_build l in let (st', c') := s_copy st c in s_at (s_destroy st' c) c' n = None.
Proof. exact copy_dead. Qed.
Print Assumptions C15_collection_copy_dangles_refuted.

Example C15_example : let (st, c) := s_build [[1;2]; [3]; [1;2]]%N in
  s_size c = 2 /\ s_at st c 1 = Some [3]%N /\ let (st', c') := s_copy st c in s_at st' c' 1 = Some [3]%N.
Proof. vm_compute. repeat split. Qed.
