(** C10: a Collection gives each distinct tag set exactly one index, for every history of calls. *)
From Coq Require Import String.
From Verif Require Import Model.Base Model.Codec Model.Collection Spec.Collection Proofs.Collection.

(** The observations made by any history of [add], [has_not], [operator[]] and [size] calls on a new
    Collection are those of the list of distinct sets in order of first insertion. *)
Theorem C10_history : forall l : list op, model_run empty l = spec_run [] l.
Proof. exact collection_history. Qed.
Print Assumptions C10_history.

(** After any history, looking up the index given to a set returns the set, and the index is below size. *)
Theorem C10_lookup : forall (l : list op) (t : tagset),
  let c := fold_left (fun c o => fst (model_step c o)) l empty in
  let (c', i) := add t c in at_ i c' = Some t /\ i < size c' /\ snd (add t c') = i /\ has_not t c' = false.
Proof. exact collection_lookup. Qed.
Print Assumptions C10_lookup.

(** Two sets get the same index only if they are equal. *)
Theorem C10_injective : forall (l : list op) (t t' : tagset),
  let c := fold_left (fun c o => fst (model_step c o)) l empty in
  let (c1, i) := add t c in let (c2, j) := add t' c1 in i = j -> t = t'.
Proof. exact collection_injective. Qed.
Print Assumptions C10_injective.

(** The index of a set never changes later on. *)
Theorem C10_stable : forall (l l' : list op) (t : tagset),
  let c := fst (add t (fold_left (fun c o => fst (model_step c o)) l empty)) in
  let c' := fold_left (fun c o => fst (model_step c o)) l' c in
  snd (add t c') = snd (add t c).
Proof. exact collection_stable. Qed.
Print Assumptions C10_stable.

Example C10_example :
  model_run empty [Add [1;2]; Add [3]; Add [1;2]; Size; At 1; HasNot [3]; HasNot [4]]%N
  = [OIdx 0; OIdx 1; OIdx 0; OSize 2; OSet (Some [3]); OBool false; OBool true]%N.
Proof. reflexivity. Qed.
