(** Copying tagger data: apertium/tagger_data.cc:23-60, and the (compiler-generated) copy of a Collection,
    apertium/collection.h:31-33, whose [element] vector holds pointers into its own [index] map. *)
From Verif Require Import Model.Base Model.Codec Model.TaggerData.
From Verif Require Model.Collection.

(* tagger_data.cc:23-34 [TaggerData::copy]: every field except [discard] is assigned *)
Definition td_copy {P} (dst src : td P) : td P :=
  mktd P (open_class P src) (forbid_rules P src) (array_tags P src) (tag_index P src) (enforce_rules P src)
       (prefer_rules P src) (constants P src) (output P src) (plist P src) (discard P dst).
(* tagger_data.cc:44-47 copy constructor: copy into a default-constructed object *)
Definition td_fresh {P} (p0 : P) : td P := mktd P [] [] [] [] [] [] [] Collection.empty p0 [].
Definition td_copy_ctor {P} (p0 : P) (src : td P) : td P := td_copy (td_fresh p0) src.

(** ** Collections in a store.  A map node holds its key at an address. *)
Definition addr := nat.
Record store := mkst { cells : addr -> option (list N); next : addr }.
Record scoll := mksc { s_index : list (addr * nat); s_element : list addr }.
Definition s_empty : scoll := mksc [] [].

Definition alloc (st : store) (x : list N) : store * addr :=
  (mkst (fun a => if a =? next st then Some x else cells st a) (S (next st)), next st).
Definition free (st : store) (a : addr) : store :=
  mkst (fun b => if b =? a then None else cells st b) (next st).

(* collection.cc:38-42; None = the pointer dangles or the position is out of range *)
Definition s_at (st : store) (c : scoll) (n : nat) : option (list N) :=
  match nth_error (s_element c) n with Some a => cells st a | None => None end.
Definition s_size (c : scoll) : nat := length (s_element c).

Fixpoint s_find (st : store) (t : list N) (ix : list (addr * nat)) : option nat :=
  match ix with
  | [] => None
  | (a, v) :: r => match cells st a with
                   | Some k => if Collection.iset_eqb t k then Some v else s_find st t r
                   | None => s_find st t r
                   end
  end.
(* collection.cc:44-61 *)
Definition s_add (st : store) (c : scoll) (t : list N) : store * scoll :=
  match s_find st t (s_index c) with
  | Some _ => (st, c)
  | None => let (st', a) := alloc st t in
            (st', mksc (s_index c ++ [(a, length (s_index c))]) (s_element c ++ [a]))
  end.

(* copy of the map: fresh nodes with the same keys and values *)
Fixpoint copy_nodes (st : store) (ix : list (addr * nat)) : store * list (addr * nat) :=
  match ix with
  | [] => (st, [])
  | (a, v) :: r =>
      let (st1, a') := alloc st (match cells st a with Some k => k | None => [] end) in
      let (st2, r') := copy_nodes st1 r in (st2, (a', v) :: r')
  end.
(* collection.h: implicit copy: the map is deep-copied, the vector of pointers is copied as it is *)
Definition s_copy (st : store) (c : scoll) : store * scoll :=
  let (st', ix) := copy_nodes st (s_index c) in (st', mksc ix (s_element c)).
(* implicit destructor: the map frees its nodes *)
Definition s_destroy (st : store) (c : scoll) : store := fold_left (fun s av => free s (fst av)) (s_index c) st.

(* a history of additions on one collection *)
Definition s_build (l : list (list N)) : store * scoll :=
  fold_left (fun sc t => s_add (fst sc) (snd sc) t) l (mkst (fun _ => None) 0, s_empty).
