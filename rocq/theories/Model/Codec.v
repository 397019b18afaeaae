(** Byte streams and the reader/writer style of the C++ code ([FILE*] or streams).

    The primitive encoders [Compression::multibyte_*] / [string_*] and [Serialiser<integral>] live in
    lttoolbox (not in /repo).  They are parameters; a property theorem assumes only that reading what
    was written gives it back (hypothesis [RT]), and Proofs/Codec.v shows a concrete encoder that
    satisfies the hypothesis. *)
From Verif Require Import Model.Base.

Definition bytes := list N.
Definition reader (A : Type) := bytes -> option (A * bytes).

Definition ret {A} (a : A) : reader A := fun r => Some (a, r).
Definition bind {A B} (m : reader A) (k : A -> reader B) : reader B :=
  fun r => match m r with Some (a, r') => k a r' | None => None end.
Notation "x <- m ;; k" := (bind m (fun x => k)) (at level 61, m at next level, right associativity).

(** [for(int i = read(); i != 0; i--) v.push_back(get())] *)
Fixpoint repeat_get {A} (n : nat) (g : reader A) : reader (list A) :=
  match n with
  | 0 => ret []
  | S m => x <- g ;; xs <- repeat_get m g ;; ret (x :: xs)
  end.

(** [RT put get ok]: whatever follows, reading a written [ok] value returns it and consumes exactly it *)
Definition RT {A} (put : A -> bytes) (get : reader A) (ok : A -> Prop) : Prop :=
  forall a r, ok a -> get (put a ++ r) = Some (a, r).

Section Prims.
  Variable putN : N -> bytes.          (* Compression::multibyte_write *)
  Variable getN : reader N.            (* Compression::multibyte_read *)

  (** size followed by the items *)
  Definition put_vec {A} (p : A -> bytes) (l : list A) : bytes :=
    putN (N.of_nat (length l)) ++ flat_map p l.
  Definition get_vec {A} (g : reader A) : reader (list A) :=
    n <- getN ;; repeat_get (N.to_nat n) g.
End Prims.

(** [std::map<K,V>] with the order [lt]: association list sorted by key; [m[k] = v] *)
Fixpoint map_set {K V} (lt : K -> K -> bool) (k : K) (v : V) (m : list (K * V)) : list (K * V) :=
  match m with
  | [] => [(k, v)]
  | (k', v') :: r =>
      if lt k k' then (k, v) :: m
      else if lt k' k then (k', v') :: map_set lt k v r
      else (k', v) :: r
  end.
(** [std::set<K>::insert] *)
Fixpoint set_insert {K} (lt : K -> K -> bool) (k : K) (m : list K) : list K :=
  match m with
  | [] => [k]
  | k' :: r =>
      if lt k k' then k :: m else if lt k' k then k' :: set_insert lt k r else m
  end.
Definition map_of_list {K V} (lt : K -> K -> bool) (m0 l : list (K * V)) : list (K * V) :=
  fold_left (fun m kv => map_set lt (fst kv) (snd kv) m) l m0.
Definition set_of_list {K} (lt : K -> K -> bool) (m0 l : list K) : list K :=
  fold_left (fun m k => set_insert lt k m) l m0.

(** [UString::operator<]: lexicographic on code units *)
Fixpoint str_lt (a b : str) : bool :=
  match a, b with
  | [], [] => false
  | [], _ :: _ => true
  | _ :: _, [] => false
  | x :: a', y :: b' => if (x <? y)%N then true else if (y <? x)%N then false else str_lt a' b'
  end.

(** a strictly sorted list = the contents of a std::set / the keys of a std::map *)
Fixpoint sorted {K} (lt : K -> K -> bool) (l : list K) : bool :=
  match l with
  | [] => true
  | x :: r => forallb (lt x) r && sorted lt r
  end.
