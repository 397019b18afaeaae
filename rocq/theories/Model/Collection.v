(** apertium/collection.cc:25-113, collection.h:30-35.
    [set<int>] is a sorted list of numbers; [index : map<set<int>,int>] an association list
    (its iteration order is never used); [element] points to the keys of [index] and is modelled by
    the keys themselves (aliasing is modelled separately in Model/TaggerDataCopy.v). *)
From Verif Require Import Model.Base Model.Codec.

Definition iset := list N.
Record coll := mkc { index : list (iset * nat); element : list iset }.
Definition empty : coll := mkc [] [].

Definition iset_eqb (a b : iset) : bool := if list_eq_dec N.eq_dec a b then true else false.

Fixpoint find (t : iset) (ix : list (iset * nat)) : option nat :=
  match ix with
  | [] => None
  | (k, v) :: r => if iset_eqb t k then Some v else find t r
  end.

(* collection.cc:26-30 *)
Definition size (c : coll) : nat := length (element c).
(* collection.cc:32-36 *)
Definition has_not (t : iset) (c : coll) : bool := match find t (index c) with None => true | _ => false end.
(* collection.cc:38-42: undefined behaviour (None) out of range *)
Definition at_ (n : nat) (c : coll) : option iset := nth_error (element c) n.
(* collection.cc:44-55 [operator[](set)] and 57-61 [add] *)
Definition add (t : iset) (c : coll) : coll * nat :=
  match find t (index c) with
  | Some v => (c, v)
  | None => let position := length (index c) in
            (mkc (index c ++ [(t, position)]) (element c ++ [t]), position)
  end.

Section IO.
  Variable putN : N -> bytes.
  Variable getN : reader N.
  (* collection.cc:63-77 *)
  Definition write (c : coll) : bytes :=
    putN (N.of_nat (length (element c))) ++
    flat_map (fun s => putN (N.of_nat (length s)) ++ flat_map putN s) (element c).
  (* collection.cc:84-89: one set *)
  Definition read_set : reader iset :=
    n <- getN ;; l <- repeat_get (N.to_nat n) getN ;; ret (set_of_list N.ltb [] l).
  (* collection.cc:79-92: sets are added to the present contents *)
  Definition read (c0 : coll) : reader coll :=
    n <- getN ;; l <- repeat_get (N.to_nat n) read_set ;; ret (fold_left (fun c t => fst (add t c)) l c0).
End IO.
