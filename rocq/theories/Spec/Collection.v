(** Specification for C10: an indexed set is the list of distinct sets in order of first insertion. *)
From Verif Require Import Model.Base.

Definition tagset := list N.
Inductive op := Add (t : tagset) | HasNot (t : tagset) | At (n : nat) | Size.
Inductive out := OIdx (n : nat) | OBool (b : bool) | OSet (o : option tagset) | OSize (n : nat).

(** position of a set in the list of sets seen so far *)
Fixpoint pos (t : tagset) (seen : list tagset) : option nat :=
  match seen with
  | [] => None
  | x :: r => if list_eq_dec N.eq_dec t x then Some 0 else option_map S (pos t r)
  end.

Definition spec_step (seen : list tagset) (o : op) : list tagset * out :=
  match o with
  | Add t => match pos t seen with
             | Some i => (seen, OIdx i)
             | None => (seen ++ [t], OIdx (length seen))
             end
  | HasNot t => (seen, OBool (match pos t seen with None => true | _ => false end))
  | At n => (seen, OSet (nth_error seen n))
  | Size => (seen, OSize (length seen))
  end.
Fixpoint spec_run (seen : list tagset) (l : list op) : list out :=
  match l with [] => [] | o :: r => let (s, x) := spec_step seen o in x :: spec_run s r end.
