(** Specification for C37. *)
From Verif Require Import Model.Base Model.TaggerWord.

(** one lexical form per tag, in increasing order of tags *)
Definition sorted_forms (l : list (nat * str)) : Prop :=
  forall i j x y, i < j -> nth_error l i = Some x -> nth_error l j = Some y -> fst x < fst y.
(** a word as read: its tags are the keys of its lexical forms *)
Definition proper (w : tword) : Prop := sorted_forms (forms w) /\ tags w = map fst (forms w).
(** What one rule leaves.  The intention is [filter keep] (if something is kept); the first alternative is what
    happens when the first form is removed: the second form is not looked at. *)
Definition left_by (matches : str -> bool) (l : list (nat * str)) : list (nat * str) * list nat :=
  let keep := filter (fun f => negb (matches (snd f))) in
  match l with
  | a :: b :: r => if matches (snd a)
                   then (b :: keep r, match keep r with [] => [fst b] | k => map fst k end)
                   else (keep l, map fst (keep l))
  | _ => (l, map fst l)
  end.
