(** [std::map<K,V>] where only look-up, [insert]-or-update, [size] and order-independent folds are used:
    an association list with unique keys (kept by [upd]).  Key equivalence under the C++ operator< is equality
    for all key types used here (morpheme.cc:40-45, analysis.cc:41-43, a.cc:26-31, i.cc:27, lemma.cc:29-31). *)
From Verif Require Import Model.Base.

Section M.
  Context {K V : Type}.
  Variable eqd : forall x y : K, {x = y} + {x <> y}.
  Definition amap := list (K * V).
  Fixpoint find (k : K) (m : amap) : option V :=
    match m with [] => None | (k', v) :: r => if eqd k k' then Some v else find k r end.
  (** [m.insert({k, d}).first->second] then replaced by [f] of it *)
  Fixpoint upd (k : K) (d : V) (f : V -> V) (m : amap) : amap :=
    match m with
    | [] => [(k, f d)]
    | (k', v) :: r => if eqd k k' then (k', f v) :: r else (k', v) :: upd k d f r
    end.
  Definition mapv (f : V -> V) (m : amap) : amap := map (fun kv => (fst kv, f (snd kv))) m.
End M.
