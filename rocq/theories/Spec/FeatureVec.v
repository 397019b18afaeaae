(** Specification for C18/C19. *)
From Coq Require Import QArith.
From Verif Require Import Model.Base Model.FeatureVec.
Open Scope Q_scope.

Definition key_dec : forall x y : key, {x = y} + {x <> y} := list_eq_dec (list_eq_dec N.eq_dec).

(** the total function a list of (feature, weight) pairs stands for: the sum of the weights given to the feature *)
Definition den (m : fvec) (k : key) : Q :=
  fold_right (fun kv s => (if key_dec k (fst kv) then snd kv else 0) + s) 0 m.
(** a feature vector proper: no feature occurs twice *)
Definition simple (m : fvec) : Prop := NoDup (map fst m).

(** history of the weight function, and its value each time an iteration ends *)
Fixpoint samples (w : key -> Q) (l : list aop) : list (key -> Q) :=
  match l with
  | [] => []
  | OAdd o :: r => samples (fun k => w k + den o k) r
  | OSub o :: r => samples (fun k => w k - den o k) r
  | OInc :: r => w :: samples w r
  end.
Definition sum_at (k : key) (l : list (key -> Q)) : Q := fold_right (fun w s => w k + s) 0 l.
Definition mean_at (k : key) (l : list (key -> Q)) : Q := sum_at k l / Qnat (length l).
