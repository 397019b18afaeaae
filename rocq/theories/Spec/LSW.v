(** Specification for C24. *)
From Coq Require Import QArith.
From Verif Require Import Model.Base Model.LSW Spec.HMM.
Open Scope nat_scope.

(** bigram allowed by the rules *)
Definition bigram_ok (forbid : list (nat * nat)) (enforce : list (nat * list nat)) (a b : nat) : Prop :=
  ~ In (a, b) forbid /\ forall ts, In (a, ts) enforce -> In b ts.
Definition allowed (forbid : list (nat * nat)) (enforce : list (nat * list nat)) (t : tri) : Prop :=
  let '(a, b, c) := t in bigram_ok forbid enforce a b /\ bigram_ok forbid enforce b c.
(** the windows of a corpus *)
Fixpoint window_list (l m : list nat) (ws : list (list nat)) : list (list nat * list nat * list nat) :=
  match ws with [] => [] | r :: ws' => (l, m, r) :: window_list m r ws' end.
Definition corpus_windows (eos : nat) (ws : list (list nat)) : list (list nat * list nat * list nat) :=
  match ws with [] => [] | m :: rest => window_list [eos] m rest end.
Definition in_window (t : tri) (w : list nat * list nat * list nat) : Prop :=
  let '(a, b, c) := t in let '(l, m, r) := w in In a l /\ In b m /\ In c r.
(** sums *)
Definition qtotal {X} (f : X -> Q) (l : list X) : Q := fold_right (fun x s => (f x + s)%Q) 0%Q l.
(** total mass of a cube of side N *)
Definition mass (N : nat) (d : cube) : Q :=
  total (seq 0 N) (fun a => total (seq 0 N) (fun b => total (seq 0 N) (fun c => d a b c))).
(** sum of the weights of the window around tag b *)
Definition context_mass (d : cube) (l r : list nat) (b : nat) : Q := total l (fun a => total r (fun c => d a b c)).

Definition tri_dec : forall x y : tri, {x = y} + {x <> y}.
Proof. decide equality; [apply Nat.eq_dec|decide equality; apply Nat.eq_dec]. Defined.
Definition win := (list nat * list nat * list nat)%type.
(** all tag triples of a window *)
Definition wtri (w : win) : list tri := let '(l, m, r) := w in triples l m r.
(** tags are sets of numbers below N *)
Definition wset (N : nat) (w : win) : Prop := let '(l, m, r) := w in
  NoDup l /\ NoDup m /\ NoDup r /\ Forall (fun t => t < N) l /\ Forall (fun t => t < N) m /\ Forall (fun t => t < N) r.
(** one unit of mass spread equally over the triples of the window selected by sel *)
Definition nvalid (sel : tri -> bool) (w : win) : nat := length (filter sel (wtri w)).
Definition share (sel : tri -> bool) (w : win) (t : tri) : Q :=
  if in_dec tri_dec t (wtri w) then (if sel t then (1 / inject_Z (Z.of_nat (nvalid sel w)))%Q else 0%Q) else 0%Q.
(** windows with a selected triple *)
Definition live (sel : tri -> bool) (w : win) : bool := negb (nvalid sel w =? 0).
Definition nlive (sel : tri -> bool) (W : list win) : nat := length (filter (live sel) W).
(** one unit of mass spread proportionally to the current weights *)
Definition norm (D : cube) (w : win) : Q := qtotal (at3 D) (wtri w).
Definition gain (D : cube) (w : win) (t : tri) : Q :=
  if in_dec tri_dec t (wtri w) then (if Qlt_le_dec ZERO3 (norm D w) then (at3 D t / norm D w)%Q else 0%Q) else 0%Q.
(** the tagged words of the output *)
Definition lev_tagged (e : lev) : list (lw * option nat) := match e with LWord w t => [(w, t)] | LNul => [] end.
