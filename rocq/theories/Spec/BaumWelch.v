(** Specification for C52: expected counts over all readings of a text. *)
From Coq Require Import QArith.
From Verif Require Import Model.Base Model.HMM Spec.HMM.
Open Scope nat_scope.

(** a word: its possible tags and its ambiguity class *)
Record word := mkword { tags_of : list nat; class_of : nat }.
(** every way of giving each word one of its tags *)
Fixpoint readings (ws : list word) : list (list nat) :=
  match ws with
  | [] => [[]]
  | w :: r => flat_map (fun i => map (cons i) (readings r)) (tags_of w)
  end.
(** the HMM's joint probability of a reading and the text, starting after tag s *)
Fixpoint joint (A B : mat) (s : nat) (ws : list word) (p : list nat) : Q :=
  match ws, p with
  | w :: r, i :: q => (A s i * B i (class_of w) * joint A B i r q)%Q
  | _, _ => 1%Q
  end.
Definition qsum {X} (l : list X) (f : X -> Q) : Q := fold_right (fun x s => (f x + s)%Q) 0%Q l.
(** probability of the text, and the expectation of a count given the text *)
Definition text_prob (A B : mat) (s : nat) (ws : list word) : Q := qsum (readings ws) (joint A B s ws).
Definition expected (A B : mat) (s : nat) (ws : list word) (count : list nat -> Q) : Q :=
  (qsum (readings ws) (fun p => joint A B s ws p * count p) / text_prob A B s ws)%Q.
(** counts in a reading: moves from tag i to tag j (the text starts after s), words tagged i, words of class k tagged i *)
Fixpoint moves (i j s : nat) (p : list nat) : nat :=
  match p with [] => 0 | x :: q => (if (s =? i) && (x =? j) then 1 else 0) + moves i j x q end.
Definition uses (i : nat) (p : list nat) : nat := count_occ Nat.eq_dec p i.
Fixpoint emits (i k : nat) (ws : list word) (p : list nat) : nat :=
  match ws, p with
  | w :: r, x :: q => (if (x =? i) && (class_of w =? k) then 1 else 0) + emits i k r q
  | _, _ => 0
  end.
(** a text: every word has tags, without repetition *)
Definition unambiguous (w : word) : Prop := exists t, tags_of w = [t].
Definition ambiguous (w : word) : Prop := 2 <= length (tags_of w).
(** the words of a corpus: unknown ones get the open class *)
Definition corpus (idx : list nat -> option nat) (open_class : list nat) (ws : list (list nat)) (l : list word) : Prop :=
  Forall2 (fun w x => tags_of x = match w with [] => open_class | _ => w end /\ idx (tags_of x) = Some (class_of x)) ws l.
(** the part of the corpus that is used: it is empty or ends with an unambiguous word; what follows is ambiguous *)
Definition used_part (xs rest : list word) : Prop :=
  (xs = [] \/ exists a w, xs = a ++ [w] /\ unambiguous w) /\ Forall ambiguous rest.
(** matrices the corpus can be generated from: no zero where a word of the corpus needs a value *)
Definition positive_on (N : nat) (A B : mat) (w : word) : Prop :=
  tags_of w <> [] /\ NoDup (tags_of w) /\ forall i, In i (tags_of w) -> i < N /\ (0 < B i (class_of w))%Q.
(** the Baum-Welch formulas: relative expected counts, with a small floor for what was never seen *)
Definition floored (e g : Q) : Q := if Qlt_le_dec 0 e then (e / g)%Q else ZERO.
Definition reestimated (N M : nat) (cls : nat -> list nat) (eos : nat) (dmin : Q) (xs : list word) (A B A' B' : mat) : Prop :=
  let E i j := expected A B eos xs (fun p => Qn (moves i j eos p)) in
  let G i := expected A B eos xs (fun p => Qn (uses i p)) in
  let F i k := expected A B eos xs (fun p => Qn (emits i k xs p)) in
  (forall i j, i < N -> j < N ->
     let q j := floored (E i j) (if Qeq_bool (G i) 0 then dmin else G i) in (A' i j == q j / total (seq 0 N) q)%Q) /\
  (forall i k, k < M -> In i (cls k) ->
     let q k := floored (F i k) (G i) in (B' i k == q k / total (holders M cls i) q)%Q).
(** rows are probability distributions, without zeros *)
Definition stochastic (N M : nat) (cls : nat -> list nat) (A B : mat) : Prop :=
  (forall i, i < N -> (total (seq 0 N) (A i) == 1)%Q) /\ (forall i j, i < N -> j < N -> (0 < A i j)%Q) /\
  (forall i, (exists k, k < M /\ In i (cls k)) -> (total (holders M cls i) (B i) == 1)%Q) /\
  (forall i k, k < M -> In i (cls k) -> (0 < B i k)%Q).
