(** Specifications for C21-C23. *)
From Coq Require Import QArith.
From Verif Require Import Model.Base Model.HMM.
Open Scope nat_scope.

(** plain finite sum *)
Definition total (l : list nat) (f : nat -> Q) : Q := fold_right (fun j s => (f j + s)%Q) 0%Q l.

(** ** C21 *)
(** probability of the tag sequence p for the words ws after tag t *)
Fixpoint prob (A B : mat) (t : nat) (ws : list vw) (p : list nat) : Q :=
  match ws, p with
  | w :: ws', i :: p' => (A t i * B i (w_cls w) * prob A B i ws' p')%Q
  | _, _ => 1%Q
  end.
Definition compatible (ws : list vw) (p : list nat) : Prop := Forall2 (fun w i => In i (w_tags w)) ws p.
Definition most_probable (A B : mat) (t : nat) (ws : list vw) (p : list nat) : Prop :=
  compatible ws p /\ forall p', compatible ws p' -> (prob A B t ws p' <= prob A B t ws p)%Q.
(** the stream cut after every unambiguous word; each segment gets a most probable tag sequence given the tag of the
    unambiguous word before it (end of sentence at the start and after a flush); words after the last unambiguous
    word are not output *)
Inductive tagging (A B : mat) (eos : nat) (nf : bool) : nat -> list vw -> list ev -> Prop :=
  | T_end t ws : Forall (fun w => 2 <= length (w_tags w)) ws -> tagging A B eos nf t ws []
  | T_seg t seg w t' p rest evs : Forall (fun w => 2 <= length (w_tags w)) seg -> w_tags w = [t'] ->
      most_probable A B t (seg ++ [w]) p ->
      tagging A B eos nf (if w_eof w && nf then eos else t') rest evs ->
      tagging A B eos nf t (seg ++ w :: rest)
        (map (fun wt => EWord (fst wt) (snd wt)) (combine (seg ++ [w]) p) ++ (if w_eof w && nf then [ENul] else []) ++ evs).
(** a word: at least one tag (no duplicates, it is a set); the end-of-input mark comes with an unambiguous word *)
Definition proper_word (nf : bool) (w : vw) : Prop :=
  w_tags w <> [] /\ NoDup (w_tags w) /\ (w_eof w && nf = true -> exists t, w_tags w = [t]).

(** ** C22: transition counts of a tagged text *)
(** tag of each word: none for an unknown word, the previous one for an ambiguous (erroneous) word *)
Fixpoint tag_seq (prev : option nat) (l : list tw) : list (option nat) :=
  match l with
  | [] => []
  | w :: r => let t := match t_tags w with [] => None | [t] => Some t | _ => prev end in t :: tag_seq t r
  end.
Definition bigrams (eos : nat) (l : list tw) : list (option nat * option nat) :=
  let s := tag_seq (Some eos) l in combine (Some eos :: s) s.
Definition emissions (eos : nat) (l : list tw) : list (option nat * nat) := combine (tag_seq (Some eos) l) (map t_cls l).
Definition onat_dec : forall x y : option nat, {x = y} + {x <> y}.
Proof. decide equality. apply Nat.eq_dec. Defined.
Definition bigram_dec : forall x y : option nat * option nat, {x = y} + {x <> y}.
Proof. decide equality; apply onat_dec. Defined.
Definition emission_dec : forall x y : option nat * nat, {x = y} + {x <> y}.
Proof. decide equality; [apply Nat.eq_dec|apply onat_dec]. Defined.
Definition npair_dec : forall x y : nat * nat, {x = y} + {x <> y}.
Proof. decide equality; apply Nat.eq_dec. Defined.
(** the classes that contain tag i *)
Definition holders (M : nat) (cls : nat -> list nat) (i : nat) : list nat := filter (fun k => inc cls k i) (seq 0 M).

(** ** C23: tag bigrams ruled out by a forbid rule or by an enforce rule *)
Definition ruled (N : nat) (forbid : list (nat * nat)) (enforce : list (nat * list nat)) (i j : nat) : Prop :=
  In (i, j) forbid \/ exists ts, In (i, ts) enforce /\ j < N /\ ~ In j ts.
