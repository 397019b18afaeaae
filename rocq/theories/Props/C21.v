(** C21: the HMM tagger chooses a most probable tag sequence.
    [tagging] (Spec/HMM.v): cut the stream after every unambiguous word; every segment is output with a tag sequence
    of maximal product of transition and emission probabilities among all sequences compatible with the words,
    starting from the tag of the previous unambiguous word (end of sentence at the beginning and after a flush). *)
From Coq Require Import String QArith.
From Verif Require Import Model.Base Model.HMM Spec.HMM Proofs.HMM.
Open Scope nat_scope.

Theorem C21_most_probable : forall A B eos nf ws, (forall i j, (0 <= A i j)%Q) -> (forall i k, (0 <= B i k)%Q) ->
  Forall (proper_word nf) ws -> tagging A B eos nf eos ws (tagger eos A B nf ws).
Proof. exact (fun A B eos nf ws HA HB => tagger_tagging A B eos nf HA HB ws). Qed.
Print Assumptions C21_most_probable.

(** Every word is output once and in order, except the ambiguous ones after the last unambiguous word. *)
Theorem C21_words : forall A B eos nf ws, (forall i j, (0 <= A i j)%Q) -> (forall i k, (0 <= B i k)%Q) ->
  Forall (proper_word nf) ws ->
  exists rest, ws = flat_map ev_word (tagger eos A B nf ws) ++ rest /\ Forall (fun w => 2 <= length (w_tags w)) rest.
Proof. exact (fun A B eos nf ws HA HB H => tagging_words _ _ _ _ _ _ _ (tagger_tagging A B eos nf HA HB ws H)). Qed.
Print Assumptions C21_words.
Corollary C21_all_words : forall A B eos nf ws w t, (forall i j, (0 <= A i j)%Q) -> (forall i k, (0 <= B i k)%Q) ->
  Forall (proper_word nf) (ws ++ [w]) -> w_tags w = [t] ->
  flat_map ev_word (tagger eos A B nf (ws ++ [w])) = ws ++ [w].
Proof.
  intros A B eos nf ws w t HA HB H Hw. destruct (C21_words A B eos nf _ HA HB H) as [rest [E Hr]].
  destruct rest as [|x r] using rev_ind; [rewrite app_nil_r in E; symmetry; exact E|].
  rewrite app_assoc in E. apply app_inj_tail in E as [_ <-]. apply Forall_app in Hr as [_ Hr]. inversion Hr as [|? ? K]; subst.
  rewrite Hw in K. cbn in K. exfalso; lia.
Qed.
Print Assumptions C21_all_words.
(** The tag of every word is one of its own. *)
Theorem C21_own_tag : forall A B eos nf ws, (forall i j, (0 <= A i j)%Q) -> (forall i k, (0 <= B i k)%Q) ->
  Forall (proper_word nf) ws -> forall w i, In (EWord w i) (tagger eos A B nf ws) -> In i (w_tags w).
Proof. exact (fun A B eos nf ws HA HB H => tagging_own _ _ _ _ _ _ _ (tagger_tagging A B eos nf HA HB ws H)). Qed.
Print Assumptions C21_own_tag.

(** Case: tags 0 (end of sentence), 1, 2; two ambiguous words, then a full stop.  The greedy choice for the first word
    is 1 (3/4 against 1/4); the most probable sequence is 2, 2, 0. *)
Definition exA : mat := fun i j => match i, j with
  | 0, 1 => (3 # 4)%Q | 0, 2 => (1 # 4)%Q | 1, _ => (1 # 10)%Q | 2, 2 => (9 # 10)%Q | 2, 0 => (9 # 10)%Q | _, _ => 0%Q end.
Definition exB : mat := fun i k => 1%Q.
Definition amb := mkw [1; 2] 1 false.
Definition stop := mkw [0] 0 false.
Lemma exA_nonneg : forall i j, (0 <= exA i j)%Q.
Proof. intros i j. destruct i as [|[|[|i]]]; destruct j as [|[|[|j]]]; cbn; discriminate. Qed.
Lemma exB_nonneg : forall i j, (0 <= exB i j)%Q.
Proof. intros; discriminate. Qed.
Example C21_case : tagger 0 exA exB false [amb; amb; stop; amb] = [EWord amb 2; EWord amb 2; EWord stop 0].
Proof. vm_compute. reflexivity. Qed.
Example C21_case_proper : Forall (proper_word false) [amb; amb; stop; amb].
Proof.
  repeat (apply Forall_cons; [split; [discriminate|split; [repeat constructor; cbn; intuition discriminate|discriminate]]|]). constructor.
Qed.

(** Boundary of the property: a flush mark that arrives with an ambiguous word (a truncated lexical unit at NUL gives
    such a word) resets the tags but not the pending words, and the words are output with a tag list that is one
    too short: the last word is lost. *)
Theorem C21_flush_on_ambiguous_refuted : exists A B eos ws,
  (forall i j, (0 <= A i j)%Q) /\ (forall i k, (0 <= B i k)%Q) /\
  Forall (fun w => w_tags w <> [] /\ NoDup (w_tags w)) ws /\ (exists w t, last ws stop = w /\ w_tags w = [t]) /\
  flat_map ev_word (tagger eos A B true ws) <> ws.
Proof.
  exists exA, exB, 0, [mkw [1; 2] 1 true; stop]. split; [exact exA_nonneg|]. split; [exact exB_nonneg|]. split; [|split].
  - repeat (apply Forall_cons; [split; [discriminate|repeat constructor; cbn; intuition discriminate]|]). constructor.
  - exists stop, 0. split; reflexivity.
  - vm_compute. discriminate.
Qed.
Print Assumptions C21_flush_on_ambiguous_refuted.
