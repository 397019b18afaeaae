(** C49: TrainingCorpus (sentence_stream.cc:86-170) pairs the sentences of a tagged and an untagged text. *)
From Coq Require Import String Lia.
From Verif Require Import Model.Base Model.Serialiser Model.Stream Spec.Corpus Proofs.Base Proofs.Corpus.

(** Without --skip-on-error: the corpus is made iff the texts have the same units (by surface form); then it has one
    training sentence per sentence of the tagged text, with the first reading of every tagged unit beside the untagged
    unit at the same place; otherwise an exception is thrown. *)
Theorem C49_strict : forall tg ut,
  (Forall2 (fun t w => same_sf (fst t) (fst w)) tg ut -> corpus false tg ut = Ok (map train (groups (pairs tg ut)), 0)) /\
  (~ Forall2 (fun t w => same_sf (fst t) (fst w)) tg ut -> corpus false tg ut = Throw).
Proof.
  intros tg ut. split; intros H; unfold corpus.
  - destruct (loop_false (S (length tg + length ut)) tg ut [] 0 H ltac:(lia)) as [E _]. exact E.
  - destruct (loop_false_throw (S (length tg + length ut)) tg ut true [] 0 ltac:(lia)) as [E|(r & E)]; [exact E|].
    apply loop_false_ok in E. contradiction.
Qed.
Print Assumptions C49_strict.

(** With or without it: in every corpus that is made, readings and units are paired only where the surface forms of the
    two texts agree. *)
Theorem C49_aligned : forall skip tg ut ss k, corpus skip tg ut = Ok (ss, k) ->
  Forall (fun s => exists g, Forall (fun p => same_sf (fst p) (snd p)) g /\ s = train g) ss.
Proof. intros skip tg ut ss k H. eapply loop_aligned; [exact H|constructor]. Qed.
Print Assumptions C49_aligned.

(** With --skip-on-error: exactly the sentences on which the texts agree are kept, and the others counted (an empty
    sentence is left at the end if the last one was skipped).
    Partial: a sentence must not diverge at its first unit, nor one of the two end first (refuted below). *)
Theorem C49_skip_partial : forall l g n b, classified l g n b -> Forall (fun p => sentence (fst p) /\ sentence (snd p)) l ->
  corpus true (concat (map fst l)) (concat (map snd l)) = Ok (map train_of g ++ (if b then [([], [])] else []), n).
Proof.
  intros l g n b H F. unfold corpus, marked in *. set (f := S _).
  destruct (classified_loop l g n b H F f [] [] ltac:(unfold f, marked; lia)) as (f' & L & E). rewrite !app_nil_r in E. refine (eq_trans E _).
  destruct f' as [|f']; [unfold f, marked in L; lia|]. destruct b; cbn [negb st corpus_loop]; [|rewrite app_nil_r]; reflexivity.
Qed.
Print Assumptions C49_skip_partial.

(** ** concrete cases *)
Definition wd (s t : string) := mklex (u s) [mkan [mkm (u s) [u t]]].
Definition s1 : list marked := [(wd "a" "n", false); (wd "b" "v", false); (wd "." "sent", true)]%string.
Definition s2 : list marked := [(wd "a" "n", false); (wd "c" "v", false); (wd "d" "v", false); (wd "." "sent", true)]%string.
Definition s3 : list marked := [(wd "c" "n", false); (wd "." "sent", true)]%string.
Ltac sent := repeat (first [apply S_last|apply S_more]).
Ltac sameall := unfold good; cbn; repeat constructor.
Example ex_class : classified [(s1, s1); (s1, s2); (s3, s3); (s2, s1)] [(s1, s1); (s3, s3)] 2 true.
Proof.
  apply (K_bad [(s1, s1); (s1, s2); (s3, s3)] _ 1 false).
  - apply (K_good [(s1, s1); (s1, s2)] [(s1, s1)] 1 true).
    + apply (K_bad [(s1, s1)] _ 0 false).
      * apply (K_good [] [] 0 false); [constructor|sameall].
      * exists [(wd "a" "n", false)]%string, [(wd "a" "n", false)]%string. repeat eexists; [discriminate|repeat constructor|unfold same_sf; discriminate].
    + sameall.
  - exists [(wd "a" "n", false)]%string, [(wd "a" "n", false)]%string. repeat eexists; [discriminate|repeat constructor|unfold same_sf; discriminate].
Qed.
Example ex_sents : Forall (fun p => sentence (fst p) /\ sentence (snd p)) [(s1, s1); (s1, s2); (s3, s3); (s2, s1)].
Proof. repeat constructor. Qed.
Example ex_groups : groups (pairs (s1 ++ s3) (s1 ++ s3)) = [combine (map fst s1) (map fst s1); combine (map fst s3) (map fst s3)].
Proof. reflexivity. Qed.

(** FINDING: if the texts diverge at their very first unit, --skip-on-error clears a sentence through a pointer that was
    never set. *)
Theorem C49_first_unit_refuted : forall t w tg ut, ~ same_sf (fst t) (fst w) -> corpus true (t :: tg) (w :: ut) = Undef.
Proof.
  intros [t te] [w we] tg ut D. unfold corpus. cbn [corpus_loop length]. destruct (str_eqb (lx_sf w) (lx_sf t)) eqn:Q; [|reflexivity].
  apply str_eqb_eq in Q. exfalso. apply D. symmetry. exact Q.
Qed.
Print Assumptions C49_first_unit_refuted.
(** FINDING: if a later sentence diverges at its first unit, the sentence before it, on which the texts agree, is lost,
    and an empty sentence stays in its place. *)
Theorem C49_previous_lost_refuted : corpus true (s1 ++ s3 ++ s2) (s1 ++ s1 ++ s2) = Ok ([([], []); train_of (s2, s2)], 1).
Proof. vm_compute. reflexivity. Qed.
Print Assumptions C49_previous_lost_refuted.
(** FINDING: if the tagged sentence ends before the untagged one, the texts stay one sentence apart, and the end of the
    texts is reported as an error in spite of --skip-on-error. *)
Definition s4 : list marked := [(wd "c" "n", false); (wd "." "v", false); (wd "d" "v", false); (wd "." "sent", true)]%string.
Theorem C49_shorter_refuted : corpus true (s1 ++ s3 ++ s2) (s1 ++ s4 ++ s2) = Throw.
Proof. vm_compute. reflexivity. Qed.
Print Assumptions C49_shorter_refuted.
