(** C20: perceptron tagging of a sentence.  Scores exact; feature extraction any pure function; the choice among
    equal-score hypotheses is left open (tagSentence is a relation and the theorems hold for every outcome). *)
From Coq Require Import String QArith.
From Verif Require Import Model.Base Model.FeatureVec Model.Perceptron Spec.Perceptron Proofs.Perceptron.
Open Scope nat_scope.

(** one analysis per lexical unit, taken from that unit's own analyses (none iff it has none) *)
Theorem C20_one_analysis_per_token : forall A nmorph feats w width sent out,
  tagSentence A nmorph feats w width sent (Some out) -> legal A sent out.
Proof. exact tag_legal. Qed.
Print Assumptions C20_one_analysis_per_token.

(** with a beam of at least one a result always exists and no run is undefined *)
Theorem C20_total : forall A nmorph feats w width sent, 1 <= width ->
  (exists out, tagSentence A nmorph feats w width sent (Some out)) /\
  (forall out, tagSentence A nmorph feats w width sent out -> out <> None).
Proof. exact (fun A n f w wd s H => conj (tag_exists A n f w wd s H) (fun o => tag_defined A n f w wd s o H)). Qed.
Print Assumptions C20_total.

(** the beam never exceeds its width *)
Theorem C20_beam : forall A nmorph feats w width sent i agenda,
  reach A nmorph feats w width sent i agenda -> length agenda <= Nat.max 1 width.
Proof. exact tag_beam. Qed.
Print Assumptions C20_beam.

(** if the beam is wide enough that nothing is pruned the result has maximal total score among all taggings *)
Theorem C20_optimal : forall A nmorph feats w width sent out, combinations A sent <= width ->
  tagSentence A nmorph feats w width sent (Some out) ->
  forall t, legal A sent t -> (total A nmorph feats w sent t <= total A nmorph feats w sent out)%Q.
Proof. exact tag_optimal. Qed.
Print Assumptions C20_optimal.

(** units with at most one analysis are never changed by the model *)
Theorem C20_unambiguous : forall A nmorph feats w width sent out, Forall (fun toks => length toks <= 1) sent ->
  tagSentence A nmorph feats w width sent out -> out = Some (map (fun toks => hd_error toks) sent).
Proof. exact tag_forced. Qed.
Print Assumptions C20_unambiguous.

(** a beam width of 0 (accepted by the spec reader) makes any ambiguous sentence undefined: front() of an empty
    vector (line 100) *)
Theorem C20_width0_undefined : forall A nmorph feats w sent toks out, In toks sent -> 2 <= length toks ->
  tagSentence A nmorph feats w 0 sent out -> out = None.
Proof. exact tag_width0. Qed.
Print Assumptions C20_width0_undefined.

(** example: analyses are numbers, the feature of a token is the pair of the last two choices *)
Definition ex_feats (t : list (option N)) (s : list (list N)) (i j : nat) : ufvec :=
  [map (fun o => match o with Some a => [a] | None => [] end) (skipn (length t - 2) t)].
Definition ex_w : fvec := [([[1]; [4]]%N, 5); ([[2]]%N, 3); ([[2]; [3]]%N, 1)]%Q.
Example C20_example_greedy_vs_optimal :
  legal N [[1; 2]; []; [3; 4]]%N [Some 1; None; Some 4]%N /\
  (total N (fun _ => 1%nat) ex_feats ex_w [[1; 2]; [3; 4]]%N [Some 1; Some 4]%N == 5)%Q /\
  (total N (fun _ => 1%nat) ex_feats ex_w [[1; 2]; [3; 4]]%N [Some 2; Some 3]%N == 4)%Q /\
  combinations N [[1; 2]; [3; 4]]%N = 4.
Proof. split; [repeat (apply Forall2_cons || apply Forall2_nil); cbn; auto|]. repeat split; reflexivity. Qed.
Example C20_example_run : tagSentence N (fun _ => 1%nat) ex_feats ex_w 4 [[1; 2]; [3; 4]]%N (Some [Some 1; Some 4]%N).
Proof.
  destruct (tag_exists N (fun _ => 1%nat) ex_feats ex_w 4 [[1; 2]; [3; 4]]%N ltac:(repeat constructor)) as [out H].
  pose proof (tag_legal _ _ _ _ _ _ _ H) as L.
  assert (O := tag_optimal N (fun _ => 1%nat) ex_feats ex_w 4 [[1; 2]; [3; 4]]%N out (le_n 4) H [Some 1; Some 4]%N ltac:(repeat (apply Forall2_cons || apply Forall2_nil); cbn; auto)).
  inversion L as [|? o1 ? t1 H1 L1]; subst. inversion L1 as [|? o2 ? t2 H2 L2]; subst. inversion L2; subst.
  destruct o1 as [a|]; [|discriminate]. destruct o2 as [b|]; [|discriminate]. cbn in H1, H2.
  destruct H1 as [<-|[<-|[]]], H2 as [<-|[<-|[]]]; try exact H; exfalso; vm_compute in O; apply O; reflexivity.
Qed.
