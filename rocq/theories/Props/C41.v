(** C41: perceptron training updates the weights only on violations, by exactly the difference of the feature
    vectors of the correct and the predicted tag sequence, and makes finitely many updates on separable data. *)
From Coq Require Import String QArith.
From Verif Require Import Model.Base Model.FeatureVec Spec.FeatureVec Proofs.FeatureVec Model.PerceptronTrain
  Spec.PerceptronTrain Proofs.PerceptronTrain.
Open Scope nat_scope.

(** [all_fired sent gold t] lists the features fired by tag sequence [t] on the tokens that are trained on
    (ambiguous, with a gold analysis).  Whenever trainSentence makes an update:
    it subtracts the features of some prefix [tp] and adds those of a prefix [tc] of the same length which has the
    gold analysis at every trained token; and under the current weights the correct one did not score higher. *)
Theorem C41_updates_fix_violations : forall A A_dec nmorph feats w width sent gold p c, fsorted w ->
  trainSentence A A_dec nmorph feats w width sent gold (OUpdate p c) ->
  fsorted p /\ fsorted c /\ (dot_vec c w <= dot_vec p w)%Q /\
  exists i tp tc, i <= length sent /\ length tp = i /\ length tc = i /\ agrees A sent gold i tc /\
    p = add_unary [] (all_fired A nmorph feats sent gold tp) /\ c = add_unary [] (all_fired A nmorph feats sent gold tc).
Proof. exact train_update. Qed.
Print Assumptions C41_updates_fix_violations.

(** the weights after the update *)
Theorem C41_weight_change : forall a w T p c, AInv a w T -> fsorted p -> fsorted c ->
  let a' := fold_left astep [OSub p; OAdd c; OInc] a in
  exists w' T', AInv a' w' T' /\ forall k, (den (weights a') k == den (weights a) k - den p k + den c k)%Q.
Proof. exact upd_weights. Qed.
Print Assumptions C41_weight_change.

(** when no update is made the best hypothesis of the final agenda already agrees with the gold tags *)
Theorem C41_no_update_means_correct : forall A A_dec nmorph feats w width sent gold, fsorted w ->
  trainSentence A A_dec nmorph feats w width sent gold ONone ->
  exists st f l, treach A A_dec nmorph feats w width sent gold (length sent) st /\ ag A st = f :: l /\
    agrees A sent gold (length sent) (ttg f) /\ length (ttg f) = length sent.
Proof. exact train_none. Qed.
Print Assumptions C41_no_update_means_correct.

(** Convergence.  Training from zero weights on any sequence of sentences (any number of passes, any order, any
    beam width, any tie breaking): if some weight vector [u] separates every update made with margin [gam] and the
    updates have squared norm at most [R], then at most R*|u|^2/gam^2 updates are made. *)
Theorem C41_convergence : forall A A_dec nmorph feats width u gam R corpus us a', fsorted u -> (0 < gam)%Q -> (0 <= R)%Q ->
  train A A_dec nmorph feats width (avg0 []) corpus us a' ->
  (forall p c, In (p, c) us -> (gam <= dot_vec c u - dot_vec p u)%Q) ->
  (forall p c, In (p, c) us -> (dot_vec (sub_vec c p) (sub_vec c p) <= R)%Q) ->
  (Qnat (length us) * (gam * gam) <= R * dot_vec u u)%Q.
Proof. exact convergence. Qed.
Print Assumptions C41_convergence.

(** example: one ambiguous token whose feature is the analysis itself; the first pass updates, the second does not *)
Definition ex_feats (t : list (option N)) (s : list (list N)) (i j : nat) : ufvec :=
  [map (fun o => match o with Some a => [a] | None => [] end) t].
Notation exT := (trainSentence N N.eq_dec (fun _ => 1) ex_feats).
Example C41_example_update : exT [] 1 [[1; 2]]%N [Some 2]%N (OUpdate [([[1]]%N, 1%Q)] [([[2]]%N, 1%Q)]).
Proof.
  eapply tr_early with (i := 0) (toks := [1; 2]%N) (g := Some 2%N); [constructor|reflexivity|reflexivity|].
  change (OUpdate [([[1%N]], 1%Q)] [([[2%N]], 1%Q)]) with
    (upd N [mkt [Some 1%N] 0%Q [([[1%N]], 1%Q)]] (ext N (fun _ => 1) ex_feats [] [[1; 2]]%N 0 (t0 N) 2%N)).
  eapply ts_fell; cbn [ag ci cs length nth_error]; [repeat constructor|reflexivity|right; left; reflexivity|discriminate| |reflexivity].
  split; [reflexivity|]. split; [repeat constructor|]. exists [mkt [Some 2%N] 0%Q [([[2%N]], 1%Q)]].
  split; [apply Permutation.Permutation_refl|]. intros x y [<-|[]] [<-|[]]. discriminate.
Qed.
Example C41_example_none : exT [([[1]]%N, (-1)%Q); ([[2]]%N, 1%Q)] 1 [[1; 2]]%N [Some 2]%N ONone.
Proof.
  set (w := [([[1]]%N, (-1)%Q); ([[2]]%N, 1%Q)]).
  eapply tr_end with (st := mks N [mkt [Some 2%N] 1%Q [([[2%N]], 1%Q)]] 0 (ext N (fun _ => 1) ex_feats w [[1; 2]]%N 0 (t0 N) 2%N));
    [|reflexivity].
  eapply treachS with (i := 0) (toks := [1; 2]%N) (g := Some 2%N); [constructor|reflexivity|reflexivity|].
  eapply ts_kept; cbn [ag ci cs length nth_error]; [repeat constructor|reflexivity|right; left; reflexivity|discriminate| |reflexivity].
  split; [reflexivity|]. split; [repeat constructor|]. exists [mkt [Some 1%N] (-1)%Q [([[1%N]], 1%Q)]].
  split; [apply Permutation.perm_swap|]. intros x y [<-|[]] [<-|[]]. discriminate.
Qed.
