(** C19: the averaged weights are the arithmetic mean over the iterations. *)
From Coq Require Import String QArith.
From Verif Require Import Model.Base Model.Codec Model.FeatureVec Spec.FeatureVec Proofs.FeatureVec.
Open Scope nat_scope.

(** For every history of +=, -= and incIteration from any initial weights, whenever average() completes, every
    feature's weight is the mean of the values it had each time an iteration ended ([samples] replays the history
    on plain functions). *)
Theorem C19_mean_partial : forall w0 l m, fsorted w0 -> ops_simple l ->
  average (fold_left astep l (avg0 w0)) = Some m ->
  forall k, (den m k == mean_at k (samples (den w0) l))%Q.
Proof. exact averager_mean. Qed.
Print Assumptions C19_mean_partial.

(** the running weights are those of the replay, at any point *)
Theorem C19_weights : forall w0 l k, fsorted w0 -> ops_simple l ->
  (den (weights (fold_left astep l (avg0 w0))) k == final_w (den w0) l k)%Q.
Proof. exact averager_weights. Qed.
Print Assumptions C19_weights.

(** FINDING.  average() (feature_vec_averager.cc:39-53) erases an element whose sum is zero and then increments
    the erased iterator: undefined behaviour exactly when some stored feature has a zero sum of samples. *)
Theorem C19_undefined_iff : forall w0 l, fsorted w0 -> ops_simple l ->
  (average (fold_left astep l (avg0 w0)) = None <->
   exists k, In k (map fst (weights (fold_left astep l (avg0 w0)))) /\ (sum_at k (samples (den w0) l) == 0)%Q).
Proof. exact averager_ub. Qed.
Print Assumptions C19_undefined_iff.

(** In particular it happens in ordinary training: one update whose correct and predicted vectors share a
    feature, with the same value, that had no weight before. *)
Theorem C19_undefined_refuted : forall k v a b, fsorted a -> fsorted b ->
  In k (map fst a) -> (den a k == v)%Q -> (den b k == v)%Q ->
  average (fold_left astep [OSub a; OAdd b; OInc] (avg0 [])) = None.
Proof. exact averager_shared. Qed.
Print Assumptions C19_undefined_refuted.

Example C19_example :
  let f := [u "f"] in let g := [u "g"] in
  let l := [OAdd [(f, 3)]; OInc; OInc; OSub [(f, 1); (g, 4)]; OInc]%Q in
  ops_simple l /\ exists m, average (fold_left astep l (avg0 [])) = Some m /\ (den m f == 8 # 3)%Q /\ (den m g == -(4 # 3))%Q.
Proof. split; [repeat constructor|]. eexists. split; [reflexivity|]. split; reflexivity. Qed.
Example C19_refuted_example :
  let f := [u "f"] in average (fold_left astep [OSub [(f, 1)]; OAdd [(f, 1)]; OInc]%Q (avg0 [])) = None.
Proof. reflexivity. Qed.
