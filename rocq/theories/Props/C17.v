(** C17: unigram tagging selects the first analysis of maximal score. *)
From Coq Require Import String QArith.
From Verif Require Import Model.Base Model.AMap Model.Unigram Spec.Unigram Proofs.Unigram.
Open Scope nat_scope.

(** For every model state (trained or loaded) and every non-empty list of analyses that can be scored: the
    analysis chosen is one of them, no other scores more, and every earlier one scores strictly less. *)
Theorem C17_first_best : forall k st l, l <> [] -> (forall x, In x l -> score k st x <> None) ->
  exists y l1 l2 s, tag_unit k st l = Some (Some y) /\ l = l1 ++ y :: l2 /\ score k st y = Some s /\
    (forall x sx, In x l -> score k st x = Some sx -> (sx <= s)%Q) /\
    (forall x sx, In x l1 -> score k st x = Some sx -> (sx < s)%Q).
Proof. exact tag_first_best. Qed.
Print Assumptions C17_first_best.

(** every well-formed analysis can be scored *)
Theorem C17_scorable : forall k st x, wf_analysis x -> score k st x <> None.
Proof. exact score_ok. Qed.
Print Assumptions C17_scorable.

(** a unit without analyses is left without a choice *)
Theorem C17_none : forall k st, tag_unit k st [] = Some None.
Proof. reflexivity. Qed.
Print Assumptions C17_none.

(** model 1: the score is one more than the stored count, so the most frequent analysis wins *)
Theorem C17_model1_score : forall st x,
  (score1 st x == 1 + Qn (match find analysis_dec x (model1 st) with Some n => n | None => O end))%Q.
Proof. exact score1_count. Qed.
Print Assumptions C17_model1_score.

(** model 2: of two analyses with the same tags the one whose lemma was counted more scores strictly higher *)
Theorem C17_model2_prefers_frequent : forall st x y a lx ly,
  to_a x = Some a -> to_a y = Some a -> to_lemma x = Some lx -> to_lemma y = Some ly ->
  get2 a_dec lemma_dec a ly (model2 st) < get2 a_dec lemma_dec a lx (model2 st) ->
  exists sx sy, score2 st x = Some sx /\ score2 st y = Some sy /\ (sy < sx)%Q.
Proof. exact score2_mono. Qed.
Print Assumptions C17_model2_prefers_frequent.

(** models 2 and 3: the score is exactly the smoothed formula of Spec/Unigram.v over the stored counts *)
Theorem C17_model2_score : forall st x a l, to_a x = Some a -> to_lemma x = Some l ->
  exists s, score2 st x = Some s /\ (s == spec2 st a l)%Q.
Proof. exact score2_exact. Qed.
Print Assumptions C17_model2_score.
Theorem C17_model3_score : forall st x m ms, an_morphemes x = m :: ms -> wf_analysis x ->
  exists s, score3 st x = Some s /\ (s == spec3 st m ms)%Q.
Proof. exact score3_exact. Qed.
Print Assumptions C17_model3_score.

Example C17_example :
  let an w t := mkan [mkm (u w) [u t]] in
  match train M3 [[an "a" "n"; an "a" "v"]; [an "a" "v"]; [an "b" "n"]]%string with
  | Some st => tag_unit M3 st [an "a" "n"; an "a" "v"; an "a" "v"]%string = Some (Some (an "a" "v"))%string
  | None => False end.
Proof. vm_compute. reflexivity. Qed.
