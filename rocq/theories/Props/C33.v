(** C33: looking up the ambiguity class of a word.
    [lookup m c] is what the tagger does for a word with the tag set c: it returns the model afterwards, the tags used
    for the word (the open class for an unknown word), the class and its index. *)
From Coq Require Import String.
From Verif Require Import Model.Base Model.Similar Spec.Collection Proofs.Collection Proofs.Similar.
From Verif Require Model.Collection.
Import Verif.Model.Collection.

(** models: any collection made by insertions, with the open class in it *)
Definition model (m : tmodel) : Prop := (exists l, m_out m = ops_run l empty) /\ In (m_open m) (element (m_out m)).
Lemma model_okm m : model m -> okm m.
Proof. intros [[l E] H]. split; [rewrite E; apply run_ops_Inv, Inv_empty|exact H]. Qed.

(** training makes such models, with a class for every single tag *)
Theorem C33_training : forall l o n, let m := add_necessary (mkm o (ops_run l empty) n) in
  model m /\ (forall t, (t < N.of_nat n)%N -> In [t] (element (m_out m))) /\
  (forall i x, nth_error (element (ops_run l empty)) i = Some x -> nth_error (element (m_out m)) i = Some x).
Proof.
  intros l o n m.
  assert (F : forall ks c, Inv c -> Inv (fold_left (fun q i => fst (add [N.of_nat i] q)) ks c) /\
    (exists l', fold_left (fun q i => fst (add [N.of_nat i] q)) ks c = ops_run l' c) /\
    (forall i, In i ks -> In [N.of_nat i] (element (fold_left (fun q i => fst (add [N.of_nat i] q)) ks c))) /\
    (exists e, element (fold_left (fun q i => fst (add [N.of_nat i] q)) ks c) = element c ++ e)).
  { induction ks as [|k ks IH]; intros c Hc.
    - cbn. split; [exact Hc|]. split; [exists []; reflexivity|]. split; [intros i []|exists []; rewrite app_nil_r; reflexivity].
    - cbn [fold_left]. destruct (add_after c [N.of_nat k] Hc) as [HI HP].
      destruct (IH _ HI) as (I1 & (l' & I2) & I3 & (e & I4)). split; [exact I1|]. split; [exists (Add [N.of_nat k] :: l')|split].
      + rewrite I2. unfold ops_run. cbn [fold_left model_step]. destruct (add [N.of_nat k] c). reflexivity.
      + intros i [<-|Hi]; [|apply I3, Hi]. rewrite I4. apply in_or_app. left. apply pos_nth in HP. eapply nth_error_In, HP.
      + destruct (add_extends c [N.of_nat k] Hc) as [e0 E0]. rewrite I4, E0. exists (e0 ++ e). rewrite app_assoc. reflexivity. }
  assert (H0 : Inv (ops_run l empty)) by (apply run_ops_Inv, Inv_empty).
  destruct (add_after _ o H0) as [H1 H2]. destruct (add_extends _ o H0) as [e0 E0].
  destruct (F (seq 0 n) _ H1) as (F1 & (l' & F2) & F3 & (e & F4)). subst m. unfold add_necessary. cbn [m_open m_out m_ntags].
  split; [split; cbn [m_open m_out]|split].
  - exists (l ++ Add o :: l'). rewrite F2. unfold ops_run. rewrite fold_left_app. cbn [fold_left model_step].
    destruct (add o _). reflexivity.
  - rewrite F4. apply in_or_app. left. apply pos_nth in H2. eapply nth_error_In, H2.
  - intros t Ht. specialize (F3 (N.to_nat t)). rewrite N2Nat.id in F3. apply F3. apply in_seq. lia.
  - intros i x Hi. rewrite F4, E0, <- app_assoc. rewrite nth_error_app1; [exact Hi|]. apply nth_error_Some. congruence.
Qed.
Print Assumptions C33_training.

(** Every word of every text gets a class of the model, and the classes and their indices never change (so the
    emission matrix is never read out of bounds). *)
Theorem C33_class_exists : forall ws m, model m ->
  let '(m', answers) := lookups m ws in
  m_out m' = m_out m /\ length answers = length ws /\
  Forall (fun a => nth_error (element (m_out m)) (snd a) = Some (snd (fst a))) answers.
Proof.
  intros ws m Hm. apply model_okm in Hm.
  assert (G : forall ws m, okm m -> let '(m', answers) := lookups m ws in
    okm m' /\ m_out m' = m_out m /\ length answers = length ws /\
    Forall (fun a => nth_error (element (m_out m)) (snd a) = Some (snd (fst a))) answers).
  { clear. induction ws as [|c ws IH]; intros m Hm; cbn; [split; [exact Hm|]; repeat split; constructor|].
    pose proof (lookup_ok m c Hm) as L. destruct (lookup m c) as [m1 [[tg cls] k]]. destruct L as (O1 & E1 & N1 & _).
    specialize (IH m1 O1). destruct (lookups m1 ws) as [m2 b]. destruct IH as (O2 & E2 & L2 & F2). rewrite E1 in *.
    split; [exact O2|]. split; [exact E2|]. split; [cbn; congruence|]. constructor; [exact N1|exact F2]. }
  specialize (G ws m Hm). destruct (lookups m ws). tauto.
Qed.
Print Assumptions C33_class_exists.

(** A word whose tags are a class of the model gets this class, and the model stays the same. *)
Theorem C33_known_class : forall m c, model m -> In c (element (m_out m)) -> c <> [] ->
  exists k, lookup m c = (m, (c, c, k)).
Proof.
  intros m c Hm Hc Hn. apply model_okm in Hm. pose proof (lookup_ok m c Hm) as L. destruct (lookup m c) as [m1 [[tg cls] k]].
  destruct L as (_ & _ & _ & _ & Et & L & _). destruct c as [|x c]; [congruence|]. subst tg. destruct (L Hc) as [-> ->]. exists k. reflexivity.
Qed.
Print Assumptions C33_known_class.
(** An unknown word gets the open class, and the model stays the same. *)
Theorem C33_unknown_word : forall m, model m -> exists k, lookup m [] = (m, (m_open m, m_open m, k)).
Proof.
  intros m Hm. pose proof (proj2 Hm) as Ho. apply model_okm in Hm. pose proof (lookup_ok m [] Hm) as L. destruct (lookup m []) as [m1 [[tg cls] k]].
  destruct L as (_ & _ & _ & _ & Et & L & _). subst tg. destruct (L Ho) as [-> ->]. exists k. reflexivity.
Qed.
Print Assumptions C33_unknown_word.

(** A tag set that is no class gets: the first of the smallest classes containing it, if there is one smaller than
    the open class; otherwise the open class.
    Partial: the class contains the tags only if the open class does (or a smaller class exists), and the model is
    changed: see the refutations. *)
Theorem C33_similar_class_partial : forall m c, model m -> ~ In c (element (m_out m)) -> c <> [] ->
  exists m' r k, lookup m c = (m', (c, r, k)) /\ m_out m' = m_out m /\ m_open m' = r /\
    (r = m_open m /\ (forall x, In x (element (m_out m)) -> incl c x -> length (m_open m) <= length x)
     \/ exists l1 l2, element (m_out m) = l1 ++ r :: l2 /\ incl c r /\ length r < length (m_open m) /\
        (forall x, In x l1 -> incl c x -> length r < length x) /\ (forall x, In x l2 -> incl c x -> length r <= length x)) /\
    (incl c (m_open m) -> incl c r).
Proof.
  intros m c Hm Hc Hn. apply model_okm in Hm. pose proof (lookup_ok m c Hm) as L. destruct (lookup m c) as [m1 [[tg cls] k]].
  destruct L as (_ & Eo & _ & _ & Et & _ & L). destruct c as [|x c]; [congruence|]. subst tg. destruct (L Hc) as [E1 E2].
  destruct (pick_spec (x :: c) (element (m_out m)) (m_open m)) as (P1 & P2 & P3). rewrite <- E2 in P1, P2, P3.
  exists m1, cls, k. split; [reflexivity|]. split; [exact Eo|]. split; [exact E1|].
  destruct P3 as [P3|(l1 & l2 & Q1 & Q2 & Q3 & Q4)].
  - split; [left|rewrite P3; auto]. split; [exact P3|]. intros y Hy Hi. rewrite <- P3. apply P2; assumption.
  - split; [right|auto]. exists l1, l2. split; [exact Q1|]. split; [exact Q2|]. split; [exact Q3|]. split; [exact Q4|].
    intros y Hy Hi. apply P2; [|exact Hi]. rewrite Q1. apply in_or_app. right. right. exact Hy.
Qed.
Print Assumptions C33_similar_class_partial.

(** Over a whole text: if no class smaller than the open class contains the tags of a word outside the model, the
    model is the same after the text. *)
Theorem C33_unchanged : forall ws m, model m ->
  (forall c, In c ws -> In c (element (m_out m)) \/ c = [] \/ forall x, In x (element (m_out m)) -> incl c x -> length (m_open m) <= length x) ->
  fst (lookups m ws) = m.
Proof.
  induction ws as [|c ws IH]; intros m Hm H; [reflexivity|]. cbn.
  assert (E : exists a, lookup m c = (m, a)).
  { destruct c as [|x c]; [destruct (C33_unknown_word m Hm) as [k E]; eauto|].
    destruct (in_dec (list_eq_dec N.eq_dec) (x :: c) (element (m_out m))) as [K|K].
    - destruct (C33_known_class m (x :: c) Hm K ltac:(discriminate)) as [k E]. eauto.
    - destruct (C33_similar_class_partial m (x :: c) Hm K ltac:(discriminate)) as (m' & r & k & E & Eo & Er & Hr & _).
      destruct (H (x :: c) (or_introl eq_refl)) as [A|[A|A]]; [contradiction|discriminate|].
      destruct Hr as [[Hr _]|(l1 & l2 & Q1 & Q2 & Q3 & _)].
      + exists (x :: c, r, k). rewrite E. f_equal. destruct m, m'. cbn in *. subst.
        assert (m_ntags0 = m_ntags) as ->; [|reflexivity].
        apply (f_equal (fun z => Similar.m_ntags (fst z))) in E. unfold lookup, require_similar in E. cbn in E.
        destruct (has_not (x :: c) m_out); [unfold find_similar in E|]; cbn in E;
          match type of E with context [add ?a ?b] => destruct (add a b) end; cbn in E; symmetry; exact E.
      + exfalso. specialize (A r). rewrite Q1 in A. specialize (A ltac:(apply in_or_app; right; left; reflexivity) Q2). lia. }
  destruct E as [a ->]. specialize (IH m Hm (fun c' Hc => H c' (or_intror Hc))). destruct (lookups m ws). cbn in *. exact IH.
Qed.
Print Assumptions C33_unchanged.

(** Case: tags 0..4, open class {1,2,3,4}, class {1,2,3}. *)
Definition m0 : tmodel := add_necessary (mkm [1;2;3;4]%N (ops_run [Add [1;2;3]%N; Add [1;2]%N] empty) 5).
Example C33_case_model : model m0.
Proof. apply (C33_training [Add [1;2;3]%N; Add [1;2]%N] [1;2;3;4]%N 5). Qed.
Example C33_case : snd (lookup m0 [2;3]%N) = ([2;3]%N, [1;2;3]%N, 0).
Proof. vm_compute. reflexivity. Qed.

(** FINDING: the lookup overwrites the open class of the model: after one word with the tags {2,3} an unknown word can
    no longer get the tag 4. *)
Theorem C33_model_unchanged_refuted : exists m c, model m /\ m_open (fst (lookup m c)) <> m_open m /\
  snd (lookup (fst (lookup m c)) []) <> snd (lookup m []).
Proof. exists m0, [2;3]%N. split; [exact C33_case_model|]. split; vm_compute; discriminate. Qed.
Print Assumptions C33_model_unchanged_refuted.
(** FINDING: the answer for a word depends on the words before it: alone, {3,4} gets a class that contains it; after
    {2,3} it gets a class that does not contain 4. *)
Theorem C33_history_refuted : exists m c1 c2, model m /\
  incl c2 (snd (fst (snd (lookup m c2)))) /\ ~ incl c2 (snd (fst (snd (lookup (fst (lookup m c1)) c2)))).
Proof.
  exists m0, [2;3]%N, [3;4]%N. split; [exact C33_case_model|]. split.
  - apply includes_spec. vm_compute. reflexivity.
  - intros H. apply includes_spec in H. vm_compute in H. discriminate.
Qed.
Print Assumptions C33_history_refuted.
(** FINDING: the class need not contain the tags of the word, even for the first word: a closed tag outside the open
    class, and no class that contains both. *)
Theorem C33_contains_refuted : exists m c, model m /\ ~ incl c (snd (fst (snd (lookup m c)))).
Proof.
  exists m0, [0;1]%N. split; [exact C33_case_model|]. intros H. apply includes_spec in H. vm_compute in H. discriminate.
Qed.
Print Assumptions C33_contains_refuted.
