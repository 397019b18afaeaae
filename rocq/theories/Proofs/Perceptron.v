From Coq Require Import QArith Lqa Permutation Sorted.
From Verif Require Import Model.Base Proofs.Base Model.FeatureVec Model.Perceptron Spec.Perceptron.
Open Scope nat_scope.

Local Arguments Qplus : simpl never.
Local Arguments Qmult : simpl never.
Local Arguments Qle : simpl never.
Local Arguments Qeq : simpl never.
Section P.
Variable A : Type.
Variable nmorph : A -> nat.
Variable feats : list (option A) -> list (list A) -> nat -> nat -> ufvec.
Notation item := (item A).
Notation delta := (delta A feats).
Notation expand := (expand A nmorph feats).
Notation extend := (extend A).
Notation beam := (beam A).
Notation step := (step A nmorph feats).
Notation reach := (reach A nmorph feats).
Notation tagSentence := (tagSentence A nmorph feats).
Notation score_at := (score_at A nmorph feats).
Notation total := (total A nmorph feats).
Notation legal := (legal A).
Notation combinations := (combinations A).
Notation desc := (fun x y : item => (sc y <= sc x)%Q).

Lemma qsum_app l r : (qsum (l ++ r) == qsum l + qsum r)%Q.
Proof. unfold qsum. induction l as [|x l IH]; cbn; [ring|]. rewrite IH; ring. Qed.
Lemma qsum_ext {B} (f g : B -> Q) l : (forall x, In x l -> (f x == g x)%Q) -> (qsum (map f l) == qsum (map g l))%Q.
Proof.
  unfold qsum. induction l as [|x l IH]; intros H; cbn; [reflexivity|]. rewrite (H x) by (left; reflexivity).
  rewrite IH by (intros; apply H; right; assumption). reflexivity.
Qed.
Lemma delta_qsum w t sent i n : (delta w t sent i n == qsum (map (fun j => dot_unary w (feats t sent i j)) (seq 0 n)))%Q.
Proof.
  unfold Perceptron.delta. generalize (seq 0 n). intros l.
  assert (G : forall acc, (fold_left (fun s j => s + dot_unary w (feats t sent i j)) l acc ==
     acc + qsum (map (fun j => dot_unary w (feats t sent i j)) l))%Q).
  { unfold qsum. induction l as [|j l IH]; intros acc; cbn; [ring|]. rewrite IH. ring. }
  rewrite G. ring.
Qed.

Lemma total_snoc w sent t o : (total w sent (t ++ [o]) == total w sent t + score_at w sent (t ++ [o]) (length t))%Q.
Proof.
  unfold Spec.Perceptron.total. rewrite app_length. cbn [length]. rewrite Nat.add_1_r, seq_S, map_app, qsum_app. cbn [map qsum fold_right Nat.add].
  rewrite Qplus_0_r. apply Qplus_comp; [|reflexivity].
  apply qsum_ext. intros i Hi. apply in_seq in Hi. unfold Spec.Perceptron.score_at.
  rewrite nth_error_app1 by lia. rewrite firstn_app. replace (S i - length t) with 0 by lia. cbn [firstn]. rewrite app_nil_r.
  reflexivity.
Qed.

Lemma firstn_S {B} i : forall (l : list B) x, nth_error l i = Some x -> firstn (S i) l = firstn i l ++ [x].
Proof.
  induction i as [|i IH]; intros [|y l] x H; cbn in H; try discriminate; [injection H as ->; reflexivity|].
  cbn [firstn app]. f_equal. apply IH; exact H.
Qed.

Record Inv w width sent i (agenda : list item) : Prop := mkI {
  i_len : i <= length sent;
  i_legal : forall it, In it agenda -> legal (firstn i sent) (tg it);
  i_score : forall it, In it agenda -> (sc it == total w sent (tg it))%Q;
  i_sorted : Sorted desc agenda;
  i_size : length agenda <= Nat.max 1 width;
  i_complete : combinations sent <= width ->
     length agenda = combinations (firstn i sent) /\
     forall t, legal (firstn i sent) t -> exists it, In it agenda /\ tg it = t }.

Lemma combos_app l1 l2 : combinations (l1 ++ l2) = combinations l1 * combinations l2.
Proof. induction l1 as [|[|a x] l1 IH]; cbn [combinations app fold_right] in *; unfold Spec.Perceptron.combinations in *; cbn in *; rewrite ?IH; lia. Qed.
Lemma combos_pos l : 1 <= combinations l.
Proof. unfold Spec.Perceptron.combinations. induction l as [|[|a x] l IH]; cbn in *; [lia|exact IH|]. nia. Qed.
Lemma combos_firstn i l : combinations (firstn i l) <= combinations l.
Proof. rewrite <- (firstn_skipn i l) at 2. rewrite combos_app. pose proof (combos_pos (skipn i l)). nia. Qed.

Lemma expand_In w sent i toks agenda x : In x (expand w sent i toks agenda) <->
  exists it a, In it agenda /\ In a toks /\
    x = mki (tg it ++ [Some a]) (sc it + delta w (tg it ++ [Some a]) sent i (nmorph a))%Q.
Proof.
  unfold Perceptron.expand. rewrite in_flat_map. split.
  - intros [it [H1 H2]]. apply in_map_iff in H2 as [a [<- H2]]. exists it, a. auto.
  - intros [it [a [H1 [H2 ->]]]]. exists it. split; [exact H1|]. apply in_map_iff. exists a. auto.
Qed.
Lemma expand_length w sent i toks agenda : length (expand w sent i toks agenda) = length agenda * length toks.
Proof. unfold Perceptron.expand. induction agenda as [|it l IH]; cbn; [reflexivity|]. rewrite app_length, map_length, IH. reflexivity. Qed.

Lemma legal_snoc l t toks o : legal l t -> (match o with Some a => In a toks | None => toks = [] end) -> legal (l ++ [toks]) (t ++ [o]).
Proof. intros H1 H2. apply Forall2_app; [exact H1|]. constructor; [exact H2|constructor]. Qed.
Lemma legal_snoc_inv l toks t : legal (l ++ [toks]) t -> exists t' o, t = t' ++ [o] /\ legal l t' /\
  (match o with Some a => In a toks | None => toks = [] end).
Proof.
  intros H. apply Forall2_app_inv_l in H as [t1 [t2 [H1 [H2 ->]]]]. inversion H2 as [|? o ? t3 Ho Ht]; subst.
  inversion Ht; subst. exists t1, o. auto.
Qed.
Lemma legal_length l t : legal l t -> length t = length l.
Proof. intros H. induction H; cbn; congruence. Qed.

Lemma sorted_extend o agenda : Sorted desc agenda -> Sorted desc (extend o agenda).
Proof.
  intros H; induction H as [|x l Hs IH Hd]; cbn; constructor; [exact IH|].
  destruct Hd; cbn; constructor; assumption.
Qed.

Lemma Inv_step w width sent i toks agenda agenda' : Inv w width sent i agenda -> nth_error sent i = Some toks ->
  step w width sent i toks agenda agenda' -> Inv w width sent (S i) agenda'.
Proof.
  intros [H1 H2 H3 H4 H5 H6] Hn Hs.
  assert (Hi : i < length sent) by (apply nth_error_Some; congruence).
  assert (Hf := firstn_S i sent toks Hn).
  assert (Ext : forall o, (toks = [] /\ o = None) \/ (exists a, toks = [a] /\ o = Some a) ->
            Inv w width sent (S i) (extend o agenda)).
  { intros o Ho.
    assert (Hl : match o with Some a => In a toks | None => toks = [] end)
      by (destruct Ho as [[-> ->]|[a [-> ->]]]; [reflexivity|left; reflexivity]).
    constructor; [lia| | |apply sorted_extend, H4|unfold Perceptron.extend; rewrite map_length; exact H5|].
    - intros it Hit. apply in_map_iff in Hit as [it0 [<- Hit]]. rewrite Hf. apply legal_snoc; auto.
    - intros it Hit. apply in_map_iff in Hit as [it0 [<- Hit]]. cbn [tg sc]. rewrite total_snoc, <- (H3 it0 Hit).
      unfold Spec.Perceptron.score_at.
      rewrite (legal_length _ _ (H2 it0 Hit)), firstn_length_le, Hn by lia.
      destruct Ho as [[-> _]|[a [-> _]]]; ring.
    - intros Hc. destruct (H6 Hc) as [L C]. unfold Perceptron.extend. rewrite map_length, L, Hf, combos_app. split.
      + destruct Ho as [[-> _]|[a [-> _]]]; cbn; lia.
      + intros t Ht. apply legal_snoc_inv in Ht as [t' [o' [-> [Ht Ho']]]]. destruct (C t' Ht) as [it [Hit <-]].
        exists (mki (tg it ++ [o]) (sc it)). split; [apply in_map_iff; exists it; auto|]. cbn.
        destruct Ho as [[-> ->]|[a [-> ->]]]; destruct o' as [a'|]; cbn in Ho'; try contradiction; try discriminate; [reflexivity|].
        destruct Ho' as [->|[]]. reflexivity. }
  inversion Hs as [ag|a ag|a b toks' ag ag' Hb]; subst.
  - apply Ext. left; auto.
  - apply Ext. right; eauto.
  - destruct Hb as [B1 [B2 [rest [B3 B4]]]]. set (toks := a :: b :: toks') in *.
    assert (Sub : forall x, In x agenda' -> In x (expand w sent i toks agenda)).
    { intros x Hx. eapply Permutation_in; [apply Permutation_sym, B3|]. apply in_or_app; auto. }
    constructor; [lia| | |exact B2|lia|].
    + intros it Hit. apply Sub, expand_In in Hit as [it0 [c [Hi0 [Hc ->]]]]. rewrite Hf. apply legal_snoc; auto.
    + intros it Hit. apply Sub, expand_In in Hit as [it0 [c [Hi0 [Hc ->]]]]. cbn [tg sc].
      rewrite total_snoc, <- (H3 it0 Hi0), delta_qsum. unfold Spec.Perceptron.score_at.
      rewrite (legal_length _ _ (H2 it0 Hi0)), firstn_length_le, Hn by lia. unfold toks at 1.
      assert (Ln : length (tg it0) = i) by (rewrite (legal_length _ _ (H2 it0 Hi0)), firstn_length_le; lia).
      rewrite nth_error_app2, Ln, Nat.sub_diag by lia. cbn [nth_error].
      replace (firstn (S i) (tg it0 ++ [Some c])) with (tg it0 ++ [Some c]);
        [reflexivity|symmetry; apply firstn_all2; rewrite app_length; cbn; lia].
    + intros Hc. destruct (H6 Hc) as [L C].
      assert (Le : length (expand w sent i toks agenda) = combinations (firstn (S i) sent)).
      { rewrite expand_length, L, Hf, combos_app. change (combinations [toks]) with (length toks * 1). rewrite Nat.mul_1_r. reflexivity. }
      assert (Lb : combinations (firstn (S i) sent) <= width) by (pose proof (combos_firstn (S i) sent); lia).
      split; [rewrite B1, Le; lia|].
      assert (rest = []).
      { apply Permutation_length in B3. rewrite app_length, B1, Le in B3. destruct rest; [reflexivity|cbn [length] in B3; lia]. }
      subst rest. rewrite app_nil_r in B3.
      intros t Ht. rewrite Hf in Ht. apply legal_snoc_inv in Ht as [t' [o' [-> [Ht Ho']]]].
      destruct o' as [c|]; [|discriminate]. destruct (C t' Ht) as [it [Hit <-]].
      eexists. split; [eapply Permutation_in; [exact B3|]; apply expand_In; exists it, c; split; [exact Hit|]; split; [exact Ho'|reflexivity]|reflexivity].
Qed.

Lemma Inv_reach w width sent i agenda : reach w width sent i agenda -> Inv w width sent i agenda.
Proof.
  intros H; induction H as [|i toks ag ag' Hr IH Hn Hs].
  - constructor; cbn.
    + lia.
    + intros it [<-|[]]. constructor.
    + intros it [<-|[]]. reflexivity.
    + repeat constructor.
    + exact (Nat.le_max_l 1 width).
    + intros _. split; [reflexivity|]. intros t Ht. inversion Ht; subst. exists (mki [] 0%Q). cbn. auto.
  - eapply Inv_step; eauto.
Qed.

Lemma tag_legal w width sent out : tagSentence w width sent (Some out) -> legal sent out.
Proof.
  intros [ag [Hr E]]. destruct ag as [|it ag]; cbn in E; [discriminate|]. injection E as ->.
  pose proof (i_legal _ _ _ _ _ (Inv_reach _ _ _ _ _ Hr) it (or_introl eq_refl)) as H.
  rewrite firstn_all in H. exact H.
Qed.
Lemma tag_beam w width sent i ag : reach w width sent i ag -> length ag <= Nat.max 1 width.
Proof. intros H. exact (i_size _ _ _ _ _ (Inv_reach _ _ _ _ _ H)). Qed.

Lemma desc_trans : forall x y z : item, desc x y -> desc y z -> desc x z.
Proof. intros x y z H1 H2. exact (Qle_trans _ _ _ H2 H1). Qed.

Lemma head_max (it : item) ag : Sorted desc (it :: ag) -> forall x, In x (it :: ag) -> (sc x <= sc it)%Q.
Proof.
  intros H x [<-|Hx]; [apply Qle_refl|]. apply Sorted_StronglySorted in H; [|exact desc_trans].
  inversion H as [|? ? _ Hf]; subst. rewrite Forall_forall in Hf. exact (Hf x Hx).
Qed.

Lemma tag_optimal w width sent out : combinations sent <= width -> tagSentence w width sent (Some out) ->
  forall t, legal sent t -> (total w sent t <= total w sent out)%Q.
Proof.
  intros Hc [ag [Hr E]] t Ht. destruct ag as [|it ag]; cbn in E; [discriminate|]. injection E as ->.
  pose proof (Inv_reach _ _ _ _ _ Hr) as [H1 H2 H3 H4 H5 H6]. destruct (H6 Hc) as [_ C]. rewrite firstn_all in C.
  destruct (C t Ht) as [it' [Hi <-]]. rewrite <- (H3 it' Hi), <- (H3 it (or_introl eq_refl)). apply (head_max it ag H4); exact Hi.
Qed.

(** existence *)
Fixpoint qinsert (x : item) (l : list item) : list item :=
  match l with [] => [x] | y :: r => if Qle_bool (sc y) (sc x) then x :: l else y :: qinsert x r end.
Definition qsort (l : list item) : list item := fold_right qinsert [] l.
Lemma qinsert_perm x l : Permutation (x :: l) (qinsert x l).
Proof.
  induction l as [|y l IH]; cbn; [apply Permutation_refl|]. destruct (Qle_bool _ _); [apply Permutation_refl|].
  eapply perm_trans; [apply perm_swap|]. apply perm_skip, IH.
Qed.
Lemma qsort_perm l : Permutation l (qsort l).
Proof. induction l as [|x l IH]; cbn; [constructor|]. eapply perm_trans; [apply perm_skip, IH|]. apply qinsert_perm. Qed.
Lemma qinsert_sorted x l : StronglySorted desc l -> StronglySorted desc (qinsert x l).
Proof.
  intros H; induction H as [|y l Hs IH Hf]; cbn; [repeat constructor|].
  destruct (Qle_bool (sc y) (sc x)) eqn:E.
  - apply Qle_bool_iff in E. constructor; [constructor; assumption|]. constructor; [exact E|].
    rewrite Forall_forall in Hf |- *. intros z Hz. eapply Qle_trans; [apply (Hf z Hz)|exact E].
  - constructor; [exact IH|]. rewrite Forall_forall in Hf |- *. intros z Hz.
    eapply Permutation_in in Hz; [|apply Permutation_sym, qinsert_perm]. destruct Hz as [<-|Hz]; [|auto].
    assert (~ (sc y <= sc x)%Q) by (intros K; apply Qle_bool_iff in K; congruence). lra.
Qed.
Lemma qsort_sorted l : StronglySorted desc (qsort l).
Proof. induction l as [|x l IH]; cbn; [constructor|]. apply qinsert_sorted, IH. Qed.
Lemma ss_app_inv l r : StronglySorted desc (l ++ r) -> StronglySorted desc l /\ forall x y, In x l -> In y r -> desc x y.
Proof.
  induction l as [|x l IH]; intros H; cbn in *; [split; [constructor|intros x y []]|].
  inversion H as [|? ? Hs Hf]; subst. destruct (IH Hs) as [I1 I2]. rewrite Forall_forall in Hf. split.
  - constructor; [exact I1|]. rewrite Forall_forall. intros z Hz. apply Hf, in_or_app; auto.
  - intros a b [<-|Ha] Hb; [apply Hf, in_or_app; auto|auto].
Qed.
Lemma beam_exists width l : exists r, beam width l r.
Proof.
  exists (firstn width (qsort l)). pose proof (qsort_sorted l) as H. rewrite <- (firstn_skipn width (qsort l)) in H.
  destruct (ss_app_inv _ _ H) as [H1 H2]. split; [|split].
  - rewrite firstn_length. f_equal. symmetry. apply Permutation_length, qsort_perm.
  - apply StronglySorted_Sorted, H1.
  - exists (skipn width (qsort l)). split; [rewrite firstn_skipn; apply qsort_perm|exact H2].
Qed.
Lemma step_exists w width sent i toks ag : exists ag', step w width sent i toks ag ag' /\ (1 <= width -> ag <> [] -> ag' <> []).
Proof.
  destruct toks as [|a [|b toks]].
  - eexists. split; [constructor|]. intros _ H. destruct ag; [congruence|discriminate].
  - eexists. split; [constructor|]. intros _ H. destruct ag; [congruence|discriminate].
  - destruct (beam_exists width (expand w sent i (a :: b :: toks) ag)) as [ag' Hb]. exists ag'. split; [constructor; exact Hb|].
    intros Hw H E. destruct Hb as [L _]. subst ag'. rewrite expand_length in L. destruct ag; [congruence|]. cbn in L. lia.
Qed.
Lemma reach_exists w width sent i : i <= length sent -> exists ag, reach w width sent i ag /\ (1 <= width -> ag <> []).
Proof.
  induction i as [|i IH]; intros Hi.
  - eexists. split; [constructor|]. discriminate.
  - destruct IH as [ag [Hr Hne]]; [lia|]. destruct (nth_error sent i) as [toks|] eqn:E; [|apply nth_error_None in E; lia].
    destruct (step_exists w width sent i toks ag) as [ag' [Hs Hn]]. exists ag'. split; [econstructor; eauto|].
    intros Hw. apply Hn; auto.
Qed.
Lemma tag_exists w width sent : 1 <= width -> exists out, tagSentence w width sent (Some out).
Proof.
  intros Hw. destruct (reach_exists w width sent (length sent) (le_n _)) as [ag [Hr Hn]].
  destruct ag as [|it ag]; [exfalso; apply (Hn Hw); reflexivity|]. exists (tg it). exists (it :: ag). auto.
Qed.
Lemma step_nonempty w width sent i toks ag ag' : 1 <= width -> ag <> [] -> step w width sent i toks ag ag' -> ag' <> [].
Proof.
  intros Hw H Hs. inversion Hs as [g|a g|a b t g g' Hb]; subst.
  - destruct ag; [congruence|discriminate].
  - destruct ag; [congruence|discriminate].
  - intros E. destruct Hb as [L _]. subst ag'. rewrite expand_length in L. destruct ag; [congruence|]. cbn in L. lia.
Qed.
Lemma tag_defined w width sent out : 1 <= width -> tagSentence w width sent out -> out <> None.
Proof.
  intros Hw [ag [Hr ->]]. assert (ag <> []).
  { clear -Hw Hr. induction Hr; [discriminate|]. eapply step_nonempty; eauto. }
  destruct ag; [congruence|discriminate].
Qed.

(** a zero beam *)
Lemma reach_width0 w sent i ag : reach w 0 sent i ag -> (exists j toks, j < i /\ nth_error sent j = Some toks /\ 2 <= length toks) -> ag = [].
Proof.
  intros H; induction H as [|i toks ag ag' Hr IH Hn Hs]; intros [j [tk [Hj [Hnj Hl]]]]; [lia|].
  inversion Hs as [g|a g|a b t g g' Hb]; subst.
  - rewrite IH; [reflexivity|]. exists j, tk. split; [|auto]. destruct (Nat.eq_dec j i); [subst; rewrite Hn in Hnj; injection Hnj as <-; cbn in Hl; lia|lia].
  - rewrite IH; [reflexivity|]. exists j, tk. split; [|auto]. destruct (Nat.eq_dec j i); [subst; rewrite Hn in Hnj; injection Hnj as <-; cbn in Hl; lia|lia].
  - destruct Hb as [L _]. destruct ag'; [reflexivity|cbn in L; lia].
Qed.
Lemma tag_width0 w sent toks out : In toks sent -> 2 <= length toks -> tagSentence w 0 sent out -> out = None.
Proof.
  intros Hi Hl [ag [Hr ->]]. apply In_nth_error in Hi as [j Hj].
  rewrite (reach_width0 w sent _ ag Hr); [reflexivity|]. exists j, toks. split; [refine (proj1 (nth_error_Some _ _) _); intros K; exact (eq_ind (nth_error sent j) (fun z => match z with None => True | Some _ => False end) ltac:(rewrite K; exact I) _ Hj)|auto].
Qed.

(** unambiguous sentences: the answer is forced *)
Lemma tag_forced w width sent out : Forall (fun toks => length toks <= 1) sent -> tagSentence w width sent out ->
  out = Some (map (fun toks => hd_error toks) sent).
Proof.
  intros Hf [ag [Hr ->]].
  assert (G : forall i ag, reach w width sent i ag -> exists it, ag = [it] /\ tg it = map (fun toks => hd_error toks) (firstn i sent)).
  { clear ag Hr. intros i ag H; induction H as [|i toks ag ag' Hr IH Hn Hs]; [eexists; split; reflexivity|].
    destruct IH as [it [-> E]]. rewrite (firstn_S i sent toks Hn), map_app, <- E.
    inversion Hs as [g|a g|a b t g g' Hb]; subst; cbn; try (eexists; split; reflexivity).
    exfalso. rewrite Forall_forall in Hf. apply nth_error_In in Hn. specialize (Hf _ Hn). cbn in Hf. lia. }
  destruct (G _ _ Hr) as [it [-> E]]. cbn. rewrite E, firstn_all. reflexivity.
Qed.
End P.
