From Coq Require Import QArith Lqa Permutation Sorted.
From Verif Require Import Model.Base Proofs.Base Model.FeatureVec Spec.FeatureVec Proofs.FeatureVec Model.PerceptronTrain Spec.PerceptronTrain.
Open Scope nat_scope.
Local Arguments Qplus : simpl never.
Local Arguments Qmult : simpl never.
Local Arguments Qle : simpl never.
Local Arguments Qeq : simpl never.

Lemma flat_map_ext_in {B C} (f g : B -> list C) l : (forall x, In x l -> f x = g x) -> flat_map f l = flat_map g l.
Proof.
  induction l as [|x l IH]; intros H; cbn; [reflexivity|]. rewrite (H x) by (left; reflexivity).
  rewrite IH by (intros; apply H; right; assumption). reflexivity.
Qed.

(** ** inner product: linear in the left argument *)
Lemma fsum_mul (f : key -> Q) (c : Q) ks : (fold_right (fun k s => c * f k + s) 0 ks == c * fold_right (fun k s => f k + s) 0 ks)%Q.
Proof. induction ks as [|k ks IH]; cbn; [ring|]. rewrite IH. ring. Qed.

Lemma dot_lin (l1 l2 l3 r : fvec) (c1 c2 : Q) : fsorted l1 -> fsorted l2 -> fsorted l3 -> fsorted r ->
  (forall k, den l3 k == c1 * den l1 k + c2 * den l2 k)%Q ->
  (dot_vec l3 r == c1 * dot_vec l1 r + c2 * dot_vec l2 r)%Q.
Proof.
  intros H1 H2 H3 Hr E. set (ks := nodup key_dec (map fst l1 ++ map fst l2 ++ map fst l3)).
  assert (Hn : NoDup ks) by apply NoDup_nodup.
  rewrite (dot_vec_cover l1 r ks), (dot_vec_cover l2 r ks), (dot_vec_cover l3 r ks); auto;
    try (intros x Hx; apply nodup_In; rewrite !in_app_iff; auto).
  clearbody ks. clear Hn. induction ks as [|k ks IH]; cbn; [ring|]. rewrite IH, (E k). ring.
Qed.
Lemma dot_unary_vec (v w : fvec) uv : fsorted v -> fsorted w -> (dot_vec (add_unary v uv) w == dot_vec v w + dot_unary w uv)%Q.
Proof.
  intros Hv Hw. rewrite dot_unary_spec by exact Hw. unfold add_unary. revert v Hv.
  induction uv as [|k uv IH]; intros v Hv; cbn [fold_left fold_right]; [ring|].
  rewrite IH by (apply fadd_sorted; exact Hv).
  assert (E : (dot_vec (fadd k 1 v) w == 1 * dot_vec v w + 1 * dot_vec [(k, 1%Q)] w)%Q).
  { apply dot_lin; auto; [reflexivity|apply fadd_sorted; exact Hv|]. intros k'. rewrite den_fadd. cbn. ring. }
  rewrite E. rewrite (dot_vec_spec [(k, 1%Q)] w eq_refl Hw). cbn. ring.
Qed.

Lemma dot_ext l l' r r' : fsorted l -> fsorted l' -> fsorted r -> fsorted r' ->
  (forall k, den l k == den l' k)%Q -> (forall k, den r k == den r' k)%Q -> (dot_vec l r == dot_vec l' r')%Q.
Proof.
  intros H1 H2 H3 H4 E1 E2.
  assert (E : (dot_vec l' r == 1 * dot_vec l r + 0 * dot_vec l r)%Q) by (apply dot_lin; auto; intros k; rewrite (E1 k); ring).
  assert (F : (dot_vec r' l' == 1 * dot_vec r l' + 0 * dot_vec r l')%Q) by (apply dot_lin; auto; intros k; rewrite (E2 k); ring).
  rewrite (dot_vec_comm r' l'), (dot_vec_comm r l') in F by assumption. lra.
Qed.

Section P.
Variable A : Type.
Variable A_dec : forall a b : A, {a = b} + {a <> b}.
Variable nmorph : A -> nat.
Variable feats : list (option A) -> list (list A) -> nat -> nat -> ufvec.
Notation titem := (titem A).
Notation ext := (ext A nmorph feats).
Notation texpand := (texpand A nmorph feats).
Notation tbeam := (tbeam A).
Notation push := (push A).
Notation tstep := (tstep A A_dec nmorph feats).
Notation treach := (treach A A_dec nmorph feats).
Notation trainSentence := (trainSentence A A_dec nmorph feats).
Notation train := (train A A_dec nmorph feats).

Notation fired := (fired A nmorph feats).
Notation all_fired := (all_fired A nmorph feats).
Notation trained := (trained A).
Notation agrees := (agrees A).
Lemma add_unary_app v a b : add_unary (add_unary v a) b = add_unary v (a ++ b).
Proof. unfold add_unary. rewrite fold_left_app. reflexivity. Qed.

Lemma ext_spec w sent i it a :
  ttg (ext w sent i it a) = ttg it ++ [Some a] /\
  tvec (ext w sent i it a) = add_unary (tvec it) (flat_map (feats (ttg it ++ [Some a]) sent i) (seq 0 (nmorph a))).
Proof.
  unfold PerceptronTrain.ext. generalize (seq 0 (nmorph a)). intros l. generalize (tsc it), (tvec it). intros s v.
  destruct (fold_left _ l (s, v)) as [s' v'] eqn:E. cbn. split; [reflexivity|]. revert s v E.
  induction l as [|j l IH]; intros s v E; cbn in E |- *; [injection E as <- <-; reflexivity|].
  rewrite (IH _ _ E). rewrite add_unary_app. reflexivity.
Qed.
Lemma ext_score w sent i it a : fsorted w -> fsorted (tvec it) -> (tsc it == dot_vec (tvec it) w)%Q ->
  (tsc (ext w sent i it a) == dot_vec (tvec (ext w sent i it a)) w)%Q /\ fsorted (tvec (ext w sent i it a)).
Proof.
  intros Hw. unfold PerceptronTrain.ext. generalize (seq 0 (nmorph a)). intros l. generalize (tsc it), (tvec it). intros s v Hv E.
  destruct (fold_left _ l (s, v)) as [s' v'] eqn:F. cbn. revert s v Hv E F.
  induction l as [|j l IH]; intros s v Hv E F; cbn in F; [injection F as <- <-; auto|].
  refine (IH _ _ _ _ F).
  - apply (proj1 (unary_spec 1%Q _ v)); exact Hv.
  - rewrite dot_unary_vec by assumption. rewrite E. reflexivity.
Qed.

Record TI w sent gold i (st : tstate A) : Prop := mkTI {
  ti_fs : forall it, In it (ag A st) -> fsorted (tvec it);
  ti_len : forall it, In it (ag A st) -> length (ttg it) = i;
  ti_sc : forall it, In it (ag A st) -> (tsc it == dot_vec (tvec it) w)%Q;
  ti_vec : forall it, In it (ag A st) -> tvec it = add_unary [] (all_fired sent gold (ttg it));
  ti_sorted : Sorted (fun x y : titem => (tsc y <= tsc x)%Q) (ag A st);
  ti_cs : exists it, nth_error (ag A st) (ci A st) = Some it /\ tvec (cs A st) = tvec it /\
     agrees sent gold i (ttg it) /\ agrees sent gold i (ttg (cs A st)) /\ length (ttg (cs A st)) = i }.

Lemma all_fired_snoc sent gold t o : all_fired sent gold (t ++ [o]) =
  all_fired sent gold t ++ fired sent gold (t ++ [o]) (length t).
Proof.
  unfold Spec.PerceptronTrain.all_fired. rewrite app_length. cbn [length]. rewrite Nat.add_1_r, seq_S, flat_map_app. cbn [flat_map Nat.add].
  rewrite app_nil_r. f_equal. apply flat_map_ext_in. intros i Hi. apply in_seq in Hi. unfold Spec.PerceptronTrain.fired.
  rewrite (nth_error_app1 t) by lia. rewrite firstn_app. replace (S i - length t) with 0 by lia. cbn [firstn]. rewrite app_nil_r.
  reflexivity.
Qed.

Lemma find_tag_some t l : forall k j, find_tag A A_dec t l k = Some j ->
  exists x, k <= j /\ nth_error l (j - k) = Some x /\ ttg x = t.
Proof.
  induction l as [|x l IH]; intros k j H; cbn in H; [discriminate|].
  destruct (tag_dec A A_dec (ttg x) t) as [E|E].
  - injection H as <-. exists x. rewrite Nat.sub_diag. auto.
  - destruct (IH _ _ H) as [y [H1 [H2 H3]]]. exists y. split; [lia|]. split; [|exact H3].
    replace (j - k) with (S (j - S k)) by lia. exact H2.
Qed.
Lemma find_tag_none t l : forall k, find_tag A A_dec t l k = None -> forall x, In x l -> ttg x <> t.
Proof.
  induction l as [|x l IH]; intros k H y Hy; cbn in H; [destruct Hy|].
  destruct (tag_dec A A_dec (ttg x) t) as [E|E]; [discriminate|]. destruct Hy as [<-|Hy]; [exact E|]. eapply IH; eauto.
Qed.
Lemma agrees_snoc sent gold i t o g : length t = i -> agrees sent gold i t -> nth_error gold i = Some g ->
  (forall g', trained sent gold i g' -> o = Some g') -> agrees sent gold (S i) (t ++ [o]).
Proof.
  intros L H Hg Ho j g' Hj Ht. destruct (Nat.eq_dec j i) as [->|Hne].
  - rewrite nth_error_app2, L, Nat.sub_diag by lia. cbn. rewrite (Ho g' Ht). reflexivity.
  - rewrite nth_error_app1 by lia. apply H; [lia|exact Ht].
Qed.

Lemma texpand_In w sent i toks l x : In x (texpand w sent i toks l) <-> exists it a, In it l /\ In a toks /\ x = ext w sent i it a.
Proof.
  unfold PerceptronTrain.texpand. rewrite in_flat_map. split.
  - intros [it [H1 H2]]. apply in_map_iff in H2 as [a [<- H2]]. exists it, a. auto.
  - intros [it [a [H1 [H2 ->]]]]. exists it. split; [exact H1|]. apply in_map_iff. exists a. auto.
Qed.

Lemma fired_push sent gold t o i toks g : length t = i -> nth_error sent i = Some toks -> nth_error gold i = Some g ->
  (length toks <= 1 \/ g = None) -> fired sent gold (t ++ [o]) i = [].
Proof.
  intros L Hs Hg H. unfold Spec.PerceptronTrain.fired. rewrite Hs, Hg. destruct toks as [|a [|b toks]]; auto. destruct H as [H| -> ]; [cbn in H; lia|reflexivity].
Qed.
Lemma fired_ext sent gold t a i toks g : length t = i -> nth_error sent i = Some toks -> nth_error gold i = Some (Some g) ->
  2 <= length toks -> fired sent gold (t ++ [Some a]) i = flat_map (feats (t ++ [Some a]) sent i) (seq 0 (nmorph a)).
Proof.
  intros L Hs Hg H. unfold Spec.PerceptronTrain.fired. rewrite Hs, Hg. destruct toks as [|x [|y toks]]; cbn in H; try lia.
  rewrite nth_error_app2, L, Nat.sub_diag by lia. cbn [nth_error].
  replace (firstn (S i) (t ++ [Some a])) with (t ++ [Some a]); [reflexivity|].
  symmetry. apply firstn_all2. rewrite app_length; cbn; lia.
Qed.

(** the new hypotheses have the invariants of the old ones *)
Lemma ext_inv w sent gold i toks g it a : fsorted w -> nth_error sent i = Some toks -> nth_error gold i = Some (Some g) ->
  2 <= length toks -> fsorted (tvec it) -> length (ttg it) = i -> (tsc it == dot_vec (tvec it) w)%Q ->
  tvec it = add_unary [] (all_fired sent gold (ttg it)) ->
  let x := ext w sent i it a in
  fsorted (tvec x) /\ length (ttg x) = S i /\ (tsc x == dot_vec (tvec x) w)%Q /\ tvec x = add_unary [] (all_fired sent gold (ttg x)).
Proof.
  intros Hw Hs Hg Hl H1 H2 H3 H4 x. destruct (ext_spec w sent i it a) as [E1 E2]. destruct (ext_score w sent i it a Hw H1 H3) as [S1 S2].
  fold x in E1, E2, S1, S2. split; [exact S2|]. split; [rewrite E1, app_length; cbn; lia|]. split; [exact S1|].
  rewrite E2, E1, all_fired_snoc, H2, <- add_unary_app, <- H4, (fired_ext sent gold (ttg it) a i toks g); auto.
Qed.

Lemma TI_step w width sent gold i toks g st st' : fsorted w -> TI w sent gold i st -> nth_error sent i = Some toks ->
  nth_error gold i = Some g -> tstep w width sent i toks g st (inl st') -> TI w sent gold (S i) st'.
Proof.
  intros Hw [H1 H2 H3 H4 H5 [it0 [H6 [H7 [H8 [H9 H10]]] ]]] Hs Hg Ht.
  assert (Push : forall o, (forall g', trained sent gold i g' -> False) -> (length toks <= 1 \/ g = None) ->
     TI w sent gold (S i) (mks A (map (push o) (ag A st)) (ci A st) (push g (cs A st)))).
  { intros o Hnt Hc. constructor; cbn [ag ci cs].
    - intros it Hi. apply in_map_iff in Hi as [x [<- Hi]]. cbn. auto.
    - intros it Hi. apply in_map_iff in Hi as [x [<- Hi]]. cbn. rewrite app_length, (H2 x Hi). cbn; lia.
    - intros it Hi. apply in_map_iff in Hi as [x [<- Hi]]. exact (H3 x Hi).
    - intros it Hi. apply in_map_iff in Hi as [x [<- Hi]]. cbn [PerceptronTrain.push tvec ttg].
      rewrite all_fired_snoc, (H2 x Hi), (fired_push sent gold (ttg x) o i toks g), app_nil_r; auto.
    - clear -H5. induction H5 as [|x l Hs IH Hd]; cbn; constructor; [exact IH|]. destruct Hd; cbn; constructor; assumption.
    - exists (push o it0). split; [rewrite nth_error_map, H6; reflexivity|]. split; [exact H7|]. cbn [PerceptronTrain.push ttg].
      split; [apply (agrees_snoc sent gold i (ttg it0) o g); auto; [apply H2; eapply nth_error_In; eauto|intros g' K; destruct (Hnt g' K)]|].
      split; [apply (agrees_snoc sent gold i _ g g); auto; intros g' K; destruct (Hnt g' K)|]. rewrite app_length; cbn; lia. }
  revert H10; inversion Ht as [a0 g1 st1|tk1 g1 st1 Hcase| |tk1 g0 st1 it1 ag' j0 L0 N0 Hin0 M0 Hb0 F0|]; subst; intros H10.
  - apply Push; [|cbn; lia]. intros g' [_ [tk [K1 K2]]]. rewrite Hs in K1. injection K1 as <-. cbn in K2. lia.
  - apply Push; [|destruct Hcase; [subst; cbn; lia|tauto]].
    intros g' [K0 [tk [K1 K2]]]. rewrite Hs in K1. injection K1 as <-. destruct Hcase as [-> | [_ -> ]]; [cbn in K2; lia|congruence].
  - rewrite H6 in N0; injection N0 as <-.
    destruct Hb0 as [B1 [B2 [rest [B3 B4]]]].
    assert (Sub : forall x, In x ag' -> exists it a, In it (ag A st) /\ In a toks /\ x = ext w sent i it a).
    { intros x Hx. apply (texpand_In w sent i toks (ag A st) x). eapply Permutation_in; [apply Permutation_sym, B3|]. apply in_or_app; auto. }
    assert (G : forall x, In x ag' -> fsorted (tvec x) /\ length (ttg x) = S i /\ (tsc x == dot_vec (tvec x) w)%Q /\
                  tvec x = add_unary [] (all_fired sent gold (ttg x))).
    { intros x Hx. destruct (Sub x Hx) as [it [a [Hi [Ha ->]]]]. eapply ext_inv; eauto. }
    assert (I0 : In it0 (ag A st)) by (eapply nth_error_In; eauto).
    destruct (ext_inv w sent gold i toks g0 it0 g0 Hw Hs Hg ltac:(assumption) (H1 _ I0) (H2 _ I0) (H3 _ I0) (H4 _ I0)) as [X1 [X2 [X3 X4]]].
    constructor; cbn [ag ci cs]; try (intros it Hi; apply (G it Hi)); [exact B2|].
    apply find_tag_some in F0 as [x [_ [Hx Ex]]].
    rewrite Nat.sub_0_r in Hx. exists x. split; [exact Hx|].
    destruct (G x (nth_error_In _ _ Hx)) as [_ [_ [_ Vx]]]. rewrite Ex. split; [rewrite X4, Vx, Ex; reflexivity|].
    assert (Ag : agrees sent gold (S i) (ttg (ext w sent i it0 g0))).
    { rewrite (proj1 (ext_spec w sent i it0 g0)). apply (agrees_snoc sent gold i _ _ (Some g0)); auto.
      intros g' [K _]. rewrite Hg in K. injection K as <-. reflexivity. }
    auto.
Qed.
Lemma TI_reach w width sent gold i st : fsorted w -> treach w width sent gold i st -> TI w sent gold i st.
Proof.
  intros Hw H; induction H as [|i toks g st st' Hr IH Hs Hg Ht].
  - constructor; cbn [ag ci cs]; try (intros it [<-|[]]; reflexivity).
    { intros it [<-|[]]. cbn [tsc tvec t0]. unfold dot_vec. destruct w; reflexivity. }
    { repeat constructor. }
    exists (t0 A). repeat split; try reflexivity; intros j g Hj; lia.
  - eapply TI_step; eauto.
Qed.

Lemma sorted_head (f : titem) l : Sorted (fun x y : titem => (tsc y <= tsc x)%Q) (f :: l) -> forall x, In x (f :: l) -> (tsc x <= tsc f)%Q.
Proof.
  intros H x [<-|Hx]; [apply Qle_refl|]. apply Sorted_StronglySorted in H; [|intros a b c H1 H2; exact (Qle_trans _ _ _ H2 H1)].
  inversion H as [|? ? _ Hf]; subst. rewrite Forall_forall in Hf. exact (Hf x Hx).
Qed.

(** every update made is on a violation, and its vectors are those of two tag sequences of the same length *)
Lemma train_update w width sent gold p c : fsorted w -> trainSentence w width sent gold (OUpdate p c) ->
  fsorted p /\ fsorted c /\ (dot_vec c w <= dot_vec p w)%Q /\
  exists i tp tc, i <= length sent /\ length tp = i /\ length tc = i /\ agrees sent gold i tc /\
    p = add_unary [] (all_fired sent gold tp) /\ c = add_unary [] (all_fired sent gold tc).
Proof.
  intros Hw H. inversion H as [i toks g st o Hr Hs Hg Ht|st o Hr E]; subst.
  - pose proof (TI_reach _ _ _ _ _ _ Hw Hr) as [H1 H2 H3 H4 H5 [it0 [H6 [H7 [H8 [H9 H10]]] ]]].
    revert H10; inversion Ht as [| | | |toks' g0 st0 it1 ag' Hl Hn Hin Hm Hb Hf]; subst; intros H10.
    rewrite H6 in Hn; injection Hn as <-. destruct ag' as [|f ag']; [discriminate|]. match goal with K : upd _ _ _ = _ |- _ => cbn in K; injection K as <- <- | K : _ = upd _ _ _ |- _ => cbn in K; injection K as -> -> end.
    destruct Hb as [B1 [B2 [rest [B3 B4]]]].
    assert (I0 : In it0 (ag A st)) by (eapply nth_error_In; eauto).
    destruct (ext_inv w sent gold i toks g0 it0 g0 Hw Hs Hg Hl (H1 _ I0) (H2 _ I0) (H3 _ I0) (H4 _ I0)) as [X1 [X2 [X3 X4]]].
    assert (Hfi : exists it a, In it (ag A st) /\ In a toks /\ f = ext w sent i it a).
    { apply (texpand_In w sent i toks (ag A st) f). eapply Permutation_in; [apply Permutation_sym, B3|]. left; reflexivity. }
    destruct Hfi as [itf [af [If [Haf ->]]]].
    destruct (ext_inv w sent gold i toks g0 itf af Hw Hs Hg Hl (H1 _ If) (H2 _ If) (H3 _ If) (H4 _ If)) as [F1 [F2 [F3 F4]]].
    split; [exact F1|]. split; [exact X1|]. split.
    + rewrite <- X3, <- F3.
      assert (Hx : In (ext w sent i it0 g0) ((ext w sent i itf af :: ag') ++ rest)).
      { eapply Permutation_in; [exact B3|]. apply texpand_In. exists it0, g0. auto. }
      apply in_app_or in Hx as [Hx|Hx].
      * exfalso. exact (find_tag_none _ _ _ Hf _ Hx eq_refl).
      * apply B4; [left; reflexivity|exact Hx].
    + exists (S i), (ttg (ext w sent i itf af)), (ttg (ext w sent i it0 g0)).
      split; [assert (i < length sent) by (apply nth_error_Some; intros K; rewrite Hs in K; discriminate); lia|].
      split; [exact F2|]. split; [exact X2|]. split; [|split; assumption].
      rewrite (proj1 (ext_spec w sent i it0 g0)). apply (agrees_snoc sent gold i _ _ (Some g0)); auto.
      intros g' [K _]. rewrite Hg in K. injection K as <-. reflexivity.
  - pose proof (TI_reach _ _ _ _ _ _ Hw Hr) as [H1 H2 H3 H4 H5 [it0 [H6 [H7 [H8 [H9 H10]]] ]]].
    destruct (ag A st) as [|f l] eqn:Ea; [discriminate|]. destruct (tag_dec A A_dec (ttg f) (ttg (cs A st))); [discriminate|].
    cbn in E. injection E as -> ->. assert (I0 : In it0 (f :: l)) by (eapply nth_error_In; eauto).
    rewrite H7. split; [apply H1; left; reflexivity|]. split; [apply H1; exact I0|]. split.
    + rewrite <- (H3 it0 I0), <- (H3 f (or_introl eq_refl)). apply (sorted_head f l H5 it0 I0).
    + exists (length sent), (ttg f), (ttg it0). split; [lia|]. split; [apply H2; left; reflexivity|]. split; [apply H2; exact I0|].
      split; [exact H8|]. split; [apply H4; left; reflexivity|apply H4; exact I0].
Qed.

(** no update: the best hypothesis has the gold analysis at every trained token *)
Lemma train_none w width sent gold : fsorted w -> trainSentence w width sent gold ONone ->
  exists st f l, treach w width sent gold (length sent) st /\ ag A st = f :: l /\ agrees sent gold (length sent) (ttg f) /\
    length (ttg f) = length sent.
Proof.
  intros Hw H. inversion H as [i toks g st o Hr Hs Hg Ht|st o Hr E]; subst.
  - inversion Ht as [| | | |toks' g0 st0 it1 ag' Hl Hn Hin Hm Hb Hf]; subst. destruct ag'; discriminate.
  - pose proof (TI_reach _ _ _ _ _ _ Hw Hr) as [H1 H2 H3 H4 H5 [it0 [H6 [H7 [H8 [H9 H10]]] ]]].
    destruct (ag A st) as [|f l] eqn:Ea; [discriminate|]. destruct (tag_dec A A_dec (ttg f) (ttg (cs A st))) as [Ef|]; [|discriminate].
    exists st, f, l. split; [exact Hr|]. split; [exact Ea|]. rewrite Ef. split; [exact H9|exact H10].
Qed.
End P.

(** ** convergence *)
Lemma CS (ks : list key) (f g : key -> Q) :
  let S h := fold_right (fun k s => (h k + s)%Q) 0%Q ks in
  (S (fun k => f k * g k) * S (fun k => f k * g k) <= S (fun k => f k * f k) * S (fun k => g k * g k))%Q.
Proof.
  intros S.
  assert (Sq : forall h, (0 <= S (fun k => h k * h k))%Q).
  { intros h. unfold S. clear. induction ks as [|k ks IH]; cbn; [lra|]. assert (0 <= h k * h k)%Q by nra. lra. }
  assert (G : forall x y : Q, (S (fun k => (x * g k - y * f k) * (x * g k - y * f k)) ==
      x * x * S (fun k => g k * g k) - (1 + 1) * x * y * S (fun k => f k * g k) + y * y * S (fun k => f k * f k))%Q).
  { intros x y. unfold S. clear. induction ks as [|k ks IH]; cbn; [ring|]. rewrite IH. ring. }
  set (a := S (fun k => f k * f k)%Q) in *. set (b := S (fun k => f k * g k)%Q) in *. set (c := S (fun k => g k * g k)%Q) in *.
  assert (P := Sq (fun k => (a * g k - b * f k)%Q)). assert (E := G a b). clear G.
  cbn beta in P. rewrite E in P.
  assert (A0 := Sq f). fold a in A0. assert (C0 := Sq g). fold c in C0.
  destruct (Qlt_le_dec 0 a) as [Ha|Ha].
  - assert (0 <= a * (a * c - b * b))%Q by nra. destruct (Qlt_le_dec (a * c) (b * b)) as [Hlt|Hle]; [|exact Hle].
    exfalso. assert (0 < b * b - a * c)%Q by lra. nra.
  - assert (Z : (a == 0)%Q) by lra. assert (B : (b == 0)%Q).
    { clear P E C0 c. unfold a, b, S in *. clear a b A0 Sq S. induction ks as [|k ks IH]; cbn in *; [reflexivity|].
      assert (Sq : (0 <= fold_right (fun k s => f k * f k + s) 0 ks)%Q).
      { clear. induction ks as [|k ks IH]; cbn; [lra|]. assert (0 <= f k * f k)%Q by nra. lra. }
      assert (F0 : (0 <= f k * f k)%Q) by nra. assert (Fz : (f k * f k == 0)%Q) by lra.
      assert (Fk : (f k == 0)%Q) by (destruct (Qmult_integral _ _ Fz); assumption).
      rewrite IH by lra. rewrite Fk. ring. }
    rewrite B, Z. lra.
Qed.
Lemma dot_CS l r : fsorted l -> fsorted r -> (dot_vec l r * dot_vec l r <= dot_vec l l * dot_vec r r)%Q.
Proof.
  intros Hl Hr. set (ks := nodup key_dec (map fst l ++ map fst r)).
  assert (Hn : NoDup ks) by apply NoDup_nodup.
  rewrite (dot_vec_cover l r ks), (dot_vec_cover l l ks), (dot_vec_cover r r ks); auto;
    try (intros x Hx; apply nodup_In; rewrite !in_app_iff; auto).
  apply (CS ks (den l) (den r)).
Qed.
Lemma dot_nonneg l : fsorted l -> (0 <= dot_vec l l)%Q.
Proof.
  intros Hl. rewrite (dot_vec_cover l l (map fst l) Hl Hl (fsorted_simple _ Hl)) by apply incl_refl.
  generalize (map fst l). intros ks. induction ks as [|k ks IH]; cbn; [lra|]. assert (0 <= den l k * den l k)%Q by nra. lra.
Qed.

Section Conv.
Variable A : Type.
Variable A_dec : forall a b : A, {a = b} + {a <> b}.
Variable nmorph : A -> nat.
Variable feats : list (option A) -> list (list A) -> nat -> nat -> ufvec.
Notation train := (train A A_dec nmorph feats).

Lemma upd_weights a w T p c : AInv a w T -> fsorted p -> fsorted c ->
  let a' := fold_left astep [OSub p; OAdd c; OInc] a in
  exists w' T', AInv a' w' T' /\ forall k, (den (weights a') k == den (weights a) k - den p k + den c k)%Q.
Proof.
  intros H Hp Hc a'. assert (H1 := AInv_step a w T (OSub p) H Hp). assert (H2 := AInv_step _ _ _ (OAdd c) H1 Hc).
  assert (H3 := AInv_step _ _ _ OInc H2 I). eexists. eexists. split; [exact H3|].
  intros k. assert (K := iv_w _ _ _ H3 k). cbn beta in K. rewrite (iv_w _ _ _ H k). exact K.
Qed.

Lemma conv width u gam R : fsorted u -> forall a corpus us a', train width a corpus us a' ->
  (forall p c, In (p, c) us -> (gam <= dot_vec c u - dot_vec p u)%Q) ->
  (forall p c, In (p, c) us -> (dot_vec (sub_vec c p) (sub_vec c p) <= R)%Q) ->
  forall w T n, AInv a w T -> (Qnat n * gam <= dot_vec (weights a) u)%Q -> (dot_vec (weights a) (weights a) <= Qnat n * R)%Q ->
  (Qnat (n + length us) * gam <= dot_vec (weights a') u)%Q /\ (dot_vec (weights a') (weights a') <= Qnat (n + length us) * R)%Q /\ fsorted (weights a').
Proof.
  intros Hu a corpus us a' H. induction H as [a|a x l us a' o Ho Hk Ht IH|a x l us a' p c Ho Ht IH]; intros Hg HR w T n HI H1 H2.
  - cbn. rewrite Nat.add_0_r. split; [exact H1|]. split; [exact H2|]. apply (iv_sorted _ _ _ HI).
  - apply (IH Hg HR w T n HI H1 H2).
  - assert (Sw := iv_sorted _ _ _ HI). destruct (train_update _ _ _ _ _ _ _ _ _ _ Sw Ho) as [Sp [Sc [V _]]].
    destruct (upd_weights a w T p c HI Sp Sc) as [w' [T' [HI' Hd]]]. assert (Sw' := iv_sorted _ _ _ HI').
    set (a1 := fold_left astep [OSub p; OAdd c; OInc] a) in *.
    assert (Sd : fsorted (sub_vec c p)) by (apply (proj1 (sub_vec_spec p c)); exact Sc).
    assert (Dd : forall r, fsorted r -> (dot_vec (sub_vec c p) r == dot_vec c r - dot_vec p r)%Q).
    { intros r Hr. rewrite (dot_lin c p (sub_vec c p) r 1%Q (-(1))%Q) by (auto; intros k; rewrite (proj2 (sub_vec_spec p c) k); ring). ring. }
    assert (Dw : forall r, fsorted r -> (dot_vec (weights a1) r == dot_vec (weights a) r + dot_vec (sub_vec c p) r)%Q).
    { intros r Hr. rewrite (dot_lin (weights a) (sub_vec c p) (weights a1) r 1%Q 1%Q)
        by (auto; intros k; rewrite (Hd k), (proj2 (sub_vec_spec p c) k); ring). ring. }
    cbn [length]. rewrite <- Nat.add_succ_comm.
    apply (IH (fun p0 c0 K => Hg p0 c0 (or_intror K)) (fun p0 c0 K => HR p0 c0 (or_intror K)) w' T' (S n) HI').
    + rewrite (Dw u Hu), (Dd u Hu), Qnat_S. specialize (Hg p c (or_introl eq_refl)). lra.
    + assert (Hr := HR p c (or_introl eq_refl)).
      rewrite (Dw (weights a1) Sw'), (dot_vec_comm (weights a)), (dot_vec_comm (sub_vec c p) (weights a1)) by assumption.
      rewrite (Dw (weights a) Sw), (Dw (sub_vec c p) Sd), (dot_vec_comm (weights a) (sub_vec c p)) by assumption.
      assert (Dv := Dd (weights a) Sw). rewrite Qnat_S. lra.
Qed.

Lemma convergence width u gam R corpus us a' : fsorted u -> (0 < gam)%Q -> (0 <= R)%Q -> train width (avg0 []) corpus us a' ->
  (forall p c, In (p, c) us -> (gam <= dot_vec c u - dot_vec p u)%Q) ->
  (forall p c, In (p, c) us -> (dot_vec (sub_vec c p) (sub_vec c p) <= R)%Q) ->
  (Qnat (length us) * (gam * gam) <= R * dot_vec u u)%Q.
Proof.
  intros Hu Hgam HR0 Ht Hg HR.
  destruct (conv width u gam R Hu _ _ _ _ Ht Hg HR _ _ 0 (AInv0 [] eq_refl)) as [C1 [C2 C3]].
  - change (Qnat 0) with 0%Q. cbn [weights avg0]. assert (Z : (dot_vec [] u == 0)%Q) by (unfold dot_vec; destruct u; reflexivity). lra.
  - change (Qnat 0) with 0%Q. assert (Z : (dot_vec (weights (avg0 [])) (weights (avg0 [])) == 0)%Q) by reflexivity. lra.
  - rewrite Nat.add_0_l in C1, C2. set (T := Qnat (length us)) in *.
    assert (T0 : (0 <= T)%Q) by (unfold T, Qnat, Qle; cbn; lia).
    assert (Cs := dot_CS (weights a') u C3 Hu). assert (U0 := dot_nonneg u Hu). assert (W0 := dot_nonneg _ C3).
    destruct (Qlt_le_dec 0 T) as [Tp|Tz].
    + assert (K : (T * gam * (T * gam) <= T * R * dot_vec u u)%Q).
      { apply Qle_trans with (dot_vec (weights a') u * dot_vec (weights a') u)%Q.
        - assert (0 <= T * gam)%Q by nra. nra.
        - eapply Qle_trans; [exact Cs|]. apply Qmult_le_compat_r; assumption. }
      destruct (Qlt_le_dec (R * dot_vec u u) (T * (gam * gam))) as [Hlt|Hle]; [|exact Hle]. exfalso. nra.
    + assert (Z : (T == 0)%Q) by lra. rewrite Z.
      assert (0 <= R * dot_vec u u)%Q by nra. lra.
Qed.
End Conv.
