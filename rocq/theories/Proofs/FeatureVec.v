From Coq Require Import QArith Lqa.
From Verif Require Import Model.Base Proofs.Base Model.Codec Proofs.Codec Model.FeatureVec Spec.FeatureVec.
From Verif Require Proofs.ConstantManager.
Open Scope nat_scope.

Notation str_lt_total := Proofs.ConstantManager.str_lt_total.
Notation str_lt_irrefl := Proofs.ConstantManager.str_lt_irrefl.
Notation str_lt_trans := Proofs.ConstantManager.str_lt_trans.

(** the two comparisons are the same order *)
Lemma cmp_vec l : forall r, cmp_key l r = vec_lt l r.
Proof.
  induction l as [|x l IH]; intros [|y r]; cbn; try reflexivity.
  destruct (str_lt x y); [reflexivity|]. destruct (str_lt y x); [reflexivity|apply IH].
Qed.
Lemma cmp_total a : forall b, cmp_key a b = false -> cmp_key b a = false -> a = b.
Proof.
  induction a as [|x a IH]; intros [|y b]; cbn; try congruence.
  destruct (str_lt x y) eqn:E1, (str_lt y x) eqn:E2; try congruence.
  intros H1 H2. f_equal; [apply str_lt_total; assumption|apply IH; assumption].
Qed.
Lemma cmp_irrefl a : cmp_key a a = false.
Proof. induction a as [|x a IH]; cbn; [reflexivity|]. rewrite str_lt_irrefl; exact IH. Qed.
Lemma cmp_asym : asym cmp_key.
Proof.
  intros a; induction a as [|x a IH]; intros [|y b]; cbn; try congruence.
  destruct (str_lt x y) eqn:E1, (str_lt y x) eqn:E2; try congruence; [|intros; apply IH; assumption].
  apply str_lt_asym in E1; congruence.
Qed.
Lemma cmp_trans a : forall b c, cmp_key a b = true -> cmp_key b c = true -> cmp_key a c = true.
Proof.
  induction a as [|x a IH]; intros [|y b] [|z c]; cbn; try congruence.
  destruct (str_lt x y) eqn:E1.
  - intros _. destruct (str_lt y z) eqn:E2.
    + intros _. rewrite (str_lt_trans x y z E1 E2). reflexivity.
    + destruct (str_lt z y) eqn:E3; [congruence|]. assert (y = z) by (apply str_lt_total; assumption); subst z.
      intros _. rewrite E1; reflexivity.
  - destruct (str_lt y x) eqn:E2; [congruence|]. assert (x = y) by (apply str_lt_total; assumption); subst y.
    intros H. destruct (str_lt x z); [reflexivity|]. destruct (str_lt z x); [congruence|]. apply IH; exact H.
Qed.

Definition fsorted (m : fvec) : Prop := sorted cmp_key (map fst m) = true.

Lemma fsorted_cons k v m : fsorted ((k, v) :: m) <-> (forall k', In k' (map fst m) -> cmp_key k k' = true) /\ fsorted m.
Proof. unfold fsorted; cbn. rewrite andb_true_iff, forallb_forall. reflexivity. Qed.

Lemma fadd_keys k v m x : In x (map fst (fadd k v m)) -> x = k \/ In x (map fst m).
Proof.
  induction m as [|[k' v'] m IH]; cbn; [intuition congruence|].
  destruct (cmp_key k k'); cbn; [intuition congruence|]. destruct (cmp_key k' k); cbn; [|intuition congruence].
  intros [H|H]; [tauto|]. destruct (IH H); tauto.
Qed.
Lemma fadd_sorted k v m : fsorted m -> fsorted (fadd k v m).
Proof.
  induction m as [|[k' v'] m IH]; intros H; [reflexivity|]. cbn.
  apply fsorted_cons in H as [H1 H2].
  destruct (cmp_key k k') eqn:E1.
  - apply fsorted_cons. split; [|apply fsorted_cons; auto].
    intros x [<-|Hx]; [exact E1|]. apply (cmp_trans k k'); auto.
  - destruct (cmp_key k' k) eqn:E2; apply fsorted_cons; [|auto]. split; [|auto].
    intros x Hx. apply fadd_keys in Hx as [->|Hx]; auto.
Qed.

Lemma den_cons k kv m : (den (kv :: m) k == (if key_dec k (fst kv) then snd kv else 0) + den m k)%Q.
Proof. reflexivity. Qed.

Lemma den_fadd k v m k' : (den (fadd k v m) k' == den m k' + (if key_dec k' k then v else 0))%Q.
Proof.
  induction m as [|[x w] m IH].
  - cbn. destruct (key_dec k' k); ring.
  - cbn [fadd]. destruct (cmp_key k x) eqn:E1.
    + rewrite den_cons. cbn [fst snd]. destruct (key_dec k' k); ring.
    + destruct (cmp_key x k) eqn:E2.
      * rewrite !den_cons, IH. ring.
      * assert (k = x) by (apply cmp_total; assumption); subst x.
        rewrite !den_cons. cbn [fst snd]. destruct (key_dec k' k); ring.
Qed.

Lemma den_notin k m : ~ In k (map fst m) -> (den m k == 0)%Q.
Proof.
  induction m as [|[x w] m IH]; intros H; [reflexivity|]. rewrite den_cons. cbn in *.
  destruct (key_dec k x) as [->|_]; [tauto|]. rewrite IH by tauto. ring.
Qed.

Lemma ffind_den m : fsorted m -> forall k, (fval m k == den m k)%Q /\ (ffind k m = None <-> ~ In k (map fst m)).
Proof.
  unfold fval. induction m as [|[x w] m IH]; intros H k; [cbn; split; [reflexivity|tauto]|].
  apply fsorted_cons in H as [H1 H2]. destruct (IH H2 k) as [I1 I2]. cbn [ffind].
  destruct (cmp_key k x) eqn:E1.
  - assert (N : ~ In k (map fst ((x, w) :: m))).
    { cbn. intros [->|Hk]; [rewrite cmp_irrefl in E1; discriminate|].
      assert (K := cmp_asym _ _ E1). rewrite (H1 k Hk) in K. discriminate. }
    rewrite den_notin by exact N. split; [reflexivity|tauto].
  - destruct (cmp_key x k) eqn:E2.
    + assert (K : k <> x) by (intros ->; rewrite cmp_irrefl in E2; discriminate).
      rewrite den_cons. cbn [fst snd]. destruct (key_dec k x); [congruence|]. split; [rewrite I1; ring|].
      rewrite I2. cbn. split; intros Hn; [intros [->|Hi]; [congruence|tauto]|tauto].
    + assert (x = k) by (apply cmp_total; assumption); subst x. rewrite den_cons. cbn [fst snd].
      destruct (key_dec k k); [|congruence]. split; [|cbn; split; [discriminate|tauto]].
      rewrite den_notin; [ring|]. intros Hk. rewrite (H1 k Hk) in E1. discriminate.
Qed.

Lemma fsorted_simple m : fsorted m -> simple m.
Proof.
  unfold simple. induction m as [|[x w] m IH]; intros H; cbn; [constructor|].
  apply fsorted_cons in H as [H1 H2]. constructor; [|auto].
  intros Hx. specialize (H1 x Hx). rewrite cmp_irrefl in H1. discriminate.
Qed.

Lemma add_vec_spec o : forall m, (fsorted m -> fsorted (add_vec m o)) /\
  forall k, (den (add_vec m o) k == den m k + den o k)%Q.
Proof.
  induction o as [|[x w] o IH]; intros m; cbn [add_vec fold_left]; [split; [auto|intros; cbn; ring]|].
  destruct (IH (fadd x w m)) as [H1 H2]. split.
  - intros H. apply H1, fadd_sorted, H.
  - intros k. unfold add_vec in H2. cbn [fst snd]. rewrite H2, den_fadd, den_cons. cbn [fst snd].
    destruct (key_dec k x); ring.
Qed.
Lemma sub_vec_spec o : forall m, (fsorted m -> fsorted (sub_vec m o)) /\
  forall k, (den (sub_vec m o) k == den m k - den o k)%Q.
Proof.
  induction o as [|[x w] o IH]; intros m; cbn [sub_vec fold_left]; [split; [auto|intros; cbn; ring]|].
  destruct (IH (fadd x (- w) m)) as [H1 H2]. split.
  - intros H. apply H1, fadd_sorted, H.
  - intros k. unfold sub_vec in H2. cbn [fst snd]. rewrite H2, den_fadd, den_cons. cbn [fst snd].
    destruct (key_dec k x); ring.
Qed.

Lemma Qnat_S n : (Qnat (S n) == 1 + Qnat n)%Q.
Proof. unfold Qnat. rewrite Nat2Z.inj_succ, <- Z.add_1_l, inject_Z_plus. reflexivity. Qed.

Lemma unary_spec (c : Q) uv : forall m,
  let r := fold_left (fun m k => fadd k c m) uv m in
  (fsorted m -> fsorted r) /\ forall k, (den r k == den m k + c * Qnat (count_occ key_dec uv k))%Q.
Proof.
  induction uv as [|x uv IH]; intros m; cbn [fold_left]; [split; [auto|intros; cbn [count_occ]; change (Qnat 0) with 0%Q; ring]|].
  destruct (IH (fadd x c m)) as [H1 H2]. split.
  - intros H. apply H1, fadd_sorted, H.
  - intros k. cbn zeta in *. rewrite H2, den_fadd. cbn [count_occ].
    destruct (key_dec x k) as [->|Hn].
    + destruct (key_dec k k); [|congruence]. rewrite Qnat_S. ring.
    + destruct (key_dec k x) as [->|_]; [congruence|]. ring.
Qed.

Lemma dot_unary_spec m uv : fsorted m -> (dot_unary m uv == fold_right (fun k s => den m k + s) 0 uv)%Q.
Proof.
  intros H. unfold dot_unary.
  assert (G : forall acc, (fold_left (fun s k => match ffind k m with Some v => s + v | None => s end) uv acc
              == acc + fold_right (fun k s => den m k + s) 0 uv)%Q).
  { induction uv as [|k uv IH]; intros acc; cbn; [ring|]. rewrite IH.
    destruct (ffind_den m H k) as [E _]. unfold fval in E. destruct (ffind k m); rewrite <- E; ring. }
  rewrite G. ring.
Qed.

(** sum over the features of [l] *)
Definition dot_spec (l r : fvec) : Q := fold_right (fun kv s => (snd kv * den r (fst kv) + s)%Q) 0%Q l.

Lemma dot_spec_skip l x w r : ~ In x (map fst l) -> (dot_spec l ((x, w) :: r) == dot_spec l r)%Q.
Proof.
  induction l as [|[k v] l IH]; intros H; cbn [dot_spec fold_right] in *; [reflexivity|].
  cbn in H. fold (dot_spec l ((x, w) :: r)) (dot_spec l r). rewrite IH by tauto. rewrite den_cons. cbn [fst snd].
  destruct (key_dec k x) as [->|_]; [tauto|]. ring.
Qed.

Lemma dot_merge_spec f : forall acc l r, length l + length r <= f -> fsorted l -> fsorted r ->
  (dot_merge f acc l r == acc + dot_spec l r)%Q.
Proof.
  induction f as [|f IH]; intros acc l r Hf Hl Hr.
  - destruct l; [|cbn in Hf; lia]. cbn. ring.
  - destruct l as [|[kl vl] l]; [cbn; ring|]. destruct r as [|[kr vr] r].
    + cbn [dot_merge]. assert (Z : forall l : fvec, (dot_spec l [] == 0)%Q).
      { clear. intros l; induction l as [|[k v] l IH]; [reflexivity|]. cbn [dot_spec fold_right snd fst].
        fold (dot_spec l []). rewrite IH. cbn. ring. }
      rewrite Z. ring.
    + cbn in Hf. cbn [dot_merge]. rewrite <- !cmp_vec. pose proof Hl as Hl0. pose proof Hr as Hr0.
      apply fsorted_cons in Hl as [L1 L2]. apply fsorted_cons in Hr as [R1 R2].
      destruct (cmp_key kl kr) eqn:E1.
      * rewrite IH by (auto; cbn; lia). cbn [dot_spec fold_right fst snd]. fold (dot_spec l ((kr, vr) :: r)).
        assert (N : ~ In kl (map fst ((kr, vr) :: r))).
        { cbn. intros [->|Hk]; [rewrite cmp_irrefl in E1; discriminate|].
          assert (K := cmp_asym _ _ E1). rewrite (R1 _ Hk) in K. discriminate. }
        rewrite (den_notin _ _ N). ring.
      * destruct (cmp_key kr kl) eqn:E2.
        -- rewrite IH by (auto; cbn; lia). rewrite (dot_spec_skip ((kl, vl) :: l) kr vr r); [reflexivity|].
           cbn. intros [->|Hk]; [rewrite cmp_irrefl in E2; discriminate|].
           assert (K := cmp_asym _ _ E2). rewrite (L1 _ Hk) in K. discriminate.
        -- assert (kl = kr) by (apply cmp_total; assumption); subst kr.
           rewrite IH by (auto; lia). cbn [dot_spec fold_right fst snd]. fold (dot_spec l ((kl, vr) :: r)).
           assert (Nl : ~ In kl (map fst l)) by (intros Hk; rewrite (L1 _ Hk) in E1; congruence || (specialize (L1 _ Hk); rewrite cmp_irrefl in L1; discriminate)).
           rewrite (dot_spec_skip l kl vr r Nl), den_cons. cbn [fst snd]. destruct (key_dec kl kl); [|congruence].
           rewrite (den_notin kl r); [ring|]. intros Hk; specialize (R1 _ Hk); rewrite cmp_irrefl in R1; discriminate.
Qed.
Lemma dot_vec_spec l r : fsorted l -> fsorted r -> (dot_vec l r == dot_spec l r)%Q.
Proof. intros Hl Hr. unfold dot_vec. rewrite dot_merge_spec by auto. ring. Qed.

Lemma finsert_spec k v m : fsorted m -> fsorted (finsert k v m) /\
  forall k', (den (finsert k v m) k' == if key_dec k' k then (if in_dec key_dec k (map fst m) then den m k else v) else den m k')%Q
   /\ (In k' (map fst (finsert k v m)) <-> k' = k \/ In k' (map fst m)).
Proof.
  induction m as [|[x w] m IH]; intros H.
  - split; [reflexivity|]. intros k'. cbn. split; [destruct (key_dec k' k); ring|].
    split; [intros [->|[]]; auto|intros [->|[]]; auto].
  - pose proof H as H0. apply fsorted_cons in H as [H1 H2]. cbn [finsert]. destruct (cmp_key k x) eqn:E1.
    + assert (N : ~ In k (map fst ((x, w) :: m))).
      { cbn. intros [->|Hk]; [rewrite cmp_irrefl in E1; discriminate|].
        assert (K := cmp_asym _ _ E1). rewrite (H1 _ Hk) in K. discriminate. }
      split.
      * apply fsorted_cons. split; [|exact H0]. intros y [<-|Hy]; [exact E1|]. apply (cmp_trans k x); auto.
      * intros k'. split.
        -- rewrite den_cons. cbn [fst snd]. destruct (key_dec k' k) as [->|_]; [|ring].
           destruct (in_dec key_dec k (map fst ((x, w) :: m))); [tauto|]. rewrite (den_notin _ _ N). ring.
        -- cbn. split; intros [->|K]; auto.
    + destruct (cmp_key x k) eqn:E2.
      * destruct (IH H2) as [I1 I2]. split.
        -- apply fsorted_cons. split; [|exact I1]. intros y Hy. apply I2 in Hy as [->|Hy]; auto.
        -- intros k'. destruct (I2 k') as [J1 J2]. split.
           ++ rewrite den_cons, J1. cbn [fst snd].
              assert (Kx : k <> x) by (intros ->; rewrite cmp_irrefl in E1, E2; discriminate).
              destruct (key_dec k' k) as [->|Hk'].
              ** destruct (key_dec k x); [congruence|].
                 destruct (in_dec key_dec k (map fst m)) as [Hi|Hi], (in_dec key_dec k (map fst ((x, w) :: m))) as [Hj|Hj];
                   cbn in Hj; try tauto; [|destruct Hj; [congruence|tauto]|ring].
                 rewrite den_cons; cbn [fst snd]; destruct (key_dec k x); [congruence|ring].
              ** rewrite den_cons. cbn [fst snd]. ring.
           ++ cbn. rewrite J2. tauto.
      * assert (k = x) by (apply cmp_total; assumption); subst x. split; [exact H0|].
        intros k'. split.
        -- destruct (key_dec k' k) as [->|_]; [|reflexivity].
           destruct (in_dec key_dec k (map fst ((k, w) :: m))) as [_|Hn]; [reflexivity|]. exfalso; apply Hn; left; reflexivity.
        -- cbn. split; [tauto|]. intros [->|K]; auto.
Qed.

Lemma of_unary_spec uv : fsorted (of_unary uv) /\
  forall k, (den (of_unary uv) k == if in_dec key_dec k uv then 1 else 0)%Q.
Proof.
  unfold of_unary.
  assert (G : forall m, fsorted m -> (forall k, In k (map fst m) -> (den m k == 1)%Q) ->
    let r := fold_left (fun m k => finsert k 1%Q m) uv m in
    fsorted r /\ forall k, (den r k == if in_dec key_dec k (uv ++ map fst m) then 1 else 0)%Q).
  { induction uv as [|x uv IH]; intros m Hs H1; cbn [fold_left].
    - split; [exact Hs|]. intros k. cbn [app]. destruct (in_dec key_dec k (map fst m)); [apply H1; assumption|apply den_notin; assumption].
    - destruct (finsert_spec x 1%Q m Hs) as [F1 F2]. destruct (IH (finsert x 1%Q m) F1) as [I1 I2].
      + intros k Hk. destruct (F2 k) as [J1 J2]. rewrite J1. destruct (key_dec k x) as [->|Hn].
        * destruct (in_dec key_dec x (map fst m)); [apply H1; assumption|reflexivity].
        * apply H1. apply J2 in Hk as [Hk|Hk]; [congruence|exact Hk].
      + split; [exact I1|]. intros k. cbn zeta in *. rewrite I2.
        destruct (F2 k) as [_ J2].
        destruct (in_dec key_dec k (uv ++ map fst (finsert x 1%Q m))) as [Ha|Ha],
                 (in_dec key_dec k ((x :: uv) ++ map fst m)) as [Hb|Hb]; try reflexivity; exfalso.
        * apply Hb. cbn. apply in_app_or in Ha as [Ha|Ha]; [right; apply in_or_app; auto|].
          apply J2 in Ha as [->|Ha]; [auto|right; apply in_or_app; auto].
        * apply Ha. cbn in Hb. apply in_or_app. destruct Hb as [<-|Hb]; [right; apply J2; auto|].
          apply in_app_or in Hb as [Hb|Hb]; [auto|right; apply J2; auto]. }
  destruct (G [] eq_refl) as [G1 G2]; [intros k []|]. split; [exact G1|]. intros k. cbn zeta in G2. rewrite G2.
  cbn. rewrite app_nil_r. reflexivity.
Qed.

(** ** the averager *)
Definition ops_simple (l : list aop) : Prop :=
  Forall (fun x => match x with OAdd o | OSub o => fsorted o | OInc => True end) l.

(** invariant: w = current weights, T = sum of the samples so far *)
Record AInv (a : avg) (w T : key -> Q) : Prop := mkinv {
  iv_sorted : fsorted (weights a);
  iv_tsorted : fsorted (totals a);
  iv_w : forall k, (den (weights a) k == w k)%Q;
  iv_ts : forall k, ts_get k (tstamps a) <= iterations a;
  iv_T : forall k, (den (totals a) k + Qnat (iterations a - ts_get k (tstamps a)) * w k == T k)%Q }.

Lemma ts_set_get k v m k' : ts_get k' (ts_set k v m) = if key_dec k' k then v else ts_get k' m.
Proof. reflexivity. Qed.

Lemma upd_one a w T k : AInv a w T ->
  AInv (let a1 := updateTotal k a in mka (weights a1) (totals a1) (ts_set k (iterations a1) (tstamps a1)) (iterations a1)) w T
  /\ ts_get k (ts_set k (iterations a) (tstamps a)) = iterations a.
Proof.
  intros [H1 H2 H3 H4 H5]. split; [|rewrite ts_set_get; destruct (key_dec k k); congruence].
  constructor; cbn [weights totals tstamps iterations updateTotal].
  - apply fadd_sorted, H1.
  - apply fadd_sorted, H2.
  - intros k'. rewrite den_fadd, H3. destruct (key_dec k' k); ring.
  - intros k'. rewrite ts_set_get. destruct (key_dec k' k); [lia|apply H4].
  - intros k'. rewrite den_fadd, ts_set_get. destruct (ffind_den (weights a) H1 k) as [E _]. specialize (H5 k').
    destruct (key_dec k' k) as [->|Hn].
    + rewrite E, H3, Nat.sub_diag. rewrite <- H5. change (Qnat 0) with 0%Q. ring.
    + rewrite <- H5. ring.
Qed.

Lemma upd_all o : forall a w T, AInv a w T -> AInv (updateTotalsTimestamps o a) w T /\
  iterations (updateTotalsTimestamps o a) = iterations a /\
  (forall k, In k (map fst o) \/ ts_get k (tstamps a) = iterations a ->
     ts_get k (tstamps (updateTotalsTimestamps o a)) = iterations a).
Proof.
  induction o as [|[x v] o IH]; intros a w T H; cbn [updateTotalsTimestamps fold_left].
  - split; [exact H|]. split; [reflexivity|]. intros k [[]|Hk]; exact Hk.
  - destruct (upd_one a w T x H) as [G1 G2]. cbn [fst].
    set (a1 := let a1 := updateTotal x a in mka (weights a1) (totals a1) (ts_set x (iterations a1) (tstamps a1)) (iterations a1)) in *.
    destruct (IH a1 w T G1) as [I1 [I2 I3]]. unfold updateTotalsTimestamps in *. cbn zeta in *.
    fold a1. split; [exact I1|]. split; [rewrite I2; reflexivity|].
    intros k Hk. change (iterations a) with (iterations a1). apply I3.
    destruct (key_dec k x) as [->|Hn].
    + right. exact G2.
    + destruct Hk as [Hk|Hk].
      * cbn in Hk. destruct Hk as [Hk|Hk]; [congruence|left; exact Hk].
      * right. change (tstamps a1) with (ts_set x (iterations a) (tstamps a)). rewrite ts_set_get.
        destruct (key_dec k x); [congruence|exact Hk].
Qed.

Lemma AInv_step a w T x : AInv a w T -> match x with OAdd o | OSub o => fsorted o | OInc => True end ->
  AInv (astep a x) (match x with OAdd o => fun k => w k + den o k | OSub o => fun k => w k - den o k | OInc => w end)%Q
       (match x with OInc => fun k => T k + w k | _ => T end)%Q.
Proof.
  intros HI Hx.
  destruct x as [o|o|]; cbn [astep].
  - destruct (upd_all o a w T HI) as [[H1 H2 H3 H4 H5] [I2 I3]]. destruct (add_vec_spec o (weights (updateTotalsTimestamps o a))) as [A1 A2].
    constructor; cbn [weights totals tstamps iterations]; auto.
    + intros k. rewrite A2, H3. reflexivity.
    + intros k. rewrite <- (H5 k). destruct (in_dec key_dec k (map fst o)) as [Hi|Hi].
      * rewrite (I3 k (or_introl Hi)), I2, Nat.sub_diag. change (Qnat 0) with 0%Q. ring.
      * rewrite (den_notin k o Hi). ring.
  - destruct (upd_all o a w T HI) as [[H1 H2 H3 H4 H5] [I2 I3]]. destruct (sub_vec_spec o (weights (updateTotalsTimestamps o a))) as [A1 A2].
    constructor; cbn [weights totals tstamps iterations]; auto.
    + intros k. rewrite A2, H3. reflexivity.
    + intros k. rewrite <- (H5 k). destruct (in_dec key_dec k (map fst o)) as [Hi|Hi].
      * rewrite (I3 k (or_introl Hi)), I2, Nat.sub_diag. change (Qnat 0) with 0%Q. ring.
      * rewrite (den_notin k o Hi). ring.
  - destruct HI as [H1 H2 H3 H4 H5]. constructor; cbn [weights totals tstamps iterations]; auto.
    intros k. rewrite <- (H5 k). specialize (H4 k).
    replace (S (iterations a) - ts_get k (tstamps a)) with (S (iterations a - ts_get k (tstamps a))) by lia.
    rewrite Qnat_S. ring.
Qed.

Fixpoint final_w (w : key -> Q) (l : list aop) : key -> Q :=
  match l with
  | [] => w
  | OAdd o :: r => final_w (fun k => w k + den o k)%Q r
  | OSub o :: r => final_w (fun k => w k - den o k)%Q r
  | OInc :: r => final_w w r
  end.

Lemma AInv_ext a w T T' : AInv a w T -> (forall k, (T k == T' k)%Q) -> AInv a w T'.
Proof. intros [H1 H2 H3 H4 H5] E. constructor; auto. intros k. rewrite H5. apply E. Qed.

Lemma AInv_run l : forall a w T, AInv a w T -> ops_simple l ->
  AInv (fold_left astep l a) (final_w w l) (fun k => T k + sum_at k (samples w l))%Q /\
  iterations (fold_left astep l a) = iterations a + length (samples w l).
Proof.
  induction l as [|x l IH]; intros a w T HI Hs; cbn [fold_left].
  - split; [|cbn; lia]. apply (AInv_ext a w T); [exact HI|]. intros k. cbn. ring.
  - inversion Hs as [|? ? Hx Hl]; subst. assert (HI' := AInv_step a w T x HI Hx).
    assert (Hit : iterations (astep a x) = iterations a + match x with OInc => 1 | _ => 0 end).
    { destruct x as [o|o|]; cbn -[updateTotalsTimestamps]; [| |lia];
      rewrite (proj1 (proj2 (upd_all o a w T HI))); lia. }
    destruct (IH _ _ _ HI' Hl) as [G1 G2]. rewrite G2, Hit.
    destruct x as [o|o|]; cbn [samples final_w length] in *; (split; [|lia]); try exact G1.
    apply (AInv_ext _ _ _ _ G1). intros k. cbn [sum_at fold_right]. unfold sum_at. ring.
Qed.

Lemma average_loop_spec a todo : forall m, average_loop a todo = Some m ->
  map fst m = map fst todo /\
  forall k v, In (k, v) todo -> exists q, In (k, q) m /\
    (q == (fval (totals a) k + Qnat (iterations a - ts_get k (tstamps a)) * v) / Qnat (iterations a))%Q.
Proof.
  induction todo as [|[k v] todo IH]; intros m H; cbn in H.
  - injection H as <-. split; [reflexivity|intros k v []].
  - destruct (Qeq_bool _ 0) eqn:E; [discriminate|]. destruct (average_loop a todo) as [m'|] eqn:Em; [|discriminate].
    injection H as <-. destruct (IH m' eq_refl) as [I1 I2]. cbn. split; [congruence|].
    intros k' v' [Hk|Hk].
    + injection Hk as <- <-. eexists. split; [left; reflexivity|reflexivity].
    + destruct (I2 k' v' Hk) as [q [Hq1 Hq2]]. exists q. auto.
Qed.

Lemma average_loop_ub a todo : average_loop a todo = None <->
  exists k v, In (k, v) todo /\ (fval (totals a) k + Qnat (iterations a - ts_get k (tstamps a)) * v == 0)%Q.
Proof.
  induction todo as [|[k v] todo IH]; cbn.
  - split; [discriminate|intros [k [v [[] _]]]].
  - destruct (Qeq_bool _ 0) eqn:E.
    + apply Qeq_bool_iff in E. split; [|reflexivity]. intros _. exists k, v. auto.
    + assert (E' : ~ (fval (totals a) k + Qnat (iterations a - ts_get k (tstamps a)) * v == 0)%Q)
        by (intros K; apply Qeq_bool_iff in K; congruence).
      destruct (average_loop a todo) as [m|].
      * split; [discriminate|]. intros [k' [v' [[Hk|Hk] K]]]; [injection Hk as <- <-; tauto|].
        assert (X : Some m = None) by (apply IH; eauto). discriminate.
      * split; [|reflexivity]. intros _. destruct (proj1 IH eq_refl) as [k' [v' [Hk K]]]. exists k', v'. auto.
Qed.

Lemma den_In k v m : simple m -> In (k, v) m -> (den m k == v)%Q.
Proof.
  unfold simple. induction m as [|[x w] m IH]; intros Hs Hi; [destruct Hi|]. cbn in Hs. inversion Hs as [|? ? Hx Hm]; subst.
  rewrite den_cons. cbn [fst snd]. destruct Hi as [Hi|Hi].
  - injection Hi as -> ->. destruct (key_dec k k); [|congruence]. rewrite den_notin by exact Hx. ring.
  - destruct (key_dec k x) as [->|_].
    + exfalso. apply Hx. apply in_map_iff. exists (x, v). auto.
    + rewrite (IH Hm Hi). ring.
Qed.

(** keys once present stay; keys never touched have zero total *)
Lemma AInv_total_notin a w T k : AInv a w T -> ~ In k (map fst (weights a)) ->
  (forall k, In k (map fst (totals a)) -> In k (map fst (weights a))) -> (T k == 0)%Q.
Proof.
  intros [H1 H2 H3 H4 H5] Hn Hsub. rewrite <- (H5 k), <- (H3 k), (den_notin k _ Hn).
  rewrite (den_notin k (totals a)); [ring|]. auto.
Qed.

Lemma fadd_keys_iff k v m x : In x (map fst (fadd k v m)) <-> x = k \/ In x (map fst m).
Proof.
  split; [apply fadd_keys|]. induction m as [|[k' v'] m IH]; cbn; [intros [->|[]]; auto|].
  destruct (cmp_key k k') eqn:E1; cbn; [intros [->|H]; auto|].
  destruct (cmp_key k' k) eqn:E2; cbn; [intros [->|[H|H]]; auto|].
  intros [->|H]; [|tauto]. left. apply cmp_total; assumption.
Qed.
Lemma addvec_keys o : forall m x, In x (map fst m) -> In x (map fst (add_vec m o)).
Proof. induction o as [|[k v] o IH]; intros m x H; cbn; [exact H|]. apply IH, fadd_keys_iff; auto. Qed.
Lemma subvec_keys o : forall m x, In x (map fst m) -> In x (map fst (sub_vec m o)).
Proof. induction o as [|[k v] o IH]; intros m x H; cbn; [exact H|]. apply IH, fadd_keys_iff; auto. Qed.

Definition sub_keys (a : avg) := forall k, In k (map fst (totals a)) -> In k (map fst (weights a)).
Lemma sub_keys_upd o : forall a, sub_keys a -> sub_keys (updateTotalsTimestamps o a).
Proof.
  induction o as [|[x v] o IH]; intros a H; [exact H|]. cbn [updateTotalsTimestamps fold_left]. apply IH.
  intros k. cbn. rewrite !fadd_keys_iff. specialize (H k). tauto.
Qed.
Lemma sub_keys_step a x : sub_keys a -> sub_keys (astep a x).
Proof.
  destruct x as [o|o|]; intros H; cbn -[updateTotalsTimestamps]; [| |exact H]; intros k Hk; cbn -[updateTotalsTimestamps] in *.
  - apply addvec_keys. apply sub_keys_upd; assumption.
  - apply subvec_keys. apply sub_keys_upd; assumption.
Qed.
Lemma sub_keys_run l : forall a, sub_keys a -> sub_keys (fold_left astep l a).
Proof. induction l as [|x l IH]; intros a H; [exact H|]. cbn. apply IH, sub_keys_step, H. Qed.

Lemma AInv0 w0 : fsorted w0 -> AInv (avg0 w0) (den w0) (fun _ => 0%Q).
Proof.
  intros H. constructor; cbn [avg0 weights totals tstamps iterations]; auto; try reflexivity.
Qed.

Lemma averager_mean w0 l m : fsorted w0 -> ops_simple l ->
  average (fold_left astep l (avg0 w0)) = Some m ->
  forall k, (den m k == mean_at k (samples (den w0) l))%Q.
Proof.
  intros H0 Hl Hm k. destruct (AInv_run l _ _ _ (AInv0 w0 H0) Hl) as [HI Hit]. cbn [avg0 iterations] in Hit. rewrite Nat.add_0_l in Hit.
  set (a := fold_left astep l (avg0 w0)) in *. unfold average in Hm.
  destruct (average_loop_spec a (weights a) m Hm) as [M1 M2].
  assert (Sm : simple m) by (unfold simple; rewrite M1; apply fsorted_simple, HI).
  unfold mean_at. rewrite <- Hit.
  destruct (in_dec key_dec k (map fst (weights a))) as [Hi|Hi].
  - apply in_map_iff in Hi as [[k' v] [Ek Hi]]. cbn in Ek; subst k'.
    destruct (M2 k v Hi) as [q [Hq1 Hq2]]. rewrite (den_In k q m Sm Hq1), Hq2.
    destruct (ffind_den (totals a) (iv_tsorted _ _ _ HI) k) as [E _]. rewrite E.
    assert (Ev : (v == final_w (den w0) l k)%Q)
      by (rewrite <- (iv_w _ _ _ HI k); symmetry; apply den_In; [apply fsorted_simple, HI|exact Hi]).
    rewrite Ev, (iv_T _ _ _ HI k). rewrite Qplus_0_l. reflexivity.
  - rewrite (den_notin k m) by (rewrite M1; exact Hi).
    assert (Z := AInv_total_notin a _ _ k HI Hi (sub_keys_run l (avg0 w0) (fun k H => match H with end))).
    cbn beta in Z. rewrite Qplus_0_l in Z. rewrite Z. unfold Qdiv. rewrite Qmult_0_l. reflexivity.
Qed.

Lemma averager_ub w0 l : fsorted w0 -> ops_simple l ->
  (average (fold_left astep l (avg0 w0)) = None <->
   exists k, In k (map fst (weights (fold_left astep l (avg0 w0)))) /\ (sum_at k (samples (den w0) l) == 0)%Q).
Proof.
  intros H0 Hl. destruct (AInv_run l _ _ _ (AInv0 w0 H0) Hl) as [HI _].
  set (a := fold_left astep l (avg0 w0)) in *. unfold average. rewrite average_loop_ub.
  assert (E : forall k v, In (k, v) (weights a) ->
    (fval (totals a) k + Qnat (iterations a - ts_get k (tstamps a)) * v == sum_at k (samples (den w0) l))%Q).
  { intros k v Hi. destruct (ffind_den (totals a) (iv_tsorted _ _ _ HI) k) as [E _]. rewrite E.
    assert (Ev : (v == final_w (den w0) l k)%Q)
      by (rewrite <- (iv_w _ _ _ HI k); symmetry; apply den_In; [apply fsorted_simple, HI|exact Hi]).
    rewrite Ev, (iv_T _ _ _ HI k). ring. }
  split.
  - intros [k [v [Hi Hz]]]. exists k. split; [apply in_map_iff; exists (k, v); auto|]. rewrite <- (E k v Hi). exact Hz.
  - intros [k [Hi Hz]]. apply in_map_iff in Hi as [[k' v] [<- Hi]]. exists k', v. split; [exact Hi|].
    rewrite (E k' v Hi). exact Hz.
Qed.

Lemma add_unary_den m uv k : (den (add_unary m uv) k == den m k + Qnat (count_occ key_dec uv k))%Q.
Proof. unfold add_unary. rewrite (proj2 (unary_spec 1%Q uv m)). ring. Qed.
Lemma sub_unary_den m uv k : (den (sub_unary m uv) k == den m k - Qnat (count_occ key_dec uv k))%Q.
Proof. unfold sub_unary. rewrite (proj2 (unary_spec (-(1))%Q uv m)). ring. Qed.

Lemma sum_single ks (k0 : key) (c : Q) : NoDup ks ->
  (fold_right (fun k s => (if key_dec k k0 then c else 0) + s) 0 ks == if in_dec key_dec k0 ks then c else 0)%Q.
Proof.
  induction ks as [|x ks IH]; intros Hn; [reflexivity|]. inversion Hn as [|? ? Hx Hk]; subst.
  cbn [fold_right]. rewrite (IH Hk). destruct (key_dec x k0) as [->|Hne].
  - destruct (in_dec key_dec k0 ks); [tauto|]. destruct (in_dec key_dec k0 (k0 :: ks)) as [_|Hc]; [ring|exfalso; apply Hc; left; reflexivity].
  - destruct (in_dec key_dec k0 ks) as [Hi|Hi], (in_dec key_dec k0 (x :: ks)) as [Hj|Hj]; cbn in Hj; try ring; exfalso; tauto || (destruct Hj; [congruence|tauto]).
Qed.
Lemma sum_ext (f g : key -> Q) ks : (forall k, f k == g k)%Q ->
  (fold_right (fun k s => f k + s) 0 ks == fold_right (fun k s => g k + s) 0 ks)%Q.
Proof. intros H. induction ks as [|x ks IH]; cbn; [reflexivity|]. rewrite IH, (H x). reflexivity. Qed.
Lemma sum_add (f g : key -> Q) ks :
  (fold_right (fun k s => f k + g k + s) 0 ks == fold_right (fun k s => f k + s) 0 ks + fold_right (fun k s => g k + s) 0 ks)%Q.
Proof. induction ks as [|x ks IH]; cbn; [ring|]. rewrite IH. ring. Qed.

Lemma dot_spec_cover l r ks : NoDup ks -> incl (map fst l) ks ->
  (dot_spec l r == fold_right (fun k s => den l k * den r k + s) 0 ks)%Q.
Proof.
  intros Hn. induction l as [|[x v] l IH]; intros Hi.
  - cbn [dot_spec fold_right]. clear. induction ks as [|k ks IH]; cbn; [reflexivity|]. rewrite <- IH. ring.
  - cbn [dot_spec fold_right fst snd]. fold (dot_spec l r). rewrite IH by (intros y Hy; apply Hi; right; exact Hy).
    rewrite (sum_ext (fun k => den ((x, v) :: l) k * den r k)%Q
               (fun k => (if key_dec k x then v * den r x else 0) + den l k * den r k)%Q ks).
    + rewrite (sum_add (fun k => if key_dec k x then v * den r x else 0)%Q (fun k => den l k * den r k)%Q ks).
      rewrite (sum_single ks x (v * den r x)%Q Hn).
      destruct (in_dec key_dec x ks) as [_|Hc]; [reflexivity|exfalso; apply Hc, Hi; left; reflexivity].
    + intros k. rewrite den_cons. cbn [fst snd]. destruct (key_dec k x) as [->|_]; ring.
Qed.
Lemma dot_vec_cover l r ks : fsorted l -> fsorted r -> NoDup ks -> incl (map fst l) ks ->
  (dot_vec l r == fold_right (fun k s => den l k * den r k + s) 0 ks)%Q.
Proof. intros Hl Hr Hn Hi. rewrite dot_vec_spec by assumption. apply dot_spec_cover; assumption. Qed.
Lemma dot_vec_comm l r : fsorted l -> fsorted r -> (dot_vec l r == dot_vec r l)%Q.
Proof.
  intros Hl Hr. set (ks := nodup key_dec (map fst l ++ map fst r)).
  assert (Hn : NoDup ks) by apply NoDup_nodup.
  rewrite (dot_vec_cover l r ks Hl Hr Hn), (dot_vec_cover r l ks Hr Hl Hn).
  - clear. induction ks as [|k ks IH]; cbn; [reflexivity|]. rewrite IH. ring.
  - intros x Hx. apply nodup_In, in_or_app; auto.
  - intros x Hx. apply nodup_In, in_or_app; auto.
Qed.

Lemma averager_weights w0 l k : fsorted w0 -> ops_simple l ->
  (den (weights (fold_left astep l (avg0 w0))) k == final_w (den w0) l k)%Q.
Proof. intros H0 Hl. destruct (AInv_run l _ _ _ (AInv0 w0 H0) Hl) as [HI _]. apply (iv_w _ _ _ HI). Qed.

Lemma upd_has_keys o : forall a k, In k (map fst o) -> In k (map fst (weights (updateTotalsTimestamps o a))).
Proof.
  assert (M : forall o a k, In k (map fst (weights a)) -> In k (map fst (weights (updateTotalsTimestamps o a)))).
  { clear. induction o as [|[x v] o IH]; intros a k H; [exact H|]. cbn [updateTotalsTimestamps fold_left]. apply IH.
    cbn. apply fadd_keys_iff. auto. }
  induction o as [|[x v] o IH]; intros a k H; [destruct H|]. cbn [updateTotalsTimestamps fold_left].
  destruct H as [<-|H]; [|apply IH; exact H]. apply (M o). cbn. apply fadd_keys_iff. auto.
Qed.

Lemma averager_shared k v a b : fsorted a -> fsorted b ->
  In k (map fst a) -> (den a k == v)%Q -> (den b k == v)%Q ->
  average (fold_left astep [OSub a; OAdd b; OInc] (avg0 [])) = None.
Proof.
  intros Ha Hb Hk Ea Eb. apply averager_ub; [reflexivity|repeat constructor; assumption|].
  exists k. split.
  - cbn [fold_left astep weights]. apply addvec_keys.
    assert (K : In k (map fst (weights (astep (avg0 []) (OSub a))))) by (cbn [astep weights]; apply subvec_keys, upd_has_keys, Hk).
    set (a1 := astep (avg0 []) (OSub a)) in *. change (In k (map fst (weights (updateTotalsTimestamps b a1)))).
    revert K. generalize a1. clear.
    assert (M : forall o a k, In k (map fst (weights a)) -> In k (map fst (weights (updateTotalsTimestamps o a)))).
    { clear. induction o as [|[x v] o IH]; intros a k H; [exact H|]. cbn [updateTotalsTimestamps fold_left]. apply IH.
      cbn. apply fadd_keys_iff. auto. }
    intros a0 K. apply (M b a0 k K).
  - cbn [samples sum_at fold_right]. rewrite Ea, Eb. cbn. ring.
Qed.
