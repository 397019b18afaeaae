From Coq Require Import QArith Permutation Lqa.
From Verif Require Import Model.Base Proofs.Base Model.AMap Model.Unigram Spec.Unigram.
Open Scope nat_scope.

Definition get1 {K} (dec : forall x y : K, {x = y} + {x <> y}) (k : K) (m : list (K * nat)) : nat :=
  match find dec k m with Some v => v | None => 0 end.
Definition get2 {K L} (dK : forall x y : K, {x = y} + {x <> y}) (dL : forall x y : L, {x = y} + {x <> y})
  (k : K) (l : L) (m : list (K * list (L * nat))) : nat :=
  match find dK k m with Some i => get1 dL l i | None => 0 end.

Section Maps.
  Context {K V : Type} (dec : forall x y : K, {x = y} + {x <> y}).
  Lemma find_upd k d f (m : list (K * V)) k' :
    find dec k' (upd dec k d f m) =
    if dec k' k then Some (f (match find dec k m with Some v => v | None => d end)) else find dec k' m.
  Proof.
    induction m as [|[x v] m IH]; cbn.
    - destruct (dec k' k); reflexivity.
    - destruct (dec k x) as [->|Hk]; cbn.
      + destruct (dec k' x); reflexivity.
      + rewrite IH. destruct (dec k' x) as [->|Hx]; [|reflexivity].
        destruct (dec x k) as [->|_]; [congruence|reflexivity].
  Qed.
  Lemma find_mapv f (m : list (K * V)) k : find dec k (mapv f m) = option_map f (find dec k m).
  Proof. induction m as [|[x v] m IH]; cbn; [reflexivity|]. destruct (dec k x); [reflexivity|exact IH]. Qed.
End Maps.

Lemma get_add1 {K} dec (k k' : K) c m : get1 dec k' (add1 dec k c m) = (if dec k k' then c else 0) + get1 dec k' m.
Proof.
  unfold get1, add1. rewrite find_upd. destruct (dec k' k) as [->|H].
  - destruct (dec k k); [|congruence]. destruct (find dec k m); lia.
  - destruct (dec k k') as [->|_]; [congruence|]. reflexivity.
Qed.
Lemma get_add2 {K L} dK dL (k k' : K) (l l' : L) c m :
  get2 dK dL k' l' (add2 dK dL k l c m) = (if pair_dec dK dL (k, l) (k', l') then c else 0) + get2 dK dL k' l' m.
Proof.
  unfold get2, add2. rewrite find_upd. destruct (dK k' k) as [->|H].
  - rewrite get_add1. destruct (dL l l') as [->|Hl].
    + destruct (pair_dec dK dL (k, l') (k, l')); [|congruence]. destruct (find dK k m); reflexivity.
    + destruct (pair_dec dK dL (k, l) (k, l')); [congruence|]. destruct (find dK k m); reflexivity.
  - destruct (pair_dec dK dL (k, l) (k', l')); [congruence|reflexivity].
Qed.
Lemma get_mul1 {K} dec (k : K) n m : get1 dec k (mul1 n m) = get1 dec k m * n.
Proof. unfold get1, mul1. rewrite find_mapv. destruct (find dec k m); reflexivity. Qed.
Lemma get_mul2 {K L} dK dL (k : K) (l : L) n m : get2 dK dL k l (mul2 n m) = get2 dK dL k l m * n.
Proof. unfold get2, mul2. rewrite find_mapv. destruct (find dK k m); cbn; [apply get_mul1|reflexivity]. Qed.

(** ** generic accumulation *)
Section Gen.
  Context {K : Type} (dec : forall x y : K, {x = y} + {x <> y}) (ev : analysis -> list K).
  Variable kd : kind.
  Variable get : ust -> K -> nat.
  Hypothesis Hadd : forall c st x st' k, train_analysis kd c st x = Some st' ->
    get st' k = c * count_occ dec (ev x) k + get st k.
  Hypothesis Hmul : forall n st k, get (multiply kd n st) k = get st k * n.
  Hypothesis Hcoef : forall st c k, get (mku (model1 st) (model2 st) (m3_l_t st) (m3_cl_ct st) (m3_ct_cl st) c) k = get st k.
  Hypothesis H0 : forall k, get ust0 k = 0.

  Lemma count_occ_app' l1 l2 (k : K) : count_occ dec (l1 ++ l2) k = count_occ dec l1 k + count_occ dec l2 k.
  Proof. apply count_occ_app. Qed.

  Lemma add_coef c st x st' : train_analysis kd c st x = Some st' -> coef st' = coef st.
  Proof.
    destruct kd; cbn.
    - intros H; injection H as <-; reflexivity.
    - destruct (to_a x), (to_lemma x); try discriminate. intros H; injection H as <-; reflexivity.
    - destruct (to_i x), (to_lemma x), (an_morphemes x) as [|m ms]; try discriminate.
      destruct (train3_tail _ _ _ _ _) as [[]|]; try discriminate. intros H; injection H as <-; reflexivity.
  Qed.
  Lemma mul_coef n st : coef (multiply kd n st) = coef st.
  Proof. destruct kd; reflexivity. Qed.

  Lemma fold_add tok : forall c st st' k, foldM (train_analysis kd c) st tok = Some st' ->
    get st' k = c * count_occ dec (flat_map ev tok) k + get st k /\ coef st' = coef st.
  Proof.
    induction tok as [|x tok IH]; intros c st st' k H; cbn in *.
    - injection H as <-. split; [lia|reflexivity].
    - destruct (train_analysis kd c st x) as [s|] eqn:E; [|discriminate].
      destruct (IH _ _ _ k H) as [H1 H2]. rewrite count_occ_app'.
      assert (Ha := Hadd _ _ _ _ k E). assert (Hc := add_coef _ _ _ _ E).
      split; [lia|congruence].
  Qed.

  Lemma Qn_plus a b : (Qn (a + b) == Qn a + Qn b)%Q.
  Proof. unfold Qn. rewrite Nat2Z.inj_add, inject_Z_plus. reflexivity. Qed.
  Lemma Qn_mult a b : (Qn (a * b) == Qn a * Qn b)%Q.
  Proof. unfold Qn. rewrite Nat2Z.inj_mul, inject_Z_mult. reflexivity. Qed.
  Lemma Qn_pos a : 0 < a -> ~ (Qn a == 0)%Q.
  Proof. intros H E. unfold Qn, Qeq in E. cbn in E. lia. Qed.

  Lemma token_step st tok st' k : 0 < coef st -> train_token kd st tok = Some st' ->
    0 < coef st' /\
    (Qn (get st' k) / Qn (coef st') ==
     Qn (count_occ dec (flat_map ev tok) k) / Qn (length tok) + Qn (get st k) / Qn (coef st))%Q.
  Proof.
    intros Hc H. unfold train_token in H. destruct tok as [|x0 tok0]; [discriminate|].
    set (tok := x0 :: tok0) in *. set (n := length tok) in *.
    assert (Hn : 0 < n) by (cbn; lia). clearbody n.
    set (st1 := if coef st mod n =? 0 then st else _) in H. cbn zeta in H.
    assert (E : exists q, coef st1 = q * n /\ 0 < q /\ exists f, 0 < f /\ coef st1 = coef st * f /\ get st1 k = get st k * f).
    { unfold st1. destruct (coef st mod n =? 0) eqn:D.
      - apply Nat.eqb_eq in D. apply Nat.mod_divides in D as [q D]; [|lia].
        exists q. split; [lia|]. split; [destruct q; lia|]. exists 1. split; [lia|]. split; lia.
      - rewrite mul_coef, Hmul, Hcoef. cbn [coef]. exists (coef st). split; [reflexivity|]. split; [exact Hc|].
        exists n. auto. }
    destruct E as [q [E1 [Hq [f [Hf [E2 E3]]]]]].
    rewrite E1, Nat.div_mul in H by lia.
    destruct (fold_add tok q st1 st' k H) as [G1 G2].
    rewrite G2. split; [rewrite E1; destruct q, n; cbn; lia|].
    set (occ := count_occ dec (flat_map ev tok) k) in *.
    rewrite G1, Qn_plus, Qn_mult, E3. rewrite E1 at 1.
    assert (Qq : ~ (Qn q == 0)%Q) by (apply Qn_pos; exact Hq).
    assert (Qnn : ~ (Qn n == 0)%Q) by (apply Qn_pos; exact Hn).
    assert (Qf : ~ (Qn f == 0)%Q) by (apply Qn_pos; exact Hf).
    assert (Qc : ~ (Qn (coef st) == 0)%Q) by (apply Qn_pos; exact Hc).
    assert (QE : (Qn q * Qn n == Qn (coef st) * Qn f)%Q) by (rewrite <- !Qn_mult, <- E1, E2; reflexivity).
    rewrite !Qn_mult.
    transitivity (Qn q * Qn occ / (Qn q * Qn n) + Qn (get st k) * Qn f / (Qn q * Qn n))%Q;
      [field; split; assumption|].
    assert (X1 : (Qn q * Qn occ / (Qn q * Qn n) == Qn occ / Qn n)%Q) by (field; split; assumption).
    assert (X2 : (Qn (get st k) * Qn f / (Qn q * Qn n) == Qn (get st k) / Qn (coef st))%Q)
      by (rewrite QE; field; split; assumption).
    rewrite X1, X2. reflexivity.
  Qed.

  Lemma train_from corpus : forall st st' k, 0 < coef st -> foldM (train_token kd) st corpus = Some st' ->
    0 < coef st' /\ (Qn (get st' k) / Qn (coef st') == frac dec ev corpus k + Qn (get st k) / Qn (coef st))%Q.
  Proof.
    induction corpus as [|tok corpus IH]; intros st st' k Hc H; cbn in *.
    - injection H as <-. split; [exact Hc|]. ring.
    - destruct (train_token kd st tok) as [s|] eqn:E; [|discriminate].
      destruct (token_step st tok s k Hc E) as [H1 H2].
      destruct (IH s st' k H1 H) as [H3 H4]. split; [exact H3|].
      rewrite H4, H2. unfold frac. ring.
  Qed.

  Lemma train_frac corpus st k : train kd corpus = Some st ->
    0 < coef st /\ (Qn (get st k) / Qn (coef st) == frac dec ev corpus k)%Q.
  Proof.
    intros H. destruct (train_from corpus ust0 st k ltac:(cbn; lia) H) as [H1 H2].
    split; [exact H1|]. rewrite H2, H0. unfold Qdiv, Qn at 1. cbn. rewrite Qmult_0_l. ring.
  Qed.
End Gen.

(** ** instances *)
Lemma frac1 corpus st : train M1 corpus = Some st -> forall x,
  0 < coef st /\ (Qn (get1 analysis_dec x (model1 st)) / Qn (coef st) == frac analysis_dec ev1 corpus x)%Q.
Proof.
  intros H x. apply (train_frac analysis_dec ev1 M1 (fun st k => get1 analysis_dec k (model1 st))); try reflexivity; try exact H.
  - intros c s y s' k E. injection E as <-. cbn [model1]. rewrite get_add1. cbn [ev1 count_occ].
    destruct (analysis_dec y k); lia.
  - intros n s k. cbn. apply get_mul1.
Qed.

Lemma to_a_lemma x a l : to_a x = Some a -> to_lemma x = Some l -> ev2 x = [(a, l)].
Proof.
  unfold to_a, to_lemma, ev2, lemma_of_morpheme. destruct (an_morphemes x) as [|m r]; [discriminate|].
  destruct (nonempty (m_tags m)); [|discriminate]. destruct (nonempty (m_lemma m)); [|discriminate].
  intros H1 H2; injection H1 as <-; injection H2 as <-; reflexivity.
Qed.
Lemma to_i_lemma x i l : to_i x = Some i -> to_lemma x = Some l -> ev_l_t x = [(i, l)].
Proof.
  unfold to_i, to_lemma, ev_l_t, i_of_morpheme, lemma_of_morpheme. destruct (an_morphemes x) as [|m r]; [discriminate|].
  destruct (nonempty (m_tags m)); [|discriminate]. destruct (nonempty (m_lemma m)); [|discriminate].
  intros H1 H2; injection H1 as <-; injection H2 as <-; reflexivity.
Qed.

Lemma frac2 corpus st : train M2 corpus = Some st -> forall a l,
  0 < coef st /\ (Qn (get2 a_dec lemma_dec a l (model2 st)) / Qn (coef st)
                  == frac (pair_dec a_dec lemma_dec) ev2 corpus (a, l))%Q.
Proof.
  intros H a l.
  refine (train_frac (pair_dec a_dec lemma_dec) ev2 M2 (fun st k => get2 a_dec lemma_dec (fst k) (snd k) (model2 st))
            _ _ _ _ corpus st (a, l) H); try reflexivity.
  - intros c s y s' [ka kl] E. cbn in E. destruct (to_a y) as [ya|] eqn:E1; [|discriminate].
    destruct (to_lemma y) as [yl|] eqn:E2; [|discriminate]. injection E as <-. cbn [model2 fst snd].
    rewrite get_add2, (to_a_lemma _ _ _ E1 E2). cbn [count_occ].
    destruct (pair_dec a_dec lemma_dec (ya, yl) (ka, kl)); lia.
  - intros n s [ka kl]. cbn. apply get_mul2.
Qed.

Lemma tail_spec ms : forall c p clct ctcl r1 r2, train3_tail c p ms clct ctcl = Some (r1, r2) ->
  (forall i l, get2 i_dec lemma_dec i l r1 =
     c * count_occ (pair_dec i_dec lemma_dec) (pairs_cl_ct p ms) (i, l) + get2 i_dec lemma_dec i l clct) /\
  (forall l i, get2 lemma_dec i_dec l i r2 =
     c * count_occ (pair_dec lemma_dec i_dec) (map (fun m => (mkl (m_lemma m), mki (m_tags m))) ms) (l, i)
     + get2 lemma_dec i_dec l i ctcl).
Proof.
  induction ms as [|m ms IH]; intros c p clct ctcl r1 r2 H; cbn [train3_tail] in H.
  - injection H as <- <-. cbn. split; intros; lia.
  - destruct (i_of_morpheme p) as [ip|] eqn:E1; [|discriminate].
    destruct (lemma_of_morpheme m) as [l0|] eqn:E2; [|discriminate].
    destruct (i_of_morpheme m) as [ic|] eqn:E3; [|discriminate].
    destruct (IH _ _ _ _ _ _ H) as [H1 H2].
    assert (ip = mki (m_tags p)) by (unfold i_of_morpheme in E1; destruct (nonempty (m_tags p)); congruence).
    assert (l0 = mkl (m_lemma m)) by (unfold lemma_of_morpheme in E2; destruct (nonempty (m_lemma m)); congruence).
    assert (ic = mki (m_tags m)) by (unfold i_of_morpheme in E3; destruct (nonempty (m_tags m)); congruence).
    subst. cbn [pairs_cl_ct map count_occ]. split.
    + intros i l. rewrite H1, get_add2. destruct (pair_dec i_dec lemma_dec _ (i, l)); lia.
    + intros l i. rewrite H2, get_add2. destruct (pair_dec lemma_dec i_dec _ (l, i)); lia.
Qed.

Lemma frac3 corpus st : train M3 corpus = Some st ->
  (forall i l, (Qn (get2 i_dec lemma_dec i l (m3_l_t st)) / Qn (coef st)
                  == frac (pair_dec i_dec lemma_dec) ev_l_t corpus (i, l))%Q) /\
  (forall i l, (Qn (get2 i_dec lemma_dec i l (m3_cl_ct st)) / Qn (coef st)
                  == frac (pair_dec i_dec lemma_dec) ev_cl_ct corpus (i, l))%Q) /\
  (forall l i, (Qn (get2 lemma_dec i_dec l i (m3_ct_cl st)) / Qn (coef st)
                  == frac (pair_dec lemma_dec i_dec) ev_ct_cl corpus (l, i))%Q).
Proof.
  intros H. split; [|split].
  - intros i l.
    refine (proj2 (train_frac (pair_dec i_dec lemma_dec) ev_l_t M3 (fun st k => get2 i_dec lemma_dec (fst k) (snd k) (m3_l_t st))
            _ _ _ _ corpus st (i, l) H)); try reflexivity.
    + intros c s y s' [ki kl] E. cbn in E. destruct (to_i y) as [yi|] eqn:E1; [|discriminate].
      destruct (to_lemma y) as [yl|] eqn:E2; [|discriminate]. destruct (an_morphemes y) as [|m ms]; [discriminate|].
      destruct (train3_tail _ _ _ _ _) as [[r1 r2]|]; [|discriminate]. injection E as <-. cbn [m3_l_t fst snd].
      rewrite get_add2, (to_i_lemma _ _ _ E1 E2). cbn [count_occ].
      destruct (pair_dec i_dec lemma_dec (yi, yl) (ki, kl)); lia.
    + intros n s [ki kl]. cbn. apply get_mul2.
  - intros i l.
    refine (proj2 (train_frac (pair_dec i_dec lemma_dec) ev_cl_ct M3 (fun st k => get2 i_dec lemma_dec (fst k) (snd k) (m3_cl_ct st))
            _ _ _ _ corpus st (i, l) H)); try reflexivity.
    + intros c s y s' [ki kl] E. cbn in E. destruct (to_i y) as [yi|] eqn:E1; [|discriminate].
      destruct (to_lemma y) as [yl|] eqn:E2; [|discriminate]. unfold ev_cl_ct.
      destruct (an_morphemes y) as [|m ms]; [discriminate|].
      destruct (train3_tail _ _ _ _ _) as [[r1 r2]|] eqn:ET; [|discriminate]. injection E as <-. cbn [m3_cl_ct fst snd].
      apply (tail_spec _ _ _ _ _ _ _ ET).
    + intros n s [ki kl]. cbn. apply get_mul2.
  - intros l i.
    refine (proj2 (train_frac (pair_dec lemma_dec i_dec) ev_ct_cl M3 (fun st k => get2 lemma_dec i_dec (fst k) (snd k) (m3_ct_cl st))
            _ _ _ _ corpus st (l, i) H)); try reflexivity.
    + intros c s y s' [kl ki] E. cbn in E. destruct (to_i y) as [yi|] eqn:E1; [|discriminate].
      destruct (to_lemma y) as [yl|] eqn:E2; [|discriminate]. unfold ev_ct_cl.
      destruct (an_morphemes y) as [|m ms]; [discriminate|].
      destruct (train3_tail _ _ _ _ _) as [[r1 r2]|] eqn:ET; [|discriminate]. injection E as <-. cbn [m3_ct_cl fst snd].
      apply (tail_spec _ _ _ _ _ _ _ ET).
    + intros n s [ki kl]. cbn. apply get_mul2.
Qed.

(** ** training succeeds on every well-formed corpus *)
Lemma nonempty_iff {A} (l : list A) : l <> [] -> nonempty l = true.
Proof. destruct l; cbn; congruence. Qed.

Lemma tail_ok ms : forall c p clct ctcl, m_lemma p <> [] /\ m_tags p <> [] ->
  Forall (fun m => m_lemma m <> [] /\ m_tags m <> []) ms -> train3_tail c p ms clct ctcl <> None.
Proof.
  induction ms as [|m ms IH]; intros c p clct ctcl Hp H; cbn [train3_tail]; [discriminate|].
  inversion H as [|? ? Hm Hms]; subst. unfold i_of_morpheme, lemma_of_morpheme.
  rewrite !nonempty_iff by tauto. apply IH; assumption.
Qed.
Lemma train_analysis_ok k c st x : wf_analysis x -> train_analysis k c st x <> None.
Proof.
  intros [H1 H2]. destruct k; cbn; [discriminate| |].
  - unfold to_a, to_lemma, lemma_of_morpheme. destruct (an_morphemes x) as [|m ms]; [congruence|].
    inversion H2 as [|? ? Hm Hms]; subst. rewrite !nonempty_iff by tauto. discriminate.
  - unfold to_i, to_lemma, i_of_morpheme, lemma_of_morpheme. destruct (an_morphemes x) as [|m ms] eqn:E; [congruence|].
    inversion H2 as [|? ? Hm Hms]; subst. rewrite !nonempty_iff by tauto.
    assert (T := tail_ok ms c m (m3_cl_ct st) (m3_ct_cl st) Hm Hms).
    destruct (train3_tail _ _ _ _ _) as [[]|]; [discriminate|congruence].
Qed.
Lemma foldM_ok {S A} (f : S -> A -> option S) l : (forall s x, In x l -> f s x <> None) -> forall s, foldM f s l <> None.
Proof.
  induction l as [|x l IH]; intros H s; cbn; [discriminate|].
  destruct (f s x) eqn:E; [|exfalso; exact (H s x (or_introl eq_refl) E)].
  apply IH. intros s' y Hy. apply H; right; exact Hy.
Qed.
Lemma train_ok k corpus : Forall (fun tok => tok <> [] /\ Forall wf_analysis tok) corpus -> train k corpus <> None.
Proof.
  intros H. unfold train. apply foldM_ok. intros st tok Ht. rewrite Forall_forall in H.
  destruct (H _ Ht) as [H1 H2]. unfold train_token. destruct tok as [|x tok]; [congruence|].
  apply foldM_ok. intros s y Hy. apply train_analysis_ok. rewrite Forall_forall in H2. apply H2, Hy.
Qed.

(** order of the corpus *)
Lemma frac_perm {K} dec (ev : analysis -> list K) c1 c2 k : Permutation c1 c2 -> (frac dec ev c1 k == frac dec ev c2 k)%Q.
Proof.
  induction 1; cbn; try reflexivity.
  - rewrite IHPermutation. reflexivity.
  - ring.
  - rewrite IHPermutation1. exact IHPermutation2.
Qed.

(** ** choosing *)
Lemma pick_spec sc l : forall b, (exists f, forall x, In x l -> sc x = Some (f x)) ->
  exists r, pick sc b l = Some r /\
  match b with
  | Some (x0, s0) => exists y s, r = Some (y, s) /\ (s0 <= s)%Q /\
      (forall x sx, In x l -> sc x = Some sx -> (sx <= s)%Q) /\
      ((y = x0 /\ s = s0) \/
       exists l1 l2, l = l1 ++ y :: l2 /\ sc y = Some s /\ (s0 < s)%Q /\ forall x sx, In x l1 -> sc x = Some sx -> (sx < s)%Q)
  | None => match l with
      | [] => r = None
      | _ => exists y s, r = Some (y, s) /\ (forall x sx, In x l -> sc x = Some sx -> (sx <= s)%Q) /\
               exists l1 l2, l = l1 ++ y :: l2 /\ sc y = Some s /\ forall x sx, In x l1 -> sc x = Some sx -> (sx < s)%Q
      end
  end.
Proof.
  induction l as [|z l IH]; intros b [f Hf].
  - exists b. split; [reflexivity|]. destruct b as [[x0 s0]|]; [|reflexivity].
    exists x0, s0. split; [reflexivity|]. split; [apply Qle_refl|]. split; [intros x sx []|]. left; auto.
  - assert (Hf' : exists f, forall x, In x l -> sc x = Some (f x)) by (exists f; intros x Hx; apply Hf; right; exact Hx).
    cbn [pick]. rewrite (Hf z (or_introl eq_refl)). set (s1 := f z).
    assert (Es : sc z = Some s1) by (apply Hf; left; reflexivity).
    assert (K : exists r, pick sc (Some (z, s1)) l = Some r /\
        exists y s, r = Some (y, s) /\ (s1 <= s)%Q /\ (forall x sx, In x (z :: l) -> sc x = Some sx -> (sx <= s)%Q) /\
        exists l1 l2, z :: l = l1 ++ y :: l2 /\ sc y = Some s /\ (forall x sx, In x l1 -> sc x = Some sx -> (sx < s)%Q)).
    { destruct (IH (Some (z, s1)) Hf') as [r [E1 [y [s [E2 [E3 [E4 E5]]]]]]].
      exists r. split; [exact E1|]. exists y, s. split; [exact E2|]. split; [exact E3|]. split.
      - intros x sx [<-|Hx] Ex; [|apply (E4 x); assumption]. rewrite Es in Ex. injection Ex as <-. exact E3.
      - destruct E5 as [[-> ->]|[l1 [l2 [-> [Ey [Hlt Hl1]]]]]].
        + exists [], l. split; [reflexivity|]. split; [exact Es|]. intros x sx [].
        + exists (z :: l1), l2. split; [reflexivity|]. split; [exact Ey|].
          intros x sx [<-|Hx] Ex; [|apply (Hl1 x); assumption]. rewrite Es in Ex. injection Ex as <-. exact Hlt. }
    destruct b as [[x0 s0]|].
    + destruct (Qlt_le_dec s0 s1) as [Hlt|Hle].
      * destruct K as [r [E1 [y [s [E2 [E3 [E4 [l1 [l2 [E5 [E6 E7]]]]]]]]]]].
        exists r. split; [exact E1|]. exists y, s. split; [exact E2|].
        assert (Hs : (s0 < s)%Q) by (eapply Qlt_le_trans; eassumption).
        split; [apply Qlt_le_weak; exact Hs|]. split; [exact E4|]. right. exists l1, l2. auto.
      * destruct (IH (Some (x0, s0)) Hf') as [r [E1 [y [s [E2 [E3 [E4 E5]]]]]]].
        exists r. split; [exact E1|]. exists y, s. split; [exact E2|]. split; [exact E3|]. split.
        -- intros x sx [<-|Hx] Ex; [|apply (E4 x); assumption]. rewrite Es in Ex. injection Ex as <-.
           eapply Qle_trans; eassumption.
        -- destruct E5 as [E5|[l1 [l2 [-> [Ey [Hlt Hl1]]]]]]; [left; exact E5|]. right.
           exists (z :: l1), l2. split; [reflexivity|]. split; [exact Ey|]. split; [exact Hlt|].
           intros x sx [<-|Hx] Ex; [|apply (Hl1 x); assumption]. rewrite Es in Ex. injection Ex as <-.
           eapply Qle_lt_trans; eassumption.
    + destruct K as [r [E1 [y [s [E2 [E3 [E4 E5]]]]]]]. exists r. split; [exact E1|]. exists y, s. auto.
Qed.

Lemma tag_first_best k st l : l <> [] -> (forall x, In x l -> score k st x <> None) ->
  exists y l1 l2 s, tag_unit k st l = Some (Some y) /\ l = l1 ++ y :: l2 /\ score k st y = Some s /\
    (forall x sx, In x l -> score k st x = Some sx -> (sx <= s)%Q) /\
    (forall x sx, In x l1 -> score k st x = Some sx -> (sx < s)%Q).
Proof.
  intros Hl Hs.
  destruct (pick_spec (score k st) l None) as [r [E H]].
  { exists (fun x => match score k st x with Some s => s | None => 0%Q end). intros x Hx.
    specialize (Hs x Hx). destruct (score k st x); [reflexivity|congruence]. }
  unfold tag_unit. rewrite E. destruct l as [|z l]; [congruence|].
  destruct H as [y [s [-> [H1 [l1 [l2 [H2 [H3 H4]]]]]]]]. exists y, l1, l2, s. cbn. auto.
Qed.

Lemma tail_score_ok ms : forall st p acc, m_lemma p <> [] /\ m_tags p <> [] ->
  Forall (fun m => m_lemma m <> [] /\ m_tags m <> []) ms -> score3_tail st p ms acc <> None.
Proof.
  induction ms as [|m ms IH]; intros st p acc Hp H; cbn [score3_tail]; [discriminate|].
  inversion H as [|? ? Hm Hms]; subst. unfold i_of_morpheme, lemma_of_morpheme.
  rewrite !nonempty_iff by tauto.
  destruct (row i_dec lemma_dec _ _ _) as [[? ?] ?], (row lemma_dec i_dec _ _ _) as [[? ?] ?]. apply IH; assumption.
Qed.
Lemma score_ok k st x : wf_analysis x -> score k st x <> None.
Proof.
  intros [H1 H2]. destruct k; cbn; [discriminate| |].
  - unfold score2, to_a, to_lemma, lemma_of_morpheme. destruct (an_morphemes x) as [|m ms]; [congruence|].
    inversion H2 as [|? ? Hm Hms]; subst. rewrite !nonempty_iff by tauto.
    destruct (find a_dec _ _); discriminate.
  - unfold score3, to_i, to_lemma, i_of_morpheme, lemma_of_morpheme. destruct (an_morphemes x) as [|m ms] eqn:E; [congruence|].
    inversion H2 as [|? ? Hm Hms]; subst. rewrite !nonempty_iff by tauto.
    destruct (row i_dec lemma_dec _ _ _) as [[? ?] ?].
    assert (T := tail_score_ok ms st m (q * q0, q0 + q1)%Q Hm Hms).
    destruct (score3_tail _ _ _ _) as [[]|]; [discriminate|congruence].
Qed.

Lemma Qn_lt a b : a < b -> (Qn a < Qn b)%Q.
Proof. intros H. unfold Qn. rewrite <- Zlt_Qlt. lia. Qed.
Lemma Qn_le a b : a <= b -> (Qn a <= Qn b)%Q.
Proof. intros H. unfold Qn. rewrite <- Zle_Qle. lia. Qed.
Lemma Qn_0 a : (0 <= Qn a)%Q.
Proof. apply (Qn_le 0 a). lia. Qed.

Lemma score1_count st x : (score1 st x == 1 + Qn (get1 analysis_dec x (model1 st)))%Q.
Proof. unfold score1, get1. destruct (find _ _ _); reflexivity. Qed.

(** model 2: a more frequent lemma with the same tags scores higher *)
Lemma score2_mono st x y a lx ly : to_a x = Some a -> to_a y = Some a -> to_lemma x = Some lx -> to_lemma y = Some ly ->
  get2 a_dec lemma_dec a ly (model2 st) < get2 a_dec lemma_dec a lx (model2 st) ->
  exists sx sy, score2 st x = Some sx /\ score2 st y = Some sy /\ (sy < sx)%Q.
Proof.
  intros Hx Hy Hlx Hly. unfold get2, score2, get1. rewrite Hx, Hy, Hlx, Hly.
  destruct (find a_dec a (model2 st)) as [inner|]; [|lia].
  destruct (find lemma_dec lx inner) as [cx|]; [|lia]. intros H.
  eexists _, _. split; [reflexivity|]. split; [reflexivity|]. cbn zeta.
  set (T := (1 + Qn (total inner))%Q). set (n := Qn (length inner)).
  assert (HT : (0 < T)%Q) by (unfold T; assert (K := Qn_0 (total inner)); lra).
  assert (Hn : (0 <= n)%Q) by apply Qn_0.
  assert (Den : (0 < T + (0 + n))%Q) by lra.
  assert (Num : forall c, (c < cx)%nat -> ((1 + Qn c) * T < (1 + Qn cx) * T)%Q).
  { intros c Hc. apply Qmult_lt_r; [exact HT|]. assert (K := Qn_lt c cx Hc). lra. }
  destruct (find lemma_dec ly inner) as [cy|].
  - apply Qlt_shift_div_l; [exact Den|]. unfold Qdiv. rewrite <- Qmult_assoc, (Qmult_comm (/ _)), Qmult_inv_r, Qmult_1_r.
    + apply Num, H.
    + lra.
  - apply Qlt_shift_div_l; [exact Den|].
    assert (Den1 : (0 < T + (1 + n))%Q) by lra.
    eapply Qlt_trans with (1 * T / (T + (1 + n)) * (T + (1 + n)))%Q.
    + apply Qmult_lt_l; [|lra]. apply Qlt_shift_div_l; [exact Den1|]. rewrite Qmult_0_l. lra.
    + unfold Qdiv. rewrite <- Qmult_assoc, (Qmult_comm (/ _)), Qmult_inv_r, Qmult_1_r by lra.
      assert (K := Num 0 ltac:(lia)). change (Qn 0) with 0%Q in K. lra.
Qed.

(** exact score formulas *)
Section RowP.
  Context {K L : Type} (dK : forall x y : K, {x = y} + {x <> y}) (dL : forall x y : L, {x = y} + {x <> y}).
  Lemma the_row_find (m : list (K * list (L * nat))) k : the_row dK m k = match find dK k m with Some r => r | None => [] end.
  Proof. induction m as [|[k' r] m IH]; cbn; [reflexivity|]. destruct (dK k k'); auto. Qed.
  Lemma find_filter (r : list (L * nat)) l : find dL l r = match map snd (filter (fun e => if dL l (fst e) then true else false) r) with v :: _ => Some v | [] => None end.
  Proof. induction r as [|[l' v] r IH]; cbn; [reflexivity|]. destruct (dL l l'); cbn; [reflexivity|exact IH]. Qed.
  Lemma total_n (r : list (L * nat)) : (Qn (total r) == fold_right (fun e s => Qn (snd e) + s) 0 r)%Q.
  Proof. induction r as [|[l v] r IH]; [reflexivity|]. cbn [total fold_right snd]. fold (total r). rewrite Qn_plus, IH. reflexivity. Qed.
  Lemma row_spec (m : list (K * list (L * nat))) k l :
    let '(r, t, ty) := row dK dL k l m in
    (r == 1 + c_of dK dL m k l /\ t == 1 + n_of dK m k /\ ty == v_of dK dL m k l)%Q.
  Proof.
    unfold row, c_of, n_of, v_of, entries. rewrite the_row_find. destruct (find dK k m) as [inner|].
    - rewrite (find_filter inner l), total_n. destruct (map snd (filter _ inner)); repeat split; ring.
    - cbn. repeat split; reflexivity.
  Qed.
  Lemma v_pos m k l : (0 <= v_of dK dL m k l)%Q.
  Proof. unfold v_of. pose proof (Qn_0 (length (the_row dK m k))). destruct (entries _ _ _ _); lra. Qed.
  Lemma n_pos (m : list (K * list (L * nat))) k : (0 <= n_of dK m k)%Q.
  Proof. unfold n_of. rewrite <- total_n. apply Qn_0. Qed.
End RowP.

Lemma score2_exact st x a l : to_a x = Some a -> to_lemma x = Some l -> exists s, score2 st x = Some s /\ (s == spec2 st a l)%Q.
Proof.
  intros Ha Hl. unfold score2. rewrite Ha, Hl. unfold spec2, smooth.
  pose proof (v_pos a_dec lemma_dec (model2 st) a l) as Vp. pose proof (n_pos a_dec (model2 st) a) as Np.
  unfold c_of, n_of, v_of, entries in *. rewrite the_row_find in *. destruct (find a_dec a (model2 st)) as [inner|].
  - eexists. split; [reflexivity|]. rewrite (find_filter lemma_dec inner l), total_n.
    destruct (map snd (filter _ inner)); field; lra.
  - eexists. split; [reflexivity|]. reflexivity.
Qed.

Lemma score3_tail_exact st ms : forall p acc, m_lemma p <> [] /\ m_tags p <> [] ->
  Forall (fun m => m_lemma m <> [] /\ m_tags m <> []) ms -> ~ (snd acc == 0)%Q ->
  exists a b, score3_tail st p ms acc = Some (a, b) /\ ~ (b == 0)%Q /\ (a / b == fst acc / snd acc * spec3_tail st p ms)%Q.
Proof.
  induction ms as [|m ms IH]; intros p [a b] Hp Hf Hb; cbn [score3_tail spec3_tail fst snd] in *.
  - exists a, b. split; [reflexivity|]. split; [exact Hb|]. field. exact Hb.
  - inversion Hf as [|? ? Hm Hms]; subst. unfold lemma_of_morpheme, i_of_morpheme.
    rewrite (nonempty_iff _ (proj1 Hm)), (nonempty_iff _ (proj2 Hm)), (nonempty_iff _ (proj2 Hp)).
    pose proof (row_spec i_dec lemma_dec (m3_cl_ct st) (mki (m_tags p)) (mkl (m_lemma m))) as R1.
    destruct (row i_dec lemma_dec (mki (m_tags p)) (mkl (m_lemma m)) (m3_cl_ct st)) as [[d_i t_i] ty_i]. destruct R1 as [E1 [E2 E3]].
    pose proof (row_spec lemma_dec i_dec (m3_ct_cl st) (mkl (m_lemma m)) (mki (m_tags m))) as R2.
    destruct (row lemma_dec i_dec (mkl (m_lemma m)) (mki (m_tags m)) (m3_ct_cl st)) as [[i_d t_d] ty_d]. destruct R2 as [F1 [F2 F3]].
    pose proof (v_pos i_dec lemma_dec (m3_cl_ct st) (mki (m_tags p)) (mkl (m_lemma m))) as V1.
    pose proof (n_pos i_dec (L:=lemma_t) (m3_cl_ct st) (mki (m_tags p))) as N1.
    pose proof (v_pos lemma_dec i_dec (m3_ct_cl st) (mkl (m_lemma m)) (mki (m_tags m))) as V2.
    pose proof (n_pos lemma_dec (m3_ct_cl st) (mkl (m_lemma m))) as N2.
    assert (P1 : (0 < t_i + ty_i)%Q) by (rewrite E2, E3; lra). assert (P2 : (0 < t_d + ty_d)%Q) by (rewrite F2, F3; lra).
    destruct (IH m (a * (d_i * i_d), b * ((t_i + ty_i) * (t_d + ty_d)))%Q Hm Hms) as [a' [b' [Q1 [Q2 Q3]]]].
    + cbn. intros K. apply Qmult_integral in K as [K|K]; [exact (Hb K)|]. apply Qmult_integral in K as [K|K]; lra.
    + exists a', b'. split; [exact Q1|]. split; [exact Q2|]. rewrite Q3. cbn [fst snd]. unfold smooth. rewrite <- E1, <- E2, <- E3, <- F1, <- F2, <- F3.
      field. repeat split; try lra.
Qed.
Lemma score3_exact st x m ms : an_morphemes x = m :: ms -> wf_analysis x -> exists s, score3 st x = Some s /\ (s == spec3 st m ms)%Q.
Proof.
  intros E [_ Hf]. rewrite E in Hf. inversion Hf as [|? ? Hm Hms]; subst. unfold score3, to_i, to_lemma. rewrite E.
  unfold lemma_of_morpheme, i_of_morpheme. rewrite (nonempty_iff _ (proj1 Hm)), (nonempty_iff _ (proj2 Hm)).
  pose proof (row_spec i_dec lemma_dec (m3_l_t st) (mki (m_tags m)) (mkl (m_lemma m))) as R1.
  destruct (row i_dec lemma_dec (mki (m_tags m)) (mkl (m_lemma m)) (m3_l_t st)) as [[r_i t_i] ty_i]. destruct R1 as [E1 [E2 E3]].
  pose proof (v_pos i_dec lemma_dec (m3_l_t st) (mki (m_tags m)) (mkl (m_lemma m))) as V1.
  pose proof (n_pos i_dec (L:=lemma_t) (m3_l_t st) (mki (m_tags m))) as N1.
  assert (P1 : (0 < t_i + ty_i)%Q) by (rewrite E2, E3; lra).
  destruct (score3_tail_exact st ms m (r_i * t_i, t_i + ty_i)%Q Hm Hms) as [a' [b' [Q1 [Q2 Q3]]]]; [cbn; lra|].
  rewrite Q1. eexists. split; [reflexivity|]. rewrite Q3. unfold spec3, smooth. cbn [fst snd]. rewrite <- E1, <- E2, <- E3. field. lra.
Qed.
