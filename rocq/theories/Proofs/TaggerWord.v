From Verif Require Import Model.Base Model.TaggerWord Spec.TaggerWord Proofs.Base.
From Coq Require Import Sorted.

Lemma has_tag_In t l : has_tag t l = true <-> In t l.
Proof.
  unfold has_tag. rewrite existsb_exists. split.
  - intros (x & H & E). apply Nat.eqb_eq in E. subst. exact H.
  - intros H. exists t. split; [exact H|apply Nat.eqb_refl].
Qed.
Lemma sins_In t l x : In x (sins t l) <-> x = t \/ In x l.
Proof.
  induction l as [|y r IH].
  - cbn. intuition auto.
  - cbn [sins]. destruct (t <? y) eqn:E1; [cbn; intuition auto|]. destruct (t =? y) eqn:E2.
    + apply Nat.eqb_eq in E2. subst. cbn. intuition auto.
    + cbn. rewrite IH. tauto.
Qed.
Lemma sins_sorted t l : StronglySorted lt l -> StronglySorted lt (sins t l).
Proof.
  induction l as [|y r IH]; cbn [sins]; intros H; [repeat constructor|].
  inversion H as [|? ? Hr Hy]; subst. destruct (Nat.ltb_spec t y) as [L|L].
  - constructor; [exact H|]. constructor; [exact L|]. eapply Forall_impl; [|exact Hy]. intros; lia.
  - destruct (Nat.eqb_spec t y) as [->|N]; [exact H|]. constructor; [apply IH; exact Hr|].
    apply Forall_forall. intros x Hx. apply sins_In in Hx as [->|Hx]; [lia|]. rewrite Forall_forall in Hy. apply Hy, Hx.
Qed.
Lemma sins_mem t l : In t l -> StronglySorted lt l -> sins t l = l.
Proof.
  induction l as [|y r IH]; cbn [sins]; intros H S; [contradiction|].
  inversion S as [|? ? Hr Hy]; subst. destruct H as [->|H].
  - rewrite Nat.ltb_irrefl, Nat.eqb_refl. reflexivity.
  - rewrite Forall_forall in Hy. specialize (Hy _ H). destruct (Nat.ltb_spec t y); [lia|]. destruct (Nat.eqb_spec t y); [lia|].
    f_equal. apply IH; assumption.
Qed.
Lemma sins_snoc t l : Forall (fun x => x < t) l -> sins t l = l ++ [t].
Proof.
  induction l as [|y r IH]; cbn [sins]; intros H; [reflexivity|]. inversion H; subst.
  destruct (Nat.ltb_spec t y); [lia|]. destruct (Nat.eqb_spec t y); [lia|]. cbn [app]. f_equal. apply IH. assumption.
Qed.

Lemma sorted_iff l : sorted_forms l <-> StronglySorted lt (map fst l).
Proof.
  split.
  - induction l as [|x r IH]; intros H; cbn; [constructor|]. constructor.
    + apply IH. intros i j a b L Ha Hb. apply (H (S i) (S j) a b); [lia|exact Ha|exact Hb].
    + apply Forall_forall. intros k Hk. apply in_map_iff in Hk as (y & <- & Hy). apply In_nth_error in Hy as [n Hn].
      apply (H 0 (S n) x y); [lia|reflexivity|exact Hn].
  - induction l as [|x r IH]; intros H i j a b L Ha Hb; [destruct i; discriminate|].
    inversion H as [|? ? Hr Hx]; subst. destruct j as [|j]; [lia|]. cbn in Hb. destruct i as [|i].
    + injection Ha as <-. rewrite Forall_forall in Hx. apply Hx. apply in_map. eapply nth_error_In. exact Hb.
    + apply (IH Hr i j a b); [lia|exact Ha|exact Hb].
Qed.

Section D.
Variable mt : str -> str -> bool.
Variable p : str.
Let m (f : nat * str) : bool := mt (snd f) p.
Let keep := filter (fun f => negb (m f)).

Lemma dloop_unfold n pre rest ns : dloop mt p n pre rest ns =
  match rest with
  | [] => Some (pre, ns)
  | x :: r =>
    if m x then match n with
                | 0 => None
                | S n' => match pre ++ r with [] => None | [y] => Some ([y], sins (fst y) ns) | y :: l => dloop mt p n' [y] l ns end
                end
    else match pre ++ rest with [y] => Some ([y], sins (fst y) (sins (fst x) ns))
         | _ => dloop mt p n (pre ++ [x]) r (sins (fst x) ns) end
  end.
Proof. destruct n; destruct rest as [|x r]; cbn; unfold m; reflexivity. Qed.

(** from any position: the first form is either outside (not looked at) or kept *)
Lemma sins_all ns l : (forall x, In x l -> In x ns) -> StronglySorted lt ns -> forall t, In t l -> sins t ns = ns.
Proof. intros H S t Ht. apply sins_mem; [apply H, Ht|exact S]. Qed.

(** position inside: [h :: pre] already passed, h first; result *)
Lemma dloop_from (fst_in : bool) h : forall n pre rest ns,
  length (h :: pre ++ rest) <= n + 1 -> 2 <= length (h :: pre ++ rest) ->
  StronglySorted lt (map fst (h :: pre ++ rest)) ->
  Forall (fun f => m f = false) pre ->
  StronglySorted lt ns ->
  (forall x, In x ns -> In x (map fst (if fst_in then h :: keep (pre ++ rest) else keep (pre ++ rest)))) ->
  (forall x, In x (map fst (if fst_in then h :: pre else pre)) -> In x ns) ->
  dloop mt p n (h :: pre) rest ns =
  Some (h :: keep (pre ++ rest),
        match keep (pre ++ rest) with [] => [fst h] | k => map fst (if fst_in then h :: k else k) end).
Proof.
  induction n as [n IHn] using lt_wf_ind.
  intros pre rest. revert pre. induction rest as [|x r IHr]; intros pre ns Hl Hl2 HS Hpre Hns Hsub Hsup.
  - rewrite dloop_unfold. rewrite app_nil_r in *.
    assert (K : keep pre = pre).
    { unfold keep. clear - Hpre. induction pre as [|y pre IH]; [reflexivity|]. inversion Hpre; subst. cbn. rewrite H1. cbn. f_equal. apply IH; assumption. }
    rewrite K in *. f_equal. f_equal. destruct pre as [|y pre].
    + cbn in Hl2. lia.
    + (* ns = keys *)
      apply (fun (E : forall a b : list nat, StronglySorted lt a -> StronglySorted lt b -> (forall x, In x a <-> In x b) -> a = b) =>
             E ns (map fst (if fst_in then h :: y :: pre else y :: pre)) Hns).
      * clear. induction a as [|u a IH]; intros b Ha Hb H.
        { destruct b as [|v b]; [reflexivity|]. destruct (proj2 (H v) (or_introl eq_refl)). }
        destruct b as [|v b]; [destruct (proj1 (H u) (or_introl eq_refl))|].
        inversion Ha as [|? ? Ha' Hu]; inversion Hb as [|? ? Hb' Hv]; subst. rewrite Forall_forall in Hu, Hv.
        assert (u = v).
        { destruct (proj1 (H u) (or_introl eq_refl)) as [E|E]; [auto|]. destruct (proj2 (H v) (or_introl eq_refl)) as [E'|E']; [auto|].
          specialize (Hv _ E). specialize (Hu _ E'). lia. }
        subst v. f_equal. apply IH; [assumption|assumption|]. intros x. split; intros Hx.
        -- destruct (proj1 (H x) (or_intror Hx)) as [E|E]; [|exact E]. subst. specialize (Hu _ Hx). lia.
        -- destruct (proj2 (H x) (or_intror Hx)) as [E|E]; [|exact E]. subst. specialize (Hv _ Hx). lia.
      * destruct fst_in; [exact HS|]. inversion HS; assumption.
      * intros z. split; [apply Hsub|apply Hsup].
  - rewrite dloop_unfold. destruct (m x) eqn:Mx.
    + destruct n as [|n]; [cbn in Hl; rewrite app_length in Hl; cbn in Hl; lia|].
      assert (Kx : keep (pre ++ x :: r) = keep (pre ++ r)).
      { unfold keep. rewrite !filter_app. cbn. rewrite Mx. reflexivity. }
      rewrite Kx in *. cbn [app]. destruct (pre ++ r) as [|y l] eqn:E.
      * f_equal. f_equal. destruct fst_in; cbn in Hsub, Hsup.
        -- assert (ns = [fst h]) as ->.
           { destruct ns as [|a [|b ns]].
             - destruct (Hsup (fst h)). left; reflexivity.
             - destruct (Hsub a (or_introl eq_refl)) as [<-|[]]. reflexivity.
             - destruct (Hsub a (or_introl eq_refl)) as [Ea|[]]. destruct (Hsub b (or_intror (or_introl eq_refl))) as [Eb|[]].
               inversion Hns as [|? ? ? Q]; subst. inversion Q; subst. lia. }
           cbn [sins]. rewrite Nat.ltb_irrefl, Nat.eqb_refl. reflexivity.
        -- destruct ns as [|a ns]; [reflexivity|]. destruct (Hsub a (or_introl eq_refl)).
      * rewrite <- E. assert (Lr : length (pre ++ r) = S (length l)) by (rewrite E; reflexivity).
        destruct fst_in.
        -- pose proof (IHn n ltac:(lia) [] (pre ++ r) ns) as Q. cbn [app] in Q. rewrite E. rewrite E in Q. apply Q.
           ++ rewrite <- E. cbn in Hl. rewrite app_length in Hl. cbn in Hl. cbn. rewrite app_length. lia.
           ++ cbn. lia.
           ++ rewrite <- E. clear - HS. cbn in HS |- *. rewrite map_app in HS |- *. cbn in HS.
              inversion HS as [|? ? H1 H2]; subst. constructor.
              ** clear - H1. induction (map fst pre) as [|a pp IH]; cbn in *; [inversion H1; assumption|].
                 inversion H1 as [|? ? H3 H4]; subst. constructor; [apply IH; exact H3|].
                 apply Forall_app in H4 as [H5 H6]. inversion H6; subst. apply Forall_app. split; assumption.
              ** apply Forall_app in H2 as [H5 H6]. inversion H6; subst. apply Forall_app. split; assumption.
           ++ constructor.
           ++ exact Hns.
           ++ intros z Hz. apply Hsub. exact Hz.
           ++ intros z Hz. apply Hsup. cbn in Hz |- *. destruct Hz as [Hz|[]]. left. exact Hz.
        -- pose proof (IHn n ltac:(lia) [] (pre ++ r) ns) as Q. cbn [app] in Q. rewrite E. rewrite E in Q. apply Q.
           ++ rewrite <- E. cbn in Hl. rewrite app_length in Hl. cbn in Hl. cbn. rewrite app_length. lia.
           ++ cbn. lia.
           ++ rewrite <- E. clear - HS. cbn in HS |- *. rewrite map_app in HS |- *. cbn in HS.
              inversion HS as [|? ? H1 H2]; subst. constructor.
              ** clear - H1. induction (map fst pre) as [|a pp IH]; cbn in *; [inversion H1; assumption|].
                 inversion H1 as [|? ? H3 H4]; subst. constructor; [apply IH; exact H3|].
                 apply Forall_app in H4 as [H5 H6]. inversion H6; subst. apply Forall_app. split; assumption.
              ** apply Forall_app in H2 as [H5 H6]. inversion H6; subst. apply Forall_app. split; assumption.
           ++ constructor.
           ++ exact Hns.
           ++ intros z Hz. apply Hsub. exact Hz.
           ++ intros z [].
    + assert (E : exists y1 y2 l, (h :: pre) ++ x :: r = y1 :: y2 :: l).
      { cbn. exists h. destruct pre as [|q pre]; cbn; eauto. }
      destruct E as (y1 & y2 & l & ->).
      assert (A : pre ++ x :: r = (pre ++ [x]) ++ r) by (rewrite <- app_assoc; reflexivity).
      rewrite A in *. change ((h :: pre) ++ [x]) with (h :: (pre ++ [x])). apply IHr.
      * exact Hl.
      * exact Hl2.
      * exact HS.
      * apply Forall_app. split; [exact Hpre|]. repeat constructor. exact Mx.
      * apply sins_sorted. exact Hns.
      * intros z Hz. apply sins_In in Hz as [->|Hz]; [|apply Hsub; exact Hz].
        assert (In x (keep ((pre ++ [x]) ++ r))).
        { unfold keep. apply filter_In. split; [apply in_or_app; left; apply in_or_app; right; left; reflexivity|]. rewrite Mx. reflexivity. }
        destruct fst_in; [right|]; apply in_map; assumption.
      * intros z Hz. apply sins_In. destruct fst_in; cbn in Hz.
        -- rewrite map_app in Hz. destruct Hz as [Hz|Hz]; [right; apply Hsup; left; exact Hz|].
           apply in_app_or in Hz as [Hz|Hz]; [right; apply Hsup; right; exact Hz|]. cbn in Hz. destruct Hz as [<-|[]]. left. reflexivity.
        -- rewrite map_app in Hz. apply in_app_or in Hz as [Hz|Hz]; [right; apply Hsup; exact Hz|]. cbn in Hz. destruct Hz as [<-|[]]. left. reflexivity.
Qed.

Theorem dloop_exact l : 2 <= length l -> StronglySorted lt (map fst l) ->
  dloop mt p (length l) [] l [] = Some (left_by (fun s => mt s p) l).
Proof.
  intros H2 HS. destruct l as [|a [|b r]]; [cbn in H2; lia..|].
  rewrite dloop_unfold. unfold left_by. fold (m a). destruct (m a) eqn:Ma.
  - cbn [length]. cbn [app]. destruct r as [|c r'].
    + reflexivity.
    + rewrite (dloop_from false b _ [] (c :: r') []).
      * reflexivity.
      * cbn. lia.
      * cbn. lia.
      * inversion HS; assumption.
      * constructor.
      * constructor.
      * intros x [].
      * intros x [].
  - cbn [app length]. rewrite (dloop_from true a _ [] (b :: r) [fst a]).
    + f_equal. cbn [app]. fold m. change (fun f => negb (mt (snd f) p)) with (fun f => negb (m f)). fold keep.
      assert (K : keep (a :: b :: r) = a :: keep (b :: r)) by (unfold keep; cbn [filter]; rewrite Ma; reflexivity).
      rewrite K. destruct (keep (b :: r)); reflexivity.
    + cbn. lia.
    + cbn. lia.
    + exact HS.
    + constructor.
    + repeat constructor.
    + cbn. intros x [<-|[]]. left. reflexivity.
    + cbn. intros x [<-|[]]. left. reflexivity.
Qed.
End D.

(** ** sequences of rules *)
Definition okw (w : tword) : Prop :=
  StronglySorted lt (map fst (forms w)) /\ StronglySorted lt (tags w) /\ incl (tags w) (map fst (forms w)).
Lemma SS_NoDup l : StronglySorted lt l -> NoDup l.
Proof.
  induction 1 as [|x l H IH Hx]; constructor; [|exact IH]. intros K. rewrite Forall_forall in Hx. specialize (Hx _ K). lia.
Qed.
Lemma SS_filter (g : nat * str -> bool) l : StronglySorted lt (map fst l) -> StronglySorted lt (map fst (filter g l)).
Proof.
  induction l as [|x r IH]; cbn; intros H; [constructor|]. inversion H as [|? ? Hr Hx]; subst.
  destruct (g x); [|apply IH; exact Hr]. cbn. constructor; [apply IH; exact Hr|].
  apply Forall_forall. intros y Hy. apply in_map_iff in Hy as (f & <- & Hf). apply filter_In in Hf as [Hf _].
  rewrite Forall_forall in Hx. apply Hx. apply in_map. exact Hf.
Qed.
Lemma left_by_incl m l : incl (fst (left_by m l)) l.
Proof.
  destruct l as [|a [|b r]]; cbn; [apply incl_refl..|]. destruct (m (snd a)); cbn [fst].
  - intros x [<-|H]; [right; left; reflexivity|]. apply filter_In in H as [H _]. right; right; exact H.
  - cbn. intros x [<-|H]; [left; reflexivity|]. destruct (negb (m (snd b))); [destruct H as [<-|H]; [right; left; reflexivity|]|];
    apply filter_In in H as [H _]; right; right; exact H.
Qed.
Lemma left_by_nonempty m l : l <> [] -> fst (left_by m l) <> [] /\ snd (left_by m l) <> [].
Proof.
  intros H. destruct l as [|a [|b r]]; [congruence|cbn; split; discriminate|]. unfold left_by. destruct (m (snd a)) eqn:Ma; cbn [fst snd].
  - split; [discriminate|]. destruct (filter _ r); discriminate.
  - cbn [filter]. rewrite Ma. cbn. split; discriminate.
Qed.
Lemma left_by_tags m l : incl (snd (left_by m l)) (map fst (fst (left_by m l))).
Proof.
  destruct l as [|a [|b r]]; [apply incl_refl..|]. unfold left_by. destruct (m (snd a)); cbn [fst snd].
  - destruct (filter _ r) eqn:E; cbn [map]; [apply incl_refl|]. apply incl_tl, incl_refl.
  - apply incl_refl.
Qed.
Lemma left_by_sorted m l : StronglySorted lt (map fst l) ->
  StronglySorted lt (map fst (fst (left_by m l))) /\ StronglySorted lt (snd (left_by m l)).
Proof.
  intros H. destruct l as [|a [|b r]]; [cbn; split; assumption..|]. unfold left_by. destruct (m (snd a)); cbn [fst snd].
  - inversion H as [|? ? H1 _]; subst. cbn in H1. inversion H1 as [|? ? H2 H3]; subst.
    assert (S' : StronglySorted lt (map fst (filter (fun f => negb (m (snd f))) r))) by (apply SS_filter; exact H2).
    split.
    + cbn. constructor; [exact S'|]. apply Forall_forall. intros y Hy. apply in_map_iff in Hy as (f & <- & Hf). apply filter_In in Hf as [Hf _].
      rewrite Forall_forall in H3. apply H3, in_map, Hf.
    + destruct (filter _ r); [repeat constructor|exact S'].
  - split; apply SS_filter; exact H.
Qed.
Lemma left_by_removed m l f : In f l -> ~ In f (fst (left_by m l)) -> m (snd f) = true.
Proof.
  destruct l as [|a [|b r]]; [cbn; tauto|cbn; tauto|]. unfold left_by. intros H K.
  destruct (m (snd f)) eqn:E; [reflexivity|exfalso; apply K]. destruct (m (snd a)) eqn:Ma; cbn [fst].
  - destruct H as [<-|[<-|H]]; [congruence|left; reflexivity|]. right. apply filter_In. split; [exact H|]. rewrite E. reflexivity.
  - apply filter_In. split; [exact H|]. rewrite E. reflexivity.
Qed.
Lemma length_tags_forms w : okw w -> length (tags w) <= length (forms w).
Proof.
  intros (_ & S & I). rewrite <- (map_length fst (forms w)). apply NoDup_incl_length; [apply SS_NoDup, S|exact I].
Qed.
Lemma left_by_len m l : length (snd (left_by m l)) <= length l.
Proof.
  assert (F : forall g (k : list (nat * str)), length (filter g k) <= length k).
  { intros g k. induction k as [|x k IH]; cbn; [lia|]. destruct (g x); cbn; lia. }
  destruct l as [|a [|b r]]; [cbn; lia..|]. unfold left_by. destruct (m (snd a)); cbn [snd].
  - pose proof (F (fun f => negb (m (snd f))) r) as Q. destruct (filter _ r) as [|k0 k] eqn:E.
    + cbn [length]. lia.
    + rewrite map_length. change (length (a :: b :: r)) with (S (S (length r))). change (length (k0 :: k) <= length r) in Q. lia.
  - rewrite map_length. apply F.
Qed.
Lemma discard1_ok mt p w : okw w -> length (forms w) < length p ->
  exists w', discard1 mt p w = Some w' /\ okw w' /\ incl (forms w') (forms w) /\ (tags w <> [] -> tags w' <> []) /\
    (forall f, In f (forms w) -> ~ In f (forms w') -> mt (snd f) p = true) /\ incl (tags w') (map fst (forms w')) /\
    (incl (map fst (forms w)) (tags w) -> incl (tags w') (tags w)).
Proof.
  intros Hw Hp. pose proof (length_tags_forms _ Hw) as L. destruct Hw as (S1 & S2 & I). unfold discard1. destruct (isAmbiguous w) eqn:A.
  - apply Nat.ltb_lt in A. rewrite (dloop_exact mt p (forms w)) by (lia || exact S1).
    pose proof (left_by_incl (fun s => mt s p) (forms w)) as X1. pose proof (left_by_nonempty (fun s => mt s p) (forms w)) as X2.
    pose proof (left_by_tags (fun s => mt s p) (forms w)) as X3. pose proof (left_by_sorted (fun s => mt s p) (forms w) S1) as X4.
    pose proof (left_by_len (fun s => mt s p) (forms w)) as X5. pose proof (left_by_removed (fun s => mt s p) (forms w)) as X6.
    destruct (left_by _ (forms w)) as [fs ns]. cbn [fst snd] in *.
    eexists. split; [reflexivity|]. cbn [tags forms].
    destruct (Nat.eqb_spec (length p) (length ns)); [lia|]. cbn [negb].
    split; [|split; [|split; [|split; [|split]]]].
    + split; [|split]; cbn [tags forms]; [apply X4|apply X4|exact X3].
    + exact X1.
    + intros _. apply X2. intros E. rewrite E in L. cbn in L. lia.
    + intros f. apply X6.
    + exact X3.
    + intros J t Ht. apply J. apply X3 in Ht. apply in_map_iff in Ht as (f & <- & Hf). apply in_map, X1, Hf.
  - exists w. split; [reflexivity|]. split; [split; [|split]; assumption|]. split; [apply incl_refl|]. split; [auto|]. split; [intros f H K; contradiction|].
    split; [exact I|]. intros _. apply incl_refl.
Qed.
Definition prod_eq_dec_ns : forall x y : nat * str, {x = y} + {x <> y}.
Proof. decide equality; [apply (list_eq_dec N.eq_dec)|apply Nat.eq_dec]. Defined.
Lemma discard_all_ok mt rules : forall w, okw w -> (forall p, In p rules -> length (forms w) < length p) ->
  exists w', discard_all mt rules w = Some w' /\ okw w' /\ incl (forms w') (forms w) /\ (tags w <> [] -> tags w' <> []) /\
    (forall f, In f (forms w) -> ~ In f (forms w') -> exists p, In p rules /\ mt (snd f) p = true).
Proof.
  induction rules as [|p r IH]; intros w Hw Hl.
  - exists w. split; [reflexivity|]. split; [exact Hw|]. split; [apply incl_refl|]. split; [auto|]. intros f H K; contradiction.
  - destruct (discard1_ok mt p w Hw (Hl p (or_introl eq_refl))) as (w1 & E1 & O1 & I1 & T1 & R1 & _). cbn [discard_all]. rewrite E1.
    assert (LL : length (forms w1) <= length (forms w)).
    { destruct O1 as (S1 & _ & _). apply NoDup_incl_length; [|exact I1]. apply (NoDup_map_inv fst). apply SS_NoDup, S1. }
    destruct (IH w1 O1) as (w2 & E2 & O2 & I2 & T2 & R2). { intros q Hq. specialize (Hl q (or_intror Hq)). lia. }
    exists w2. split; [exact E2|]. split; [exact O2|]. split; [eapply incl_tran; eassumption|]. split; [auto|].
    intros f Hf Hn. destruct (in_dec (prod_eq_dec_ns) f (forms w1)) as [K|K].
    + destruct (R2 f K Hn) as (q & Hq & Mq). exists q. split; [right; exact Hq|exact Mq].
    + exists p. split; [left; reflexivity|]. apply R1; assumption.
Qed.
Lemma mget_In t l : mget t l = None -> forall s, ~ In (t, s) l.
Proof.
  induction l as [|[k v] r IH]; cbn; intros H s; [tauto|]. destruct (Nat.eqb_spec t k) as [->|N]; [discriminate|].
  intros [E|E]; [injection E as <- _; congruence|]. exact (IH H s E).
Qed.
Lemma mget_sorted t s l : StronglySorted lt (map fst l) -> In (t, s) l -> mget t l = Some s.
Proof.
  induction l as [|[k v] r IH]; cbn; intros H K; [contradiction|]. inversion H as [|? ? Hr Hk]; subst.
  destruct K as [E|K].
  - injection E as -> ->. rewrite Nat.eqb_refl. reflexivity.
  - destruct (Nat.eqb_spec t k) as [->|N]; [|apply IH; assumption].
    exfalso. rewrite Forall_forall in Hk. specialize (Hk k). apply (in_map fst) in K. cbn in K. specialize (Hk K). lia.
Qed.
