From Coq Require Import QArith Qminmax Qfield Lqa Permutation Sorting.Sorted Psatz.
From Verif Require Import Model.Base Proofs.Base Model.TmxAlign Spec.TmxAlign Proofs.TmxAlign.
Open Scope Z_scope.

(** ** Byte order *)
Lemma str_ltb_spec : forall a b, str_ltb a b = true <-> word_before a b.
Proof.
  induction a as [|x a IH]; intros [|y b]; cbn; split; intros H;
    try discriminate; try (inversion H; fail).
  - constructor.
  - reflexivity.
  - destruct (N.ltb_spec x y); [now constructor|]. destruct (N.eqb_spec x y); [|discriminate].
    subst. apply wb_same. now apply IH.
  - inversion H; subst.
    + destruct (N.ltb_spec x y); [auto|lia].
    + destruct (N.ltb_spec y y); [auto|]. rewrite N.eqb_refl. now apply IH.
Qed.

Lemma before_irrefl a : ~ word_before a a.
Proof. induction a; intros H; inversion H; subst; [lia|auto]. Qed.

Lemma before_trans : forall a b c, word_before a b -> word_before b c -> word_before a c.
Proof.
  intros a b c H. revert c. induction H; intros c K; inversion K; subst; try constructor; auto; lia.
Qed.

Lemma before_total : forall a b, word_before a b \/ a = b \/ word_before b a.
Proof.
  induction a as [|x a IH]; intros [|y b].
  - auto.
  - left. constructor.
  - right. right. constructor.
  - destruct (N.lt_trichotomy x y) as [H|[H|H]].
    + left. now constructor.
    + subst. destruct (IH b) as [K|[K|K]].
      * left. now constructor.
      * subst. auto.
      * right. right. now constructor.
    + right. right. now constructor.
Qed.

Definition not_after (a b : str) := ~ word_before b a.

Lemma insert_perm x l : Permutation (insert_word x l) (x :: l).
Proof.
  induction l as [|y l IH]; cbn; [auto|]. destruct (str_ltb y x); [|auto].
  rewrite IH. apply perm_swap.
Qed.
Lemma sort_perm l : Permutation (sort_words l) l.
Proof. induction l as [|x l IH]; cbn; [auto|]. rewrite insert_perm. now constructor. Qed.

Lemma insert_sorted x l : StronglySorted not_after l -> StronglySorted not_after (insert_word x l).
Proof.
  intros H. induction H as [|y l H IH F]; cbn.
  - repeat constructor.
  - destruct (str_ltb y x) eqn:E.
    + apply str_ltb_spec in E. constructor; [exact IH|].
      rewrite insert_perm. constructor; [|exact F].
      intros K. exact (before_irrefl _ (before_trans _ _ _ E K)).
    + constructor; [constructor; assumption|].
      assert (Nx : not_after x y).
      { intros K. apply str_ltb_spec in K. congruence. }
      constructor; [exact Nx|]. eapply Forall_impl; [|exact F].
      intros z Hz K. destruct (before_total y z) as [T|[T|T]].
      * exact (Nx (before_trans _ _ _ T K)).
      * subst. exact (Nx K).
      * exact (Hz T).
Qed.
Lemma sort_sorted l : StronglySorted not_after (sort_words l).
Proof. induction l; cbn; [constructor|]. now apply insert_sorted. Qed.

(** ** Counting *)
Lemma count_ext {A} (P R : A -> Prop) l k :
  (forall x, In x l -> (P x <-> R x)) -> count P l k -> count R l k.
Proof.
  intros H C. revert H. induction C as [|x l k Px C IH|x l k Px C IH]; intros H.
  - constructor.
  - apply count_yes; [apply H; [now left|assumption]|].
    apply IH. intros y Hy. apply H. now right.
  - apply count_no; [intros K; apply Px; apply H; [now left|assumption]|].
    apply IH. intros y Hy. apply H. now right.
Qed.

Lemma count_none {A} (P : A -> Prop) l : (forall x, In x l -> ~ P x) -> count P l 0.
Proof.
  induction l; intros H; [constructor|apply count_no; [apply H; now left|apply IHl; intros; apply H; now right]].
Qed.

Lemma count_nonneg {A} (P : A -> Prop) l k : count P l k -> 0 <= k.
Proof. intros H. induction H; lia. Qed.

Lemma number_spec w : isNumber w = true <-> number w.
Proof.
  unfold isNumber, number. rewrite forallb_forall. split; intros H c Hc; specialize (H c Hc).
  - apply andb_prop in H. destruct H as (A & B). apply N.leb_le in A, B. lia.
  - apply andb_true_intro. split; apply N.leb_le; lia.
Qed.

(** ** The merge *)
Lemma inter_spec : forall fuel sx sy i d s,
  StronglySorted not_after sx -> StronglySorted not_after sy ->
  (length sx + length sy <= fuel)%nat ->
  exists C RS RT same d1 d2,
    shared sx sy C RS RT /\ count number C same /\ count (differing sy) RS d1 /\
    count (differing sx) RT d2 /\
    inter_loop fuel sx sy i d s = (i + Z.of_nat (length C), d + d1 + d2, s + same).
Proof.
  induction fuel as [|fuel IH]; intros sx sy i d s Sx Sy Hf.
  - destruct sx; [|cbn in Hf; lia]. destruct sy; [|cbn in Hf; lia].
    exists [], [], [], 0, 0, 0. split; [split; [|split]; cbn; auto|].
    repeat (split; [constructor|]). cbn. f_equal; [f_equal|]; lia.
  - destruct sx as [|x sx].
    { exists [], [], sy, 0, 0, 0. split; [split; [|split]; cbn; auto|].
      split; [constructor|]. split; [constructor|]. split.
      - apply count_none. intros z _ (_ & y & [] & _).
      - cbn. f_equal; [f_equal|]; lia. }
    destruct sy as [|y sy].
    { exists [], (x :: sx), [], 0, 0, 0. split; [split; [|split]; cbn; auto|].
      split; [constructor|]. split.
      - apply count_none. intros z _ (_ & y & [] & _).
      - split; [constructor|]. cbn. f_equal; [f_equal|]; lia. }
    cbn [inter_loop]. inversion Sx as [|? ? Sx' Fx]; subst. inversion Sy as [|? ? Sy' Fy]; subst.
    rewrite Forall_forall in Fx, Fy.
    destruct (str_ltb x y) eqn:E1; [|destruct (str_ltb y x) eqn:E2].
    + apply str_ltb_spec in E1.
      destruct (IH sx (y :: sy) i (if isNumber x then d + 1 else d) s Sx' Sy ltac:(cbn in *; lia))
        as (C & RS & RT & same & d1 & d2 & (P1 & P2 & P3) & C1 & C2 & C3 & E).
      assert (Ge : forall z, In z RT -> ~ word_before z x).
      { intros z Hz K. assert (In z (y :: sy)) as [<- |Hi].
        { eapply Permutation_in; [symmetry; exact P2|]. apply in_or_app. auto. }
        - exact (before_irrefl _ (before_trans _ _ _ E1 K)).
        - exact (Fy z Hi (before_trans _ _ _ K E1)). }
      assert (Nx : ~ In x RT).
      { intros Hz. assert (In x (y :: sy)) as [Hi|Hi].
        { eapply Permutation_in; [symmetry; exact P2|]. apply in_or_app. auto. }
        - subst. exact (before_irrefl _ E1).
        - exact (Fy x Hi E1). }
      exists C, (x :: RS), RT, same, (if isNumber x then d1 + 1 else d1), d2.
      split; [split; [|split]|].
      * rewrite P1. apply Permutation_middle.
      * exact P2.
      * intros z [<- |Hz]; auto.
      * split; [exact C1|]. split.
        { destruct (isNumber x) eqn:En.
          - apply count_yes; [|exact C2]. split; [now apply number_spec|]. exists y. split; [now left|exact E1].
          - apply count_no; [|exact C2]. intros (K & _). apply number_spec in K. congruence. }
        split.
        { eapply count_ext; [|exact C3]. intros z Hz. unfold differing. split; intros (K & y' & Hy & By).
          - split; [exact K|]. exists y'. split; [now right|exact By].
          - split; [exact K|]. destruct Hy as [<- |Hy].
            + exfalso. exact (Ge z Hz By).
            + exists y'. auto. }
        { rewrite E. destruct (isNumber x); f_equal; f_equal; lia. }
    + apply str_ltb_spec in E2.
      destruct (IH (x :: sx) sy i (if isNumber y then d + 1 else d) s Sx Sy' ltac:(cbn in *; lia))
        as (C & RS & RT & same & d1 & d2 & (P1 & P2 & P3) & C1 & C2 & C3 & E).
      assert (Ge : forall z, In z RS -> ~ word_before z y).
      { intros z Hz K. assert (In z (x :: sx)) as [<- |Hi].
        { eapply Permutation_in; [symmetry; exact P1|]. apply in_or_app. auto. }
        - exact (before_irrefl _ (before_trans _ _ _ E2 K)).
        - exact (Fx z Hi (before_trans _ _ _ K E2)). }
      assert (Ny : ~ In y RS).
      { intros Hz. assert (In y (x :: sx)) as [Hi|Hi].
        { eapply Permutation_in; [symmetry; exact P1|]. apply in_or_app. auto. }
        - subst. exact (before_irrefl _ E2).
        - exact (Fx y Hi E2). }
      exists C, RS, (y :: RT), same, d1, (if isNumber y then d2 + 1 else d2).
      split; [split; [|split]|].
      * exact P1.
      * rewrite P2. apply Permutation_middle.
      * intros z Hz [<- |K]; [auto|]. exact (P3 z Hz K).
      * split; [exact C1|]. split.
        { eapply count_ext; [|exact C2]. intros z Hz. unfold differing. split; intros (K & y' & Hy & By).
          - split; [exact K|]. exists y'. split; [now right|exact By].
          - split; [exact K|]. destruct Hy as [<- |Hy].
            + exfalso. exact (Ge z Hz By).
            + exists y'. auto. }
        split.
        { destruct (isNumber y) eqn:En.
          - apply count_yes; [|exact C3]. split; [now apply number_spec|]. exists x. split; [now left|exact E2].
          - apply count_no; [|exact C3]. intros (K & _). apply number_spec in K. congruence. }
        { rewrite E. destruct (isNumber y); f_equal; f_equal; lia. }
    + assert (x = y).
      { destruct (before_total x y) as [K|[K|K]]; [|exact K|];
          apply str_ltb_spec in K; congruence. }
      subst y.
      destruct (IH sx sy (i + 1) d (if isNumber x then s + 1 else s) Sx' Sy' ltac:(cbn in *; lia))
        as (C & RS & RT & same & d1 & d2 & (P1 & P2 & P3) & C1 & C2 & C3 & E).
      assert (G1 : forall z, In z RS -> ~ word_before z x).
      { intros z Hz. apply Fx. eapply Permutation_in; [symmetry; exact P1|]. apply in_or_app. auto. }
      assert (G2 : forall z, In z RT -> ~ word_before z x).
      { intros z Hz. apply Fy. eapply Permutation_in; [symmetry; exact P2|]. apply in_or_app. auto. }
      exists (x :: C), RS, RT, (if isNumber x then same + 1 else same), d1, d2.
      split; [split; [|split]|].
      * cbn. now constructor.
      * cbn. now constructor.
      * exact P3.
      * split.
        { destruct (isNumber x) eqn:En.
          - apply count_yes; [now apply number_spec|exact C1].
          - apply count_no; [|exact C1]. intros K. apply number_spec in K. congruence. }
        split.
        { eapply count_ext; [|exact C2]. intros z Hz. unfold differing. split; intros (K & y' & Hy & By).
          - split; [exact K|]. exists y'. split; [now right|exact By].
          - split; [exact K|]. destruct Hy as [<- |Hy].
            + exfalso. exact (G1 z Hz By).
            + exists y'. auto. }
        split.
        { eapply count_ext; [|exact C3]. intros z Hz. unfold differing. split; intros (K & y' & Hy & By).
          - split; [exact K|]. exists y'. split; [now right|exact By].
          - split; [exact K|]. destruct Hy as [<- |Hy].
            + exfalso. exact (G2 z Hz By).
            + exists y'. auto. }
        { rewrite E. cbn [length]. destruct (isNumber x); (apply f_equal2; [apply f_equal2|]; lia). }
Qed.

Lemma isParagraph_spec p : isParagraph p = true <-> paragraph p.
Proof.
  unfold isParagraph, paragraph. destruct p as [|w [|]]; split; intros H; try discriminate.
  - apply str_eqb_eq in H. now subst.
  - injection H as ->. now apply str_eqb_eq.
Qed.

Lemma sort_paragraph p : paragraph (sort_words p) <-> paragraph p.
Proof.
  unfold paragraph. split; intros H.
  - pose proof (sort_perm p) as P. rewrite H in P.
    apply Permutation_length_1_inv in P. exact P.
  - rewrite H. reflexivity.
Qed.

Lemma shared_perm S T S' T' C RS RT : Permutation S S' -> Permutation T T' ->
  shared S T C RS RT -> shared S' T' C RS RT.
Proof.
  intros PS PT (A & B & D). split; [|split]; auto.
  - now rewrite <- PS.
  - now rewrite <- PT.
Qed.

Lemma score_similarity s t : similarity s t (scoreByIdentity (sort_words s) (sort_words t)).
Proof.
  unfold scoreByIdentity.
  destruct (isParagraph (sort_words s)) eqn:E1, (isParagraph (sort_words t)) eqn:E2; cbn [andb orb].
  - apply sim_paragraphs; apply sort_paragraph, isParagraph_spec; assumption.
  - apply sim_one_paragraph. left. split.
    + apply sort_paragraph, isParagraph_spec; assumption.
    + intros K. apply sort_paragraph, isParagraph_spec in K. congruence.
  - apply sim_one_paragraph. right. split.
    + intros K. apply sort_paragraph, isParagraph_spec in K. congruence.
    + apply sort_paragraph, isParagraph_spec; assumption.
  - unfold specializedIntersectionSize.
    destruct (inter_spec (length (sort_words s) + length (sort_words t)) (sort_words s) (sort_words t) 0 0 0
                (sort_sorted s) (sort_sorted t) (le_n _))
      as (C & RS & RT & same & d1 & d2 & Sh & C1 & C2 & C3 & E).
    rewrite E. cbn [Z.add].
    pose proof (count_nonneg _ _ _ C1) as N1. pose proof (count_nonneg _ _ _ C2) as N2.
    pose proof (count_nonneg _ _ _ C3) as N3.
    apply (sim_words s t C RS RT same d1 d2
             (if (0 <? same) && (d1 + d2 <=? Z.quot same 5) then 10 else 0)).
    + intros K. apply sort_paragraph, isParagraph_spec in K. congruence.
    + intros K. apply sort_paragraph, isParagraph_spec in K. congruence.
    + eapply shared_perm; [apply sort_perm|apply sort_perm|exact Sh].
    + exact C1.
    + eapply count_ext; [|exact C2]. intros x _. unfold differing.
      split; intros (K & y & Hy & By); (split; [exact K|]); exists y; (split; [|exact By]);
        eapply Permutation_in; try exact Hy; [apply sort_perm|symmetry; apply sort_perm].
    + eapply count_ext; [|exact C3]. intros x _. unfold differing.
      split; intros (K & y & Hy & By); (split; [exact K|]); exists y; (split; [|exact By]);
        eapply Permutation_in; try exact Hy; [apply sort_perm|symmetry; apply sort_perm].
    + rewrite Z.quot_div_nonneg by lia. intros (A & B).
      destruct (Z.ltb_spec 0 same); [|lia].
      destruct (Z.leb_spec (d1 + d2) (same / 5)) as [_|L]; [reflexivity|].
      exfalso. assert (d1 + d2 <= same / 5) by (apply Z.div_le_lower_bound; lia). lia.
    + rewrite Z.quot_div_nonneg by lia. intros A.
      destruct (Z.ltb_spec 0 same); [|reflexivity]. cbn [andb].
      destruct (Z.leb_spec (d1 + d2) (same / 5)) as [L|_]; [|reflexivity].
      exfalso. apply A. pose proof (Z.mul_div_le same 5 ltac:(lia)). lia.
    + rewrite (Permutation_length (sort_perm s)), (Permutation_length (sort_perm t)).
      assert (Em : (if Nat.ltb (length s) (length t) then length s else length t)
                   = Nat.min (length s) (length t)).
      { destruct (Nat.ltb_spec (length s) (length t)); lia. }
      rewrite Em.
      replace (if (0 <? same) && (d1 + d2 <=? same ÷ 5) then Z.of_nat (length C) + 10 else Z.of_nat (length C))
        with (Z.of_nat (length C) + (if (0 <? same) && (d1 + d2 <=? same ÷ 5) then 10 else 0))
        by (destruct ((0 <? same) && (d1 + d2 <=? same ÷ 5)); lia).
      unfold Qdiv. ring.
Qed.

Lemma similarity_bound s t q : similarity s t q -> (q <= inject_Z 30)%Q.
Proof.
  intros H. destruct H as [_ _|_|C RS RT same d1 d2 bonus q _ _ (P1 & P2 & _) _ _ _ B1 B2 E].
  - apply Qle_bool_iff. reflexivity.
  - apply Qle_bool_iff. reflexivity.
  - rewrite E. clear E.
    assert (Hb : bonus <= 10).
    { assert (D : (1 <= same /\ 5 * (d1 + d2) <= same) \/ ~ (1 <= same /\ 5 * (d1 + d2) <= same)) by lia.
      destruct D as [D|D]; [rewrite (B1 D)|rewrite (B2 D)]; lia. }
    apply Permutation_length in P1, P2. rewrite app_length in P1, P2.
    set (mn := Z.of_nat (Nat.min (length s) (length t))).
    assert (Hc : Z.of_nat (length C) <= mn) by (unfold mn; lia).
    assert (Hm : 0 <= mn) by (unfold mn; lia).
    apply Qle_shift_div_r.
    + change 0%Q with (inject_Z 0). rewrite <- Zlt_Qlt. lia.
    + rewrite <- !inject_Z_mult, <- Zle_Qle. lia.
Qed.

(** ** The similarity matrix *)
Definition score_at (hu en : list phrase) (i j : Z) : Q :=
  match at_ hu i, at_ en j with
  | Some h, Some e => scoreByIdentity h e
  | _, _ => 0%Q
  end.

Lemma matrix_ok hu en th out :
  let n := Z.of_nat (length hu) in let m := Z.of_nat (length en) in
  exists w, sentenceListsToAlignMatrixIdentity hu en (mat_new n m th out 0%Q) = Some w /\
    height w = n /\ width w = m /\ thick w = th /\ outside w = out /\
    forall i j, inb w i j -> cells w i j = score_at hu en i j.
Proof.
  intros n m. unfold sentenceListsToAlignMatrixIdentity.
  set (g := fun (w : mat Q) => height w = n /\ width w = m /\ thick w = th /\ outside w = out).
  destruct (for_z_inv
    (fun i a => for_z (rowStart a i) (rowEnd a i)
       (fun j a => do h <- at_ hu i; do e <- at_ en j; set a i j (scoreByIdentity h e)) a)
    (fun i w => g w /\ forall a b, inb w a b -> a < i -> cells w a b = score_at hu en a b)
    0 (Z.of_nat (length hu)) (mat_new n m th out 0%Q)) as (w & E & (G & F)).
  - split; [unfold g; auto|]. intros a b ((A & _) & _) Hlt. lia.
  - intros i w Hi (G & F).
    destruct (for_z_inv
      (fun j a => do h <- at_ hu i; do e <- at_ en j; set a i j (scoreByIdentity h e))
      (fun j w' => g w' /\ forall a b, inb w' a b -> a < i \/ (a = i /\ b < j) ->
                     cells w' a b = score_at hu en a b)
      (rowStart w i) (rowEnd w i) w) as (w' & E & (G' & F')).
    + split; [exact G|]. intros a b Hab [Hlt|(-> & Hlt)]; [auto|].
      exfalso. apply (row_in w i b) in Hab; [lia|]. destruct G as (A & _). fold n in Hi. lia.
    + intros j w' Hj (G' & F').
      assert (SG : same_geo w' w).
      { destruct G as (A & B & C & _), G' as (A' & B' & C' & _). unfold same_geo. lia. }
      assert (Hin : inb w' i j).
      { apply (same_inb w' w i j SG). apply row_in; [|exact Hj].
        destruct G as (A & _). fold n in Hi. lia. }
      destruct (at_some hu i) as (h & Eh); [lia|].
      destruct (at_some en j) as (e & Ee).
      { destruct Hin as ((_ & B) & _). destruct G' as (_ & B' & _). fold m. lia. }
      rewrite Eh, Ee, (set_in w' i j _ Hin). eexists. split; [reflexivity|].
      split; [exact G'|]. cbn [cells]. intros a b Hab Hlt.
      destruct (Z.eqb_spec a i) as [-> |Ha]; [destruct (Z.eqb_spec b j) as [-> |Hb]|]; cbn [andb].
      * unfold score_at. now rewrite Eh, Ee.
      * apply F'; [exact Hab|lia].
      * apply F'; [exact Hab|lia].
    + exists w'. split; [exact E|]. split; [exact G'|].
      intros a b Hab Hlt. apply F'; [exact Hab|].
      destruct (Z.eq_dec a i) as [-> |]; [|lia]. right. split; [reflexivity|].
      assert (SG : same_geo w' w).
      { destruct G as (A & B & C & _), G' as (A' & B' & C' & _). unfold same_geo. lia. }
      apply (same_inb w' w i b SG) in Hab. apply (row_in w i b) in Hab; [lia|].
      destruct G as (A & _). fold n in Hi. lia.
  - exists w. split; [exact E|]. destruct G as (A & B & C & D). split; [exact A|].
    split; [exact B|]. split; [exact C|]. split; [exact D|].
    intros i j Hij. apply F; [exact Hij|]. destruct Hij as ((K & _) & _). fold n. lia.
Qed.

Lemma at_map {A B} (f : A -> B) l i : at_ (map f l) i = option_map f (at_ l i).
Proof. unfold at_. destruct (0 <=? i); [|reflexivity]. apply nth_error_map. Qed.

Lemma at_nth {A} (l : list A) i : at_ l (Z.of_nat i) = nth_error l i.
Proof. unfold at_. destruct (Z.leb_spec 0 (Z.of_nat i)); [|lia]. now rewrite Nat2Z.id. Qed.

(** ** Lengths *)
Lemma sum_len : forall p k, fold_left (fun n (x : str) => n + Z.of_nat (length x)) p k
                            = k + Z.of_nat (length (concat p)).
Proof.
  induction p as [|x p IH]; intros k; cbn [fold_left concat]; [cbn; lia|].
  rewrite IH, app_length. lia.
Qed.

Lemma length_nonneg p : (0 <= characterLength p)%Q.
Proof.
  unfold characterLength. destruct (isParagraph p).
  - apply Qle_bool_iff. reflexivity.
  - rewrite sum_len. change 0%Q with (inject_Z 0). rewrite <- Zle_Qle. lia.
Qed.

Lemma values_lengths l : lengths l (lenf (setSentenceValues l)).
Proof.
  intros i s E. assert (E' : @nth_error phrase l i = Some s) by exact E.
  unfold lenf, setSentenceValues. rewrite at_nth, nth_error_map, E'. cbn [option_map].
  unfold characterLength. split; intros H.
  - apply isParagraph_spec in H. now rewrite H.
  - destruct (isParagraph s) eqn:F; [apply isParagraph_spec in F; tauto|].
    rewrite sum_len. reflexivity.
Qed.

(** ** Thickness *)
Lemma thickness_ok n m : 1 <= n -> 0 <= m -> thickness n m = Some (search_thickness n m).
Proof.
  intros Hn Hm. unfold thickness, search_thickness.
  destruct (Z.eqb_spec n 0); [lia|]. f_equal.
  replace (4000 * 1024 * 1024 * 10) with 41943040000 by reflexivity.
  replace (17 * 24 * n) with (408 * n) by lia.
  rewrite !Z.quot_div_nonneg; try lia.
  2:{ destruct (m <? n); lia. }
  replace (if m <? n then n else m) with (Z.max n m) by (destruct (Z.ltb_spec m n); lia).
  destruct (Z.ltb_spec 500 (Z.max n m / 10)).
  - destruct (Z.ltb_spec (41943040000 / (408 * n)) (Z.max n m / 10)); lia.
  - destruct (Z.ltb_spec (41943040000 / (408 * n)) 500); lia.
Qed.

Lemma sizes_small n m : 1 <= n -> 1 <= m -> m <= 5 * n + 4 -> n <= 5 * m + 4 ->
  (n + 1) * (m + 1) <= 2 ^ 31 ->
  3 * (n + m) < 10000000 /\ 10 <= search_thickness n m /\
  m + 1 <= (search_thickness n m / 2) * (n + 1).
Proof.
  intros Hn Hm R1 R2 Hov.
  assert (N : n + 1 <= 103700) by nia. assert (M : m + 1 <= 103700) by nia.
  assert (T : 10 <= search_thickness n m).
  { unfold search_thickness. apply Z.min_glb; [|lia]. apply Z.div_le_lower_bound; lia. }
  split; [lia|]. split; [exact T|].
  assert (5 <= search_thickness n m / 2) by (apply Z.div_le_lower_bound; lia). nia.
Qed.

(** ** Trails *)
Definition lt2 (c d : Z * Z) : Prop :=
  fst c <= fst d /\ snd c <= snd d /\ fst c + snd c < fst d + snd d.

Definition good_trail (n m : Z) (l : list (Z * Z)) : Prop :=
  StronglySorted lt2 l /\ (forall c, In c l -> 0 <= fst c <= n /\ 0 <= snd c <= m).

Lemma lt2_trans c d e : lt2 c d -> lt2 d e -> lt2 c e.
Proof. unfold lt2. lia. Qed.

Lemma path_good sim sl tl n m th : forall l q c, path sim sl tl (band n m th) (c :: l) q ->
  good_trail n m (c :: l).
Proof.
  induction l as [|d l IH]; intros q c P.
  - apply path_inv1 in P. destruct P as (B & _). split.
    + repeat constructor.
    + intros x [<- |[]]. destruct c as [i j]. unfold band in B. cbv zeta in B. cbn [fst snd]. lia.
  - apply path_inv2 in P. destruct P as (r & q' & B & M & P & _).
    destruct (IH _ _ P) as (S & R). split.
    + constructor; [exact S|]. inversion S as [|? ? S' F]; subst.
      assert (L : lt2 c d) by (destruct M; unfold lt2; cbn [fst snd]; lia).
      constructor; [exact L|]. eapply Forall_impl; [|exact F]. intros e. apply lt2_trans, L.
    + intros x [<- |Hx]; [|auto]. destruct c as [i j]. unfold band in B. cbv zeta in B. cbn [fst snd]. lia.
Qed.

Lemma thin_in {A} (l l' : list A) x : thin l l' -> In x l' -> In x l.
Proof. intros H. induction H; intros Hx; cbn in *; intuition. Qed.
Lemma thin_refl {A} (l : list A) : thin l l.
Proof. induction l; now constructor. Qed.
Lemma thin_trans {A} (a b c : list A) : thin a b -> thin b c -> thin a c.
Proof.
  intros H. revert c. induction H; intros c K.
  - exact K.
  - inversion K; subst; constructor; auto.
  - constructor. auto.
Qed.
Lemma thin_sorted {A} (R : A -> A -> Prop) l l' : thin l l' -> StronglySorted R l -> StronglySorted R l'.
Proof.
  intros H. induction H; intros S; inversion S; subst; auto.
  constructor; [auto|]. rewrite Forall_forall in *. intros y Hy. apply H3. eapply thin_in; eauto.
Qed.
Lemma thin_app {A} (a a' b b' : list A) : thin a a' -> thin b b' -> thin (a ++ b) (a' ++ b').
Proof. intros H K. induction H; cbn; auto; constructor; auto. Qed.
Lemma thin_good n m l l' : thin l l' -> good_trail n m l -> good_trail n m l'.
Proof.
  intros H (S & R). split; [eapply thin_sorted; eauto|]. intros c Hc. apply R. eapply thin_in; eauto.
Qed.

(** Same ends, thinner. *)
Definition cut_from (x y : Z * Z) (l l' : list (Z * Z)) : Prop :=
  thin l l' /\ exists mid, l' = x :: mid ++ [y].

Lemma split_at {A} (l : list A) i x : at_ l i = Some x ->
  l = firstn (Z.to_nat i) l ++ x :: skipn (Z.to_nat i + 1) l.
Proof.
  unfold at_. destruct (0 <=? i); [|discriminate]. intros E.
  revert E. generalize (Z.to_nat i). clear i. intros k. revert l.
  induction k as [|k IH]; intros [|y l] E; try discriminate.
  - cbn in E. injection E as ->. reflexivity.
  - cbn in E |- *. f_equal. apply IH. exact E.
Qed.

Lemma erase_thin {A} (l : list A) i x : at_ l i = Some x -> thin l (erase l i).
Proof.
  intros E. rewrite (split_at l i x E) at 1. unfold erase.
  apply thin_app; [apply thin_refl|]. apply thin_drop, thin_refl.
Qed.

Lemma erase_length {A} (l : list A) i x : at_ l i = Some x ->
  length (erase l i) = (length l - 1)%nat /\ (1 <= length l)%nat.
Proof.
  intros E. pose proof (f_equal (@length A) (split_at l i x E)) as L.
  unfold erase. rewrite app_length in *. cbn [length] in L. lia.
Qed.

Lemma erase_ends {A} (l : list A) i (x y : A) mid : l = x :: mid ++ [y] ->
  1 <= i -> i < Z.of_nat (length l) - 1 -> exists mid', erase l i = x :: mid' ++ [y].
Proof.
  intros -> H1 H2. cbn [length] in H2. rewrite app_length in H2. cbn [length] in H2.
  unfold erase. destruct (Z.to_nat i) as [|k] eqn:Ek; [lia|].
  cbn [firstn app skipn]. rewrite firstn_app.
  replace (k - length mid)%nat with 0%nat by lia. cbn [firstn]. rewrite app_nil_r.
  replace (S k + 1)%nat with (S (k + 1)) by lia. cbn [skipn].
  rewrite skipn_app. replace (k + 1 - length mid)%nat with 0%nat by lia. cbn [skipn].
  exists (firstn k mid ++ skipn (k + 1) mid). now rewrite app_assoc.
Qed.

Lemma loop_total {S} (P : Z -> Prop) (f : Z -> S -> option S) a b s :
  (forall j s, a <= j < b -> exists s', f j s = Some s') -> exists s', for_z a b f s = Some s'.
Proof.
  intros H. destruct (for_z_inv f (fun _ _ => True) a b s I) as (s' & E & _).
  - intros j t Hj _. destruct (H j t Hj) as (t' & E). eauto.
  - eauto.
Qed.

Lemma intervalLength_total l a b : 0 <= a -> b <= Z.of_nat (length l) ->
  exists q, intervalLength a b l = Some q.
Proof.
  intros Ha Hb. unfold intervalLength. apply (loop_total (fun _ => True)). intros j s Hj.
  destruct (at_some l j) as (p & E); [lia|]. rewrite E. eauto.
Qed.

Lemma count_paragraphs_total l a b : 0 <= a -> b <= Z.of_nat (length l) ->
  exists q, count_paragraphs a b l = Some q.
Proof.
  intros Ha Hb. unfold count_paragraphs. apply (loop_total (fun _ => True)). intros j s Hj.
  destruct (at_some l j) as (p & E); [lia|]. rewrite E. eauto.
Qed.

Lemma scoreSegmentum_total dyn hu en c d :
  let n := Z.of_nat (length hu) in let m := Z.of_nat (length en) in
  height dyn = n + 1 -> width dyn = m + 1 ->
  0 <= fst c <= n -> 0 <= snd c <= m -> 0 <= fst d <= n -> 0 <= snd d <= m ->
  exists q, scoreSegmentum dyn hu en c d = Some q.
Proof.
  intros n m Hh Hw C1 C2 D1 D2. unfold scoreSegmentum.
  destruct (get_inm dyn (fst c) (snd c)) as (x & ->); [split; lia|].
  destruct (get_inm dyn (fst d) (snd d)) as (y & ->); [split; lia|].
  destruct (count_paragraphs_total hu (fst c) (fst d)) as (h & ->); [lia|fold n; lia|].
  destruct (count_paragraphs_total en (snd c) (snd d)) as (e & ->); [lia|fold m; lia|].
  eauto.
Qed.

Section Space.
Variable ln : Q -> Q.
Variables (hu en : list phrase).
Notation n := (Z.of_nat (length hu)).
Notation m := (Z.of_nat (length en)).

Lemma space_ok : forall fuel i trail x mid y,
  good_trail n m trail -> trail = x :: mid ++ [y] -> 1 <= i ->
  (2 * length trail + 1 - Z.to_nat i <= fuel)%nat -> i <= Z.of_nat (length trail) ->
  exists trail', space_loop ln fuel hu en i trail = Some trail' /\ cut_from x y trail trail'.
Proof.
  induction fuel as [|fuel IH]; intros i trail x mid y G E Hi Hf Hi2.
  { subst trail. cbn [length] in *. lia. }
  cbn [space_loop].
  assert (L2 : (2 <= length trail)%nat) by (subst trail; cbn [length]; rewrite app_length; cbn; lia).
  destruct (Z.ltb_spec (Z.of_nat (length trail)) 2); [lia|].
  destruct (Z.ltb_spec i (Z.of_nat (length trail) - 2)) as [Li|Li]; cbn [negb].
  2:{ exists trail. split; [reflexivity|]. split; [apply thin_refl|]. eauto. }
  destruct (at_some trail (i - 1)) as (r0 & E0); [lia|].
  destruct (at_some trail i) as (r1 & E1); [lia|].
  destruct (at_some trail (i + 1)) as (r2 & E2); [lia|].
  destruct (at_some trail (i + 2)) as (r3 & E3); [lia|].
  rewrite E0, E1, E2, E3.
  assert (Rg : forall k r, at_ trail k = Some r -> 0 <= fst r <= n /\ 0 <= snd r <= m).
  { intros k r K. apply (proj2 G). unfold at_ in K. destruct (0 <=? k); [|discriminate].
    eapply nth_error_In; eauto. }
  pose proof (Rg _ _ E0) as R0. pose proof (Rg _ _ E1) as R1. pose proof (Rg _ _ E2) as R2.
  pose proof (Rg _ _ E3) as R3.
  assert (Hp : exists b, (if fst r1 + 1 =? fst r2 then do p <- at_ hu (fst r1); Some (isParagraph p)
                          else Some false) = Some b).
  { destruct (Z.eqb_spec (fst r1 + 1) (fst r2)); [|eauto].
    destruct (at_some hu (fst r1)) as (p & ->); [lia|]. eauto. }
  destruct Hp as (huPar & ->).
  assert (Hp : exists b, (if snd r1 + 1 =? snd r2 then do p <- at_ en (snd r1); Some (isParagraph p)
                          else Some false) = Some b).
  { destruct (Z.eqb_spec (snd r1 + 1) (snd r2)); [|eauto].
    destruct (at_some en (snd r1)) as (p & ->); [lia|]. eauto. }
  destruct Hp as (enPar & ->).
  assert (Next : exists trail', space_loop ln fuel hu en (i + 1) trail = Some trail' /\ cut_from x y trail trail').
  { apply (IH (i + 1) trail x mid y G E); lia. }
  destruct (_ || _); [exact Next|]. destruct (_ || _); [|exact Next].
  destruct (intervalLength_total hu (fst r2) (fst r3)) as (? & ->); [lia|lia|].
  destruct (intervalLength_total hu (fst r1) (fst r2)) as (? & ->); [lia|lia|].
  destruct (intervalLength_total hu (fst r0) (fst r1)) as (? & ->); [lia|lia|].
  destruct (intervalLength_total en (snd r2) (snd r3)) as (? & ->); [lia|lia|].
  destruct (intervalLength_total en (snd r1) (snd r2)) as (? & ->); [lia|lia|].
  destruct (intervalLength_total en (snd r0) (snd r1)) as (? & ->); [lia|lia|].
  destruct (_ || _); [|exact Next].
  assert (Er : forall k r, at_ trail k = Some r -> 1 <= k -> k < Z.of_nat (length trail) - 1 ->
     exists trail', space_loop ln fuel hu en i (erase trail k) = Some trail' /\ cut_from x y trail trail').
  { intros k r K K1 K2. pose proof (erase_thin _ _ _ K) as Th.
    destruct (erase_ends trail k x y mid E K1 K2) as (mid' & Em).
    pose proof (erase_length _ _ _ K) as (Le & _).
    destruct (IH i (erase trail k) x mid' y) as (trail' & A & (B & C)).
    - eapply thin_good; eauto.
    - exact Em.
    - exact Hi.
    - lia.
    - lia.
    - exists trail'. split; [exact A|]. split; [eapply thin_trans; eauto|exact C]. }
  destruct (Qltb _ _); [apply (Er i r1 E1); lia|apply (Er (i + 1) r2 E2); lia].
Qed.

Lemma space_total trail x mid y : good_trail n m trail -> trail = x :: mid ++ [y] ->
  exists trail', spaceOutBySentenceLength ln hu en trail = Some trail' /\ cut_from x y trail trail'.
Proof.
  intros G E. unfold spaceOutBySentenceLength. apply (space_ok _ 1 trail x mid y G E); [lia|lia|].
  subst trail. cbn [length]. lia.
Qed.
End Space.

Lemma at_last {A} (l : list A) y mid x : l = x :: mid ++ [y] -> at_ l (Z.of_nat (length l) - 1) = Some y.
Proof.
  intros ->. cbn [length]. rewrite app_length. cbn [length].
  replace (Z.of_nat (S (length mid + 1)) - 1) with (Z.of_nat (length mid + 1)) by lia.
  rewrite at_nth. replace (length mid + 1)%nat with (S (length mid)) by lia. cbn [nth_error].
  rewrite nth_error_app2 by lia. now rewrite Nat.sub_diag.
Qed.

Lemma filter_ok dyn hu en thr trail x mid y :
  let n := Z.of_nat (length hu) in let m := Z.of_nat (length en) in
  height dyn = n + 1 -> width dyn = m + 1 ->
  good_trail n m trail -> trail = x :: mid ++ [y] ->
  exists trail', filterTrailByQuality dyn hu en thr trail = Some trail' /\ cut_from x y trail trail'.
Proof.
  intros n m Hh Hw G E. unfold filterTrailByQuality.
  assert (E0 : at_ trail 0 = Some x) by (subst trail; reflexivity).
  rewrite E0, (at_last trail y mid x E).
  assert (Ln : Z.of_nat (length trail) = Z.of_nat (length mid) + 2).
  { subst trail. cbn [length]. rewrite app_length. cbn [length]. lia. }
  destruct (for_z_inv
    (fun i acc => do s <- segmentScore dyn hu en trail i;
                  do r <- at_ trail i; Some (if Qle_bool thr s then acc ++ [r] else acc))
    (fun i acc => thin (firstn (Z.to_nat (i - 1)) mid) acc)
    1 (Z.of_nat (length trail) - 1) []) as (acc & A & B).
  - constructor.
  - intros i acc Hi T. unfold segmentScore.
    destruct (at_some trail i) as (r & Er); [lia|]. destruct (at_some trail (i + 1)) as (r' & Er'); [lia|].
    rewrite Er, Er'.
    assert (Rg : forall k r, at_ trail k = Some r -> 0 <= fst r <= n /\ 0 <= snd r <= m).
    { intros k r0 K. apply (proj2 G). unfold at_ in K. destruct (0 <=? k); [|discriminate].
      eapply nth_error_In; eauto. }
    destruct (scoreSegmentum_total dyn hu en r r' Hh Hw) as (q & ->);
      [apply (Rg _ _ Er)|apply (Rg _ _ Er)|apply (Rg _ _ Er')|apply (Rg _ _ Er')|].
    eexists. split; [reflexivity|].
    assert (F : firstn (Z.to_nat (i + 1 - 1)) mid = firstn (Z.to_nat (i - 1)) mid ++ [r]).
    { replace i with (Z.of_nat (S (Z.to_nat (i - 1)))) in Er by lia.
      rewrite at_nth in Er. subst trail. cbn [nth_error] in Er.
      rewrite nth_error_app1 in Er by lia.
      replace (Z.to_nat (i + 1 - 1)) with (S (Z.to_nat (i - 1))) by lia.
      revert Er. generalize (Z.to_nat (i - 1)). clear. intros k. revert mid.
      induction k as [|k IH]; intros [|z mid] Er; try discriminate.
      - cbn in Er. injection Er as ->. reflexivity.
      - cbn [nth_error] in Er. cbn [firstn app]. f_equal. apply (IH mid Er). }
    rewrite F. destruct (Qle_bool thr q).
    + apply thin_app; [exact T|apply thin_refl].
    + rewrite <- (app_nil_r acc). apply thin_app; [exact T|]. apply thin_drop, thin_nil.
  - rewrite A. eexists. split; [reflexivity|]. split; [|eauto].
    subst trail. constructor. apply thin_app; [|apply thin_refl].
    rewrite firstn_all2 in B by lia. exact B.
Qed.

(** ** Printing *)
Lemma print_phrase_spaced p : print_phrase p = spaced p.
Proof.
  induction p as [|w p IH]; [reflexivity|]. cbn [print_phrase spaced].
  destruct p as [|w' p]; [reflexivity|]. rewrite IH. reflexivity.
Qed.

Lemma slice_step {A} (l : list A) a b x : 0 <= a -> a < b -> at_ l a = Some x ->
  slice a b l = x :: slice (a + 1) b l.
Proof.
  intros Ha Hb E. unfold slice.
  replace (Z.to_nat (b - a)) with (S (Z.to_nat (b - (a + 1)))) by lia.
  replace (Z.to_nat (a + 1)) with (S (Z.to_nat a)) by lia.
  unfold at_ in E. destruct (Z.leb_spec 0 a); [|lia].
  revert E. generalize (Z.to_nat a). intros k. revert l.
  induction k as [|k IH]; intros [|z l] E; try discriminate.
  - cbn in E. injection E as ->. reflexivity.
  - cbn [nth_error] in E. cbn [skipn]. rewrite (IH l E). reflexivity.
Qed.

Lemma print_n (l : list phrase) stop : forall k a acc, 0 <= a -> a + Z.of_nat k = stop -> stop <= Z.of_nat (length l) ->
  for_n k a (fun j acc => do p <- at_ l j;
       Some (acc ++ print_phrase p ++ (if j + 1 <? stop then [cSP] else []))) acc
  = Some (acc ++ sentences_text (slice a stop l)).
Proof.
  induction k as [|k IH]; intros a acc Ha Hk Hl; cbn [for_n].
  - replace stop with a by lia. unfold slice. replace (Z.to_nat (a - a)) with 0%nat by lia.
    cbn. now rewrite app_nil_r.
  - destruct (at_some l a) as (p & E); [lia|]. rewrite E.
    rewrite IH by lia. f_equal. rewrite (slice_step l a stop p) by (auto; lia).
    rewrite <- !app_assoc. f_equal. rewrite print_phrase_spaced. unfold sentences_text. cbn [map spaced].
    destruct (Z.ltb_spec (a + 1) stop) as [L|L].
    + destruct (at_some l (a + 1)) as (p' & E'); [lia|].
      rewrite (slice_step l (a + 1) stop p') by (auto; lia). cbn [map]. reflexivity.
    + unfold slice. replace (Z.to_nat (stop - (a + 1))) with 0%nat by lia. cbn.
      now rewrite app_nil_r.
Qed.

Lemma print_range_ok (l : list phrase) a b : 0 <= a <= b -> b <= Z.of_nat (length l) ->
  print_range a b l = Some (sentences_text (slice a b l)).
Proof.
  intros H1 H2. unfold print_range, for_z.
  rewrite (print_n l b (Z.to_nat (b - a)) a []) by lia. reflexivity.
Qed.

Section Lines.
Variables (show : Q -> str) (dyn : mat Q) (hu en : list phrase).
Notation n := (Z.of_nat (length hu)).
Notation m := (Z.of_nat (length en)).
Hypothesis Hh : height dyn = n + 1.
Hypothesis Hw : width dyn = m + 1.

Definition line_step (trail : list (Z * Z)) : Z -> str -> option str :=
  fun i out =>
       do a <- at_ trail i;
       do b <- at_ trail (i + 1);
       do l <- print_range (fst a) (fst b) hu;
       do r <- print_range (snd a) (snd b) en;
       do s <- segmentScore dyn (map sort_words hu) (map sort_words en) trail i;
       Some (out ++ l ++ [cTAB] ++ r ++ [cTAB] ++ show s ++ [cNL]).

Lemma lines_n (trail : list (Z * Z)) : good_trail n m trail -> forall l pre out, trail = pre ++ l ->
  exists scores, length scores = (length l - 1)%nat /\
  for_n (length l - 1) (Z.of_nat (length pre)) (line_step trail) out
  = Some (out ++ concat (map (line show) (combine (pieces l hu en) scores))).
Proof.
  intros G. induction l as [|c l IH]; intros pre out E.
  - exists []. split; [reflexivity|]. cbn. now rewrite app_nil_r.
  - destruct l as [|d l].
    { exists []. split; [reflexivity|]. cbn. now rewrite app_nil_r. }
    assert (E1 : at_ trail (Z.of_nat (length pre)) = Some c).
    { rewrite at_nth, E, nth_error_app2, Nat.sub_diag by lia. reflexivity. }
    assert (E2 : at_ trail (Z.of_nat (length pre) + 1) = Some d).
    { replace (Z.of_nat (length pre) + 1) with (Z.of_nat (S (length pre))) by lia.
      rewrite at_nth, E, nth_error_app2 by lia.
      replace (S (length pre) - length pre)%nat with 1%nat by lia. reflexivity. }
    destruct G as (Srt & Rg).
    assert (Rc : 0 <= fst c <= n /\ 0 <= snd c <= m) by (apply Rg; rewrite E; apply in_or_app; cbn; auto).
    assert (Rd : 0 <= fst d <= n /\ 0 <= snd d <= m) by (apply Rg; rewrite E; apply in_or_app; cbn; auto).
    assert (Lt : lt2 c d).
    { clear - Srt E. revert Srt. rewrite E. clear E. induction pre as [|x pre IHp]; cbn [app]; intros S.
      - inversion S as [|? ? _ F]; subst. inversion F; auto.
      - inversion S; auto. }
    assert (Sc : exists s, segmentScore dyn (map sort_words hu) (map sort_words en) trail (Z.of_nat (length pre)) = Some s).
    { unfold segmentScore. rewrite E1, E2. apply scoreSegmentum_total; rewrite ?map_length; tauto. }
    destruct Sc as (s & Es).
    cbn [length]. replace (S (S (length l)) - 1)%nat with (S (length (d :: l) - 1)) by (cbn; lia).
    cbn [for_n].
    assert (Step : line_step trail (Z.of_nat (length pre)) out
      = Some (out ++ line show ((slice (fst c) (fst d) hu, slice (snd c) (snd d) en), s))).
    { unfold line_step. rewrite E1, E2. destruct Lt as (L1 & L2 & _).
      rewrite !print_range_ok by lia. rewrite Es. reflexivity. }
    rewrite Step.
    destruct (IH (pre ++ [c]) (out ++ line show ((slice (fst c) (fst d) hu, slice (snd c) (snd d) en), s)))
      as (scores & Ls & R).
    { rewrite <- app_assoc. exact E. }
    rewrite app_length in R. cbn [length] in R.
    replace (Z.of_nat (length pre + 1)) with (Z.of_nat (length pre) + 1) in R by lia.
    exists (s :: scores). split; [cbn [length] in *; lia|].
    cbn [length] in R |- *. rewrite R. cbn [pieces combine map concat].
    rewrite <- app_assoc. reflexivity.
Qed.

Lemma lines_ok trail : good_trail n m trail ->
  exists scores, length scores = (length trail - 1)%nat /\
  for_z 0 (Z.of_nat (length trail) - 1) (line_step trail) []
  = Some (concat (map (line show) (combine (pieces trail hu en) scores))).
Proof.
  intros G. destruct (lines_n trail G trail [] [] eq_refl) as (scores & L & E).
  exists scores. split; [exact L|]. unfold for_z.
  replace (Z.to_nat (Z.of_nat (length trail) - 1 - 0)) with (length trail - 1)%nat by lia. exact E.
Qed.
End Lines.

(** ** The pieces make up the books *)
Lemma skipn_plus {A} : forall p q (l : list A), skipn (p + q) l = skipn p (skipn q l).
Proof.
  intros p q. induction q as [|q IH]; intros l.
  - now rewrite Nat.add_0_r.
  - destruct l as [|x l].
    + now rewrite !skipn_nil.
    + replace (p + S q)%nat with (S (p + q)) by lia. cbn [skipn]. apply IH.
Qed.

Lemma slice_app {A} (l : list A) a b c : 0 <= a <= b -> b <= c -> slice a c l = slice a b l ++ slice b c l.
Proof.
  intros H1 H2. unfold slice.
  replace (Z.to_nat (c - a)) with (Z.to_nat (b - a) + Z.to_nat (c - b))%nat by lia.
  replace (Z.to_nat b) with (Z.to_nat (b - a) + Z.to_nat a)%nat by lia.
  rewrite skipn_plus. generalize (skipn (Z.to_nat a) l). intros k.
  generalize (Z.to_nat (b - a)), (Z.to_nat (c - b)). intros p q. revert k.
  induction p as [|p IH]; intros k; [reflexivity|]. destruct k as [|x k]; cbn; [now rewrite firstn_nil|].
  f_equal. apply IH.
Qed.

Lemma pieces_concat n m hu en : forall l c y mid, good_trail n m l -> l = c :: mid ++ [y] ->
  concat (map fst (pieces l hu en)) = slice (fst c) (fst y) hu /\
  concat (map snd (pieces l hu en)) = slice (snd c) (snd y) en.
Proof.
  intros l c y mid. revert l c.
  induction mid as [|d mid IH]; intros l c G ->.
  - cbn. rewrite !app_nil_r. auto.
  - cbn [app]. destruct G as (S & R).
    destruct (IH (d :: mid ++ [y]) d) as (I1 & I2).
    { split; [inversion S; auto|]. intros x Hx. apply R. now right. }
    { reflexivity. }
    inversion S as [|? ? S' F]; subst.
    assert (Lcd : lt2 c d) by (inversion F; auto).
    assert (Ldy : lt2 d y).
    { inversion S' as [|? ? _ F']; subst. rewrite Forall_forall in F'. apply F'. apply in_or_app. cbn. auto. }
    assert (Rc : 0 <= fst c <= n /\ 0 <= snd c <= m) by (apply R; now left).
    cbn [pieces map concat fst snd]. cbn [pieces] in I1, I2.
    rewrite (slice_app hu (fst c) (fst d) (fst y)) by (unfold lt2 in *; lia).
    rewrite (slice_app en (snd c) (snd d) (snd y)) by (unfold lt2 in *; lia).
    destruct (mid ++ [y]) as [|e r] eqn:Em; [destruct mid; discriminate|].
    split; [rewrite <- I1|rewrite <- I2]; reflexivity.
Qed.

Lemma slice_length {A} (l : list A) a b : 0 <= a <= b -> b <= Z.of_nat (length l) ->
  Z.of_nat (length (slice a b l)) = b - a.
Proof. intros H1 H2. unfold slice. rewrite firstn_length, skipn_length. lia. Qed.

Lemma pieces_nonempty hu en : forall l, good_trail (Z.of_nat (length hu)) (Z.of_nat (length en)) l ->
  forall p, In p (pieces l hu en) -> p <> ([], []).
Proof.
  induction l as [|c l IH]; intros (S & R) p Hp; [destruct Hp|].
  destruct l as [|d l]; [destruct Hp|]. cbn [pieces] in Hp.
  destruct Hp as [<- |Hp].
  - inversion S as [|? ? _ F]; subst. assert (L : lt2 c d) by (inversion F; auto).
    pose proof (R c (or_introl eq_refl)). pose proof (R d (or_intror (or_introl eq_refl))).
    destruct L as (L1 & L2 & L3).
    pose proof (@slice_length (list str) hu (fst c) (fst d) ltac:(lia) ltac:(lia)) as K1.
    pose proof (@slice_length (list str) en (snd c) (snd d) ltac:(lia) ltac:(lia)) as K2.
    intros K. injection K as Ka Kb.
    apply (f_equal (@length (list str))) in Ka, Kb. cbn [length] in Ka, Kb.
    assert (X1 : Z.of_nat 0 = fst d - fst c) by (rewrite <- Ka; exact K1).
    assert (X2 : Z.of_nat 0 = snd d - snd c) by (rewrite <- Kb; exact K2). lia.
  - apply IH; [|exact Hp]. split; [inversion S; auto|]. intros x Hx. apply R. now right.
Qed.

Lemma slice_all {A} (l : list A) a : slice a (Z.of_nat (length l)) l = skipn (Z.to_nat a) l.
Proof.
  unfold slice. apply firstn_all2. rewrite skipn_length. lia.
Qed.

(** ** The tool *)
Lemma simf_sim hu en th w :
  let n := Z.of_nat (length hu) in let m := Z.of_nat (length en) in
  1 <= n -> 1 <= m -> (n + 1) * (m + 1) <= 2 ^ 31 -> 0 <= th ->
  height w = n -> width w = m -> thick w = th -> outside w = inject_Z (-1000000) ->
  (forall i j, inb w i j -> cells w i j = score_at (map sort_words hu) (map sort_words en) i j) ->
  similarities hu en th (simf w) /\ (forall i j, (simf w i j <= inject_Z 1000000)%Q).
Proof.
  intros n m Hn Hm Hov Hth H1 H2 H3 H4 F.
  assert (Ne : forall i j, inm w i j -> inb w i j <-> near n m th i j).
  { intros i j (A & B). unfold inb, near. cbv zeta.
    assert (O : offset w i = i * m / n - th / 2).
    { unfold offset. rewrite H1, H2, H3. rewrite wrap32_id by nia.
      rewrite !Z.quot_div_nonneg by nia. reflexivity. }
    rewrite O, H3. unfold inm. lia. }
  assert (V : forall i j s t, at_ hu i = Some s -> at_ en j = Some t -> inm w i j -> near n m th i j ->
              similarity s t (simf w i j)).
  { intros i j s t Es Et R N. unfold simf. rewrite get_in by (apply Ne; assumption).
    rewrite F by (apply Ne; assumption). unfold score_at.
    rewrite !at_map, Es, Et. cbn [option_map]. apply score_similarity. }
  split.
  - intros i j s t Es Et. cbv zeta. fold n m.
    assert (Es' : at_ hu (Z.of_nat i) = Some s) by (rewrite at_nth; exact Es).
    assert (Et' : at_ en (Z.of_nat j) = Some t) by (rewrite at_nth; exact Et).
    assert (Li : (i < length hu)%nat) by (apply nth_error_Some; congruence).
    assert (Lj : (j < length en)%nat) by (apply nth_error_Some; congruence).
    assert (R : inm w (Z.of_nat i) (Z.of_nat j)) by (unfold inm, n, m in *; lia).
    split; intros N.
    + apply V; assumption.
    + unfold simf. rewrite get_out by (try assumption; intros K; apply N, Ne; assumption). exact H4.
  - intros i j. destruct (get w i j) as [x|] eqn:G.
    2:{ unfold simf. rewrite G. apply Qle_bool_iff. reflexivity. }
    assert (R : inm w i j).
    { unfold get in G.
      destruct (Z.leb_spec 0 i), (Z.ltb_spec i (height w)), (Z.leb_spec 0 j), (Z.ltb_spec j (width w));
        cbn [andb] in G; try discriminate. split; lia. }
    destruct (inb_dec w i j) as [B|B].
    + destruct (at_some hu i) as (s & Es); [destruct R; unfold n in *; lia|].
      destruct (at_some en j) as (t & Et); [destruct R; unfold m in *; lia|].
      eapply Qle_trans; [apply (similarity_bound s t)|].
      * apply (V i j s t Es Et R). apply Ne; assumption.
      * apply Qle_bool_iff. reflexivity.
    + unfold simf. rewrite (get_out w i j R B), H4. apply Qle_bool_iff. reflexivity.
Qed.

Lemma quot5 a b : 0 <= a -> a < Z.quot b 5 -> 5 * a + 5 <= b.
Proof.
  intros Ha H. destruct (Z.le_gt_cases 0 b) as [L|L].
  - rewrite Z.quot_div_nonneg in H by lia. pose proof (Z.mul_div_le b 5 ltac:(lia)). lia.
  - exfalso. pose proof (Z.quot_opp_l b 5 ltac:(lia)).
    pose proof (Z.quot_pos (- b) 5 ltac:(lia) ltac:(lia)). lia.
Qed.

Lemma tool_ok ln show thr (hu en : list (list str)) :
  let n := Z.of_nat (length hu) in let m := Z.of_nat (length en) in
  1 <= n -> 1 <= m -> m <= 5 * n + 4 -> n <= 5 * m + 4 -> (n + 1) * (m + 1) <= 2 ^ 31 ->
  exists sim slen tlen lead trail cost cuts p q scores,
    alignerTool ln show thr hu en
      = Some (concat (map (line show) (combine (pieces cuts hu en) scores))) /\
    length scores = length (pieces cuts hu en) /\
    similarities hu en (search_thickness n m) sim /\ lengths hu slen /\ lengths en tlen /\
    cheapest sim slen tlen (band n m (search_thickness n m)) (0, 0) (n, m) (lead ++ trail) cost /\
    thin trail cuts /\
    hd_error trail = Some (Z.of_nat p, Z.of_nat q) /\ (p = O \/ q = O) /\
    concat (map fst (pieces cuts hu en)) = skipn p hu /\
    concat (map snd (pieces cuts hu en)) = skipn q en /\
    (forall g, In g (pieces cuts hu en) -> g <> ([], [])).
Proof.
  intros n m Hn Hm R1 R2 Hov.
  destruct (sizes_small n m Hn Hm R1 R2 Hov) as (Small & T10 & Tth).
  unfold alignerTool. change (@length phrase) with (@length (list str)). fold n m.
  destruct (Z.ltb_spec m (Z.quot n 5)) as [L|_]; [apply quot5 in L; lia|].
  destruct (Z.ltb_spec n (Z.quot m 5)) as [L|_]; [apply quot5 in L; lia|].
  cbn [orb]. unfold alignerToolWithObjects, best_trail.
  change (@length phrase) with (@length (list str)). fold n m.
  rewrite thickness_ok by lia. set (th := search_thickness n m) in *.
  destruct (matrix_ok (map sort_words hu) (map sort_words en) th (inject_Z (-1000000)))
    as (w & Ew & W1 & W2 & W3 & W4 & F).
  change (@length phrase) with (@length (list str)) in *.
  rewrite !map_length in *. fold n m in Ew, W1, W2. rewrite Ew.
  destruct (simf_sim hu en th w Hn Hm Hov ltac:(lia) W1 W2 W3 W4 F) as (Sim & Bnd).
  destruct (align_ok n m th w (setSentenceValues hu) (setSentenceValues en) ltac:(lia) ltac:(lia) Hov Tth Small
              W1 W2 W3) as (a & b & l & v & q & lead & cost & Ea & G & B & Ne & P & (pp & Ep) & Ch).
  { unfold setSentenceValues. now rewrite map_length. }
  { unfold setSentenceValues. now rewrite map_length. }
  { exact Bnd. }
  { apply Forall_forall. intros x Hx. apply in_map_iff in Hx. destruct Hx as (y & <- & _). apply length_nonneg. }
  { apply Forall_forall. intros x Hx. apply in_map_iff in Hx. destruct Hx as (y & <- & _). apply length_nonneg. }
  rewrite Ea.
  pose proof (path_good _ _ _ n m th _ _ _ P) as Gt.
  assert (Mid : exists mid, (a, b) :: l = (a, b) :: mid ++ [(n, m)]).
  { destruct pp as [|c pp]; cbn [app] in Ep.
    - exfalso. injection Ep as _ _ El. apply Ne; auto.
    - injection Ep as _ El. exists pp. now rewrite El. }
  destruct Mid as (mid & Em).
  destruct (space_total ln hu en _ _ _ _ Gt Em) as (t1 & E1 & (Th1 & (mid1 & M1))).
  cbv beta iota zeta. unfold point in E1. rewrite E1.
  pose proof (thin_good n m _ _ Th1 Gt) as G1.
  destruct G as (Gh & Gw & _).
  destruct (filter_ok v (map sort_words hu) (map sort_words en) thr t1 (a, b) mid1 (n, m)) as (t2 & E2 & (Th2 & (mid2 & M2))).
  { rewrite map_length. exact Gh. } { rewrite map_length. exact Gw. }
  { rewrite !map_length. exact G1. } { exact M1. }
  rewrite E2.
  pose proof (thin_good n m _ _ Th2 G1) as G2.
  destruct (lines_ok show v hu en Gh Gw t2 G2) as (scores & Ls & El).
  assert (Ra : 0 <= a <= n /\ 0 <= b <= m) by (apply (proj2 Gt (a, b)); now left).
  exists (simf w), (lenf (setSentenceValues hu)), (lenf (setSentenceValues en)), lead, ((a, b) :: l), cost, t2,
    (Z.to_nat a), (Z.to_nat b), scores.
  split; [exact El|]. split.
  { rewrite Ls. clear. induction t2 as [|c [|d t2] IH]; cbn in *; lia. }
  split; [exact Sim|]. split; [apply values_lengths|]. split; [apply values_lengths|].
  split; [exact Ch|]. split; [eapply thin_trans; eauto|]. split.
  { cbn [hd_error]. f_equal. f_equal; lia. }
  split; [lia|].
  destruct (pieces_concat n m hu en t2 (a, b) (n, m) mid2 G2 M2) as (C1 & C2). cbn [fst snd] in C1, C2.
  split; [rewrite C1; apply slice_all|]. split; [rewrite C2; apply slice_all|].
  apply pieces_nonempty. exact G2.
Qed.
