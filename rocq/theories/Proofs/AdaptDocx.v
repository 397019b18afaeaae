From Coq Require Import String Lia.
From Verif Require Import Model.Base Model.AdaptDocx Spec.AdaptDocx Proofs.Base.
Open Scope nat_scope.

Section P.
Variable alpha : char -> bool.
Hypothesis alpha0 : alpha 0%N = false.
Notation joined := (joined alpha).
Notation stuck := (stuck alpha).

(** ** findBoundary *)
Definition badb (c2 c1 cur : char) (r : str) : bool :=
  (alpha c1 && alpha cur)
  || (alpha c2 && (c1 =?c cDASH) && alpha cur)
  || (alpha c1 && (cur =?c cDASH) && match r with [] => true | y :: _ => alpha y end)
  || (is_l c2 && (c1 =?c cMID) && is_l cur)
  || (is_l c1 && (cur =?c cMID) && match r with [] => true | y :: _ => is_l y end).
Lemma fb_step c2 c1 cur r pos : fb_loop alpha c2 c1 (cur :: r) pos = if badb c2 c1 cur r then fb_loop alpha c1 cur r (S pos) else pos.
Proof.
  unfold badb. cbn [fb_loop].
  destruct (N.eq_dec c1 cDASH) as [->|N1].
  - rewrite ?ceq_refl. change (is_l cDASH) with false. change (cDASH =?c cMID) with false. cbn [andb orb].
    rewrite ?andb_true_r, ?andb_false_r, ?orb_false_r. cbn [andb].
    destruct (alpha cDASH) eqn:A, (alpha cur) eqn:B, (alpha c2) eqn:C; cbn [andb orb]; rewrite ?orb_false_r; cbn [orb]; try (destruct r; reflexivity).
    all: destruct (N.eq_dec cur cDASH) as [->|N]; [congruence|]; rewrite (proj2 (ceq_neq _ _) N); destruct r; reflexivity.
  - rewrite (proj2 (ceq_neq _ _) N1). cbn [andb]. rewrite ?andb_false_r. cbn [andb orb]. rewrite ?orb_false_r.
    destruct (alpha c1) eqn:A; cbn [andb orb].
    + destruct (alpha cur) eqn:B; cbn [andb orb]; [destruct r; reflexivity|].
      destruct (N.eq_dec cur cDASH) as [->|N2].
      * rewrite ?ceq_refl. change (is_l cDASH) with false. change (cDASH =?c cMID) with false. rewrite ?andb_false_r. cbn [orb]. rewrite ?orb_false_r.
        destruct r as [|y r]; [reflexivity|]. cbn [andb orb]. destruct (alpha y); reflexivity.
      * rewrite (proj2 (ceq_neq _ _) N2). cbn [andb orb].
        destruct (is_l c2 && (c1 =?c cMID)) eqn:E; cbn [andb orb].
        -- destruct (is_l cur) eqn:L; cbn [andb orb]; [destruct r; reflexivity|].
           apply andb_true_iff in E. destruct E as [_ E]. apply ceq_eq in E. subst c1. change (is_l cMID) with false. reflexivity.
        -- destruct (is_l c1 && (cur =?c cMID)) eqn:F; cbn [andb orb]; [|reflexivity].
           destruct r as [|y r]; [reflexivity|]. destruct (is_l y); reflexivity.
    + destruct (is_l c2 && (c1 =?c cMID)) eqn:E; cbn [andb orb].
      * destruct (is_l cur) eqn:L; cbn [andb orb]; [destruct r; reflexivity|].
        apply andb_true_iff in E. destruct E as [_ E]. apply ceq_eq in E. subst c1. change (is_l cMID) with false. reflexivity.
      * destruct (is_l c1 && (cur =?c cMID)) eqn:F; cbn [andb orb]; [|reflexivity].
        destruct r as [|y r]; [reflexivity|]. destruct (is_l y); reflexivity.
Qed.
Lemma is_l_ell c : is_l c = true <-> ell c.
Proof. unfold is_l, ell. rewrite orb_true_iff, !N.eqb_eq. tauto. Qed.
Lemma app_same {A} (a a' b b' : list A) : a ++ b = a' ++ b' -> length a = length a' -> a = a' /\ b = b'.
Proof.
  revert a'. induction a as [|x a IH]; destruct a' as [|y a']; cbn; intros H L; try discriminate; [auto|].
  injection H as -> H. destruct (IH a' H ltac:(lia)) as [-> ->]. auto.
Qed.
Lemma last_app1 {A} (a : list A) x d : last (a ++ [x]) d = x.
Proof. induction a as [|y a IH]; [reflexivity|]. cbn. destruct (a ++ [x]) eqn:E; [destruct a; discriminate|exact IH]. Qed.
Lemma stuck_iff p' c1 cur r : stuck (p' ++ c1 :: cur :: r) (length p' + 1) <-> badb (last p' 0%N) c1 cur r = true.
Proof.
  unfold badb. rewrite !orb_true_iff, !andb_true_iff. split.
  - intros [H|H].
    + remember (p' ++ c1 :: cur :: r) as t eqn:Et. remember (length p' + 1) as q eqn:Eq.
      destruct H as [a x y b X Y|a x y b X Y|a x y b X Y|a x y b X Y|a x y b X Y].
      * destruct (app_same _ _ _ _ Et ltac:(lia)) as [-> E]. injection E as -> -> ->. left. left. left. left. auto.
      * destruct (app_same _ _ _ _ Et ltac:(lia)) as [-> E]. injection E as -> <- <-. left. left. right. repeat split; auto.
      * assert (Et' : (a ++ [x]) ++ 45%N :: y :: b = p' ++ c1 :: cur :: r) by (rewrite <- app_assoc; exact Et).
        destruct (app_same _ _ _ _ Et' ltac:(rewrite app_length; cbn; lia)) as [<- E]. injection E as <- -> ->. rewrite last_app1. left. left. left. right. repeat split; auto.
      * destruct (app_same _ _ _ _ Et ltac:(lia)) as [-> E]. injection E as -> <- <-. right. rewrite !is_l_ell. repeat split; auto.
      * assert (Et' : (a ++ [x]) ++ 183%N :: y :: b = p' ++ c1 :: cur :: r) by (rewrite <- app_assoc; exact Et).
        destruct (app_same _ _ _ _ Et' ltac:(rewrite app_length; cbn; lia)) as [<- E]. injection E as <- -> ->. rewrite last_app1. left. right. rewrite !is_l_ell. repeat split; auto.
    + remember (p' ++ c1 :: cur :: r) as t eqn:Et. remember (length p' + 1) as q eqn:Eq.
      destruct H as [a x X|a x X]; destruct (app_same _ _ _ _ Et ltac:(lia)) as [-> E]; injection E as -> <- <-.
      * left. left. right. repeat split; auto.
      * right. rewrite !is_l_ell. repeat split; auto.
  - assert (Lst : forall P : char -> Prop, P (last p' 0%N) -> ~ P 0%N -> exists a x, p' = a ++ [x] /\ P x).
    { intros P HP N0. destruct p' as [|z p'] using rev_ind; [contradiction|]. rewrite last_app1 in HP. eauto. }
    intros [[[[[A B]|[[A B] C]]|[[A B] C]]|[[A B] C]]|[[A B] C]].
    + left. now apply (J_letters alpha p' c1 cur r).
    + destruct (Lst (fun c => alpha c = true) A ltac:(congruence)) as (a & x & -> & X). apply ceq_eq in B. subst c1. left.
      pose proof (J_hyphen2 alpha a x cur r X C) as J. rewrite app_length, <- app_assoc. cbn in J |- *. replace (length a + 1 + 1) with (length a + 2) by lia. exact J.
    + apply ceq_eq in B. subst cur. destruct r as [|y r]; [right; now apply (D_hyphen alpha p' c1)|left; now apply (J_hyphen1 alpha p' c1 y r)].
    + destruct (Lst (fun c => is_l c = true) A ltac:(discriminate)) as (a & x & -> & X). apply ceq_eq in B. subst c1. left. apply is_l_ell in X. apply is_l_ell in C.
      pose proof (J_ell2 alpha a x cur r X C) as J. rewrite app_length, <- app_assoc. cbn in J |- *. replace (length a + 1 + 1) with (length a + 2) by lia. exact J.
    + apply ceq_eq in B. subst cur. apply is_l_ell in A. destruct r as [|y r]; [right; now apply (D_dot alpha p' c1)|left; apply is_l_ell in C; now apply (J_ell1 alpha p' c1 y r)].
Qed.
Lemma stuck_range t p : stuck t p -> 0 < p < length t.
Proof. intros [H|H]; destruct H; rewrite app_length; cbn; lia. Qed.
Lemma fb_loop_spec rest : forall p' c1, first_cut alpha (p' ++ c1 :: rest) (length p' + 1) (fb_loop alpha (last p' 0%N) c1 rest (length p' + 1)).
Proof.
  induction rest as [|cur r IH]; intros p' c1.
  - cbn [fb_loop]. split; [lia|split; [|intros; lia]]. intros H. apply stuck_range in H. rewrite app_length in H. cbn in H. lia.
  - rewrite fb_step. destruct (badb (last p' 0%N) c1 cur r) eqn:E.
    + specialize (IH (p' ++ [c1]) cur). rewrite last_app1, app_length, <- app_assoc in IH. cbn in IH.
      replace (length p' + 1 + 1) with (S (length p' + 1)) in IH by lia. destruct IH as (A & B & C). split; [lia|split; [exact B|]].
      intros q Q. destruct (Nat.eq_dec q (length p' + 1)) as [->|]; [now apply stuck_iff|apply C; lia].
    + split; [lia|split; [|intros; lia]]. intros H. apply stuck_iff in H. congruence.
Qed.
Lemma fb_first t p : first_cut alpha t p (findBoundary alpha t p).
Proof.
  unfold findBoundary. destruct ((p =? 0) || (length t <=? p)) eqn:E.
  - split; [lia|split; [|intros; lia]]. intros H. apply stuck_range in H.
    apply orb_true_iff in E. rewrite Nat.eqb_eq, Nat.leb_le in E. lia.
  - apply orb_false_iff in E. destruct E as [E1 E2]. apply Nat.eqb_neq in E1. apply Nat.leb_gt in E2.
    assert (L : length (firstn p t) = p) by (rewrite firstn_length; lia).
    destruct (firstn p t) as [|c1 p' _] eqn:F using rev_ind; [cbn in L; lia|]. rewrite rev_app_distr. cbn [rev app].
    assert (Hl : (match rev p' with [] => 0%N | c2 :: _ => c2 end) = last p' 0%N).
    { destruct p' as [|z q _] using rev_ind; [reflexivity|]. rewrite rev_app_distr, last_app1. reflexivity. }
    rewrite app_length in L. cbn in L.
    pose proof (fb_loop_spec (skipn p t) p' c1) as S. rewrite L, <- Hl in S.
    assert (ET : t = p' ++ c1 :: skipn p t) by (rewrite <- (firstn_skipn p t) at 1; rewrite F, <- app_assoc; reflexivity).
    rewrite <- ET in S. exact S.
Qed.
Lemma first_cut_unique t p q q' : first_cut alpha t p q -> first_cut alpha t p q' -> q = q'.
Proof.
  intros (A & B & C) (A' & B' & C'). destruct (lt_eq_lt_dec q q') as [[H|H]|H]; [|exact H|].
  - destruct (B (C' q ltac:(lia))).
  - destruct (B' (C q' ltac:(lia))).
Qed.
Notation fb := (findBoundary alpha).
Lemma fb_ge t p : p <= fb t p. Proof. apply fb_first. Qed.
Lemma fb_le t p : p <= length t -> fb t p <= length t.
Proof.
  intros H. destruct (fb_first t p) as (A & B & C). destruct (le_lt_dec (fb t p) (length t)) as [L|L]; [exact L|].
  pose proof (stuck_range _ _ (C (length t) ltac:(lia))). lia.
Qed.
Lemma fb_0 t : fb t 0 = 0. Proof. reflexivity. Qed.
Lemma fb_end t : fb t (length t) = length t.
Proof. unfold findBoundary. rewrite Nat.leb_refl, orb_true_r. reflexivity. Qed.
Lemma fb_idem t p : fb t (fb t p) = fb t p.
Proof. destruct (fb_first t p) as (A & B & C). apply (first_cut_unique t (fb t p)); [apply fb_first|]. split; [lia|split; [exact B|intros; lia]]. Qed.
Lemma fb_between t p q : p <= q <= fb t p -> fb t q = fb t p.
Proof. intros H. destruct (fb_first t p) as (A & B & C). apply (first_cut_unique t q); [apply fb_first|]. split; [lia|split; [exact B|intros; apply C; lia]]. Qed.

(** ** adjust *)
Definition cum (L : list nat) (k : nat) : nat := list_sum (firstn k L).
Lemma cum_0 L : cum L 0 = 0. Proof. destruct L; reflexivity. Qed.
Lemma cum_S L : forall k, cum L (S k) = cum L k + nth k L 0.
Proof.
  unfold cum. induction L as [|x L IH]; intros k; [destruct k; reflexivity|]. destruct k as [|k]; [cbn; lia|].
  specialize (IH k). cbn [firstn list_sum fold_right nth] in *. change (fold_right Nat.add 0) with list_sum in *. lia.
Qed.
Lemma set_nth_length i v L : length (set_nth i v L) = length L.
Proof. revert i. induction L as [|x L IH]; destruct i; cbn; auto. Qed.
Lemma set_nth_same i v L : i < length L -> nth i (set_nth i v L) 0 = v.
Proof. revert i. induction L as [|x L IH]; destruct i; cbn; intros; try lia; auto. apply IH. lia. Qed.
Lemma set_nth_other i j v L : i <> j -> nth i (set_nth j v L) 0 = nth i L 0.
Proof. revert i j. induction L as [|x L IH]; destruct i, j; cbn; intros; try lia; auto. Qed.
Lemma cum_set j v L : j < length L -> forall k, cum (set_nth j v L) k + (if j <? k then nth j L 0 else 0) = cum L k + (if j <? k then v else 0).
Proof.
  intros H. induction k as [|k IH]; [rewrite !cum_0; reflexivity|]. rewrite !cum_S.
  destruct (lt_eq_lt_dec j k) as [[A|A]|A].
  - rewrite (proj2 (Nat.ltb_lt j k) A) in IH. rewrite (proj2 (Nat.ltb_lt j (S k))) by lia. rewrite set_nth_other by lia. lia.
  - subst k. rewrite (proj2 (Nat.ltb_lt j (S j))) by lia. rewrite Nat.ltb_irrefl in IH. rewrite set_nth_same by exact H. lia.
  - rewrite (proj2 (Nat.ltb_ge j k)) in IH by lia. rewrite (proj2 (Nat.ltb_ge j (S k))) by lia. rewrite set_nth_other by lia. lia.
Qed.
(* shifting v characters from the run at j to that at i *)
Lemma cum_shift i j v L : i < j -> j < length L -> v <= nth j L 0 -> forall k,
  cum (set_nth j (nth j L 0 - v) (set_nth i (nth i L 0 + v) L)) k = cum L k + (if (i <? k) && (k <=? j) then v else 0).
Proof.
  intros H J V k. pose proof (cum_set i (nth i L 0 + v) L ltac:(lia) k) as A.
  pose proof (cum_set j (nth j L 0 - v) (set_nth i (nth i L 0 + v) L) ltac:(rewrite set_nth_length; lia) k) as B.
  rewrite (set_nth_other j i) in B by lia.
  destruct (Nat.ltb_spec i k), (Nat.ltb_spec j k), (Nat.leb_spec k j); cbn [andb]; lia.
Qed.
Section Adj.
Variable t : str.
Variable L0 : list nat.
Notation n := (length L0).
Hypothesis total : cum L0 n = length t.
Notation e0 k := (cum L0 k).
(* k ranges over ends: run i ends at cum (S i) *)
Record inv (left right E F : nat) (L : list nat) : Prop := mkinv {
  i_len : length L = n; i_lr : left < n /\ left <= right <= n;
  i_E : E = cum L (S left);
  i_a : forall k, k <= left -> cum L k = fb t (e0 k);
  i_b : forall k, left < k <= right -> cum L k = E /\ fb t (e0 k) = F;
  i_c : forall k, right < k <= n -> cum L k = e0 k;
  i_t : cum L n = length t }.
Lemma move_spec left F : forall fuel toMove L right E,
  inv left right E F L -> fb t E = F -> left < right -> E + toMove = F -> n - right < fuel ->
  exists s', move fuel n left toMove (mkast L right E) = s' /\ inv left (a_right s') (a_end s') F (a_len s') /\ a_end s' = F /\ right <= a_right s'.
Proof.
  induction fuel as [|fuel IH]; intros toMove L right E I FF LR ET FU; [lia|]. cbn [move a_len a_right a_end].
  destruct I as [Il [Ilr1 Ilr2] IE Ia Ib Ic It].
  destruct (Nat.ltb_spec 0 toMove) as [T|T]; cbn [andb]; [|eexists; split; [reflexivity|]; cbn; split; [now constructor|lia]].
  destruct (Nat.ltb_spec right n) as [R|R].
  2:{ exfalso. assert (right = n) by lia. subst right. destruct (Ib n ltac:(lia)) as [B1 B2]. 
      assert (FL : fb t (e0 n) = length t) by (rewrite total; apply fb_end). lia. }
  assert (CE : cum L (S right) = E + nth right L 0) by (rewrite cum_S; destruct (Ib right ltac:(lia)) as [-> _]; reflexivity).
  assert (C0 : e0 (S right) = E + nth right L 0) by (rewrite <- Ic by lia; exact CE).
  destruct (Nat.leb_spec (nth right L 0) toMove) as [V|V].
  - set (v := nth right L 0) in *.
    assert (CS : forall k, cum (set_nth right 0 (set_nth left (nth left L 0 + v) L)) k = cum L k + (if (left <? k) && (k <=? right) then v else 0)).
    { intros k. rewrite <- (cum_shift left right v L LR ltac:(lia) (Nat.le_refl _) k). replace (nth right L 0 - v) with 0 by (unfold v; lia). reflexivity. }
    destruct (IH (toMove - v) (set_nth right 0 (set_nth left (nth left L 0 + v) L)) (S right) (E + v)) as (s' & A & B & C & D).
    + constructor.
      * rewrite !set_nth_length. exact Il.
      * lia.
      * rewrite CS, (proj2 (Nat.ltb_lt left (S left))), (proj2 (Nat.leb_le (S left) right)) by lia. cbn [andb]. rewrite <- IE. reflexivity.
      * intros k K. rewrite CS, (proj2 (Nat.ltb_ge left k)) by lia. cbn. rewrite Nat.add_0_r. apply Ia; lia.
      * intros k K. rewrite CS, (proj2 (Nat.ltb_lt left k)) by lia. cbn [andb]. destruct (Nat.leb_spec k right) as [Q|Q].
        -- destruct (Ib k ltac:(lia)) as [-> ->]. auto.
        -- assert (k = S right) by lia. subst k. rewrite CE, Nat.add_0_r. split; [reflexivity|].
           rewrite C0. fold v. rewrite <- FF. apply fb_between. rewrite FF. lia.
      * intros k K. rewrite CS. destruct (Nat.leb_spec k right); [lia|]. rewrite andb_false_r, Nat.add_0_r. apply Ic. lia.
      * rewrite CS. destruct (Nat.leb_spec n right); [lia|]. rewrite andb_false_r. lia.
    + rewrite <- FF. apply fb_between. rewrite FF. lia.
    + lia.
    + lia.
    + lia.
    + exists s'. split; [exact A|]. split; [exact B|]. split; [exact C|lia].
  - assert (CS := cum_shift left right toMove L LR ltac:(lia) ltac:(lia)).
    eexists. split; [reflexivity|]. cbn [a_len a_right a_end]. split; [|lia]. constructor.
    + rewrite !set_nth_length. exact Il.
    + lia.
    + rewrite CS, (proj2 (Nat.ltb_lt left (S left))), (proj2 (Nat.leb_le (S left) right)) by lia. cbn [andb]. rewrite <- IE. reflexivity.
    + intros k K. rewrite CS, (proj2 (Nat.ltb_ge left k)) by lia. cbn. rewrite Nat.add_0_r. apply Ia; lia.
    + intros k K. rewrite CS, (proj2 (Nat.ltb_lt left k)), (proj2 (Nat.leb_le k right)) by lia. cbn. destruct (Ib k ltac:(lia)) as [-> ->]. auto.
    + intros k K. rewrite CS. destruct (Nat.leb_spec k right); [lia|]. rewrite andb_false_r, Nat.add_0_r. apply Ic. lia.
    + rewrite CS. destruct (Nat.leb_spec n right); [lia|]. rewrite andb_false_r. lia.
Qed.

Lemma adj_spec : forall fuel left right E L ch,
  inv left right E (fb t E) L -> (left < n /\ (left = right -> True)) -> 2 * n - left - right < fuel ->
  exists L' ch', adj_loop alpha fuel n t left (mkast L right E) ch = Some (L', ch') /\ length L' = n /\ (forall k, k <= n -> cum L' k = fb t (e0 k)).
Proof.
  induction fuel as [|fuel IH]; intros left right E L ch I LN FU; [lia|]. cbn [adj_loop a_len a_right a_end].
  pose proof I as [Il [Ilr1 Ilr2] IE Ia Ib Ic It].
  destruct (Nat.ltb_spec right n) as [R|R].
  2:{ exists L, ch. split; [reflexivity|]. split; [exact Il|]. intros k K. assert (right = n) by lia. subst right.
      destruct (le_lt_dec k left) as [H|H]; [now apply Ia|]. destruct (Ib k ltac:(lia)) as [-> B2].
      destruct (Ib n ltac:(lia)) as [B3 _]. rewrite B2, <- B3, It. symmetry. apply fb_end. }
  destruct (Nat.eqb_spec left right) as [LR|LR].
  - subst right. apply IH; [|auto|lia]. constructor; auto.
    + intros k K. assert (k = S left) by lia. subst k. split; [symmetry; exact IE|]. rewrite <- Ic by lia. rewrite <- IE. reflexivity.
    + intros k K. apply Ic. lia.
  - assert (LR' : left < right) by lia.
    destruct (Nat.eqb_spec (nth left L 0) 0) as [Z|Z].
    + assert (EL : E = fb t E).
      { assert (cum L left = E) by (rewrite IE, cum_S; lia). rewrite <- H, (Ia left (Nat.le_refl _)). symmetry. apply fb_idem. }
      apply IH; [|split; [lia|auto]|lia].
      assert (EE : E + nth (S left) L 0 = cum L (S (S left))) by (rewrite cum_S, <- IE; reflexivity).
      constructor; auto; [lia| |].
      * intros k K. destruct (Nat.eq_dec k (S left)) as [->|]; [|apply Ia; lia].
        destruct (Ib (S left) ltac:(lia)) as [B1 B2]. rewrite B1, B2. exact EL.
      * intros k K. destruct (Ib (S (S left)) ltac:(lia)) as [B1 _]. rewrite EE, B1. apply Ib. lia.
    + destruct (move_spec left (fb t E) (S n) (fb t E - E) L right E I eq_refl LR' ltac:(pose proof (fb_ge t E); lia) ltac:(lia)) as (s' & -> & I' & E' & R').
      destruct s' as [L' right' E1]. cbn [a_len a_right a_end] in *. subst E1.
      apply IH; [|split; [lia|auto]|lia].
      destruct I' as [Jl [Jlr1 Jlr2] JE Ja Jb Jc Jt].
      assert (EE : fb t E + nth (S left) L' 0 = cum L' (S (S left))) by (rewrite cum_S, <- JE; reflexivity).
      constructor; auto; [lia| |].
      * intros k K. destruct (Nat.eq_dec k (S left)) as [->|]; [|apply Ja; lia].
        destruct (Jb (S left) ltac:(lia)) as [B1 B2]. rewrite B1, B2. reflexivity.
      * intros k K. destruct (Jb (S (S left)) ltac:(lia)) as [B1 _]. rewrite EE, B1, fb_idem. apply Jb. lia.
Qed.
Lemma adj_fixed : (forall k, k <= n -> fb t (e0 k) = e0 k) -> forall fuel left right ch L' ch',
  left < n -> left <= right -> adj_loop alpha fuel n t left (mkast L0 right (e0 (S left))) ch = Some (L', ch') -> L' = L0 /\ ch' = ch.
Proof.
  intros FX. induction fuel as [|fuel IH]; intros left right ch L' ch' LN LR H; [discriminate|]. cbn [adj_loop a_len a_right a_end] in H.
  destruct (Nat.ltb_spec right n) as [R|R]; [|injection H as <- <-; auto].
  destruct (Nat.eqb_spec left right) as [Q|Q]; [apply IH in H; auto; lia|].
  destruct (Nat.eqb_spec (nth left L0 0) 0) as [Z|Z].
  - rewrite <- cum_S in H. apply IH in H; auto; lia.
  - rewrite FX, Nat.sub_diag in H by lia. cbn [move Nat.ltb Nat.leb andb a_len a_right a_end] in H. rewrite <- cum_S, orb_false_r in H. apply IH in H; auto; lia.
Qed.
Lemma adj_false : forall fuel left right E L L',
  left < n -> left <= right -> adj_loop alpha fuel n t left (mkast L right E) false = Some (L', false) -> L' = L.
Proof.
  assert (M : forall fuel left right E L L', adj_loop alpha fuel n t left (mkast L right E) true = Some (L', false) -> False).
  { induction fuel as [|fuel IH]; intros left right E L L' H; [discriminate|]. cbn [adj_loop a_len a_right a_end] in H.
    destruct (right <? n); [|discriminate]. destruct (left =? right); [eauto|]. destruct (nth left L 0 =? 0); [eauto|]. cbn [orb] in H. eauto. }
  induction fuel as [|fuel IH]; intros left right E L L' LN LR H; [discriminate|]. cbn [adj_loop a_len a_right a_end] in H.
  destruct (Nat.ltb_spec right n) as [R|R]; [|injection H as <-; auto].
  destruct (Nat.eqb_spec left right) as [Q|Q]; [apply IH in H; auto; lia|].
  destruct (Nat.eqb_spec (nth left L 0) 0) as [Z|Z]; [apply IH in H; auto; lia|].
  destruct (fb t E - E) as [|k] eqn:TM.
  - cbn [move Nat.ltb Nat.leb andb orb a_len a_right a_end] in H. apply IH in H; auto; lia.
  - cbn [orb Nat.ltb Nat.leb] in H. destruct (M _ _ _ _ _ _ H).
Qed.
End Adj.
Lemma list_sum_lengths ts : list_sum (map (@length char) ts) = length (concat ts).
Proof. induction ts as [|x ts IH]; [reflexivity|]. cbn. rewrite app_length. change (fold_right Nat.add 0) with list_sum. lia. Qed.
Lemma cum_ends ts k : cum (map (@length char) ts) k = ends ts k.
Proof. unfold cum, ends. rewrite firstn_map. apply list_sum_lengths. Qed.
Lemma cum_all L : cum L (length L) = list_sum L.
Proof. unfold cum. now rewrite firstn_all. Qed.
Lemma cut_up_lens L : forall s, list_sum L = length s -> map (@length char) (cut_up L s) = L.
Proof.
  induction L as [|k L IH]; intros s H; [reflexivity|]. cbn in H |- *. change (fold_right Nat.add 0) with list_sum in H.
  rewrite IH by (rewrite skipn_length; lia). rewrite firstn_length, Nat.min_l by lia. reflexivity.
Qed.
Lemma cut_up_concat L : forall s, list_sum L = length s -> concat (cut_up L s) = s.
Proof.
  induction L as [|k L IH]; intros s H; cbn in H |- *; [symmetry; now destruct s|]. change (fold_right Nat.add 0) with list_sum in H.
  rewrite IH by (rewrite skipn_length; lia). apply firstn_skipn.
Qed.
Lemma adjust_spec ts : let out := match adjust alpha ts with Some l => l | None => ts end in
  concat out = concat ts /\ length out = length ts /\ forall k, k <= length ts -> ends out k = fb (concat ts) (ends ts k).
Proof.
  cbv zeta. unfold adjust. destruct ts as [|t1 [|t2 ts]].
  - split; [reflexivity|split; [reflexivity|]]. intros k K. cbn in K. replace k with 0 by lia. reflexivity.
  - split; [reflexivity|split; [reflexivity|]]. intros k K. cbn in K. destruct k as [|k]; [reflexivity|]. replace k with 0 by lia.
    unfold ends. cbn [firstn]. symmetry. apply fb_end.
  - set (tts := t1 :: t2 :: ts). set (lens := map (@length char) tts). set (join := concat tts).
    assert (LL : length lens = length tts) by apply map_length.
    assert (TT : cum lens (length lens) = length join) by (rewrite cum_all; apply list_sum_lengths).
    assert (C1 : nth 0 lens 0 = cum lens 1) by (rewrite cum_S, cum_0; reflexivity).
    assert (N1 : 2 <= length lens) by (rewrite LL; cbn; lia).
    destruct (adj_spec join lens TT (2 * length lens + 1) 0 1 (nth 0 lens 0) lens false) as (L' & ch & A & B & C).
    + constructor; auto; try lia.
      * intros k K. replace k with 0 by lia. rewrite cum_0, fb_0. reflexivity.
      * intros k K. replace k with 1 by lia. rewrite <- C1. auto.
    + split; [lia|auto].
    + lia.
    + pose proof A as A'. rewrite LL in A. rewrite A.
      assert (SL : list_sum L' = length join).
      { rewrite <- cum_all, B, C by lia. rewrite TT. apply fb_end. }
      assert (CC : forall k, k <= length tts -> cum L' k = fb join (ends tts k)).
      { intros k K. rewrite C by lia. unfold lens. now rewrite cum_ends. }
      destruct ch.
      * split; [now apply cut_up_concat|]. pose proof (cut_up_lens L' join SL) as CL. split.
        -- rewrite <- (map_length (@length char)), CL. lia.
        -- intros k K. rewrite <- cum_ends, CL. now apply CC.
      * assert (Q : L' = lens) by (eapply (adj_false join lens TT); [| |exact A']; lia). subst L'. split; [reflexivity|split; [reflexivity|]]. intros k K. rewrite <- (CC k K). unfold lens. now rewrite cum_ends.
Qed.
Lemma adjust_fixed ts : (forall k, k <= length ts -> fb (concat ts) (ends ts k) = ends ts k) -> adjust alpha ts = None.
Proof.
  intros FX. unfold adjust. destruct ts as [|t1 [|t2 ts]]; [reflexivity|reflexivity|].
  set (tts := t1 :: t2 :: ts) in *. set (lens := map (@length char) tts). set (join := concat tts) in *.
  assert (LL : length lens = length tts) by apply map_length.
  assert (C1 : nth 0 lens 0 = cum lens 1) by (rewrite cum_S, cum_0; reflexivity).
  rewrite C1. match goal with |- context [adj_loop ?a ?f ?k ?j ?l ?s false] => destruct (adj_loop a f k j l s false) as [[L' ch]|] eqn:E0; [|reflexivity] end.
  assert (E : adj_loop alpha (2 * length tts + 1) (length lens) join 0 (mkast lens 1 (cum lens 1)) false = Some (L', ch)) by (rewrite LL; exact E0).
  assert (Q : L' = lens /\ ch = false).
  { assert (TT : cum lens (length lens) = length join) by (rewrite cum_all; apply list_sum_lengths).
    refine (adj_fixed join lens TT _ _ 0 1 false L' ch _ _ E); [|rewrite LL; cbn; lia|lia]. intros k K. unfold lens in *. rewrite cum_ends. apply FX. lia. }
  destruct Q as [-> ->]. reflexivity.
Qed.

(** ** Documents *)
Lemma node_ind' (P : node -> Prop) : (forall m sp ks, Forall P ks -> P (Elem m sp ks)) -> (forall s, P (Text s)) -> (forall s, P (Other s)) -> forall n, P n.
Proof.
  intros HE HT HO. fix IH 1. intros [m sp ks|s|s]; [|apply HT|apply HO]. apply HE. induction ks as [|k ks IHk]; constructor; [apply IH|exact IHk].
Qed.
Notation proc := (proc alpha).
Notation para := (para alpha).
Lemma is_el_proc nm i n : is_el nm (proc i n) = is_el nm n.
Proof. destruct n; reflexivity. Qed.
Lemma filter_map_el nm i ks : filter (is_el nm) (map (proc i) ks) = map (proc i) (filter (is_el nm) ks).
Proof. induction ks as [|k ks IH]; [reflexivity|]. cbn [map filter]. rewrite is_el_proc. destruct (is_el nm k); cbn [map]; now rewrite IH. Qed.
Lemma pieces_proc keep i ks : flat_map (piece keep) (map (proc i) ks) = flat_map (piece keep) ks.
Proof. induction ks as [|k ks IH]; [reflexivity|]. cbn [map flat_map]. rewrite IH. now destruct k. Qed.
Lemma is_el_inv nm n : is_el nm n = true -> exists sp ks, n = Elem (u nm) sp ks.
Proof. destruct n as [m sp ks|s|s]; cbn; try discriminate. intros H. apply str_eqb_eq in H. subst m. eauto. Qed.
Lemma run_text_proc i n : run_text i (proc i n) = run_text i n.
Proof.
  destruct n as [m sp ks|s|s]; try reflexivity. cbn [AdaptDocx.proc run_text]. destruct (str_eqb m (u "r"%string)) eqn:E; [|reflexivity].
  apply str_eqb_eq in E. subst m. change (str_eqb (u "r"%string) (u "p"%string)) with false. cbv iota. rewrite filter_map_el.
  destruct (filter (is_el "t"%string) ks) as [|t1 [|t2 r]] eqn:F; [reflexivity| |destruct t1; reflexivity].
  assert (T : is_el "t"%string t1 = true). { assert (I : In t1 (filter (is_el "t"%string) ks)) by (rewrite F; now left). now apply filter_In in I. }
  apply is_el_inv in T. destruct T as (spt & tk & ->). cbn [map AdaptDocx.proc]. change (str_eqb (u "t"%string) (u "p"%string)) with false. cbv iota. now rewrite pieces_proc.
Qed.
Lemma run_text_inv i n s : run_text i n = Some s -> exists sp ks, n = Elem (u "r"%string) sp ks.
Proof. destruct n as [m sp ks|x|x]; try discriminate. cbn [run_text]. destruct (str_eqb m (u "r"%string)) eqn:E; [|discriminate]. apply str_eqb_eq in E. subst m. eauto. Qed.
Lemma no_t ks : Forall (fun n => is_el "t"%string n = false) ks -> filter (is_el "t"%string) ks = [].
Proof. induction 1 as [|k ks H _ IH]; [reflexivity|]. cbn. now rewrite H. Qed.
Lemma filter_one a t1 b : Forall (fun n => is_el "t"%string n = false) (a ++ b) -> is_el "t"%string t1 = true -> filter (is_el "t"%string) (a ++ t1 :: b) = [t1].
Proof. intros H T. apply Forall_app in H. destruct H as [A B]. rewrite filter_app. cbn. rewrite T, (no_t a A), (no_t b B). reflexivity. Qed.
Lemma run_text_run i sp a spt tk b : Forall (fun n => is_el "t"%string n = false) (a ++ b) ->
  run_text i (Elem (u "r"%string) sp (a ++ Elem (u "t"%string) spt tk :: b)) = Some (flat_map (piece (eff (eff i sp) spt)) tk).
Proof. intros H. cbn [run_text]. change (str_eqb (u "r"%string) (u "r"%string)) with true. cbv iota. now rewrite (filter_one a _ b H (eq_refl : is_el "t"%string (Elem (u "t"%string) spt tk) = true)). Qed.
Lemma flat_map_nil {A B} (f : A -> list B) l : Forall (fun x => f x = []) l -> flat_map f l = [].
Proof. induction 1 as [|x l H _ IH]; [reflexivity|]. cbn. now rewrite H. Qed.
Lemma shown_run i sp a spt tk b : Forall (fun n => is_el "t"%string n = false /\ shown (eff i sp) n = []) (a ++ b) ->
  shown i (Elem (u "r"%string) sp (a ++ Elem (u "t"%string) spt tk :: b)) = flat_map (piece (eff (eff i sp) spt)) tk.
Proof.
  intros H. apply Forall_app in H. destruct H as [A B]. cbn [shown]. change (str_eqb (u "r"%string) (u "t"%string)) with false. cbv iota.
  rewrite flat_map_app. cbn [flat_map]. rewrite (flat_map_nil _ a), (flat_map_nil _ b).
  - cbn [shown]. change (str_eqb (u "t"%string) (u "t"%string)) with true. cbv iota. cbn. now rewrite app_nil_r.
  - eapply Forall_impl; [|exact B]. intros x [_ Hx]; exact Hx.
  - eapply Forall_impl; [|exact A]. intros x [_ Hx]; exact Hx.
Qed.
Lemma plain_shown i n : plain_kid i n -> shown i n = match run_text i n with Some s => s | None => [] end.
Proof.
  intros [n0 R S|sp a spt tk b F M]; [now rewrite R|].
  rewrite shown_run by exact F. rewrite run_text_run; [reflexivity|]. eapply Forall_impl; [|exact F]. intros x [Hx _]; exact Hx.
Qed.
(** setText *)
Lemma trim_id s : hd 0%N s <> cSP -> last s 0%N <> cSP -> trim s = s.
Proof.
  intros H L. unfold trim. assert (D : forall x, hd 0%N x <> cSP -> drop_sp x = x).
  { intros [|c x] Hx; [reflexivity|]. cbn in Hx |- *. now rewrite (proj2 (ceq_neq _ _) Hx). }
  rewrite (D s H), D; [apply rev_involutive|]. destruct s as [|c x _] using rev_ind; [cbn; discriminate|]. rewrite last_app1 in L. now rewrite rev_app_distr.
Qed.
Lemma markup_no_text keep ks : Forall markup ks -> flat_map (piece keep) ks = [].
Proof. intros H. apply flat_map_nil. eapply Forall_impl; [|exact H]. intros [| |]; cbn; tauto. Qed.
Lemma set_text_run s sp a spt c tk b : Forall (fun n => is_el "t"%string n = false) (a ++ b) ->
  set_text s (Elem (u "r"%string) sp (a ++ Elem (u "t"%string) spt (c :: tk) :: b)) =
  Elem (u "r"%string) sp (a ++ Elem (u "t"%string) (Some ((hd 0%N s =?c cSP) || (last s 0%N =?c cSP))) (Text s :: tk) :: b).
Proof.
  intros H. apply Forall_app in H. destruct H as [A B]. cbn [set_text]. f_equal. rewrite map_app. cbn [map].
  assert (M : forall l, Forall (fun n => is_el "t"%string n = false) l -> map (set_t s) l = l).
  { induction 1 as [|k l Hk _ IH]; [reflexivity|]. cbn [map]. rewrite IH. unfold set_t. now rewrite Hk. }
  rewrite (M a A), (M b B). reflexivity.
Qed.
Lemma set_text_plain i s n s0 : s <> [] -> s0 <> [] -> plain_kid i n -> run_text i n = Some s0 ->
  plain_kid i (set_text s n) /\ run_text i (set_text s n) = Some s.
Proof.
  intros NE NE0 [n0 R S|sp a spt tk b F M] RT; [congruence|].
  assert (F' : Forall (fun n => is_el "t"%string n = false) (a ++ b)) by (eapply Forall_impl; [|exact F]; intros x [Hx _]; exact Hx).
  rewrite run_text_run in RT by exact F'. destruct tk as [|c tk]; [cbn in RT; congruence|]. rewrite set_text_run by exact F'. split.
  - apply K_run; [exact F|exact M].
  - rewrite run_text_run by exact F'. f_equal. cbn [flat_map piece eff]. rewrite (markup_no_text _ tk M), app_nil_r.
    destruct ((hd 0%N s =?c cSP) || (last s 0%N =?c cSP)) eqn:E; [reflexivity|]. apply orb_false_iff in E. destruct E as [E1 E2].
    apply trim_id; now apply ceq_neq.
Qed.
(** One paragraph *)
Definition nonempty (s : str) : bool := match s with [] => false | _ => true end.
Lemma texts_app i a b : texts i (a ++ b) = texts i a ++ texts i b.
Proof. induction a as [|k a IH]; [reflexivity|]. cbn. rewrite IH. now destruct (run_text i k). Qed.
Lemma texts_none i a : Forall (fun n => run_text i n = None) a -> texts i a = [].
Proof. induction 1 as [|k a H _ IH]; [reflexivity|]. cbn. now rewrite H. Qed.
Lemma rewrite_none i a ps : Forall (fun n => run_text i n = None) a -> forall r, rewrite_runs i (a ++ r) ps = a ++ rewrite_runs i r ps.
Proof. induction 1 as [|k a H _ IH]; intros r; [reflexivity|]. cbn. rewrite H. now rewrite IH. Qed.
Definition fits (s0 s : str) : Prop := s0 = [] -> s = [].
Lemma rewrite_plain i c : Forall (fun n => run_text i n = None) c -> forall b ps, Forall (plain_kid i) b -> Forall2 fits (texts i b) ps ->
  exists b', rewrite_runs i (b ++ c) ps = b' ++ c /\ Forall (plain_kid i) b' /\ texts i b' = filter nonempty ps /\ flat_map (shown i) b' = concat ps.
Proof.
  intros HC. induction b as [|k b IH]; intros ps P F.
  - cbn in F. inversion F; subst. exists []. split; [|cbn; auto]. pose proof (rewrite_none i c [] HC []) as R. rewrite app_nil_r in R. cbn in R |- *. rewrite R. cbn. now rewrite app_nil_r.
  - inversion P as [|? ? PK PB]; subst. cbn [texts] in F. cbn [app rewrite_runs]. destruct (run_text i k) as [s0|] eqn:R.
    + inversion F as [|? s ? ps' FT FR]; subst. destruct (IH ps' PB FR) as (b' & A & B & C & D). destruct s as [|c0 s].
      * exists b'. cbn. auto.
      * destruct (set_text_plain i (c0 :: s) k s0 ltac:(discriminate) ltac:(intros ->; discriminate (FT eq_refl)) PK R) as [S1 S2].
        exists (set_text (c0 :: s) k :: b'). split; [cbn; now rewrite A|]. split; [now constructor|]. split.
        -- cbn [texts filter nonempty]. rewrite S2. now rewrite C.
        -- cbn [flat_map concat]. rewrite (plain_shown i _ S1), S2, D. reflexivity.
    + destruct (IH ps PB F) as (b' & A & B & C & D). exists (k :: b'). split; [cbn; now rewrite A|]. split; [now constructor|]. split.
      * cbn [texts]. now rewrite R.
      * cbn [flat_map]. rewrite (plain_shown i k PK), R. exact D.
Qed.
Lemma ends_S ts : forall k, k < length ts -> ends ts (S k) = ends ts k + length (nth k ts []).
Proof.
  unfold ends. induction ts as [|x ts IH]; intros k H; [cbn in H; lia|]. destruct k as [|k]; [cbn [firstn concat nth]; rewrite app_nil_r; reflexivity|].
  cbn in H. specialize (IH k ltac:(lia)). cbn [firstn concat nth] in *. rewrite !app_length. lia.
Qed.
Lemma fits_of_ends ts out : length out = length ts -> (forall k, k <= length ts -> ends out k = fb (concat ts) (ends ts k)) -> Forall2 fits ts out.
Proof.
  intros L E. assert (N : forall k, k < length ts -> fits (nth k ts []) (nth k out [])).
  { intros k K Z. pose proof (E k ltac:(lia)) as E1. pose proof (E (S k) ltac:(lia)) as E2.
    pose proof (ends_S out k ltac:(rewrite L; exact K)) as Q1. pose proof (ends_S ts k K) as Q2.
    assert (Q3 : ends ts (S k) = ends ts k) by (rewrite Q2; transitivity (ends ts k + 0); [f_equal; exact (f_equal (@length char) Z)|lia]).
    rewrite Q3, <- E1 in E2. rewrite Q1 in E2. destruct (nth k out []) as [|c x]; [reflexivity|cbn in E2; lia]. }
  clear E. revert out L N. induction ts as [|x ts IH]; intros [|y out] L N; try discriminate; [constructor|]. constructor.
  - apply (N 0). cbn. lia.
  - apply IH; [cbn in L; lia|]. intros k K. apply (N (S k)). cbn. lia.
Qed.
Lemma concat_nonempty ps : concat (filter nonempty ps) = concat ps.
Proof. induction ps as [|p ps IH]; [reflexivity|]. cbn. destruct p; cbn; [exact IH|now rewrite IH]. Qed.
Lemma ends_nonempty ps : forall k, exists k', ends (filter nonempty ps) k = ends ps k'.
Proof.
  unfold ends. induction ps as [|p ps IH]; intros k; [exists 0; destruct k; reflexivity|]. cbn [filter]. destruct p as [|c p]; cbn [nonempty].
  - destruct (IH k) as [k' E]. exists (S k'). exact E.
  - destruct k as [|k]; [exists 0; reflexivity|]. destruct (IH k) as [k' E]. exists (S k'). cbn [firstn concat]. rewrite !app_length. lia.
Qed.
Lemma ends_over ts k : length ts <= k -> ends ts k = length (concat ts).
Proof. intros H. unfold ends. now rewrite firstn_all2. Qed.
Lemma para_plain i ks : plain_para i ks -> plain_para i (para i ks) /\ flat_map (shown i) (para i ks) = flat_map (shown i) ks /\
  (forall k, ~ stuck (concat (texts i (para i ks))) (ends (texts i (para i ks)) k)).
Proof.
  intros (a & b & c & -> & HA & HB & HC). pose proof (adjust_spec (texts i (a ++ b ++ c))) as S. cbv zeta in S.
  assert (TX : texts i (a ++ b ++ c) = texts i b) by (rewrite !texts_app, (texts_none i a HA), (texts_none i c HC), app_nil_r; reflexivity).
  assert (SH : flat_map (shown i) b = concat (texts i b)).
  { clear - HB. induction HB as [|k b H _ IH]; [reflexivity|]. cbn [flat_map texts]. rewrite (plain_shown i k H), IH. now destruct (run_text i k). }
  unfold para. destruct (adjust alpha (texts i (a ++ b ++ c))) as [ps|] eqn:AD.
  - destruct S as (S1 & S2 & S3). rewrite TX in *. pose proof (fits_of_ends _ _ S2 S3) as FT.
    destruct (rewrite_plain i c HC b ps HB FT) as (b' & A & B & C & D).
    rewrite (rewrite_none i a ps HA), A. split; [exists a, b', c; auto|]. split.
    + rewrite !flat_map_app, D, SH, S1. reflexivity.
    + rewrite !texts_app, (texts_none i a HA), (texts_none i c HC), app_nil_r, C. cbn [app]. intros k H.
      assert (CC : concat (filter nonempty ps) = concat (texts i b)) by (etransitivity; [apply concat_nonempty|exact S1]).
      destruct (ends_nonempty ps k) as [k' E].
      assert (H' : stuck (concat (texts i b)) (ends ps k')) by (refine (eq_ind _ (fun x => stuck x _) _ _ CC); refine (eq_ind _ (fun x => stuck _ x) H _ E)).
      destruct (le_lt_dec k' (length (texts i b))) as [K|K].
      * pose proof (S3 k' K) as Q. pose proof (fb_first (concat (texts i b)) (ends (texts i b) k')) as (_ & N & _). apply N. refine (eq_ind _ (fun x => stuck _ x) H' _ Q).
      * pose proof (ends_over ps k' ltac:(rewrite S2; lia)) as Q. apply stuck_range in H'. rewrite Q in H'. pose proof (f_equal (@length char) S1) as Q'. unfold str in *. lia.
  - split; [exists a, b, c; auto|]. split; [reflexivity|]. intros k. destruct S as (_ & _ & S3).
    destruct (le_lt_dec k (length (texts i (a ++ b ++ c)))) as [K|K].
    + rewrite (S3 k K). apply fb_first.
    + rewrite ends_over by lia. intros H. apply stuck_range in H. lia.
Qed.
Lemma para_again i ks : (forall k, ~ stuck (concat (texts i ks)) (ends (texts i ks) k)) -> para i ks = ks.
Proof.
  intros H. unfold AdaptDocx.para. rewrite adjust_fixed; [reflexivity|]. intros k K. apply (first_cut_unique (concat (texts i ks)) (ends (texts i ks) k)); [apply fb_first|].
  split; [lia|split; [apply H|intros; lia]].
Qed.
(** The whole document *)
Lemma proc_plain_kid i n : plain_kid i n -> tidy i n -> (tidy i n -> shown i (proc i n) = shown i n) ->
  (forall sp ks, n = Elem (u "r"%string) sp ks -> Forall (fun k => tidy (eff i sp) k -> shown (eff i sp) (proc (eff i sp) k) = shown (eff i sp) k) ks) ->
  plain_kid i (proc i n).
Proof.
  intros [n0 R S|sp a spt tk b F M] T IH1 IH2.
  - apply K_nothing; [now rewrite run_text_proc|rewrite IH1; auto].
  - specialize (IH2 _ _ eq_refl). cbn [AdaptDocx.proc]. change (str_eqb (u "r"%string) (u "p"%string)) with false. cbv iota. rewrite map_app. cbn [map AdaptDocx.proc].
    change (str_eqb (u "t"%string) (u "p"%string)) with false. cbv iota. apply K_run.
    + inversion T as [| |? ? ? TK _]; subst. rewrite <- map_app. rewrite Forall_forall in *. intros x X. apply in_map_iff in X. destruct X as (y & <- & Y).
      assert (Y' : In y (a ++ Elem (u "t"%string) spt tk :: b)). { apply in_app_iff in Y. apply in_app_iff. cbn. tauto. }
      destruct (F y Y) as [F1 F2]. split; [now rewrite is_el_proc|]. rewrite IH2; auto.
    + destruct tk as [|c tk]; [constructor|]. cbn in M |- *. rewrite Forall_forall in *. intros x X. apply in_map_iff in X. destruct X as (y & <- & Y).
      specialize (M y Y). destruct y; cbn in M |- *; tauto.
Qed.
Lemma t_shown_proc i sp ks : shown i (proc i (Elem (u "t"%string) sp ks)) = shown i (Elem (u "t"%string) sp ks).
Proof. cbn [AdaptDocx.proc shown]. change (str_eqb (u "t"%string) (u "p"%string)) with false. change (str_eqb (u "t"%string) (u "t"%string)) with true. cbv iota. apply pieces_proc. Qed.
Lemma flat_map_eq {A B} (f g : A -> list B) l : Forall (fun x => f x = g x) l -> flat_map f l = flat_map g l.
Proof. induction 1 as [|x l H _ IH]; [reflexivity|]. cbn. now rewrite H, IH. Qed.
Lemma flat_map_map {A B C} (f : B -> list C) (g : A -> B) l : flat_map f (map g l) = flat_map (fun x => f (g x)) l.
Proof. induction l as [|x l IH]; [reflexivity|]. cbn. now rewrite IH. Qed.
Lemma para_proc i ks : (forall k, In k ks -> tidy i k -> shown i (proc i k) = shown i k) ->
  (forall k sp l, In k ks -> k = Elem (u "r"%string) sp l -> Forall (fun x => tidy (eff i sp) x -> shown (eff i sp) (proc (eff i sp) x) = shown (eff i sp) x) l) ->
  Forall (tidy i) ks -> plain_para i ks -> plain_para i (map (proc i) ks).
Proof.
  intros H1 H2 T (a & b & c & -> & HA & HB & HC). rewrite Forall_forall in *. exists (map (proc i) a), (map (proc i) b), (map (proc i) c).
  split; [now rewrite !map_app|]. split; [|split].
  - apply Forall_forall. intros x X. apply in_map_iff in X. destruct X as (y & <- & Y). rewrite run_text_proc. auto.
  - apply Forall_forall. intros x X. apply in_map_iff in X. destruct X as (y & <- & Y).
    assert (IN : In y (a ++ b ++ c)) by (rewrite !in_app_iff; auto). apply proc_plain_kid; auto. intros sp l ->. eapply H2; eauto.
  - apply Forall_forall. intros x X. apply in_map_iff in X. destruct X as (y & <- & Y). rewrite run_text_proc. auto.
Qed.
(* the statement carried through the tree: for the node and for its children *)
Definition keeps (n : node) : Prop := forall i, tidy i n -> shown i (proc i n) = shown i n.
Lemma keeps_all n : keeps n /\ (forall m sp ks, n = Elem m sp ks -> Forall keeps ks).
Proof.
  induction n as [m sp ks IH|s|s] using node_ind'.
  - assert (K : Forall keeps ks) by (eapply Forall_impl; [|exact IH]; intros x [Hx _]; exact Hx).
    split; [|intros ? ? ? E; injection E as <- <- <-; exact K].
    intros i T. inversion T as [| |? ? ? TK TP]; subst.
    assert (KS : flat_map (shown (eff i sp)) (map (proc (eff i sp)) ks) = flat_map (shown (eff i sp)) ks).
    { rewrite flat_map_map. apply flat_map_eq. rewrite Forall_forall in *. intros x X. apply K; auto. }
    destruct (str_eqb m (u "t"%string)) eqn:ET.
    { apply str_eqb_eq in ET. subst m. apply t_shown_proc. }
    cbn [AdaptDocx.proc shown]. rewrite ET. destruct (str_eqb m (u "p"%string)) eqn:EP; [|exact KS].
    apply str_eqb_eq in EP. specialize (TP EP). rewrite <- KS.
    apply para_plain. apply para_proc; auto.
    + rewrite Forall_forall in K. intros k X. apply K; exact X.
    + intros k spk l X ->. rewrite Forall_forall in IH. destruct (IH _ X) as [_ Q]. specialize (Q _ _ _ eq_refl). eapply Forall_impl; [|exact Q]. intros x Hx. apply Hx.
  - split; [intros i _; reflexivity|discriminate].
  - split; [intros i _; reflexivity|discriminate].
Qed.
Lemma shown_proc i n : tidy i n -> shown i (proc i n) = shown i n.
Proof. apply keeps_all. Qed.
Lemma plain_proc i ks : Forall (tidy i) ks -> plain_para i ks -> plain_para i (map (proc i) ks).
Proof.
  intros T P. apply para_proc; auto.
  - intros k _. apply shown_proc.
  - intros k sp l _ _. apply Forall_forall. intros x _. apply shown_proc.
Qed.
(* the children of an adapted paragraph *)
Lemma rewrite_In i ks : forall ps k, In k (rewrite_runs i ks ps) -> In k ks \/ exists s k0 s0, In k0 ks /\ run_text i k0 = Some s0 /\ k = set_text s k0.
Proof.
  induction ks as [|x ks IH]; intros ps k H; [contradiction|]. cbn [rewrite_runs] in H. destruct (run_text i x) as [s0|] eqn:R.
  - destruct ps as [|[|c s] ps].
    + destruct H as [<-|H]; [left; now left|]. apply IH in H. destruct H as [H|(s & k0 & s1 & A & B & C)]; [left; now right|right; exists s, k0, s1; cbn; auto].
    + apply IH in H. destruct H as [H|(s & k0 & s1 & A & B & C)]; [left; now right|right; exists s, k0, s1; cbn; auto].
    + destruct H as [<-|H]; [right; exists (c :: s), x, s0; cbn; auto|]. apply IH in H. destruct H as [H|(s' & k0 & s1 & A & B & C)]; [left; now right|right; exists s', k0, s1; cbn; auto].
  - destruct H as [<-|H]; [left; now left|]. apply IH in H. destruct H as [H|(s & k0 & s1 & A & B & C)]; [left; now right|right; exists s, k0, s1; cbn; auto].
Qed.

Lemma map_fixed {A} (f : A -> A) l : map f l = l -> Forall (fun x => f x = x) l.
Proof. induction l as [|x l IH]; cbn; intros H; constructor; injection H as H1 H2; auto. Qed.
Lemma fixed_map {A} (f : A -> A) l : Forall (fun x => f x = x) l -> map f l = l.
Proof. induction 1 as [|x l H _ IH]; [reflexivity|]. cbn. now rewrite H, IH. Qed.
Lemma plain_run i k s : plain_kid i k -> run_text i k = Some s -> exists sp a spt tk b, k = Elem (u "r"%string) sp (a ++ Elem (u "t"%string) spt tk :: b) /\
  Forall (fun n => is_el "t"%string n = false) (a ++ b) /\ Forall markup (tl tk).
Proof.
  intros [n0 R S|sp a spt tk b F M] H; [congruence|]. exists sp, a, spt, tk, b. split; [reflexivity|]. split; [|exact M]. eapply Forall_impl; [|exact F]; intros x [Hx _]; exact Hx.
Qed.
Lemma only_t a t1 b x : Forall (fun n => is_el "t"%string n = false) (a ++ b) -> In x (a ++ t1 :: b) -> is_el "t"%string x = true -> x = t1.
Proof.
  intros F H T. rewrite Forall_forall in F. apply in_app_iff in H. destruct H as [H|[<-|H]]; auto.
  - rewrite F in T; [discriminate|apply in_app_iff; auto].
  - rewrite F in T; [discriminate|apply in_app_iff; auto].
Qed.
Lemma markup_proc i l : Forall markup l -> map (proc i) l = l.
Proof. intros H. apply fixed_map. eapply Forall_impl; [|exact H]. intros [| |]; cbn; tauto. Qed.
Lemma set_text_fixed i k s0 s : plain_kid i k -> run_text i k = Some s0 -> proc i k = k -> proc i (set_text s k) = set_text s k.
Proof.
  intros P R FX. destruct (plain_run i k s0 P R) as (sp & a & spt & tk & b & -> & F & M). cbn [AdaptDocx.proc set_text] in *.
  change (str_eqb (u "r"%string) (u "p"%string)) with false in *. cbv iota in *. injection FX as FX. f_equal. rewrite map_map. apply map_ext_in. intros x X.
  apply map_fixed in FX. rewrite Forall_forall in FX. unfold set_t. destruct (is_el "t"%string x) eqn:T; [|apply FX; exact X].
  rewrite (only_t a _ b x F X T). destruct tk as [|c tk]; cbn [AdaptDocx.proc map]; change (str_eqb (u "t"%string) (u "p"%string)) with false; cbv iota; [reflexivity|].
  cbn in M. now rewrite markup_proc.
Qed.
Lemma para_kid_run i ks k s : plain_para i ks -> In k ks -> run_text i k = Some s -> plain_kid i k.
Proof.
  intros (a & b & c & -> & HA & HB & HC) H R. rewrite Forall_forall in *. rewrite !in_app_iff in H. destruct H as [H|[H|H]]; auto.
  - rewrite HA in R by exact H. discriminate.
  - rewrite HC in R by exact H. discriminate.
Qed.
Lemma para_In i ks k : In k (para i ks) -> In k ks \/ exists s k0 s0, In k0 ks /\ run_text i k0 = Some s0 /\ k = set_text s k0.
Proof. unfold AdaptDocx.para. destruct (adjust alpha (texts i ks)); [apply rewrite_In|auto]. Qed.
Lemma proc_idem n : forall i, tidy i n -> proc i (proc i n) = proc i n.
Proof.
  induction n as [m sp ks IH|s|s] using node_ind'; intros i T; [|reflexivity|reflexivity]. inversion T as [| |? ? ? TK TP]; subst.
  assert (K : forall x, In x (map (proc (eff i sp)) ks) -> proc (eff i sp) x = x).
  { intros x X. apply in_map_iff in X. destruct X as (y & <- & Y). rewrite Forall_forall in *. apply IH; auto. }
  cbn [AdaptDocx.proc]. f_equal. destruct (str_eqb m (u "p"%string)) eqn:E.
  - apply str_eqb_eq in E. specialize (TP E). pose proof (plain_proc _ _ TK TP) as PP. set (ks' := map (proc (eff i sp)) ks) in *.
    assert (FX : map (proc (eff i sp)) (para (eff i sp) ks') = para (eff i sp) ks').
    { apply fixed_map. apply Forall_forall. intros x X. apply para_In in X. destruct X as [X|(s & k0 & s0 & A & B & ->)]; [now apply K|].
      eapply set_text_fixed; [eapply para_kid_run; eauto|exact B|now apply K]. }
    rewrite FX. apply para_again. apply (para_plain _ _ PP).
  - apply fixed_map. apply Forall_forall. exact K.
Qed.
Lemma set_text_para i k s0 s j l : plain_kid i k -> run_text i k = Some s0 -> para_in i (set_text s k) j l -> para_in i k j l.
Proof.
  intros P R H. destruct (plain_run i k s0 P R) as (sp & a & spt & tk & b & -> & F & M). cbn [set_text] in H.
  inversion H as [sp' ks' E1|m' sp' ks' k' j' l' IN H' E1]; subst; try discriminate. apply in_map_iff in IN. destruct IN as (x & <- & X).
  unfold set_t in H'. destruct (is_el "t"%string x) eqn:T; [|now apply (P_in i (u "r"%string) sp _ x)].
  exfalso. rewrite (only_t a _ b x F X T) in H'. destruct tk as [|c tk]; inversion H' as [? ? E2|? ? ? k2 ? ? IN2 H2 E2]; subst; try discriminate; [contradiction|].
  destruct IN2 as [<-|IN2]; [inversion H2|]. cbn in M. rewrite Forall_forall in M. specialize (M k2 IN2). destruct k2; try contradiction. inversion H2.
Qed.
Lemma proc_legal n : forall i, tidy i n -> forall j l, para_in i (proc i n) j l -> forall k, ~ stuck (concat (texts j l)) (ends (texts j l) k).
Proof.
  induction n as [m sp ks IH|s|s] using node_ind'; intros i T j l H; [|inversion H|inversion H]. inversion T as [| |? ? ? TK TP]; subst.
  rewrite Forall_forall in IH. cbn [AdaptDocx.proc] in H.
  assert (K : forall x, In x (map (proc (eff i sp)) ks) -> para_in (eff i sp) x j l -> forall k, ~ stuck (concat (texts j l)) (ends (texts j l) k)).
  { intros x X HX. apply in_map_iff in X. destruct X as (y & <- & Y). rewrite Forall_forall in TK. eapply IH; eauto. }
  destruct (str_eqb m (u "p"%string)) eqn:E.
  - pose proof E as E'. apply str_eqb_eq in E'. specialize (TP E'). pose proof (plain_proc _ _ TK TP) as PP.
    inversion H as [sp' ks' E1|m' sp' ks' k' j' l' IN H' E1]; subst.
    + apply (para_plain _ _ PP).
    + apply para_In in IN. destruct IN as [IN|(s & k0 & s0 & A & B & ->)]; [now apply (K k')|].
      apply (K k0 A). eapply set_text_para; eauto. eapply para_kid_run; eauto.
  - inversion H as [sp' ks' E1|m' sp' ks' k' j' l' IN H' E1]; subst; [rewrite str_eqb_refl in E; discriminate|]. now apply (K k').
Qed.
(** What may differ *)
Lemma adapted_kids m sp ks ks' : Forall2 adapted ks ks' -> forall pre, adapted (Elem m sp (pre ++ ks)) (Elem m sp (pre ++ ks')).
Proof.
  induction 1 as [|x y ks ks' H _ IH]; intros pre; [apply A_same|]. apply (A_trans _ (Elem m sp (pre ++ y :: ks))); [now apply A_kid|].
  specialize (IH (pre ++ [y])). rewrite <- !app_assoc in IH. exact IH.
Qed.
Lemma set_t_adapted s n : adapted n (set_t s n).
Proof.
  unfold set_t. destruct (is_el "t"%string n) eqn:T; [|apply A_same]. apply is_el_inv in T. destruct T as (sp & ks & ->).
  destruct ks; [apply A_space|apply A_text].
Qed.
Lemma set_text_adapted s n : adapted n (set_text s n).
Proof.
  destruct n as [m sp ks|x|x]; try apply A_same. apply (adapted_kids m sp ks (map (set_t s) ks)) with (pre := []).
  induction ks as [|k ks IH]; constructor; [apply set_t_adapted|exact IH].
Qed.
Lemma rewrite_adapted i sp ks : forall ps pre, adapted (Elem (u "p"%string) sp (pre ++ ks)) (Elem (u "p"%string) sp (pre ++ rewrite_runs i ks ps)).
Proof.
  induction ks as [|x ks IH]; intros ps pre; [apply A_same|]. cbn [rewrite_runs].
  assert (G : forall y ps, adapted x y -> adapted (Elem (u "p"%string) sp (pre ++ x :: ks)) (Elem (u "p"%string) sp (pre ++ y :: rewrite_runs i ks ps))).
  { intros y ps' A. apply (A_trans _ (Elem (u "p"%string) sp (pre ++ y :: ks))); [now apply A_kid|]. specialize (IH ps' (pre ++ [y])). rewrite <- !app_assoc in IH. exact IH. }
  destruct (run_text i x) as [s0|] eqn:R; [|apply G, A_same]. destruct ps as [|[|c s] ps].
  - apply G, A_same.
  - destruct (run_text_inv i x s0 R) as (spr & kr & ->). eapply A_trans; [apply A_drop|apply IH].
  - apply G, set_text_adapted.
Qed.
Lemma proc_adapted n : forall i, adapted n (proc i n).
Proof.
  induction n as [m sp ks IH|s|s] using node_ind'; intros i; [|apply A_same|apply A_same]. cbn [AdaptDocx.proc].
  apply (A_trans _ (Elem m sp (map (proc (eff i sp)) ks))).
  - apply (adapted_kids m sp ks _) with (pre := []). clear - IH. induction IH as [|k ks H _ IHk]; constructor; [apply H|exact IHk].
  - destruct (str_eqb m (u "p"%string)) eqn:E; [|apply A_same]. apply str_eqb_eq in E. subst m. unfold AdaptDocx.para.
    destruct (adjust alpha _); [apply (rewrite_adapted _ sp _ _ [])|apply A_same].
Qed.
End P.

(** ** Printing *)
Lemma nl_spec c : nl c = true <-> c = 10%N \/ c = 13%N.
Proof. unfold nl. rewrite orb_true_iff, !N.eqb_eq. tauto. Qed.
Lemma until_spec s : forall a b, until_nl s = (a, b) -> s = a ++ b /\ Forall (fun c => nl c = false) a /\ (forall c r, b = c :: r -> nl c = true).
Proof.
  induction s as [|c s IH]; intros a b H; cbn in H; [injection H as <- <-; repeat split; [constructor|discriminate]|].
  destruct (nl c) eqn:E; [injection H as <- <-; repeat split; [constructor|intros ? ? Q; injection Q as <- _; exact E]|].
  destruct (until_nl s) as [a' b']. injection H as <- <-. destruct (IH _ _ eq_refl) as (-> & A & B). repeat split; [now constructor|exact B].
Qed.
Lemma skip_spec s : exists w, s = w ++ skip_nl s /\ Forall (fun c => c = 10%N \/ c = 13%N) w /\ (forall c r, skip_nl s = c :: r -> nl c = false).
Proof.
  induction s as [|c s IH]; [exists []; repeat split; [constructor|discriminate]|]. cbn. destruct (nl c) eqn:E.
  - destruct IH as (w & A & B & C). exists (c :: w). repeat split; [cbn; now rewrite <- A|constructor; [now apply nl_spec|exact B]|exact C].
  - exists []. repeat split; [constructor|intros ? ? Q; injection Q as <- _; exact E].
Qed.
Lemma one_line_app a : Forall (fun c => nl c = false) a -> forall s r, one_line s r -> one_line (a ++ s) (a ++ r).
Proof.
  induction 1 as [|c a H _ IH]; intros s r O; [exact O|]. cbn. assert (N : ~ (c = 10%N \/ c = 13%N)) by (rewrite <- nl_spec; congruence).
  apply O_char; [tauto|tauto|now apply IH].
Qed.
Lemma skip_shrinks c s : nl c = true -> length (skip_nl (c :: s)) <= length s.
Proof. intros H. cbn. rewrite H. clear H. induction s as [|d s IH]; [cbn; lia|]. cbn. destruct (nl d); cbn; lia. Qed.
(* what is left of a text that ends with a line end *)
Lemma line_spec s a b : until_nl s = (a, b) -> b <> [] -> exists w, s = a ++ w ++ skip_nl b /\ w <> [] /\ Forall (fun c => c = 10%N \/ c = 13%N) w /\
  (forall r, one_line (skip_nl b) r -> one_line s ((a ++ [cSP]) ++ r)).
Proof.
  intros U NB. destruct (until_spec _ _ _ U) as (-> & A & B). destruct (skip_spec b) as (w & E & W & N). exists w.
  assert (NW : w <> []). { intros ->. destruct b as [|c b']; [congruence|]. cbn in E. pose proof (B c b' eq_refl) as Q. rewrite (N c b') in Q; [discriminate|]. symmetry. exact E. }
  split; [now rewrite <- E|]. split; [exact NW|]. split; [exact W|]. intros r O. rewrite <- app_assoc. apply one_line_app; [exact A|]. rewrite E at 1.
  apply O_nls; auto. intros c s' Q. pose proof (N c s' Q) as X. assert (Y : ~ (c = 10%N \/ c = 13%N)) by (rewrite <- nl_spec; congruence). tauto.
Qed.
Lemma print_rest_spec : forall fuel s, length s < fuel -> s <> [] -> nl (last s 0%N) = true -> exists r, print_rest fuel s = r /\ one_line s r.
Proof.
  induction fuel as [|fuel IH]; intros s FU NE L; [lia|]. cbn [print_rest]. unfold print_line. destruct (until_nl s) as [a b] eqn:U.
  assert (NB : b <> []).
  { intros ->. destruct (until_spec _ _ _ U) as (-> & A & _). rewrite app_nil_r in *. destruct a as [|c a _] using rev_ind; [exfalso; apply NE; reflexivity|].
    rewrite last_app1 in L. apply Forall_app in A. destruct A as [_ A]. inversion A; congruence. }
  destruct (line_spec s a b U NB) as (w & E & NW & W & O).
  destruct (skip_nl b) as [|c b'] eqn:SK.
  - exists (a ++ [cSP]). split; [reflexivity|]. specialize (O [] O_nil). rewrite app_nil_r in O. exact O.
  - destruct (IH (c :: b')) as (r & R1 & R2).
    + assert (Q : length s = length a + (length w + S (length b'))) by (rewrite E; rewrite !app_length; reflexivity).
      assert (0 < length w) by (destruct w; [congruence|cbn; lia]). cbn [length]. unfold str, char in *. lia.
    + discriminate.
    + rewrite E in L. rewrite app_assoc in L. destruct (exists_last (l := c :: b') ltac:(discriminate)) as (x & y & Q). rewrite Q in *. rewrite app_assoc, last_app1 in L. now rewrite last_app1.
    + exists ((a ++ [cSP]) ++ r). split; [now rewrite R1|]. now apply O.
Qed.
