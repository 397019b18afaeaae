From Coq Require Import QArith Lqa.
From Verif Require Import Model.Base Proofs.Base Model.HMM Spec.HMM Proofs.HMM Model.BaumWelch Spec.BaumWelch.
Open Scope nat_scope.
Local Arguments Qplus : simpl never.
Local Arguments Qmult : simpl never.
Local Arguments Qdiv : simpl never.
Local Arguments Qle : simpl never.
Local Arguments Qeq : simpl never.
Local Arguments Qeq_bool : simpl never.

Definition ind (b : bool) : Q := if b then 1%Q else 0%Q.

(** ** more on sums *)
Lemma total_cons x l f : (total (x :: l) f == f x + total l f)%Q.
Proof. unfold total; cbn [fold_right]; reflexivity. Qed.
Lemma total_nil f : (total [] f == 0)%Q.
Proof. reflexivity. Qed.
Lemma total_mul c l f : (total l (fun j => (c * f j)%Q) == c * total l f)%Q.
Proof. induction l as [|x l IH]; [rewrite !total_nil; ring|rewrite !total_cons, IH; ring]. Qed.
Lemma total_mulr c l f : (total l (fun j => (f j * c)%Q) == total l f * c)%Q.
Proof. induction l as [|x l IH]; [rewrite !total_nil; ring|rewrite !total_cons, IH; ring]. Qed.
Lemma total_swap l m (f : nat -> nat -> Q) : (total l (fun i => total m (f i)) == total m (fun j => total l (fun i => f i j)))%Q.
Proof.
  induction l as [|x l IH].
  - rewrite total_nil. symmetry. rewrite (total_ext m _ (fun _ => 0%Q)); [rewrite total_const; ring|reflexivity].
  - rewrite total_cons, IH, <- total_plus. apply total_ext. intros j _. rewrite total_cons. reflexivity.
Qed.
Lemma total_allpos l f : l <> [] -> (forall j, In j l -> (0 < f j)%Q) -> (0 < total l f)%Q.
Proof.
  intros Hn H. destruct l as [|x l]; [congruence|]. apply (total_pos _ f x).
  - intros j Hj. apply Qlt_le_weak, H, Hj.
  - left; reflexivity.
  - apply H; left; reflexivity.
Qed.
Lemma fold_total l (f : nat -> Q) : forall a, (fold_left (fun s j => (s + f j)%Q) l a == a + total l f)%Q.
Proof. induction l as [|x l IH]; intros a; cbn [fold_left]; [rewrite total_nil; ring|]. rewrite IH, total_cons. ring. Qed.
Lemma qsum_app {X} (l m : list X) f : (qsum (l ++ m) f == qsum l f + qsum m f)%Q.
Proof. induction l as [|x l IH]; cbn [qsum app fold_right]; [unfold qsum; ring|]. change (fold_right _ _ (l ++ m)) with (qsum (l ++ m) f). rewrite IH. unfold qsum; cbn [fold_right]; ring. Qed.
Lemma qsum_flat (l : list nat) (g : nat -> list (list nat)) f : (qsum (flat_map g l) f == total l (fun i => qsum (g i) f))%Q.
Proof. induction l as [|x l IH]; [reflexivity|]. cbn [flat_map]. rewrite qsum_app, IH, total_cons. reflexivity. Qed.
Lemma qsum_map {X Y} (g : X -> Y) l f : (qsum (map g l) f == qsum l (fun x => f (g x)))%Q.
Proof. induction l as [|x l IH]; [reflexivity|]. unfold qsum in *; cbn [map fold_right]. rewrite IH. reflexivity. Qed.
Lemma qsum_ext {X} (l : list X) f g : (forall x, In x l -> (f x == g x)%Q) -> (qsum l f == qsum l g)%Q.
Proof. induction l as [|x l IH]; intros H; [reflexivity|]. unfold qsum in *; cbn [fold_right]. rewrite (H x) by (left; reflexivity). rewrite IH; [reflexivity|]. intros y Hy; apply H; right; exact Hy. Qed.
Lemma qsum_mul {X} c (l : list X) f : (qsum l (fun x => (c * f x)%Q) == c * qsum l f)%Q.
Proof. induction l as [|x l IH]; unfold qsum in *; cbn [fold_right]; [ring|rewrite IH; ring]. Qed.
Lemma qsum_plus {X} (l : list X) f g : (qsum l (fun x => (f x + g x)%Q) == qsum l f + qsum l g)%Q.
Proof. induction l as [|x l IH]; unfold qsum in *; cbn [fold_right]; [ring|rewrite IH; ring]. Qed.

(** ** the text's probability and expected counts by recursion *)
Section Rec.
Variables (A B : mat).
Fixpoint Z (s : nat) (ws : list word) : Q :=
  match ws with [] => 1%Q | w :: r => total (tags_of w) (fun i => A s i * B i (class_of w) * Z i r)%Q end.
Variable c : nat -> nat -> nat -> Q.       (* previous tag, tag, class *)
Fixpoint EX (s : nat) (ws : list word) : Q :=
  match ws with
  | [] => 0%Q
  | w :: r => total (tags_of w) (fun i => A s i * B i (class_of w) * (c s i (class_of w) * Z i r + EX i r))%Q
  end.
Fixpoint cnt_of (s : nat) (ws : list word) (p : list nat) : Q :=
  match ws, p with
  | w :: r, i :: q => (c s i (class_of w) + cnt_of i r q)%Q
  | _, _ => 0%Q
  end.
Lemma Z_text ws : forall s, (text_prob A B s ws == Z s ws)%Q.
Proof.
  unfold text_prob. induction ws as [|w r IH]; intros s; cbn [readings Z].
  - unfold qsum; cbn [fold_right joint]; ring.
  - rewrite qsum_flat. apply total_ext. intros i _. rewrite qsum_map. cbn [joint]. rewrite qsum_mul, IH. reflexivity.
Qed.
Lemma EX_text ws : forall s, (qsum (readings ws) (fun p => joint A B s ws p * cnt_of s ws p) == EX s ws)%Q.
Proof.
  induction ws as [|w r IH]; intros s; cbn [readings EX].
  - unfold qsum; cbn [fold_right joint cnt_of]; ring.
  - rewrite qsum_flat. apply total_ext. intros i _. rewrite qsum_map. cbn [joint cnt_of].
    rewrite (qsum_ext _ _ (fun p => (A s i * B i (class_of w)) * (c s i (class_of w) * joint A B i r p + joint A B i r p * cnt_of i r p))%Q).
    2:{ intros x _. ring. }
    rewrite qsum_mul, qsum_plus, qsum_mul, IH. rewrite <- (Z_text r i). reflexivity.
Qed.
Lemma expected_EX ws s (count : list nat -> Q) : (forall p, In p (readings ws) -> (count p == cnt_of s ws p)%Q) ->
  (expected A B s ws count == EX s ws / Z s ws)%Q.
Proof.
  intros H. unfold expected. rewrite (qsum_ext _ _ (fun p => (joint A B s ws p * cnt_of s ws p)%Q)).
  - rewrite EX_text, Z_text. reflexivity.
  - intros p Hp. rewrite (H p Hp). reflexivity.
Qed.

(** cutting the text at an unambiguous word *)
Definition ends (s t : nat) (d : list word) : Prop := d = [] /\ s = t \/ exists d' w, d = d' ++ [w] /\ tags_of w = [t].
Lemma cut_gen t w d' : tags_of w = [t] -> forall s seg,
  (Z s ((d' ++ [w]) ++ seg) == Z s (d' ++ [w]) * Z t seg)%Q /\
  (EX s ((d' ++ [w]) ++ seg) == EX s (d' ++ [w]) * Z t seg + Z s (d' ++ [w]) * EX t seg)%Q.
Proof.
  intros Hw. induction d' as [|x d' IH]; intros s seg; cbn [app Z EX].
  - rewrite Hw. rewrite !total_cons, !total_nil. split; ring.
  - split.
    + rewrite <- total_mulr. apply total_ext. intros i _. rewrite (proj1 (IH i seg)). ring.
    + rewrite <- !total_mulr, <- total_plus. apply total_ext. intros i _.
      rewrite (proj1 (IH i seg)), (proj2 (IH i seg)). ring.
Qed.
Lemma cut s t d seg : ends s t d ->
  (Z s (d ++ seg) == Z s d * Z t seg)%Q /\ (EX s (d ++ seg) == EX s d * Z t seg + Z s d * EX t seg)%Q.
Proof.
  intros [[-> ->]|(d' & w & -> & Hw)].
  - cbn [app Z EX]. split; ring.
  - exact (cut_gen t w d' Hw s seg).
Qed.

(** ** the pending stack *)
Definition wd (e : ent) : word := mkword (e_tags e) (e_cls e).
Definition fw (pre cur : ent) : Prop := forall i, In i (e_tags cur) ->
  (e_al cur i == total (e_tags pre) (fun j => e_al pre j * A j i * B i (e_cls cur)))%Q.
Inductive stack (t : nat) : list ent -> list word -> Prop :=
  | st_base : stack t [base t] []
  | st_push pre rest ws cur : stack t (pre :: rest) ws -> fw pre cur -> stack t (cur :: pre :: rest) (ws ++ [wd cur]).
Lemma stack_Z t pend ws : stack t pend ws -> match pend with
  | [] => False
  | cur :: _ => forall suf, (total (e_tags cur) (fun x => e_al cur x * Z x suf) == Z t (ws ++ suf))%Q end.
Proof.
  induction 1 as [|pre rest ws cur H IH Hf]; intros suf.
  - cbn [base e_tags e_al app]. unfold base. cbn [e_tags e_al]. rewrite total_cons, total_nil. unfold set1. rewrite Nat.eqb_refl. ring.
  - rewrite <- app_assoc. cbn [app]. rewrite <- (IH (wd cur :: suf)). cbn [Z wd tags_of class_of].
    transitivity (total (e_tags cur) (fun x => total (e_tags pre) (fun j => e_al pre j * (A j x * B x (e_cls cur) * Z x suf)))%Q).
    + apply total_ext. intros x Hx. rewrite (Hf x Hx), <- total_mulr. apply total_ext. intros j _. ring.
    + rewrite total_swap. apply total_ext. intros j _. rewrite total_mul. reflexivity.
Qed.
(** what the backward pass adds up *)
Definition level (pre cur : ent) (suf : list word) : Q :=
  total (e_tags cur) (fun i => total (e_tags pre) (fun j => c j i (e_cls cur) * (e_al pre j * A j i * B i (e_cls cur) * Z i suf)))%Q.
Fixpoint ADD (cur : ent) (pend : list ent) (suf : list word) : Q :=
  match pend with
  | [] => 0%Q
  | pre :: rest => (level pre cur suf + ADD pre rest (wd cur :: suf))%Q
  end.
Lemma stack_EX t pend ws : stack t pend ws -> match pend with
  | [] => False
  | cur :: rest => forall suf, (ADD cur rest suf + total (e_tags cur) (fun x => e_al cur x * EX x suf) == EX t (ws ++ suf))%Q end.
Proof.
  induction 1 as [|pre rest ws cur H IH Hf]; intros suf.
  - cbn [ADD app]. unfold base. cbn [e_tags e_al]. rewrite total_cons, total_nil. unfold set1. rewrite Nat.eqb_refl. ring.
  - rewrite <- app_assoc. cbn [app ADD]. rewrite <- (IH (wd cur :: suf)). cbn [EX wd tags_of class_of].
    assert (E : (level pre cur suf + total (e_tags cur) (fun x => e_al cur x * EX x suf) ==
      total (e_tags pre) (fun x => e_al pre x * total (e_tags cur) (fun i => A x i * B i (e_cls cur) * (c x i (e_cls cur) * Z i suf + EX i suf))))%Q).
    { unfold level. rewrite <- total_plus.
      transitivity (total (e_tags cur) (fun i => total (e_tags pre) (fun j => e_al pre j * (A j i * B i (e_cls cur) * (c j i (e_cls cur) * Z i suf + EX i suf))))%Q).
      - apply total_ext. intros i Hi. rewrite (Hf i Hi), <- total_mulr, <- total_plus. apply total_ext. intros j _. ring.
      - rewrite total_swap. apply total_ext. intros j _. rewrite total_mul. reflexivity. }
    rewrite <- E. fold (wd cur). ring.
Qed.
End Rec.

(** ** the backward pass *)
Section Alg.
Variables (A B : mat) (dmin : Q).
Hypothesis Hdmin : (0 < dmin)%Q.

Lemma set2_val {X} (f : nat -> nat -> X) i j v a b : set2 f i j v a b = if (a =? i) && (b =? j) then v else f a b.
Proof. reflexivity. Qed.
Lemma bin_gam pa beta prob k i pre : forall s, a_gam (fold_left (bstep_in A B pa beta prob k i) pre s) = a_gam s.
Proof. induction pre as [|j pre IH]; intros s; [reflexivity|]. cbn [fold_left]. rewrite IH. reflexivity. Qed.
Lemma bin_phi pa beta prob k i pre : forall s, a_phi (fold_left (bstep_in A B pa beta prob k i) pre s) = a_phi s.
Proof. induction pre as [|j pre IH]; intros s; [reflexivity|]. cbn [fold_left]. rewrite IH. reflexivity. Qed.
Lemma bin_beta pa beta prob k i pre : NoDup pre -> forall s j, In j pre ->
  (a_beta (fold_left (bstep_in A B pa beta prob k i) pre s) j == a_beta s j + A j i * B i k * beta i)%Q.
Proof.
  assert (O : forall pre s j, ~ In j pre -> a_beta (fold_left (bstep_in A B pa beta prob k i) pre s) j = a_beta s j).
  { clear. induction pre as [|x pre IH]; intros s j Hj; [reflexivity|]. cbn [fold_left]. rewrite IH by (intros K; apply Hj; right; exact K).
    cbn [bstep_in a_beta]. unfold set1. destruct (Nat.eqb_spec j x) as [->|]; [exfalso; apply Hj; left; reflexivity|reflexivity]. }
  induction 1 as [|x pre Hx Hn IH]; intros s j Hj; [destruct Hj|]. cbn [fold_left].
  destruct (Nat.eq_dec x j) as [->|Hne].
  - rewrite O by exact Hx. cbn [bstep_in a_beta]. unfold set1. rewrite Nat.eqb_refl. reflexivity.
  - destruct Hj as [E|Hj]; [congruence|]. rewrite IH by exact Hj. cbn [bstep_in a_beta]. unfold set1.
    destruct (Nat.eqb_spec j x); [congruence|reflexivity].
Qed.
Lemma bin_xsi pa beta prob k i pre a b : forall s,
  (a_xsi (fold_left (bstep_in A B pa beta prob k i) pre s) a b ==
   a_xsi s a b + total pre (fun j => ind ((a =? j) && (b =? i)) * (pa j * A j i * B i k * beta i / prob)))%Q.
Proof.
  induction pre as [|j pre IH]; intros s; cbn [fold_left]; [rewrite total_nil; ring|].
  rewrite IH, total_cons. cbn [bstep_in a_xsi]. rewrite set2_val.
  destruct (Nat.eqb_spec a j) as [Ea|]; destruct (Nat.eqb_spec b i) as [Eb|]; cbn [andb ind]; try ring. rewrite Ea, Eb. ring.
Qed.

Section Lev.
Variables (pre : list nat) (pa al beta : nat -> Q) (prob : Q) (k : nat).
Let out := bstep_out dmin A B pre pa al beta prob k.
Lemma bout_beta tags : NoDup pre -> forall s j, In j pre ->
  (a_beta (fold_left out tags s) j == a_beta s j + total tags (fun i => A j i * B i k * beta i))%Q.
Proof.
  intros Hn. induction tags as [|i tags IH]; intros s j Hj; cbn [fold_left]; [rewrite total_nil; ring|].
  rewrite IH by exact Hj. unfold out, bstep_out. cbn [a_beta]. rewrite bin_beta by assumption. rewrite total_cons. ring.
Qed.
Lemma bout_xsi tags a b : forall s,
  (a_xsi (fold_left out tags s) a b ==
   a_xsi s a b + total tags (fun i => total pre (fun j => ind ((a =? j) && (b =? i)) * (pa j * A j i * B i k * beta i / prob))))%Q.
Proof.
  induction tags as [|i tags IH]; intros s; cbn [fold_left]; [rewrite total_nil; ring|].
  rewrite IH, total_cons. unfold out, bstep_out. cbn [a_xsi]. rewrite bin_xsi. ring.
Qed.
Lemma bout_phi tags a b : forall s,
  (a_phi (fold_left out tags s) a b == a_phi s a b + total tags (fun i => ind ((a =? i) && (b =? k)) * (al i * beta i / prob)))%Q.
Proof.
  induction tags as [|i tags IH]; intros s; cbn [fold_left]; [rewrite total_nil; ring|].
  rewrite IH, total_cons. unfold out, bstep_out. cbn [a_phi]. rewrite bin_phi. rewrite set2_val.
  destruct (Nat.eqb_spec a i) as [Ea|]; destruct (Nat.eqb_spec b k) as [Eb|]; cbn [andb ind]; try ring. rewrite Ea, Eb. ring.
Qed.
Lemma bout_gam tags a : (forall i, In i tags -> (0 < al i * beta i / prob)%Q) -> forall s, (0 <= a_gam s a)%Q ->
  (a_gam (fold_left out tags s) a == a_gam s a + total tags (fun i => ind (a =? i) * (al i * beta i / prob)))%Q.
Proof.
  intros Hp. induction tags as [|i tags IH]; intros s Hs; cbn [fold_left]; [rewrite total_nil; ring|].
  assert (Hi := Hp i (or_introl eq_refl)).
  assert (E : (a_gam (out s i) a == a_gam s a + ind (a =? i) * (al i * beta i / prob))%Q).
  { unfold out, bstep_out. cbn [a_gam]. rewrite bin_gam. unfold set1. destruct (Nat.eqb_spec a i) as [->|]; cbn [ind]; [|ring].
    destruct (Qeq_bool (a_gam s i + al i * beta i / prob) 0) eqn:K; [apply Qeq_bool_iff in K; exfalso; lra|ring]. }
  rewrite IH, total_cons, E; [ring| |].
  - intros j Hj; apply Hp; right; exact Hj.
  - rewrite E. destruct (a =? i); cbn [ind]; lra.
Qed.
End Lev.

(** positive setting *)
Variable good : nat -> Prop.
Hypothesis HA : forall i j, good i -> good j -> (0 < A i j)%Q.
Definition okw (w : word) : Prop :=
  tags_of w <> [] /\ NoDup (tags_of w) /\ forall i, In i (tags_of w) -> good i /\ (0 < B i (class_of w))%Q.
Lemma Z_pos ws : Forall okw ws -> forall s, good s -> (0 < Z A B s ws)%Q.
Proof.
  induction 1 as [|w r [Hn [_ Hw]] _ IH]; intros s Hs; cbn [Z]; [lra|].
  apply total_allpos; [exact Hn|]. intros i Hi. destruct (Hw i Hi) as [Hg Hb].
  apply Qmult_lt_0_compat; [apply Qmult_lt_0_compat; [apply HA; assumption|exact Hb]|apply IH; exact Hg].
Qed.
Definition oke (e : ent) : Prop := e_tags e <> [] /\ NoDup (e_tags e) /\ (forall i, In i (e_tags e) -> good i) /\ forall i, In i (e_tags e) -> (0 < e_al e i)%Q.
Definition cX (a b : nat) (j i k : nat) : Q := ind ((a =? j) && (b =? i)).
Definition cG (a : nat) (j i k : nat) : Q := ind (a =? i).
Definition cP (a b : nat) (j i k : nat) : Q := ind ((a =? i) && (b =? k)).
Lemma bloop_spec t prob : (0 < prob)%Q -> forall pend cur beta suf c ws,
  stack A B t (cur :: pend) ws -> Forall oke (cur :: pend) -> Forall okw (ws ++ suf) ->
  (forall i, In i (e_tags cur) -> (beta i == Z A B i suf)%Q) ->
  (forall i, (0 <= a_gam c i)%Q) ->
  let r := bloop dmin A B prob cur beta pend c in
  (forall a b, (a_xsi r a b == a_xsi c a b + ADD A B (cX a b) cur pend suf / prob)%Q) /\
  (forall a, (a_gam r a == a_gam c a + ADD A B (cG a) cur pend suf / prob)%Q) /\
  (forall a b, (a_phi r a b == a_phi c a b + ADD A B (cP a b) cur pend suf / prob)%Q).
Proof.
  intros Hp. induction pend as [|pre rest IH]; intros cur beta suf c ws Hst Hok Hws Hbeta Hg; cbn [bloop ADD].
  - cbn zeta. split; [|split]; intros; unfold Qdiv; ring.
  - inversion Hst as [|pre' rest' ws' cur' Hst' Hf E1 E2]; subst.
    apply Forall_cons_iff in Hok as [Hc Hok]. assert (Hpre := Hok). apply Forall_cons_iff in Hpre as [Hpre _].
    destruct Hc as (Hc1 & Hc2 & Hc3 & Hc4). destruct Hpre as (Hp1 & Hp2 & Hp3 & Hp4).
    rewrite <- app_assoc in Hws. cbn [app] in Hws.
    assert (Hsuf : Forall okw suf) by (apply Forall_app in Hws as [_ K]; apply Forall_cons_iff in K as [_ K]; exact K).
    assert (Hpos : forall i, In i (e_tags cur) -> (0 < e_al cur i * beta i / prob)%Q).
    { intros i Hi. apply Qdiv_pos; [|exact Hp]. apply Qmult_lt_0_compat; [apply Hc4; exact Hi|]. rewrite (Hbeta i Hi). apply Z_pos; [exact Hsuf|apply Hc3; exact Hi]. }
    set (c0 := mka (fun _ => 0%Q) (a_xsi c) (a_gam c) (a_phi c)).
    set (c1 := fold_left (bstep_out dmin A B (e_tags pre) (e_al pre) (e_al cur) beta prob (e_cls cur)) (e_tags cur) c0).
    assert (G1 : forall a, (a_gam c1 a == a_gam c a + level A B (cG a) pre cur suf / prob)%Q).
    { intros a. unfold c1. rewrite bout_gam by (exact Hpos || apply Hg). cbn [c0 a_gam].
      apply Qplus_comp; [reflexivity|]. unfold level, cG. rewrite <- total_div. apply total_ext. intros i Hi.
      rewrite total_mul. rewrite (Hf i Hi), (Hbeta i Hi). rewrite (total_mulr (Z A B i suf)). unfold Qdiv. ring. }
    assert (X1 : forall a b, (a_xsi c1 a b == a_xsi c a b + level A B (cX a b) pre cur suf / prob)%Q).
    { intros a b. unfold c1. rewrite bout_xsi. cbn [c0 a_xsi].
      apply Qplus_comp; [reflexivity|]. unfold level, cX. rewrite <- total_div. apply total_ext. intros i Hi.
      rewrite <- total_div. apply total_ext. intros j _. rewrite (Hbeta i Hi). unfold Qdiv. ring. }
    assert (P1 : forall a b, (a_phi c1 a b == a_phi c a b + level A B (cP a b) pre cur suf / prob)%Q).
    { intros a b. unfold c1. rewrite bout_phi. cbn [c0 a_phi].
      apply Qplus_comp; [reflexivity|]. unfold level, cP. rewrite <- total_div. apply total_ext. intros i Hi.
      rewrite total_mul. rewrite (Hf i Hi), (Hbeta i Hi). rewrite (total_mulr (Z A B i suf)). unfold Qdiv. ring. }
    assert (Hb1 : forall j, In j (e_tags pre) -> (a_beta c1 j == Z A B j (wd cur :: suf))%Q).
    { intros j Hj. unfold c1. rewrite bout_beta by assumption. cbn [c0 a_beta Z wd tags_of class_of].
      rewrite Qplus_0_l. apply total_ext. intros i Hi. rewrite (Hbeta i Hi). reflexivity. }
    assert (Hg1 : forall a, (0 <= a_gam c1 a)%Q).
    { intros a. rewrite G1. assert (0 <= level A B (cG a) pre cur suf)%Q.
      { unfold level. apply total_nonneg. intros i Hi. apply total_nonneg. intros j Hj. unfold cG.
        assert (0 < e_al pre j * A j i * B i (e_cls cur) * Z A B i suf)%Q.
        { apply Forall_app in Hws as [_ K]. apply Forall_cons_iff in K as [(_ & _ & K) _]. destruct (K i Hi) as [K1 K2]. cbn [wd class_of] in K2.
          apply Qmult_lt_0_compat; [|apply Z_pos; assumption]. apply Qmult_lt_0_compat; [|exact K2].
          apply Qmult_lt_0_compat; [apply Hp4; exact Hj|apply HA; [apply Hp3; exact Hj|exact K1]]. }
        destruct (a =? i); cbn [ind]; lra. }
      assert (0 <= level A B (cG a) pre cur suf / prob)%Q by (apply Qle_shift_div_l; lra).
      specialize (Hg a). lra. }
    destruct (IH pre (a_beta c1) (wd cur :: suf) c1 ws' Hst' Hok Hws Hb1 Hg1) as (I1 & I2 & I3). cbn zeta.
    split; [|split].
    + intros a b. etransitivity; [apply I1|]. rewrite X1. unfold Qdiv. ring.
    + intros a. etransitivity; [apply I2|]. rewrite G1. unfold Qdiv. ring.
    + intros a b. etransitivity; [apply I3|]. rewrite P1. unfold Qdiv. ring.
Qed.
End Alg.

(** ** a whole pass, positive matrices *)
Section Run.
Variables (A B : mat) (dmin : Q) (eos : nat) (idx : list nat -> option nat) (open_class : list nat).
Hypothesis Hdmin : (0 < dmin)%Q.
Variable good : nat -> Prop.
Hypothesis HA : forall i j, good i -> good j -> (0 < A i j)%Q.
Hypothesis Heos : good eos.
Notation okw := (okw B good).
Notation oke := (oke good).
Definition acc_of (d : list word) (c : acc) : Prop :=
  (forall a b, (a_xsi c a b == EX A B (cX a b) eos d / Z A B eos d)%Q) /\
  (forall a, (a_gam c a == EX A B (cG a) eos d / Z A B eos d)%Q) /\
  (forall a b, (a_phi c a b == EX A B (cP a b) eos d / Z A B eos d)%Q).
Definition INV (l : list word) (st : bst) : Prop := exists d p t,
  l = d ++ p /\ ends eos t d /\ Forall ambiguous p /\ stack A B t (b_pend st) p /\ Forall oke (b_pend st) /\ good t /\ acc_of d (b_acc st).

Lemma EX_nonneg c ws : (forall j i k, (0 <= c j i k)%Q) -> Forall okw ws -> forall s, good s -> (0 <= EX A B c s ws)%Q.
Proof.
  intros Hc. induction 1 as [|w r Hw Hr IH]; intros s Hs; cbn [EX]; [lra|].
  destruct Hw as (Hn & Hd & Hw). apply total_nonneg. intros i Hi. destruct (Hw i Hi) as [Hg Hb].
  assert (H1 : (0 < A s i * B i (class_of w))%Q) by (apply Qmult_lt_0_compat; [apply HA; assumption|exact Hb]).
  assert (H2 := Z_pos A B good HA r Hr i Hg). specialize (IH i Hg). specialize (Hc s i (class_of w)).
  apply Qmult_le_0_compat; [lra|]. assert (0 <= c s i (class_of w) * Z A B i r)%Q by (apply Qmult_le_0_compat; lra). lra.
Qed.
Lemma ind_nonneg b : (0 <= ind b)%Q.
Proof. destruct b; cbn; lra. Qed.
Lemma oke_base t : good t -> oke (base t).
Proof.
  intros H. unfold base, oke. cbn [e_tags e_al]. split; [discriminate|]. split; [repeat constructor; intros []|]. split.
  - intros i [<-|[]]; exact H.
  - intros i [<-|[]]. unfold set1. rewrite Nat.eqb_refl. lra.
Qed.
Lemma fwd_fw pre x : oke pre -> okw x ->
  let cur := mke (tags_of x) (class_of x) (fwd dmin A B (e_tags pre) (e_al pre) (tags_of x) (class_of x)) in
  fw A B pre cur /\ oke cur.
Proof.
  intros (P1 & P2 & P3 & P4) (X1 & X2 & X3) cur.
  assert (V : forall i, In i (tags_of x) ->
    (e_al cur i == total (e_tags pre) (fun j => e_al pre j * A j i * B i (class_of x)))%Q /\ (0 < e_al cur i)%Q).
  { intros i Hi. unfold cur, fwd. cbn [e_al].
    replace (existsb (Nat.eqb i) (tags_of x)) with true by (symmetry; apply existsb_In; exact Hi).
    assert (E := fold_total (e_tags pre) (fun j => e_al pre j * A j i * B i (class_of x))%Q 0%Q). cbn zeta beta in E |- *.
    set (s := fold_left _ _ _) in *.
    assert (T : (0 < total (e_tags pre) (fun j => e_al pre j * A j i * B i (class_of x)))%Q).
    { apply total_allpos; [exact P1|]. intros j Hj. destruct (X3 i Hi) as [K1 K2].
      apply Qmult_lt_0_compat; [|exact K2]. apply Qmult_lt_0_compat; [apply P4; exact Hj|apply HA; [apply P3; exact Hj|exact K1]]. }
    rewrite Qplus_0_l in E.
    destruct (Qeq_bool s 0) eqn:K; [apply Qeq_bool_iff in K; exfalso; rewrite E in K; lra|]. split; [exact E|rewrite E; exact T]. }
  split.
  - intros i Hi. apply V. exact Hi.
  - unfold oke. cbn [cur e_tags]. split; [exact X1|]. split; [exact X2|]. split; [intros i Hi; apply X3; exact Hi|intros i Hi; apply V; exact Hi].
Qed.
Lemma train_step l st w x : INV l st -> Forall okw (l ++ [x]) -> tags_of x = word_tags open_class w -> idx (tags_of x) = Some (class_of x) ->
  exists st', train_word idx open_class dmin A B st w = Some st' /\ INV (l ++ [x]) st'.
Proof.
  intros (d & p & t & -> & He & Ha & Hst & Hok & Ht & Hacc) Hw Htag Hidx.
  unfold train_word. rewrite <- Htag, Hidx.
  destruct (b_pend st) as [|pre rest] eqn:Epend; [apply stack_Z in Hst; destruct Hst|].
  assert (Hpre : oke pre) by (apply Forall_cons_iff in Hok as [K _]; exact K).
  assert (Hx : okw x) by (apply Forall_app in Hw as [_ K]; apply Forall_cons_iff in K as [K _]; exact K).
  destruct (fwd_fw pre x Hpre Hx) as [Hf Hc]. cbn zeta in Hf, Hc |- *.
  set (cur := mke (tags_of x) (class_of x) (fwd dmin A B (e_tags pre) (e_al pre) (tags_of x) (class_of x))) in *.
  assert (Hst2 : stack A B t (cur :: pre :: rest) (p ++ [x])).
  { replace x with (wd cur) by (unfold wd, cur; destruct x; reflexivity). apply st_push; assumption. }
  assert (Hok2 : Forall oke (cur :: pre :: rest)) by (constructor; assumption).
  assert (Push : 2 <= length (tags_of x) -> INV ((d ++ p) ++ [x]) (mkbs (cur :: pre :: rest) (b_acc st))).
  { intros L. exists d, (p ++ [x]), t. split; [rewrite app_assoc; reflexivity|]. split; [exact He|].
    split; [apply Forall_app; split; [exact Ha|repeat constructor; exact L]|].
    split; [exact Hst2|]. split; [exact Hok2|]. split; [exact Ht|exact Hacc]. }
  destruct (tags_of x) as [|tag [|tag' more]] eqn:Et.
  - exfalso. destruct Hx as [K _]. rewrite Et in K. congruence.
  - eexists; split; [reflexivity|]. clear Push.
    exists (d ++ p ++ [x]), [], tag. rewrite app_nil_r, app_assoc. cbn [b_pend b_acc].
    split; [reflexivity|]. split; [right; exists (d ++ p), x; split; [reflexivity|exact Et]|]. split; [constructor|].
    split; [constructor|]. assert (Hg : good tag) by (destruct Hx as (_ & _ & K); apply K; rewrite Et; left; reflexivity).
    split; [apply Forall_cons; [apply oke_base; exact Hg|constructor]|]. split; [exact Hg|].
    rewrite <- app_assoc.
    assert (Hd : Forall okw d) by (rewrite <- app_assoc in Hw; apply Forall_app in Hw as [K _]; exact K).
    assert (Hseg : Forall okw (p ++ [x])) by (rewrite <- app_assoc in Hw; apply Forall_app in Hw as [_ K]; exact K).
    assert (Zd := Z_pos A B good HA d Hd eos Heos). assert (Zs := Z_pos A B good HA _ Hseg t Ht).
    assert (Hprob : (e_al cur tag == Z A B t (p ++ [x]))%Q).
    { assert (K := stack_Z A B t _ _ Hst2 []). cbn [Z] in K. rewrite app_nil_r in K. rewrite <- K. change (e_tags cur) with [tag]. rewrite total_cons, total_nil. ring. }
    assert (Hb : forall i, In i (e_tags cur) -> (set1 (fun _ => 0%Q) tag 1%Q i == Z A B i [])%Q).
    { intros i [<-|[]]. unfold set1. rewrite Nat.eqb_refl. reflexivity. }
    assert (Hg0 : forall i, (0 <= a_gam (b_acc st) i)%Q).
    { intros i. destruct Hacc as (_ & K & _). rewrite K. assert (0 <= EX A B (cG i) eos d)%Q by (apply EX_nonneg; [intros; apply ind_nonneg|exact Hd|exact Heos]).
      apply Qle_shift_div_l; lra. }
    assert (Hpp : (0 < e_al cur tag)%Q) by (rewrite Hprob; exact Zs).
    assert (Hws0 : Forall okw ((p ++ [x]) ++ [])) by (rewrite app_nil_r; exact Hseg).
    assert (BL := bloop_spec A B dmin good HA t (e_al cur tag) Hpp (pre :: rest) cur (set1 (fun _ => 0%Q) tag 1%Q) [] (b_acc st) (p ++ [x]) Hst2 Hok2 Hws0 Hb Hg0).
    cbn zeta in BL. destruct BL as (I1 & I2 & I3). destruct Hacc as (K1 & K2 & K3).
    assert (R : forall c, ((EX A B c eos d / Z A B eos d) + ADD A B c cur (pre :: rest) [] / e_al cur tag ==
                           EX A B c eos (d ++ p ++ [x]) / Z A B eos (d ++ p ++ [x]))%Q).
    { intros c. destruct (cut A B c eos t d (p ++ [x]) He) as [C1 C2]. rewrite C1, C2, Hprob.
      assert (S := stack_EX A B c t _ _ Hst2 []). rewrite app_nil_r in S. rewrite <- S.
      rewrite (total_ext (e_tags cur) _ (fun _ => 0%Q)) by (intros; cbn [EX]; ring). rewrite total_const. field. split; lra. }
    split; [|split].
    + intros a b. rewrite I1, K1. apply R.
    + intros a. rewrite I2, K2. apply R.
    + intros a b. rewrite I3, K3. apply R.
  - eexists; split; [reflexivity|]. apply Push. cbn [length]. lia.
Qed.
Lemma train_run ws : forall l0 xs st, INV l0 st -> corpus idx open_class ws xs -> Forall okw (l0 ++ xs) ->
  exists st', train_words idx open_class dmin A B st ws = Some st' /\ INV (l0 ++ xs) st'.
Proof.
  induction ws as [|w ws IH]; intros l0 xs st Hi Hc Hok; inversion Hc as [|w' x ws' xs' [E1 E2] Hr]; subst; cbn [train_words].
  - exists st. rewrite app_nil_r. split; [reflexivity|exact Hi].
  - assert (Hok1 : Forall okw (l0 ++ [x])).
    { apply Forall_app in Hok as [K1 K2]. apply Forall_cons_iff in K2 as [K2 _]. apply Forall_app; split; [exact K1|apply Forall_cons; [exact K2|constructor]]. }
    destruct (train_step l0 st w x Hi Hok1 E1 E2) as (st1 & S1 & S2). rewrite S1.
    destruct (IH (l0 ++ [x]) xs' st1 S2 Hr) as (st2 & S3 & S4); [rewrite <- app_assoc; exact Hok|].
    exists st2. rewrite <- app_assoc in S4. split; [exact S3|exact S4].
Qed.
Lemma INV0 : INV [] (bst0 eos).
Proof.
  exists [], [], eos. split; [reflexivity|]. split; [left; split; reflexivity|]. split; [constructor|]. split; [constructor|].
  split; [apply Forall_cons; [apply oke_base; exact Heos|constructor]|]. split; [exact Heos|]. unfold acc_of, bst0. cbn [b_acc a_xsi a_gam a_phi EX Z].
  split; [|split]; intros; reflexivity.
Qed.
(** the words that count: those up to the last unambiguous one *)
Lemma ambiguous_not w : ambiguous w -> ~ unambiguous w.
Proof. intros H [t E]. unfold ambiguous in H. rewrite E in H. cbn in H. lia. Qed.
Lemma split_unique (d p d' p' : list word) : d ++ p = d' ++ p' -> Forall ambiguous p -> Forall ambiguous p' ->
  (d = [] \/ exists a w, d = a ++ [w] /\ unambiguous w) -> (d' = [] \/ exists a w, d' = a ++ [w] /\ unambiguous w) -> d = d'.
Proof.
  assert (G : forall d d' p p' : list word, d ++ p = d' ++ p' -> Forall ambiguous p ->
    (d' = [] \/ exists a w, d' = a ++ [w] /\ unambiguous w) -> length d <= length d' -> d = d').
  { clear. intros d d' p p' E Ha Hd L.
    destruct Hd as [->|(a & w & -> & Hw)].
    - destruct d; [reflexivity|cbn in L; lia].
    - apply app_eq_app in E as (m & [[E1 E2]|[E1 E2]]).
      + subst d. rewrite !app_length in L. cbn in L. assert (length m = 0) by lia. destruct m; [rewrite app_nil_r; reflexivity|discriminate].
      + destruct m as [|y m] using rev_ind; [rewrite app_nil_r in E1; symmetry; exact E1|]. clear IHm.
        rewrite app_assoc in E1. apply app_inj_tail in E1 as [_ ->]. rewrite E2 in Ha.
        rewrite <- app_assoc in Ha. apply Forall_app in Ha as [_ Ha]. cbn [app] in Ha. apply Forall_cons_iff in Ha as [Ha _].
        destruct (ambiguous_not _ Ha Hw). }
  intros E Ha Ha' Hd Hd'. destruct (Nat.le_ge_cases (length d) (length d')) as [L|L].
  - apply (G d d' p p'); assumption.
  - symmetry. apply (G d' d p' p); auto.
Qed.
Lemma train_counts ws xs rest : corpus idx open_class ws (xs ++ rest) -> Forall okw (xs ++ rest) ->
  (xs = [] \/ exists a w, xs = a ++ [w] /\ unambiguous w) -> Forall ambiguous rest ->
  exists st, train_words idx open_class dmin A B (bst0 eos) ws = Some st /\ acc_of xs (b_acc st).
Proof.
  intros Hc Hok Hx Hr. destruct (train_run ws [] (xs ++ rest) (bst0 eos) INV0 Hc Hok) as (st & S1 & S2).
  exists st. split; [exact S1|]. cbn [app] in S2. destruct S2 as (d & p & t & E & He & Ha & _ & _ & _ & Hacc).
  replace xs with d; [exact Hacc|]. symmetry. apply (split_unique xs rest d p); auto.
  destruct He as [[-> _]|(d' & w & -> & Hw)]; [left; reflexivity|right; exists d', w; split; [reflexivity|exists t; exact Hw]].
Qed.
End Run.

(** ** any non-negative matrices *)
Section NN.
Variables (A B : mat) (dmin : Q) (eos : nat) (idx : list nat -> option nat) (open_class : list nat).
Hypothesis Hdmin : (0 < dmin)%Q.
Hypothesis HA : forall i j, (0 <= A i j)%Q.
Hypothesis HB : forall i k, (0 <= B i k)%Q.
Definition nnacc (c : acc) : Prop := forall a b, (0 <= a_phi c a b /\ a_phi c a b <= a_gam c a)%Q.
Lemma nn_in pa beta prob k i pre : (forall j, (0 <= beta j)%Q) -> forall s, (forall j, (0 <= a_beta s j)%Q) -> nnacc s ->
  (forall j, (0 <= a_beta (fold_left (bstep_in A B pa beta prob k i) pre s) j)%Q) /\ nnacc (fold_left (bstep_in A B pa beta prob k i) pre s).
Proof.
  intros Hb. induction pre as [|j pre IH]; intros s Hs Ha; cbn [fold_left]; [split; assumption|]. apply IH.
  - intros x. cbn [bstep_in a_beta]. unfold set1. destruct (x =? j); [|apply Hs].
    assert (0 <= A j i * B i k * beta i)%Q by (repeat apply Qmult_le_0_compat; auto). specialize (Hs j). lra.
  - exact Ha.
Qed.
Lemma nn_out pre pa al beta prob k tags : (0 < prob)%Q -> (forall j, (0 <= al j)%Q) -> (forall j, (0 <= beta j)%Q) ->
  forall s, (forall j, (0 <= a_beta s j)%Q) -> nnacc s ->
  let r := fold_left (bstep_out dmin A B pre pa al beta prob k) tags s in (forall j, (0 <= a_beta r j)%Q) /\ nnacc r.
Proof.
  intros Hp Hal Hb. induction tags as [|i tags IH]; intros s Hs Ha; cbn [fold_left]; cbn zeta; [split; assumption|].
  destruct (nn_in pa beta prob k i pre Hb s Hs Ha) as [N1 N2]. apply IH.
  - exact N1.
  - intros a b. unfold bstep_out. cbn [a_phi a_gam]. set (c1 := fold_left _ pre s) in *.
    assert (V : (0 <= al i * beta i / prob)%Q) by (apply Qle_shift_div_l; [exact Hp|]; assert (0 <= al i * beta i)%Q by (apply Qmult_le_0_compat; auto); lra).
    set (v := (al i * beta i / prob)%Q) in *. destruct (N2 a b) as [M1 M2].
    rewrite set2_val. unfold set1. destruct (Nat.eqb_spec a i) as [Ea|Ea]; cbn [andb]; [|split; assumption].
    subst a. assert (G : (a_gam c1 i + v <= (if Qeq_bool (a_gam c1 i + v) 0 then dmin else a_gam c1 i + v))%Q).
    { destruct (Qeq_bool (a_gam c1 i + v) 0) eqn:K; [apply Qeq_bool_iff in K; lra|lra]. }
    destruct (Nat.eqb_spec b k) as [Eb|Eb]; [subst b|]; split; lra.
Qed.
Lemma nn_loop prob : (0 < prob)%Q -> forall pend cur beta c, (forall i, (0 <= e_al cur i)%Q) -> Forall (fun e => forall i, (0 <= e_al e i)%Q) pend ->
  (forall i, (0 <= beta i)%Q) -> nnacc c -> nnacc (bloop dmin A B prob cur beta pend c).
Proof.
  intros Hp. induction pend as [|pre rest IH]; intros cur beta c Hc Hpend Hb Ha; cbn [bloop]; [exact Ha|].
  apply Forall_cons_iff in Hpend as [Hpre Hrest].
  destruct (nn_out (e_tags pre) (e_al pre) (e_al cur) beta prob (e_cls cur) (e_tags cur) Hp Hc Hb
              (mka (fun _ => 0%Q) (a_xsi c) (a_gam c) (a_phi c))) as [N1 N2]; [intros; cbn [a_beta]; lra|exact Ha|].
  apply IH; assumption.
Qed.
Lemma fwd_nn pre pa tags k : (forall i, (0 <= pa i)%Q) ->
  (forall i, (0 <= fwd dmin A B pre pa tags k i)%Q) /\ forall i, In i tags -> (0 < fwd dmin A B pre pa tags k i)%Q.
Proof.
  intros Hp.
  assert (G : forall i, In i tags -> (0 < fwd dmin A B pre pa tags k i)%Q).
  { intros i Hi. unfold fwd. replace (existsb (Nat.eqb i) tags) with true by (symmetry; apply existsb_In; exact Hi).
    assert (E := fold_total pre (fun j => pa j * A j i * B i k)%Q 0%Q). cbn zeta beta in E |- *. set (s := fold_left _ _ _) in *.
    assert (0 <= total pre (fun j => pa j * A j i * B i k))%Q by (apply total_nonneg; intros; repeat apply Qmult_le_0_compat; auto).
    destruct (Qeq_bool s 0) eqn:K; [exact Hdmin|]. apply Qeq_bool_neq in K. lra. }
  split; [|exact G]. intros i. destruct (in_dec Nat.eq_dec i tags) as [Hi|Hi]; [apply Qlt_le_weak, G, Hi|].
  unfold fwd. destruct (existsb (Nat.eqb i) tags) eqn:K; [apply existsb_In in K; contradiction|lra].
Qed.
Definition nnst (st : bst) : Prop := Forall (fun e => forall i, (0 <= e_al e i)%Q) (b_pend st) /\ nnacc (b_acc st).
Lemma set1_nn t : forall i, (0 <= set1 (fun _ => 0%Q) t 1%Q i)%Q.
Proof. intros i. unfold set1. destruct (i =? t); lra. Qed.
Lemma nn_word st w st' : nnst st -> train_word idx open_class dmin A B st w = Some st' -> nnst st'.
Proof.
  intros [H1 H2] E. unfold train_word in E. destruct (idx (word_tags open_class w)) as [k|]; [|discriminate].
  destruct (b_pend st) as [|pre rest] eqn:Ep; [discriminate|].
  assert (Hpre : forall i, (0 <= e_al pre i)%Q) by (apply Forall_cons_iff in H1 as [K _]; exact K).
  destruct (fwd_nn (e_tags pre) (e_al pre) (word_tags open_class w) k Hpre) as [F1 F2]. cbn zeta in E.
  remember (word_tags open_class w) as tags eqn:Et. clear Et.
  destruct tags as [|tag [|tag' more]]; injection E as <-; split; cbn [b_pend b_acc]; try exact H2; try (constructor; [exact F1|exact H1]).
  - repeat constructor. intros i. apply set1_nn.
  - refine (nn_loop _ (F2 tag (or_introl eq_refl)) (pre :: rest) (mke [tag] k _) _ _ F1 H1 (set1_nn tag) H2).
Qed.
Lemma nn_words ws : forall st st', nnst st -> train_words idx open_class dmin A B st ws = Some st' -> nnst st'.
Proof.
  induction ws as [|w ws IH]; intros st st' H E; cbn [train_words] in E; [injection E as <-; exact H|].
  destruct (train_word idx open_class dmin A B st w) as [st1|] eqn:E1; [|discriminate]. apply (IH st1); [apply (nn_word st w); assumption|exact E].
Qed.
Lemma nnst0 : nnst (bst0 eos).
Proof. split; cbn [bst0 b_pend b_acc]; [repeat constructor; intros i; apply set1_nn|]. intros a b. cbn [a_phi a_gam]. lra. Qed.
Lemma ZERO_pos : (0 < ZERO)%Q.
Proof. reflexivity. Qed.
Lemma newA_pos c i j : nnacc c -> (0 < newA dmin c i j)%Q.
Proof.
  intros H. unfold newA. destruct (Qlt_le_dec 0 (a_xsi c i j)) as [K|K]; [|apply ZERO_pos]. apply Qdiv_pos; [exact K|].
  destruct (H i j) as [H1 H2]. destruct (Qeq_bool (a_gam c i) 0) eqn:Q0; [exact Hdmin|]. apply Qeq_bool_neq in Q0. lra.
Qed.
Lemma newB_pos c i k : nnacc c -> (0 < newB c i k)%Q.
Proof.
  intros H. unfold newB. destruct (Qlt_le_dec 0 (a_phi c i k)) as [K|K]; [|apply ZERO_pos]. apply Qdiv_pos; [exact K|].
  destruct (H i k) as [H1 H2]. lra.
Qed.
End NN.

Lemma normA_val N a i j : (normA N a i j == a i j / total (seq 0 N) (a i))%Q.
Proof. unfold normA. rewrite sum_total. reflexivity. Qed.
Lemma normB_val M cls b i k : In i (cls k) -> (normB M cls b i k == b i k / total (holders M cls i) (b i))%Q.
Proof.
  intros H. unfold normB. replace (inc cls k i) with true by (symmetry; apply inc_In; exact H).
  rewrite sum_total. unfold holders. rewrite total_filter. reflexivity.
Qed.
Lemma normA_row N a i : 0 < N -> (forall j, (0 < a i j)%Q) -> (total (seq 0 N) (normA N a i) == 1)%Q /\ forall j, (0 < normA N a i j)%Q.
Proof.
  intros Hn Ha. assert (T : (0 < total (seq 0 N) (a i))%Q) by (apply total_allpos; [destruct N; [lia|discriminate]|intros; apply Ha]).
  split.
  - rewrite (total_ext _ _ (fun j => (a i j / total (seq 0 N) (a i))%Q)) by (intros; apply normA_val). rewrite total_div. apply Qdiv_self, T.
  - intros j. rewrite normA_val. apply Qdiv_pos; [apply Ha|exact T].
Qed.
Lemma normB_row M cls b i : (exists k, k < M /\ In i (cls k)) -> (forall k, (0 < b i k)%Q) ->
  (total (holders M cls i) (normB M cls b i) == 1)%Q.
Proof.
  intros [k [H1 H2]] Hb. assert (T : (0 < total (holders M cls i) (b i))%Q).
  { apply total_allpos; [|intros; apply Hb]. intros E. assert (K : In k (holders M cls i)) by (apply holders_In; auto). rewrite E in K. destruct K. }
  rewrite (total_ext _ _ (fun k => (b i k / total (holders M cls i) (b i))%Q)).
  - rewrite total_div. apply Qdiv_self, T.
  - intros j Hj. apply holders_In in Hj as [_ Hj]. apply normB_val, Hj.
Qed.
Lemma normB_pos M cls b i k : (forall k, (0 < b i k)%Q) -> k < M -> In i (cls k) -> (0 < normB M cls b i k)%Q.
Proof.
  intros Hb H1 H2. rewrite normB_val by exact H2. apply Qdiv_pos; [apply Hb|].
  apply total_allpos; [|intros; apply Hb]. intros E. assert (K : In k (holders M cls i)) by (apply holders_In; auto). rewrite E in K. destruct K.
Qed.

(** ** the counts of the specification *)
Lemma Qn_plus a b : (Qn (a + b) == Qn a + Qn b)%Q.
Proof. unfold Qn. rewrite Nat2Z.inj_add, inject_Z_plus. reflexivity. Qed.
Lemma Qn_ind (b : bool) n : (Qn ((if b then 1 else 0) + n) == ind b + Qn n)%Q.
Proof. rewrite Qn_plus. destruct b; reflexivity. Qed.
Lemma readings_len ws : forall p, In p (readings ws) -> length p = length ws.
Proof.
  induction ws as [|w r IH]; intros p Hp; cbn [readings] in Hp.
  - destruct Hp as [<-|[]]. reflexivity.
  - apply in_flat_map in Hp as (i & _ & Hp). apply in_map_iff in Hp as (q & <- & Hq). cbn [length]. f_equal. apply IH, Hq.
Qed.
Lemma moves_cnt i j ws : forall s p, length p = length ws -> (Qn (moves i j s p) == cnt_of (cX i j) s ws p)%Q.
Proof.
  induction ws as [|w r IH]; intros s [|x p] L; try discriminate L; cbn [moves cnt_of]; [reflexivity|].
  rewrite Qn_ind, IH by (cbn in L; lia). unfold cX. rewrite (Nat.eqb_sym s i), (Nat.eqb_sym x j). reflexivity.
Qed.
Lemma uses_cnt i ws : forall s p, length p = length ws -> (Qn (uses i p) == cnt_of (cG i) s ws p)%Q.
Proof.
  unfold uses. induction ws as [|w r IH]; intros s [|x p] L; try discriminate L; cbn [count_occ cnt_of]; [reflexivity|].
  rewrite <- (IH x p) by (cbn in L; lia). unfold cG. destruct (Nat.eq_dec x i) as [E|E]; destruct (Nat.eqb_spec i x); try congruence; cbn [ind].
  - change (S (count_occ Nat.eq_dec p i)) with (1 + count_occ Nat.eq_dec p i). rewrite Qn_plus. reflexivity.
  - ring.
Qed.
Lemma emits_cnt i k ws : forall s p, length p = length ws -> (Qn (emits i k ws p) == cnt_of (cP i k) s ws p)%Q.
Proof.
  induction ws as [|w r IH]; intros s [|x p] L; try discriminate L; cbn [emits cnt_of]; [reflexivity|].
  rewrite Qn_ind, (IH x) by (cbn in L; lia). unfold cP. rewrite (Nat.eqb_sym x i), (Nat.eqb_sym (class_of w) k). reflexivity.
Qed.
