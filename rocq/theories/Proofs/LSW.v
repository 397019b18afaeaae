From Coq Require Import QArith Lqa FinFun.
From Verif Require Import Model.Base Proofs.Base Model.HMM Model.LSW Spec.HMM Spec.LSW Proofs.HMM.
Open Scope nat_scope.
Local Arguments Qplus : simpl never.
Local Arguments Qmult : simpl never.
Local Arguments Qdiv : simpl never.
Local Arguments Qle : simpl never.
Local Arguments Qeq : simpl never.

(** validity *)
Section Rules.
Variable forbid : list (nat * nat).
Variable enforce : list (nat * list nat).
Lemma exists_eqb x l : existsb (fun t => t =? x) l = true <-> In x l.
Proof.
  rewrite existsb_exists. split; [intros [y [H1 H2]]; apply Nat.eqb_eq in H2; subst; exact H1|intros H; exists x; rewrite Nat.eqb_refl; auto].
Qed.
Lemma valid_spec a b c : is_valid_seq forbid enforce (a, b, c) = true <->
  bigram_ok forbid enforce a b /\ ~ In (b, c) forbid /\ (a <> b -> bigram_ok forbid enforce b c).
Proof.
  unfold is_valid_seq, bigram_ok.
  set (fb := existsb _ forbid).
  assert (F : fb = false <-> ~ In (a, b) forbid /\ ~ In (b, c) forbid).
  { unfold fb. split.
    - intros H. split; intros K.
      + assert (X : existsb (fun r => (a =? fst r) && (b =? snd r) || (b =? fst r) && (c =? snd r)) forbid = true); [|congruence].
        apply existsb_exists. exists (a, b). cbn [fst snd]. rewrite !Nat.eqb_refl. auto.
      + assert (X : existsb (fun r => (a =? fst r) && (b =? snd r) || (b =? fst r) && (c =? snd r)) forbid = true); [|congruence].
        apply existsb_exists. exists (b, c). cbn [fst snd]. rewrite !Nat.eqb_refl. split; [exact K|]. apply orb_true_r.
    - intros [H1 H2]. destruct (existsb _ forbid) eqn:E; [|reflexivity]. apply existsb_exists in E as [[x y] [K E]]. cbn [fst snd] in E.
      apply orb_prop in E as [E|E]; apply andb_prop in E as [E1 E2]; apply Nat.eqb_eq in E1, E2; subst; contradiction. }
  split.
  - intros H. destruct fb; [discriminate|]. destruct (proj1 F eq_refl) as [F1 F2]. rewrite forallb_forall in H.
    split; [split; [exact F1|]|split; [exact F2|intros Hab; split; [exact F2|]]].
    + intros ts Hts. specialize (H _ Hts). unfold enforce_ok in H. cbn [fst snd] in H. rewrite Nat.eqb_refl in H. apply exists_eqb, H.
    + intros ts Hts. specialize (H _ Hts). unfold enforce_ok in H. cbn [fst snd] in H.
      replace (a =? b) with false in H by (symmetry; apply Nat.eqb_neq, Hab). rewrite Nat.eqb_refl in H. apply exists_eqb, H.
  - intros [[H1 H2] [H3 H4]]. rewrite (proj2 F (conj H1 H3)). apply forallb_forall. intros [x ts] Hts. unfold enforce_ok. cbn [fst snd].
    destruct (a =? x) eqn:E1; [apply Nat.eqb_eq in E1; subst; apply exists_eqb, H2, Hts|].
    destruct (b =? x) eqn:E2; [|reflexivity]. apply Nat.eqb_eq in E2; subst. apply Nat.eqb_neq in E1. apply exists_eqb, (proj2 (H4 E1)), Hts.
Qed.
End Rules.

(** sums *)
Lemma Qn_S n : (Qn (S n) == Qn n + 1)%Q.
Proof. unfold Qn. rewrite Nat2Z.inj_succ. unfold Z.succ. rewrite inject_Z_plus. reflexivity. Qed.
Lemma qtotal_app {X} (f : X -> Q) l1 l2 : (qtotal f (l1 ++ l2) == qtotal f l1 + qtotal f l2)%Q.
Proof. unfold qtotal. induction l1 as [|x l IH]; cbn [app fold_right]; [ring|]. rewrite IH. ring. Qed.
Lemma qtotal_ext {X} (f g : X -> Q) l : (forall x, In x l -> (f x == g x)%Q) -> (qtotal f l == qtotal g l)%Q.
Proof.
  unfold qtotal. induction l as [|x l IH]; intros H; cbn [fold_right]; [reflexivity|].
  rewrite (H x (or_introl eq_refl)), IH; [reflexivity|]. intros y Hy; apply H; right; exact Hy.
Qed.
Lemma qtotal_nonneg {X} (f : X -> Q) l : (forall x, In x l -> (0 <= f x)%Q) -> (0 <= qtotal f l)%Q.
Proof.
  unfold qtotal. induction l as [|x l IH]; intros H; cbn [fold_right]; [lra|].
  assert (H1 := H x (or_introl eq_refl)). assert (H2 := IH (fun y Hy => H y (or_intror Hy))). lra.
Qed.
Lemma qtotal_le {X} (f g : X -> Q) l : (forall x, In x l -> (f x <= g x)%Q) -> (qtotal f l <= qtotal g l)%Q.
Proof.
  unfold qtotal. induction l as [|x l IH]; intros H; cbn [fold_right]; [lra|].
  assert (H1 := H x (or_introl eq_refl)). assert (H2 := IH (fun y Hy => H y (or_intror Hy))). lra.
Qed.
Lemma qtotal_div {X} (f : X -> Q) l c : (qtotal (fun x => f x / c) l == qtotal f l / c)%Q.
Proof. unfold qtotal, Qdiv. induction l as [|x l IH]; cbn [fold_right]; [ring|]. rewrite IH. ring. Qed.
Lemma qtotal_const {X} (c : Q) (l : list X) : (qtotal (fun _ => c) l == inject_Z (Z.of_nat (length l)) * c)%Q.
Proof.
  unfold qtotal. induction l as [|x l IH]; cbn [fold_right length]; [ring|]. rewrite IH, Nat2Z.inj_succ. unfold Z.succ.
  rewrite inject_Z_plus. change (inject_Z 1) with 1%Q. ring.
Qed.
Lemma qtotal_ge {X} (f : X -> Q) l x : (forall x, In x l -> (0 <= f x)%Q) -> In x l -> (f x <= qtotal f l)%Q.
Proof.
  unfold qtotal. induction l as [|y l IH]; intros H Hx; [destruct Hx|]. cbn [fold_right].
  assert (H1 := H y (or_introl eq_refl)). assert (H2 := qtotal_nonneg f l (fun y Hy => H y (or_intror Hy))). unfold qtotal in H2.
  destruct Hx as [->|Hx]; [lra|]. assert (H3 := IH (fun y Hy => H y (or_intror Hy)) Hx). lra.
Qed.
Lemma qtotal_filter {X} (f : X -> Q) p l : (qtotal f (filter p l) == qtotal (fun x => if p x then f x else 0%Q) l)%Q.
Proof. unfold qtotal. induction l as [|x l IH]; cbn [filter fold_right]; [reflexivity|]. destruct (p x); cbn [fold_right]; rewrite IH; ring. Qed.
Lemma qtotal_fold {X} (f : X -> Q) l : forall a, (fold_left (fun s t => (s + f t)%Q) l a == a + qtotal f l)%Q.
Proof. unfold qtotal. induction l as [|x l IH]; intros a; cbn [fold_left fold_right]; [ring|]. rewrite IH. ring. Qed.
Lemma qtotal_total (f : nat -> Q) l : total l f = qtotal f l.
Proof. reflexivity. Qed.
Lemma qtotal_map {X Y} (f : Y -> Q) (g : X -> Y) l : qtotal f (map g l) = qtotal (fun x => f (g x)) l.
Proof. unfold qtotal. induction l as [|x l IH]; cbn [map fold_right]; [reflexivity|]. rewrite IH. reflexivity. Qed.
Lemma qtotal_flat {X Y} (f : Y -> Q) (g : X -> list Y) l : (qtotal f (flat_map g l) == qtotal (fun x => qtotal f (g x)) l)%Q.
Proof.
  induction l as [|x l IH]; cbn [flat_map]; [reflexivity|]. rewrite qtotal_app, IH. reflexivity.
Qed.

Lemma triples_In l m r a b c : In (a, b, c) (triples l m r) <-> In a l /\ In b m /\ In c r.
Proof.
  unfold triples. rewrite in_flat_map. split.
  - intros [x [Hx H]]. apply in_flat_map in H as [y [Hy H]]. apply in_map_iff in H as [z [E Hz]]. injection E as -> -> ->. auto.
  - intros [H1 [H2 H3]]. exists a. split; [exact H1|]. apply in_flat_map. exists b. split; [exact H2|]. apply in_map_iff. exists c. auto.
Qed.
Lemma NoDup_flat_map {X Y} (f : X -> list Y) l : NoDup l -> (forall x, In x l -> NoDup (f x)) ->
  (forall x y z, In x l -> In y l -> In z (f x) -> In z (f y) -> x = y) -> NoDup (flat_map f l).
Proof.
  induction l as [|x l IH]; intros Hl Hf Hd; cbn [flat_map]; [constructor|]. inversion Hl as [|? ? Hx Hl']; subst.
  assert (H1 := Hf x (or_introl eq_refl)).
  assert (H2 : NoDup (flat_map f l)) by (apply IH; [exact Hl'|intros; apply Hf; right; assumption|intros; eapply Hd; eauto; right; assumption]).
  revert H1. assert (D : forall z, In z (f x) -> ~ In z (flat_map f l)).
  { intros z Hz K. apply in_flat_map in K as [y [Hy Hz2]]. apply Hx. rewrite (Hd x y z); auto; [left; reflexivity|right; exact Hy]. }
  revert D. generalize (f x). intros q. induction q as [|z q IHq]; intros D H1; cbn [app]; [exact H2|].
  inversion H1 as [|? ? K1 K2]; subst. constructor.
  - intros K. apply in_app_or in K as [K|K]; [contradiction|]. apply (D z); [left; reflexivity|exact K].
  - apply IHq; [intros; apply D; right; assumption|exact K2].
Qed.
Lemma triples_NoDup l m r : NoDup l -> NoDup m -> NoDup r -> NoDup (triples l m r).
Proof.
  intros Hl Hm Hr. unfold triples. apply NoDup_flat_map; [exact Hl| |].
  - intros a _. apply NoDup_flat_map; [exact Hm| |].
    + intros b _. apply Injective_map_NoDup; [|exact Hr]. intros x y E. congruence.
    + intros x y z _ _ H1 H2. apply in_map_iff in H1 as [u [<- _]]. apply in_map_iff in H2 as [v [E _]]. congruence.
  - intros x y z _ _ H1 H2. apply in_flat_map in H1 as [u [_ H1]]. apply in_map_iff in H1 as [v [<- _]].
    apply in_flat_map in H2 as [u' [_ H2]]. apply in_map_iff in H2 as [v' [E _]]. congruence.
Qed.
Lemma flat_map_length_const {X Y} (f : X -> list Y) l k : (forall x, length (f x) = k) -> length (flat_map f l) = length l * k.
Proof. intros H. induction l as [|x l IH]; cbn [flat_map length]; [reflexivity|]. rewrite app_length, H, IH. reflexivity. Qed.
Lemma triples_length l m r : length (triples l m r) = length l * length m * length r.
Proof.
  unfold triples. rewrite <- Nat.mul_assoc. apply flat_map_length_const. intros a. apply flat_map_length_const. intros b. apply map_length.
Qed.

(** one pass of additions *)
Definition upd (ts : list tri) (sel : tri -> bool) (g : tri -> Q) (p : cube) : cube :=
  fold_left (fun p t => if sel t then add3 p t (g t) else p) ts p.
Lemma add3_at d t x t' : (at3 (add3 d t x) t' == at3 d t' + (if tri_dec t' t then x else 0))%Q.
Proof.
  destruct t as [[a b] c], t' as [[a' b'] c']. unfold add3, at3. destruct (tri_dec (a', b', c') (a, b, c)) as [E|E].
  - injection E as -> -> ->. rewrite !Nat.eqb_refl. cbn. reflexivity.
  - destruct (a' =? a) eqn:E1; [|cbn; ring]. destruct (b' =? b) eqn:E2; [|cbn; ring]. destruct (c' =? c) eqn:E3; [|cbn; ring].
    apply Nat.eqb_eq in E1, E2, E3. congruence.
Qed.
Lemma upd_at ts sel g : forall p t, NoDup ts ->
  (at3 (upd ts sel g p) t == at3 p t + (if in_dec tri_dec t ts then (if sel t then g t else 0) else 0))%Q.
Proof.
  induction ts as [|x ts IH]; intros p t Hd; unfold upd; cbn [fold_left]; [cbn; ring|].
  inversion Hd as [|? ? Hx Hd']; subst. fold (upd ts sel g (if sel x then add3 p x (g x) else p)). rewrite IH by exact Hd'.
  destruct (in_dec tri_dec t (x :: ts)) as [Hi|Hi].
  - destruct (tri_dec t x) as [->|n].
    + destruct (in_dec tri_dec x ts) as [K|K]; [contradiction|]. destruct (sel x); [|ring]. rewrite add3_at.
      destruct (tri_dec x x) as [_|K2]; [ring|congruence].
    + destruct Hi as [->|Hi]; [congruence|]. destruct (in_dec tri_dec t ts) as [K|K]; [|contradiction].
      destruct (sel x); [|ring]. rewrite add3_at. destruct (tri_dec t x); [congruence|]. ring.
  - assert (t <> x /\ ~ In t ts) as [K1 K2] by (split; intros K; apply Hi; [left; congruence|right; exact K]).
    destruct (in_dec tri_dec t ts) as [K|K]; [contradiction|]. destruct (sel x); [|ring]. rewrite add3_at. destruct (tri_dec t x); [congruence|]. ring.
Qed.
Definition umass (U : list tri) (d : cube) : Q := qtotal (at3 d) U.
Lemma add3_mass U d t x : NoDup U -> In t U -> (umass U (add3 d t x) == umass U d + x)%Q.
Proof.
  unfold umass. intros HU Ht.
  rewrite (qtotal_ext _ (fun t' => (at3 d t' + (if tri_dec t' t then x else 0))%Q)) by (intros; apply add3_at).
  induction U as [|y U IH]; [destruct Ht|]. inversion HU as [|? ? Hy HU']; subst. unfold qtotal in *. cbn [fold_right].
  destruct (tri_dec y t) as [->|n].
  - assert (E : (qtotal (fun t' => (at3 d t' + (if tri_dec t' t then x else 0))%Q) U == qtotal (at3 d) U)%Q).
    { apply qtotal_ext. intros z Hz. destruct (tri_dec z t) as [->|_]; [contradiction|ring]. }
    unfold qtotal in E. rewrite E. ring.
  - destruct Ht as [->|Ht]; [congruence|]. rewrite IH by assumption. ring.
Qed.
Lemma upd_mass U ts sel g : forall p, NoDup U -> incl ts U -> (umass U (upd ts sel g p) == umass U p + qtotal g (filter sel ts))%Q.
Proof.
  induction ts as [|x ts IH]; intros p HU Hi; unfold upd; cbn [fold_left filter]; [unfold qtotal; cbn [fold_right]; ring|].
  fold (upd ts sel g (if sel x then add3 p x (g x) else p)).
  rewrite IH by (auto; intros y Hy; apply Hi; right; exact Hy). destruct (sel x); [|reflexivity].
  rewrite add3_mass by (auto; apply Hi; left; reflexivity). unfold qtotal. cbn [fold_right]. ring.
Qed.

Lemma mass_umass N d : (mass N d == umass (triples (seq 0 N) (seq 0 N) (seq 0 N)) d)%Q.
Proof.
  unfold mass, umass, triples. rewrite qtotal_flat, qtotal_total. apply qtotal_ext. intros a _.
  rewrite qtotal_flat, qtotal_total. apply qtotal_ext. intros b _. rewrite qtotal_map, qtotal_total. reflexivity.
Qed.

(** windows *)
Lemma wtri_NoDup N w : wset N w -> NoDup (wtri w).
Proof. destruct w as [[l m] r]. intros [H1 [H2 [H3 _]]]. apply triples_NoDup; assumption. Qed.
Lemma wtri_incl N w : wset N w -> incl (wtri w) (triples (seq 0 N) (seq 0 N) (seq 0 N)).
Proof.
  destruct w as [[l m] r]. intros [_ [_ [_ [H1 [H2 H3]]]]] [[a b] c] H. cbn [wtri] in H. apply triples_In in H as [K1 [K2 K3]].
  rewrite Forall_forall in *. apply triples_In. rewrite !in_seq0. auto.
Qed.
Lemma windows_fold f ws : forall p l m, windows f p l m ws = fold_left (fun p (w : win) => let '(l, m, r) := w in f p l m r) (window_list l m ws) p.
Proof. induction ws as [|r ws IH]; intros p l m; cbn [windows window_list fold_left]; [reflexivity|]. apply IH. Qed.

Section Train.
Variable forbid : list (nat * nat).
Variable enforce : list (nat * list nat).
Notation valid := (is_valid_seq forbid enforce).
Notation nvalid := (nvalid (is_valid_seq forbid enforce)).
Notation share := (share (is_valid_seq forbid enforce)).
Notation live := (live (is_valid_seq forbid enforce)).
Notation nlive := (nlive (is_valid_seq forbid enforce)).
Variable N : nat.

Lemma filter_length_split {X} (p : X -> bool) l : length (filter p l) + length (filter (fun x => negb (p x)) l) = length l.
Proof. induction l as [|x l IH]; cbn; [reflexivity|]. destruct (p x); cbn; lia. Qed.

Lemma init_window_eq p l m r : init_window forbid enforce p l m r =
  if nvalid (l, m, r) =? 0 then p else upd (triples l m r) valid (fun _ => (1 / inject_Z (Z.of_nat (nvalid (l, m, r))))%Q) p.
Proof.
  unfold init_window. cbn zeta.
  assert (E : length l * length m * length r - length (filter (fun t => negb (valid t)) (triples l m r)) = nvalid (l, m, r)).
  { rewrite <- triples_length. unfold LSW.nvalid. cbn [wtri]. assert (H := filter_length_split valid (triples l m r)). lia. }
  rewrite E. reflexivity.
Qed.
Lemma Zn_pos n : 0 < n -> (0 < inject_Z (Z.of_nat n))%Q.
Proof. apply Qn_pos. Qed.
Lemma share_nonneg w t : (0 <= share w t)%Q.
Proof.
  unfold LSW.share. destruct (in_dec tri_dec t (wtri w)) as [Hi|]; [|lra]. destruct (valid t) eqn:E; [|lra].
  apply Qle_shift_div_l; [|lra]. apply Zn_pos. unfold LSW.nvalid. assert (H : In t (filter valid (wtri w))) by (apply filter_In; auto).
  destruct (filter valid (wtri w)); [destruct H|cbn; lia].
Qed.
Lemma init_windows_at W : forall p t, Forall (wset N) W ->
  (at3 (fold_left (fun p (w : win) => let '(l, m, r) := w in init_window forbid enforce p l m r) W p) t == at3 p t + qtotal (fun w => share w t) W)%Q.
Proof.
  induction W as [|w W IH]; intros p t Hs; cbn [fold_left]; [unfold qtotal; cbn [fold_right]; ring|]. inversion Hs as [|? ? Hw Hs']; subst.
  rewrite IH by exact Hs'. destruct w as [[l m] r].
  assert (E : (at3 (init_window forbid enforce p l m r) t == at3 p t + share (l, m, r) t)%Q).
  { rewrite init_window_eq. unfold LSW.share. cbn [wtri]. destruct (nvalid (l, m, r) =? 0) eqn:E0.
    - destruct (in_dec tri_dec t (triples l m r)) as [Hi|]; [|ring]. destruct (valid t) eqn:Ev; [|ring]. exfalso.
      apply Nat.eqb_eq in E0. unfold LSW.nvalid in E0. assert (H : In t (filter valid (triples l m r))) by (apply filter_In; auto).
      cbn [wtri] in E0. destruct (filter valid (triples l m r)); [destruct H|discriminate].
    - apply upd_at. exact (wtri_NoDup N (l, m, r) Hw). }
  rewrite E. unfold qtotal. cbn [fold_right]. ring.
Qed.
Definition U := triples (seq 0 N) (seq 0 N) (seq 0 N).
Lemma U_NoDup : NoDup U.
Proof. apply triples_NoDup; apply seq_NoDup. Qed.
Lemma init_windows_mass W : forall p, Forall (wset N) W ->
  (umass U (fold_left (fun p (w : win) => let '(l, m, r) := w in init_window forbid enforce p l m r) W p) == umass U p + Qn (nlive W))%Q.
Proof.
  induction W as [|w W IH]; intros p Hs; cbn [fold_left]; [unfold LSW.nlive; cbn; unfold Qn; cbn; ring|]. inversion Hs as [|? ? Hw Hs']; subst.
  rewrite IH by exact Hs'. destruct w as [[l m] r].
  assert (E : (umass U (init_window forbid enforce p l m r) == umass U p + Qn (if live (l, m, r) then 1 else 0))%Q).
  { rewrite init_window_eq. unfold LSW.live. destruct (nvalid (l, m, r) =? 0) eqn:E0; cbn [negb].
    - unfold Qn. cbn. ring.
    - rewrite upd_mass; [|apply U_NoDup|exact (wtri_incl N (l, m, r) Hw)].
      rewrite qtotal_const. change (length (filter valid (triples l m r))) with (nvalid (l, m, r)).
      apply Nat.eqb_neq in E0. assert (P := Zn_pos (nvalid (l, m, r)) ltac:(lia)). change (Qn 1) with 1%Q. field. lra. }
  rewrite E. unfold LSW.nlive. cbn [filter]. destruct (live (l, m, r)); cbn [length]; cbv iota.
  - rewrite (Qn_S (length (filter live W))). change (Qn 1) with 1%Q. ring.
  - unfold Qn at 1. cbn [Z.of_nat]. change (inject_Z 0) with 0%Q. ring.
Qed.

(** training pass *)
Lemma train_window_eq D p l m r : exists nm, (nm == norm D (l, m, r))%Q /\
  train_window D p l m r = upd (triples l m r) (fun _ => if Qlt_le_dec ZERO3 nm then true else false) (fun t => (at3 D t / nm)%Q) p.
Proof.
  unfold train_window. cbn zeta. set (nm := fold_left _ _ 0%Q). exists nm. split.
  - unfold nm, norm. cbn [wtri]. rewrite qtotal_fold. ring.
  - unfold upd. generalize (triples l m r). intros ts. clear. revert p. induction ts as [|x ts IH]; intros p; cbn [fold_left]; [reflexivity|].
    rewrite IH. destruct (Qlt_le_dec ZERO3 nm); reflexivity.
Qed.
Lemma train_windows_at D W : forall p t, Forall (wset N) W ->
  (at3 (fold_left (fun p (w : win) => let '(l, m, r) := w in train_window D p l m r) W p) t == at3 p t + qtotal (fun w => gain D w t) W)%Q.
Proof.
  induction W as [|w W IH]; intros p t Hs; cbn [fold_left]; [unfold qtotal; cbn [fold_right]; ring|]. inversion Hs as [|? ? Hw Hs']; subst.
  rewrite IH by exact Hs'. destruct w as [[l m] r]. destruct (train_window_eq D p l m r) as [nm [En ->]].
  rewrite upd_at by exact (wtri_NoDup N (l, m, r) Hw).
  assert (E : ((if in_dec tri_dec t (triples l m r) then (if (if Qlt_le_dec ZERO3 nm then true else false) then at3 D t / nm else 0) else 0) == gain D (l, m, r) t)%Q).
  { unfold gain. cbn [wtri]. destruct (in_dec tri_dec t (triples l m r)); [|reflexivity].
    destruct (Qlt_le_dec ZERO3 nm), (Qlt_le_dec ZERO3 (norm D (l, m, r))); try (exfalso; lra); [rewrite En; reflexivity|reflexivity]. }
  rewrite E. unfold qtotal. cbn [fold_right]. ring.
Qed.
Definition trained (D : cube) (w : win) : bool := if Qlt_le_dec ZERO3 (norm D w) then true else false.
Lemma train_windows_mass D W : forall p, Forall (wset N) W ->
  (umass U (fold_left (fun p (w : win) => let '(l, m, r) := w in train_window D p l m r) W p) == umass U p + Qn (length (filter (trained D) W)))%Q.
Proof.
  induction W as [|w W IH]; intros p Hs; cbn [fold_left]; [cbn; unfold Qn; cbn; ring|]. inversion Hs as [|? ? Hw Hs']; subst.
  rewrite IH by exact Hs'. destruct w as [[l m] r]. destruct (train_window_eq D p l m r) as [nm [En ->]].
  rewrite upd_mass; [|apply U_NoDup|exact (wtri_incl N (l, m, r) Hw)]. cbn [filter]. unfold trained at 2.
  destruct (Qlt_le_dec ZERO3 nm) as [H|H]; destruct (Qlt_le_dec ZERO3 (norm D (l, m, r))) as [H'|H']; try (exfalso; lra).
  - assert (F : filter (fun _ : tri => true) (triples l m r) = triples l m r) by (generalize (triples l m r); induction l0 as [|x q IHq]; cbn; congruence).
    rewrite F, qtotal_div. change (qtotal (at3 D) (triples l m r)) with (norm D (l, m, r)). rewrite En. cbn [length].
    unfold ZERO3 in *. unfold Qn. rewrite Nat2Z.inj_succ. unfold Z.succ. rewrite inject_Z_plus. change (inject_Z 1) with 1%Q.
    field. lra.
  - assert (F : filter (fun _ : tri => false) (triples l m r) = []) by (generalize (triples l m r); induction l0 as [|x q IHq]; cbn; congruence).
    rewrite F. unfold qtotal. cbn [fold_right]. ring.
Qed.

(** invariant over the iterations *)
Variable W : list win.
Hypothesis HW : Forall (wset N) W.
Record TI (D : cube) : Prop := mkTI {
  ti_nn : forall t, (0 <= at3 D t)%Q;
  ti_zero : forall t, valid t = false -> (at3 D t == 0)%Q;
  ti_live : forall w, In w W -> live w = true -> (1 <= norm D w)%Q;
  ti_mass : (umass U D == Qn (nlive W))%Q }.
Definition iD : cube := fold_left (fun p (w : win) => let '(l, m, r) := w in init_window forbid enforce p l m r) W cube0.
Definition tD (D : cube) : cube := fold_left (fun p (w : win) => let '(l, m, r) := w in train_window D p l m r) W cube0.
Lemma at0 t : at3 cube0 t = 0%Q.
Proof. destruct t as [[a b] c]. reflexivity. Qed.
Lemma umass0 : (umass U cube0 == 0)%Q.
Proof. unfold umass. rewrite (qtotal_ext _ (fun _ => 0%Q)) by (intros; rewrite at0; reflexivity). rewrite qtotal_const. ring. Qed.
Lemma TI_init : TI iD.
Proof.
  assert (V : forall t, (at3 iD t == qtotal (fun w => share w t) W)%Q).
  { intros t. unfold iD. rewrite init_windows_at by exact HW. rewrite at0. ring. }
  constructor.
  - intros t. rewrite V. apply qtotal_nonneg. intros w _. apply share_nonneg.
  - intros t Ht. rewrite V. rewrite (qtotal_ext _ (fun _ => 0%Q)); [rewrite qtotal_const; ring|]. intros w _. unfold LSW.share.
    destruct (in_dec tri_dec t (wtri w)); [rewrite Ht|]; reflexivity.
  - intros w Hw Hl. unfold norm.
    assert (E : (1 == qtotal (share w) (wtri w))%Q).
    { rewrite (qtotal_ext _ (fun t => if valid t then (1 / inject_Z (Z.of_nat (nvalid w)))%Q else 0%Q)).
      - rewrite <- (qtotal_filter (fun _ => (1 / inject_Z (Z.of_nat (nvalid w)))%Q)), qtotal_const.
        change (length (filter valid (wtri w))) with (nvalid w). unfold LSW.live in Hl. destruct (nvalid w =? 0) eqn:E0; [discriminate|].
        apply Nat.eqb_neq in E0. assert (P := Zn_pos (nvalid w) ltac:(lia)). field. lra.
      - intros t Ht. unfold LSW.share. destruct (in_dec tri_dec t (wtri w)); [reflexivity|contradiction]. }
    rewrite E. apply qtotal_le. intros t _. rewrite V. apply (qtotal_ge (fun w => share w t)); [intros; apply share_nonneg|exact Hw].
  - unfold iD. rewrite init_windows_mass by exact HW. rewrite umass0. ring.
Qed.
Lemma TI_train D : TI D -> TI (tD D).
Proof.
  intros [H1 H2 H3 H4].
  assert (V : forall t, (at3 (tD D) t == qtotal (fun w => gain D w t) W)%Q).
  { intros t. unfold tD. rewrite train_windows_at by exact HW. rewrite at0. ring. }
  assert (G0 : forall w t, (0 <= gain D w t)%Q).
  { intros w t. unfold gain. destruct (in_dec tri_dec t (wtri w)); [|lra]. destruct (Qlt_le_dec ZERO3 (norm D w)) as [P|]; [|lra].
    apply Qle_shift_div_l; [unfold ZERO3 in P; lra|]. assert (H := H1 t). lra. }
  assert (LV : forall w, In w W -> trained D w = live w).
  { intros w Hw. unfold trained. destruct (live w) eqn:El.
    - assert (K := H3 w Hw El). destruct (Qlt_le_dec ZERO3 (norm D w)) as [P|P]; [reflexivity|]. exfalso. unfold ZERO3 in P. lra.
    - assert (K : (norm D w == 0)%Q).
      { unfold norm. rewrite (qtotal_ext _ (fun _ => 0%Q)); [rewrite qtotal_const; ring|]. intros t Ht. apply H2.
        destruct (valid t) eqn:Ev; [|reflexivity]. unfold LSW.live in El. destruct (nvalid w =? 0) eqn:E0; [|discriminate]. apply Nat.eqb_eq in E0.
        unfold LSW.nvalid in E0. assert (Hf : In t (filter valid (wtri w))) by (apply filter_In; auto). destruct (filter valid (wtri w)); [destruct Hf|discriminate]. }
      destruct (Qlt_le_dec ZERO3 (norm D w)) as [P|P]; [|reflexivity]. exfalso. unfold ZERO3 in P. lra. }
  constructor.
  - intros t. rewrite V. apply qtotal_nonneg. intros w _. apply G0.
  - intros t Ht. rewrite V. rewrite (qtotal_ext _ (fun _ => 0%Q)); [rewrite qtotal_const; ring|]. intros w _. unfold gain.
    destruct (in_dec tri_dec t (wtri w)); [|reflexivity]. destruct (Qlt_le_dec ZERO3 (norm D w)) as [P|P]; [|reflexivity].
    rewrite (H2 t Ht). unfold Qdiv. ring.
  - intros w Hw Hl. assert (K := H3 w Hw Hl). unfold norm.
    assert (E : (1 == qtotal (gain D w) (wtri w))%Q).
    { rewrite (qtotal_ext _ (fun t => (at3 D t / norm D w)%Q)).
      - rewrite qtotal_div. change (qtotal (at3 D) (wtri w)) with (norm D w). field. lra.
      - intros t Ht. unfold gain. destruct (in_dec tri_dec t (wtri w)); [|contradiction].
        destruct (Qlt_le_dec ZERO3 (norm D w)) as [P|P]; [reflexivity|]. exfalso. unfold ZERO3 in P. lra. }
    rewrite E. apply qtotal_le. intros t _. rewrite V. apply (qtotal_ge (fun w => gain D w t)); [intros; apply G0|exact Hw].
  - unfold tD. rewrite train_windows_mass by exact HW. rewrite umass0. unfold LSW.nlive.
    rewrite (filter_ext_in _ _ _ LV). ring.
Qed.
End Train.

(** tagger *)
Lemma wscore_spec D l r b : (wscore D l r b == context_mass D l r b)%Q.
Proof.
  unfold wscore, context_mass. rewrite qtotal_total.
  assert (G : forall l a0, (fold_left (fun n a => fold_left (fun n c => (n + D a b c)%Q) r n) l a0 == a0 + qtotal (fun a => total r (fun c => D a b c)) l)%Q).
  { clear. induction l as [|a l IH]; intros a0; unfold qtotal; cbn [fold_left fold_right]; [ring|].
    rewrite IH, (qtotal_fold (fun c => D a b c)), qtotal_total. unfold qtotal. ring. }
  rewrite G. ring.
Qed.
Lemma best_mid_spec D l m r : (forall a b c, (0 <= D a b c)%Q) -> m <> [] ->
  exists b m1 m2, best_mid D l m r = Some b /\ m = m1 ++ b :: m2 /\
    (forall b', In b' m1 -> (context_mass D l r b' < context_mass D l r b)%Q) /\
    (forall b', In b' m2 -> (context_mass D l r b' <= context_mass D l r b)%Q).
Proof.
  intros HD Hm. destruct m as [|t0 m0]; [congruence|]. unfold best_mid. set (m := t0 :: m0) in *.
  set (f := fun mt b => let n := wscore D l r b in if Qlt_le_dec (fst mt) n then (n, b) else mt).
  assert (S0 : forall b, (0 <= wscore D l r b)%Q).
  { intros b. rewrite wscore_spec. apply total_nonneg. intros a _. apply total_nonneg. intros c _. apply HD. }
  (* invariant: the current pair is the score and the first best of the processed prefix *)
  assert (G : forall q done mt, (exists d1 d2, done = d1 ++ snd mt :: d2 /\ fst mt = wscore D l r (snd mt) /\
     (forall b', In b' d1 -> (wscore D l r b' < wscore D l r (snd mt))%Q) /\ (forall b', In b' d2 -> (wscore D l r b' <= wscore D l r (snd mt))%Q)) ->
     exists d1 d2, done ++ q = d1 ++ snd (fold_left f q mt) :: d2 /\
     (forall b', In b' d1 -> (wscore D l r b' < wscore D l r (snd (fold_left f q mt)))%Q) /\
     (forall b', In b' d2 -> (wscore D l r b' <= wscore D l r (snd (fold_left f q mt)))%Q)).
  { induction q as [|x q IH]; intros done mt [d1 [d2 [E [Es [H1 H2]]]]]; cbn [fold_left].
    - exists d1, d2. rewrite app_nil_r. auto.
    - replace (done ++ x :: q) with ((done ++ [x]) ++ q) by (rewrite <- app_assoc; reflexivity). apply IH.
      unfold f. cbn zeta. rewrite Es. destruct (Qlt_le_dec (wscore D l r (snd mt)) (wscore D l r x)) as [P|P]; cbn [fst snd].
      + exists done, []. split; [reflexivity|]. split; [reflexivity|]. split; [|intros ? []]. intros b' Hb. rewrite E in Hb.
        apply in_app_or in Hb as [Hb|[<-|Hb]]; [assert (K := H1 _ Hb)|exact P|assert (K := H2 _ Hb)]; lra.
      + exists d1, (d2 ++ [x]). rewrite E, <- app_assoc. split; [reflexivity|]. split; [exact Es|]. split; [exact H1|].
        intros b' Hb. apply in_app_or in Hb as [Hb|[<-|[]]]; [auto|exact P]. }
  assert (F0 : f ((-(1))%Q, t0) t0 = (wscore D l r t0, t0)).
  { unfold f. cbn [fst snd]. destruct (Qlt_le_dec (-(1)) (wscore D l r t0)) as [P|P]; [reflexivity|]. exfalso. assert (K := S0 t0). lra. }
  destruct (G m0 [t0] (wscore D l r t0, t0)) as [d1 [d2 [E [H1 H2]]]].
  { exists [], []. cbn [fst snd]. repeat split; [intros ? []|intros ? []]. }
  exists (snd (fold_left f m ((-(1))%Q, t0))), d1, d2.
  assert (FM : fold_left f m ((-(1))%Q, t0) = fold_left f m0 (wscore D l r t0, t0)) by (unfold m; cbn [fold_left]; rewrite F0; reflexivity).
  rewrite FM. split; [reflexivity|]. split; [exact E|]. split; intros b' Hb; rewrite <- !wscore_spec; [apply H1|apply H2]; exact Hb.
Qed.
Definition lev_word (e : lev) : list lw := match e with LWord w _ => [w] | LNul => [] end.
Lemma lsw_words D nf more : forall l mid w, flat_map lev_word (lsw_loop D nf l mid (more ++ [w])) = mid :: more.
Proof.
  induction more as [|x more IH]; intros l mid w; cbn [app lsw_loop flat_map lev_word].
  - destruct (lw_eof w && nf); reflexivity.
  - rewrite flat_map_app, IH. destruct (lw_eof x && nf); reflexivity.
Qed.
