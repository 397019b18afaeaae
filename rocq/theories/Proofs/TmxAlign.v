From Coq Require Import QArith Qminmax Qfield Lqa Psatz.
From Verif Require Import Model.Base Model.TmxAlign Spec.TmxAlign.
Open Scope Z_scope.

(** ** Loops and vectors *)
Lemma for_n_inv {S} (f : Z -> S -> option S) (I : Z -> S -> Prop) :
  forall k a s, I a s ->
  (forall j s, a <= j < a + Z.of_nat k -> I j s -> exists s', f j s = Some s' /\ I (j + 1) s') ->
  exists s', for_n k a f s = Some s' /\ I (a + Z.of_nat k) s'.
Proof.
  induction k as [|k IH]; intros a s Ha Hs; cbn [for_n].
  - exists s. split; auto. now replace (a + Z.of_nat 0) with a by lia.
  - destruct (Hs a s ltac:(lia) Ha) as (s1 & E & H1). rewrite E.
    destruct (IH (a + 1) s1 H1) as (s2 & E2 & H2).
    + intros j t Hj. apply Hs. lia.
    + exists s2. split; auto. now replace (a + Z.of_nat (Datatypes.S k)) with (a + 1 + Z.of_nat k) by lia.
Qed.

Lemma for_z_inv {S} (f : Z -> S -> option S) (I : Z -> S -> Prop) a b s :
  I a s ->
  (forall j s, a <= j < b -> I j s -> exists s', f j s = Some s' /\ I (j + 1) s') ->
  exists s', for_z a b f s = Some s' /\ I (Z.max a b) s'.
Proof.
  intros Ha Hs. unfold for_z.
  destruct (for_n_inv f I (Z.to_nat (b - a)) a s Ha) as (s' & E & H).
  - intros j t Hj. apply Hs. lia.
  - exists s'. split; auto. now replace (Z.max a b) with (a + Z.of_nat (Z.to_nat (b - a))) by lia.
Qed.

Lemma at_some {T} (l : list T) i :
  0 <= i < Z.of_nat (length l) -> exists x, at_ l i = Some x.
Proof.
  intros H. unfold at_. destruct (Z.leb_spec 0 i); [|lia].
  destruct (nth_error l (Z.to_nat i)) eqn:E; eauto.
  apply nth_error_None in E. lia.
Qed.

(** ** The matrix *)
Lemma wrap32_id z : 0 <= z < 2 ^ 31 -> wrap32 z = z.
Proof. intros H. unfold wrap32. rewrite Z.mod_small by lia. lia. Qed.

Definition inm {T} (a : mat T) i j := 0 <= i < height a /\ 0 <= j < width a.
Definition inb {T} (a : mat T) i j := inm a i j /\ 0 <= j - offset a i < thick a.

Lemma get_in {T} (a : mat T) i j : inb a i j -> get a i j = Some (cells a i j).
Proof.
  intros ((Hi & Hj) & Hd). unfold get.
  destruct (Z.leb_spec 0 i), (Z.ltb_spec i (height a)), (Z.leb_spec 0 j), (Z.ltb_spec j (width a));
    try lia; cbn [andb].
  destruct (Z.leb_spec 0 (j - offset a i)), (Z.ltb_spec (j - offset a i) (thick a)); try lia.
  reflexivity.
Qed.

Lemma get_out {T} (a : mat T) i j : inm a i j -> ~ inb a i j -> get a i j = Some (outside a).
Proof.
  intros (Hi & Hj) Hn. unfold get.
  destruct (Z.leb_spec 0 i), (Z.ltb_spec i (height a)), (Z.leb_spec 0 j), (Z.ltb_spec j (width a));
    try lia; cbn [andb].
  destruct (Z.leb_spec 0 (j - offset a i)), (Z.ltb_spec (j - offset a i) (thick a)); try reflexivity.
  exfalso. apply Hn. split; [split|]; lia.
Qed.

Lemma inb_dec {T} (a : mat T) i j : inb a i j \/ ~ inb a i j.
Proof. unfold inb, inm. lia. Qed.

Lemma get_inm {T} (a : mat T) i j : inm a i j -> exists x, get a i j = Some x.
Proof. intros H. destruct (inb_dec a i j); [rewrite get_in|rewrite get_out]; eauto. Qed.

Lemma set_in {T} (a : mat T) i j x : inb a i j ->
  set a i j x = Some (Mat (height a) (width a) (thick a) (outside a)
                (fun y' x' => if (y' =? i) && (x' =? j) then x else cells a y' x')).
Proof.
  intros ((Hi & Hj) & Hd). unfold set.
  destruct (Z.leb_spec 0 i), (Z.ltb_spec i (height a)), (Z.leb_spec 0 j), (Z.ltb_spec j (width a));
    try lia; cbn [andb].
  destruct (Z.leb_spec 0 (j - offset a i)), (Z.ltb_spec (j - offset a i) (thick a)); try lia.
  reflexivity.
Qed.

(** Same shape. *)
Definition same_geo {S T} (a : mat S) (b : mat T) :=
  height a = height b /\ width a = width b /\ thick a = thick b.
Lemma same_offset {S T} (a : mat S) (b : mat T) i : same_geo a b -> offset a i = offset b i.
Proof. intros (H & W & Th). unfold offset. now rewrite H, W, Th. Qed.
Lemma same_inb {S T} (a : mat S) (b : mat T) i j : same_geo a b -> inb a i j <-> inb b i j.
Proof.
  intros G. pose proof (same_offset a b i G) as O. destruct G as (H & W & Th).
  unfold inb, inm. rewrite O, H, W, Th. tauto.
Qed.
Lemma same_rowStart {S T} (a : mat S) (b : mat T) i : same_geo a b -> rowStart a i = rowStart b i.
Proof. intros G. unfold rowStart. now rewrite (same_offset a b i G). Qed.
Lemma same_rowEnd {S T} (a : mat S) (b : mat T) i : same_geo a b -> rowEnd a i = rowEnd b i.
Proof.
  intros G. unfold rowEnd. rewrite (same_offset a b i G). destruct G as (H & W & Th).
  now rewrite W, Th.
Qed.

Lemma row_in {T} (a : mat T) i j : 0 <= i < height a ->
  (rowStart a i <= j < rowEnd a i) <-> inb a i j.
Proof.
  intros Hi. unfold rowStart, rowEnd, inb, inm.
  destruct (Z.ltb_spec 0 (offset a i)), (Z.ltb_spec (offset a i + thick a) (width a)); lia.
Qed.

(** ** The dynamic programming matrix *)
Section Build.
Variables (n m th : Z) (w : mat Q) (hu en : list Q).
Hypothesis Hn : 0 <= n.
Hypothesis Hm : 0 <= m.
Hypothesis Hw : height w = n /\ width w = m /\ thick w = th.
Hypothesis Hhu : Z.of_nat (length hu) = n.
Hypothesis Hen : Z.of_nat (length en) = m.

Definition geo {T} (v : mat T) := height v = n + 1 /\ width v = m + 1 /\ thick v = th.

Lemma cell_values_some v i j : geo v -> 0 <= i <= n -> 0 <= j <= m ->
  exists vals, cell_values w hu en v i j = Some vals.
Proof.
  intros (Gh & Gw & Gt) Hi Hj. destruct Hw as (Wh & Ww & Wt). unfold cell_values.
  assert (V : forall a b, 0 <= a <= n -> 0 <= b <= m -> exists x, get v a b = Some x).
  { intros a b Ha Hb. apply get_inm. split; lia. }
  assert (W : forall a b, 0 <= a < n -> 0 <= b < m -> exists x, get w a b = Some x).
  { intros a b Ha Hb. apply get_inm. split; lia. }
  destruct (Z.ltb_spec 0 i), (Z.ltb_spec 0 j), (Z.ltb_spec 1 j); cbn [andb]; try lia;
    repeat match goal with
    | |- context [get v ?a ?b] => let E := fresh "E" in
        destruct (V a b ltac:(lia) ltac:(lia)) as (? & E); rewrite E; clear E
    | |- context [get w ?a ?b] => let E := fresh "E" in
        destruct (W a b ltac:(lia) ltac:(lia)) as (? & E); rewrite E; clear E
    | |- context [at_ hu ?a] => let E := fresh "E" in
        destruct (at_some hu a ltac:(lia)) as (? & E); rewrite E; clear E
    | |- context [at_ en ?a] => let E := fresh "E" in
        destruct (at_some en a ltac:(lia)) as (? & E); rewrite E; clear E
    end; eauto.
Qed.

Lemma cell_values_agree v v' a b :
  (forall y x, y < a \/ (y = a /\ x < b) -> get v y x = get v' y x) ->
  cell_values w hu en v a b = cell_values w hu en v' a b.
Proof.
  intros H. unfold cell_values.
  rewrite (H (a - 1) b) by lia. rewrite (H a (b - 1)) by lia.
  rewrite (H (a - 1) (b - 1)) by lia. rewrite (H (a - 1) (b - 2)) by lia. reflexivity.
Qed.

Definition stored (p : dir * Q) : Q := match fst p with Dead => 0%Q | _ => snd p end.

Definition filled (s : mat Q * mat dir) i j : Prop :=
  exists vals, cell_values w hu en (fst s) i j = Some vals /\
    cells (snd s) i j = fst (pick vals) /\ cells (fst s) i j = stored (pick vals).

Definition shape (s : mat Q * mat dir) :=
  geo (fst s) /\ geo (snd s) /\ outside (fst s) = inject_Z (10 ^ 30) /\ outside (snd s) = Dead.

Definition upto (i j : Z) (s : mat Q * mat dir) : Prop :=
  shape s /\
  forall a b, inb (fst s) a b -> a < i \/ (a = i /\ b < j) -> filled s a b.

Lemma cell_step_ok i j s :
  upto i j s -> inb (fst s) i j ->
  exists s', cell_step w hu en i j s = Some s' /\ upto i (j + 1) s'.
Proof.
  intros ((G1 & G2 & O1 & O2) & F) Hin. destruct s as [v t]. cbn [fst snd] in *.
  unfold cell_step.
  destruct (cell_values_some v i j G1) as (vals & E).
  { destruct Hin as ((A & _) & _). destruct G1 as (Gh & _). lia. }
  { destruct Hin as ((_ & B) & _). destruct G1 as (_ & Gw & _). lia. }
  rewrite E. destruct (pick vals) as [d x] eqn:EP.
  assert (Hint : inb t i j).
  { apply (proj1 (same_inb v t i j ltac:(unfold same_geo; unfold geo in *; lia))). exact Hin. }
  rewrite (set_in t i j d Hint).
  rewrite (set_in v i j _ Hin).
  eexists. split; [reflexivity|].
  set (v' := Mat _ _ _ _ _). set (t' := Mat _ _ _ (outside t) _).
  assert (Gv : geo v') by exact G1. assert (Gt : geo t') by exact G2.
  split. { split; [|split; [|split]]; assumption. }
  cbn [fst snd]. intros a b Hab Hlt.
  assert (SG : same_geo v v') by (unfold same_geo; cbn; auto).
  assert (Eg : forall y x, ~ (y = i /\ x = j) -> get v y x = get v' y x).
  { intros y x0 Hne. unfold get. cbn [height width thick outside cells v'].
    rewrite <- (same_offset v v' y SG).
    destruct ((0 <=? y) && (y <? height v) && (0 <=? x0) && (x0 <? width v)); auto.
    destruct (Z.eqb_spec y i), (Z.eqb_spec x0 j); cbn [andb]; try reflexivity.
    exfalso. apply Hne. auto. }
  assert (Ev : cell_values w hu en v a b = cell_values w hu en v' a b).
  { apply cell_values_agree. intros y x0 Hyx. apply Eg. lia. }
  destruct (Z.eq_dec a i) as [-> | Ha]; [destruct (Z.eq_dec b j) as [-> | Hb]|].
  - exists vals. cbn [fst snd]. split; [rewrite <- Ev; exact E|].
    unfold v', t'. cbn [cells]. rewrite !Z.eqb_refl. cbn [andb]. rewrite EP. cbn.
    split; [reflexivity|]. destruct d; reflexivity.
  - destruct (F i b) as (vals' & A & B & C).
    { apply (same_inb v v' i b SG). exact Hab. }
    { lia. }
    cbn [fst snd] in A, B, C.
    exists vals'. cbn [fst snd]. split; [rewrite <- Ev; exact A|].
    unfold v', t'. cbn [cells]. destruct (Z.eqb_spec b j); [lia|]. rewrite andb_false_r. auto.
  - destruct (F a b) as (vals' & A & B & C).
    { apply (same_inb v v' a b SG). exact Hab. }
    { lia. }
    cbn [fst snd] in A, B, C.
    exists vals'. cbn [fst snd]. split; [rewrite <- Ev; exact A|].
    unfold v', t'. cbn [cells]. destruct (Z.eqb_spec a i); [lia|]. cbn [andb]. auto.
Qed.

Lemma build_ok s : shape s ->
  exists s', buildDynProgMatrix w hu en s = Some s' /\ shape s' /\
    forall a b, inb (fst s') a b -> filled s' a b.
Proof.
  intros Sh. unfold buildDynProgMatrix.
  destruct (for_z_inv (fun i => for_z (rowStart (fst s) i) (rowEnd (fst s) i) (cell_step w hu en i))
              (fun i s' => upto i 0 s') 0 (height w + 1) s) as (s' & E & U).
  - split; [exact Sh|]. intros a b ((Ha & Hb) & _) Hlt. lia.
  - intros i s1 Hi U1.
    destruct U1 as (Sh1 & F1). pose proof Hw as (Wh & _ & _).
    assert (Gs : same_geo (fst s1) (fst s)).
    { destruct Sh as ((A & B & C) & _), Sh1 as ((A1 & B1 & C1) & _). unfold same_geo. lia. }
    assert (Hh : height (fst s) = n + 1) by (destruct Sh as ((A & _) & _); exact A).
    rewrite <- (same_rowStart (fst s1) (fst s) i Gs), <- (same_rowEnd (fst s1) (fst s) i Gs).
    destruct (for_z_inv (cell_step w hu en i)
                (fun j s2 => same_geo (fst s2) (fst s1) /\ upto i j s2)
                (rowStart (fst s1) i) (rowEnd (fst s1) i) s1) as (s2 & E2 & Gs2 & U2).
    + split; [unfold same_geo; auto|]. split; [exact Sh1|]. intros a b Hab Hlt.
      destruct Hlt as [Hlt|[-> Hlt]]; [apply F1; auto|].
      exfalso. apply (row_in (fst s1) i b) in Hab; [lia|]. destruct Gs as (A & _). lia.
    + intros j s2 Hj (Gs2 & U2).
      destruct (cell_step_ok i j s2 U2) as (s3 & E3 & U3).
      { apply (same_inb (fst s2) (fst s1) i j Gs2). apply row_in; [|exact Hj].
        destruct Gs as (A & _). lia. }
      exists s3. split; [exact E3|]. split; [|exact U3].
      destruct U3 as ((G3 & _) & _). destruct Sh1 as (G1 & _).
      unfold geo, same_geo in *. lia.
    + exists s2. split; [exact E2|].
      destruct U2 as (Sh2 & F2). split; [exact Sh2|].
      intros a b Hab Hlt. apply F2; [exact Hab|].
      assert (Hab1 : inb (fst s1) a b) by (apply (same_inb (fst s2) (fst s1) a b Gs2); exact Hab).
      pose proof (proj2 (proj1 Hab1)) as Hb0.
      destruct (Z.eq_dec a i) as [-> |]; [|lia].
      right. split; [reflexivity|]. apply (row_in (fst s1) i b) in Hab1; [lia|].
      destruct Gs as (A & _). lia.
  - exists s'. split; [exact E|]. destruct U as (Sh' & F').
    split; [exact Sh'|]. intros a b Hab. apply F'; [exact Hab|].
    pose proof Hw as (Wh & _ & _). destruct Hab as ((A & _) & _).
    destruct Sh' as ((B & _) & _). lia.
Qed.
End Build.

(** ** Small facts about rationals *)
Lemma Qltb_spec a b : Bool.reflect (a < b)%Q (Qltb a b).
Proof.
  unfold Qltb. destruct (Qle_bool b a) eqn:E; cbn; constructor.
  - apply Qle_bool_iff in E. lra.
  - apply Qnot_le_lt. intros H. apply Qle_bool_iff in H. congruence.
Qed.

Lemma Qmin_if a b : (Qmin a b == if Qltb a b then a else b)%Q.
Proof.
  destruct (Qltb_spec a b).
  - apply Q.min_l. lra.
  - apply Q.min_r. lra.
Qed.

Lemma closeness_fit a b : (0 <= a)%Q -> (0 <= b)%Q -> (closeness a b == fit a b)%Q.
Proof.
  intros Ha Hb. unfold closeness, fit. destruct (Qltb_spec b a) as [H|H].
  - rewrite (Q.max_l a b) by lra. rewrite (Q.min_r a b) by lra. reflexivity.
  - rewrite (Q.max_r a b) by lra. rewrite (Q.min_l a b) by lra. reflexivity.
Qed.

Lemma fit_comm a b : (fit a b == fit b a)%Q.
Proof. unfold fit. now rewrite (Q.max_comm a b), (Q.min_comm a b). Qed.

Lemma fit_le a b : (0 <= a)%Q -> (0 <= b)%Q -> (fit a b <= 3 # 10)%Q.
Proof.
  intros Ha Hb. unfold fit.
  assert (H0 : (0 < Qmin a b + 1)%Q).
  { destruct (Q.min_spec a b) as [(_ & ->)|(_ & ->)]; lra. }
  assert (H : (1 <= (Qmax a b + 1) / (Qmin a b + 1))%Q).
  { apply Qle_shift_div_l; [exact H0|].
    pose proof (Q.le_min_l a b). pose proof (Q.le_max_l a b). lra. }
  lra.
Qed.

(** ** The smallest value *)
Definition best2 (b x : dir * Q) : dir * Q := if Qltb (snd x) (snd b) then x else b.
Lemma fold_best : forall vals b,
  let p := fold_left best2 vals b in
  (snd p <= snd b)%Q /\ (forall x, In x vals -> (snd p <= snd x)%Q) /\
  (p = b \/ (In p vals /\ (snd p < snd b)%Q)).
Proof.
  induction vals as [|y vals IH]; intros b; cbn [fold_left].
  - split; [lra|]. split; [intros x []|auto].
  - destruct (IH (best2 b y)) as (A & B & C).
    unfold best2 in *. destruct (Qltb_spec (snd y) (snd b)) as [L|L].
    + split; [lra|]. split.
      * intros x [-> |H]; [lra|auto].
      * destruct C as [-> |(C1 & C2)]; right; split; cbn; auto; lra.
    + split; [lra|]. split.
      * intros x [-> |H]; [lra|auto].
      * destruct C as [-> |(C1 & C2)]; [left; auto|right; split; cbn; auto].
Qed.

Lemma pick_spec vals :
  (snd (pick vals) <= infinity)%Q /\ (forall x, In x vals -> (snd (pick vals) <= snd x)%Q) /\
  (pick vals = (Dead, infinity) \/ (In (pick vals) vals /\ (snd (pick vals) < infinity)%Q)).
Proof. exact (fold_best vals (Dead, infinity)). Qed.

(** ** The geometry of the band *)
Section Geo.
Variables (n m th : Z).
Hypothesis Hn : 0 <= n.
Hypothesis Hm : 0 <= m.
Hypothesis Hover : (n + 1) * (m + 1) <= 2 ^ 31.
Hypothesis Hth : m + 1 <= (th / 2) * (n + 1).

Lemma th_pos : 1 <= th / 2 /\ 2 * (th / 2) <= th < 2 * (th / 2) + 2.
Proof.
  pose proof (Z.div_mod th 2 ltac:(lia)). pose proof (Z.mod_pos_bound th 2 ltac:(lia)).
  split; [nia|lia].
Qed.

Lemma offset_eq {T} (v : mat T) i : geo n m th v -> 0 <= i <= n ->
  offset v i = i * (m + 1) / (n + 1) - th / 2.
Proof.
  intros (H & W & Th) Hi. unfold offset. rewrite H, W, Th. pose proof th_pos.
  rewrite wrap32_id by nia.
  rewrite !Z.quot_div_nonneg by nia. reflexivity.
Qed.

Lemma inb_band {T} (v : mat T) i j : geo n m th v -> inb v i j <-> band n m th (i, j).
Proof.
  intros G. pose proof (offset_eq v i G) as O. destruct G as (H & W & Th).
  unfold inb, inm, band. cbv zeta. split.
  - intros ((A & B) & C). rewrite O in C by lia. lia.
  - intros (A & B & C). rewrite O by lia. lia.
Qed.

Lemma band_origin : band n m th (0, 0).
Proof.
  pose proof th_pos. unfold band. cbv zeta. rewrite Z.mul_0_l, Z.div_0_l by lia. lia.
Qed.

Lemma band_corner : band n m th (n, m).
Proof.
  pose proof th_pos as (P1 & P2). unfold band. cbv zeta. split; [lia|]. split; [lia|].
  assert (A : n * (m + 1) / (n + 1) < m + 1) by (apply Z.div_lt_upper_bound; nia).
  assert (B : m + 1 - th / 2 <= n * (m + 1) / (n + 1)) by (apply Z.div_le_lower_bound; nia).
  lia.
Qed.

Lemma band_connected i j : band n m th (i, j) -> (i, j) <> (0, 0) ->
  (1 <= j /\ band n m th (i, j - 1)) \/ (1 <= i /\ band n m th (i - 1, j)).
Proof.
  pose proof th_pos as (P1 & P2). unfold band. cbv zeta. intros (A & B & C) Hne.
  destruct (Z.eq_dec i 0) as [-> | Hi].
  - left. rewrite Z.mul_0_l, Z.div_0_l in * by lia.
    assert (j <> 0) by (intros ->; apply Hne; reflexivity). lia.
  - destruct (Z.le_gt_cases 1 j) as [Hj|Hj];
      [destruct (Z.le_gt_cases (i * (m + 1) / (n + 1) - th / 2) (j - 1)) as [K|K]|].
    + left. lia.
    + right. split; [lia|]. split; [lia|]. split; [lia|].
      assert (D : (i - 1) * (m + 1) / (n + 1) <= i * (m + 1) / (n + 1)) by (apply Z.div_le_mono; nia).
      assert (D2 : i * (m + 1) / (n + 1) <= (i - 1) * (m + 1) / (n + 1) + th / 2).
      { rewrite <- Z.div_add by lia. apply Z.div_le_mono; nia. }
      lia.
    + right. split; [lia|]. split; [lia|]. split; [lia|].
      assert (D : (i - 1) * (m + 1) / (n + 1) <= i * (m + 1) / (n + 1)) by (apply Z.div_le_mono; nia).
      assert (D3 : 0 <= (i - 1) * (m + 1) / (n + 1)) by (apply Z.div_pos; nia).
      lia.
Qed.
End Geo.

(** ** Optimality *)
Definition simf (w : mat Q) (i j : Z) : Q := match get w i j with Some x => x | None => 0%Q end.
Definition lenf (l : list Q) (i : Z) : Q := match at_ l i with Some x => x | None => 0%Q end.

(** Paths. *)
Section Paths.
Variables (sim : Z -> Z -> Q) (sl tl : Z -> Q) (inside : point -> Prop).
Notation pth := (path sim sl tl inside).

Lemma path_inv1 c q : pth [c] q -> inside c /\ (q == 0)%Q.
Proof. intros H. inversion H; auto. Qed.
Lemma path_inv2 c d l q : pth (c :: d :: l) q ->
  exists r q', inside c /\ move sim sl tl c d r /\ pth (d :: l) q' /\ (q == r + q')%Q.
Proof. intros H. inversion H. eauto 7. Qed.
Lemma path_hd c l q : pth (c :: l) q -> inside c.
Proof. intros H. inversion H; auto. Qed.

Lemma path_eq l q q' : pth l q -> (q == q')%Q -> pth l q'.
Proof.
  intros H E. destruct H.
  - constructor; auto. now rewrite <- E.
  - econstructor; eauto. now rewrite <- E.
Qed.

Lemma path_app l : forall c q l2 q2, pth (l ++ [c]) q -> pth (c :: l2) q2 -> pth (l ++ c :: l2) (q + q2).
Proof.
  induction l as [|d l IH]; intros c q l2 q2 P1 P2.
  - apply path_inv1 in P1. apply path_eq with q2; auto. destruct P1 as (_ & P1). lra.
  - destruct l as [|e l]; cbn [app] in *;
      apply path_inv2 in P1; destruct P1 as (r & q' & A & M & P1 & E);
      econstructor; [exact A|exact M|exact (IH c _ l2 q2 P1 P2)|lra|exact A|exact M|exact (IH c _ l2 q2 P1 P2)|lra].
Qed.
End Paths.

Section Opt.
Variables (n m th : Z) (w : mat Q) (hu en : list Q).
Hypothesis Hn : 0 <= n.
Hypothesis Hm : 0 <= m.
Hypothesis Hover : (n + 1) * (m + 1) <= 2 ^ 31.
Hypothesis Hth : m + 1 <= (th / 2) * (n + 1).
Hypothesis Hsmall : 3 * (n + m) < 10000000.
Hypothesis Hw : height w = n /\ width w = m /\ thick w = th.
Hypothesis Hhu : Z.of_nat (length hu) = n.
Hypothesis Hen : Z.of_nat (length en) = m.
Hypothesis Hsim : forall i j, (simf w i j <= inject_Z 1000000)%Q.
Hypothesis Hhu0 : Forall (fun x => (0 <= x)%Q) hu.
Hypothesis Hen0 : Forall (fun x => (0 <= x)%Q) en.

Variables (v : mat Q) (t : mat dir).
Hypothesis Hshape : shape n m th (v, t).
Hypothesis Hfill : forall a b, inb v a b -> filled w hu en (v, t) a b.

Notation mv := (move (simf w) (lenf hu) (lenf en)).
Notation bd := (band n m th).
Definition val (c : point) : Q := match get v (fst c) (snd c) with Some x => x | None => 0%Q end.

Lemma lenf_pos l i : Forall (fun x => (0 <= x)%Q) l -> (0 <= lenf l i)%Q.
Proof.
  intros H. unfold lenf, at_. destruct (0 <=? i); [|lra].
  destruct (nth_error l (Z.to_nat i)) eqn:E; [|lra].
  refine (proj1 (Forall_forall _ _) H q _). eapply nth_error_In; eauto.
Qed.

Lemma move_cost c d r : mv c d r -> (- inject_Z 1000001 <= r)%Q.
Proof.
  pose proof (lenf_pos hu) as Ph. pose proof (lenf_pos en) as Pe.
  intros H. destruct H.
  - unfold inject_Z. lra.
  - unfold inject_Z. lra.
  - pose proof (Hsim i j). pose proof (fit_le (lenf hu i) (lenf en j) (Ph _ Hhu0) (Pe _ Hen0)).
    unfold inject_Z in *. lra.
  - pose proof (Hsim i j). pose proof (Q.le_min_l (simf w i j) (simf w i (j + 1))).
    pose proof (Pe j Hen0). pose proof (Pe (j + 1) Hen0).
    assert (L : (fit (lenf hu i) (lenf en j + lenf en (j + 1) + inject_Z 2) <= 3 # 10)%Q).
    { apply fit_le; [auto|]. unfold inject_Z. lra. }
    unfold inject_Z in *. lra.
Qed.

(** The point a direction leads back to. *)
Definition back (d : dir) (c : point) : option point :=
  let (i, j) := c in
  match d with
  | Diag => Some (i - 1, j - 1)
  | HuSkip => Some (i - 1, j)
  | EnSkip => Some (i, j - 1)
  | HuEnEnSkip => Some (i - 1, j - 2)
  | _ => None
  end.

Lemma get_val i j : 0 <= i <= n -> 0 <= j <= m -> get v i j = Some (val (i, j)).
Proof.
  intros Hi Hj. destruct (get_inm v i j) as (x & E).
  { destruct Hshape as ((A & B & _) & _). cbn in A, B. split; lia. }
  unfold val. cbn [fst snd]. now rewrite E.
Qed.
Lemma get_sim i j : 0 <= i < n -> 0 <= j < m -> get w i j = Some (simf w i j).
Proof.
  intros Hi Hj. destruct (get_inm w i j) as (x & E). { split; lia. }
  unfold simf. now rewrite E.
Qed.
Lemma at_len l i : 0 <= i < Z.of_nat (length l) -> at_ l i = Some (lenf l i).
Proof. intros H. destruct (at_some l i H) as (x & E). unfold lenf. now rewrite E. Qed.

Lemma values_moves i j vals : 0 <= i <= n -> 0 <= j <= m ->
  cell_values w hu en v i j = Some vals ->
  (forall c r, 0 <= fst c -> 0 <= snd c -> mv c (i, j) r ->
     exists d x, In (d, x) vals /\ (x == val c + r)%Q) /\
  (forall d x, In (d, x) vals -> (x < infinity)%Q ->
     exists c r, back d (i, j) = Some c /\ 0 <= fst c <= n /\ 0 <= snd c <= m /\ mv c (i, j) r /\
                 (x == val c + r)%Q).
Proof.
  intros Hi Hj E. unfold cell_values in E.
  assert (P2 : (0 <= inject_Z 2)%Q) by (unfold inject_Z; lra).
  assert (Ki : 1 <= i -> i = i - 1 + 1) by lia.
  assert (Kj : 1 <= j -> j = j - 1 + 1) by lia.
  (* the five values *)
  assert (Vs : forall d x, In (d, x) vals <->
     (d = Diag /\ x = if (0 <? i) && (0 <? j) then
         (val (i - 1, j - 1)%Z - simf w (i - 1) (j - 1) - closeness (lenf hu (i - 1)) (lenf en (j - 1)))%Q
         else infinity) \/
     (d = HuSkip /\ x = if 0 <? i then (val (i - 1, j)%Z - skipScore)%Q else infinity) \/
     (d = EnSkip /\ x = if 0 <? j then (val (i, j - 1)%Z - skipScore)%Q else infinity) \/
     (d = HuHuEnSkip /\ x = infinity) \/
     (d = HuEnEnSkip /\ x = if (0 <? i) && (1 <? j) then
         (val (i - 1, j - 2)%Z - (if Qltb (simf w (i - 1) (j - 1)) (simf w (i - 1) (j - 2))
                               then simf w (i - 1) (j - 1) else simf w (i - 1) (j - 2)) - skipScore
         - closeness (lenf en (j - 2) + lenf en (j - 1) + inject_Z 2) (lenf hu (i - 1)))%Q
         else infinity)).
  { destruct (Z.ltb_spec 0 i) as [Li|Li], (Z.ltb_spec 0 j) as [Lj|Lj], (Z.ltb_spec 1 j) as [L1|L1];
      cbn [andb] in E |- *; try lia;
      repeat first [rewrite get_val in E by lia | rewrite get_sim in E by lia
                   | rewrite at_len in E by lia];
      injection E as <-; intros d x; cbn [In];
      (split; [intros H; repeat (destruct H as [H|H]; [injection H as <- <-; tauto|]); destruct H
              |intros H; repeat (destruct H as [(-> & ->)|H]; [tauto|]); destruct H as (-> & ->); tauto]). }
  clear E. split.
  - intros c r C1 C2 M. remember (i, j) as e eqn:He. destruct M as [a b|a b|a b|a b]; injection He as <- <-;
      cbn [fst snd] in C1, C2.
    + exists HuSkip. eexists. split; [apply Vs; right; left; split; reflexivity|].
      destruct (Z.ltb_spec 0 (a + 1)); [|lia].
      replace (a + 1 - 1) with a by lia. unfold skipScore. ring.
    + exists EnSkip. eexists. split; [apply Vs; right; right; left; split; reflexivity|].
      destruct (Z.ltb_spec 0 (b + 1)); [|lia].
      replace (b + 1 - 1) with b by lia. unfold skipScore. ring.
    + exists Diag. eexists. split; [apply Vs; left; split; reflexivity|].
      destruct (Z.ltb_spec 0 (a + 1)), (Z.ltb_spec 0 (b + 1)); try lia. cbn [andb].
      replace (a + 1 - 1) with a by lia. replace (b + 1 - 1) with b by lia.
      rewrite closeness_fit by (apply lenf_pos; assumption). ring.
    + exists HuEnEnSkip. eexists. split; [apply Vs; right; right; right; right; split; reflexivity|].
      destruct (Z.ltb_spec 0 (a + 1)), (Z.ltb_spec 1 (b + 2)); try lia. cbn [andb].
      replace (a + 1 - 1) with a by lia. replace (b + 2 - 1) with (b + 1) by lia.
      replace (b + 2 - 2) with b by lia.
      rewrite closeness_fit.
      2:{ pose proof (lenf_pos en b Hen0). pose proof (lenf_pos en (b + 1) Hen0). lra. }
      2:{ apply lenf_pos; assumption. }
      rewrite fit_comm. rewrite <- Qmin_if, Q.min_comm. unfold skipScore. ring.
  - intros d x Hin Hlt. apply Vs in Hin. unfold back.
    destruct Hin as [(-> & ->)|[(-> & ->)|[(-> & ->)|[(-> & ->)|(-> & ->)]]]].
    + destruct (Z.ltb_spec 0 i), (Z.ltb_spec 0 j); cbn [andb] in *;
        try (exfalso; apply (Qlt_irrefl _ Hlt)).
      exists (i - 1, j - 1). eexists. split; [reflexivity|]. cbn [fst snd]. split; [lia|]. split; [lia|].
      split. { rewrite (Ki ltac:(lia)) at 2. rewrite (Kj ltac:(lia)) at 2. apply pair_one. }
      rewrite closeness_fit by (apply lenf_pos; assumption). ring.
    + destruct (Z.ltb_spec 0 i); try (exfalso; apply (Qlt_irrefl _ Hlt)).
      exists (i - 1, j). eexists. split; [reflexivity|]. cbn [fst snd]. split; [lia|]. split; [lia|].
      split. { rewrite (Ki ltac:(lia)) at 2. apply skip_source. }
      unfold skipScore. ring.
    + destruct (Z.ltb_spec 0 j); try (exfalso; apply (Qlt_irrefl _ Hlt)).
      exists (i, j - 1). eexists. split; [reflexivity|]. cbn [fst snd]. split; [lia|]. split; [lia|].
      split. { rewrite (Kj ltac:(lia)) at 2. apply skip_target. }
      unfold skipScore. ring.
    + exfalso. apply (Qlt_irrefl _ Hlt).
    + destruct (Z.ltb_spec 0 i), (Z.ltb_spec 1 j); cbn [andb] in *;
        try (exfalso; apply (Qlt_irrefl _ Hlt)).
      exists (i - 1, j - 2). eexists. split; [reflexivity|]. cbn [fst snd]. split; [lia|]. split; [lia|].
      split. { rewrite (Ki ltac:(lia)) at 2. replace j with (j - 2 + 2) at 2 by lia. apply pair_two. }
      replace (j - 2 + 1) with (j - 1) by lia.
      rewrite closeness_fit.
      2:{ pose proof (lenf_pos en (j - 2) Hen0). pose proof (lenf_pos en (j - 1) Hen0). lra. }
      2:{ apply lenf_pos; assumption. }
      rewrite fit_comm. rewrite <- Qmin_if, Q.min_comm. unfold skipScore. ring.
Qed.

Lemma geo_v : geo n m th v. Proof. exact (proj1 Hshape). Qed.

Lemma val_band c : bd c -> val c = cells v (fst c) (snd c).
Proof.
  intros H. destruct c as [i j]. unfold val. cbn [fst snd].
  now rewrite get_in by (apply (inb_band n m th Hn Hm Hover Hth v i j geo_v); exact H).
Qed.

Lemma val_outside c : 0 <= fst c <= n -> 0 <= snd c <= m -> ~ bd c -> val c = inject_Z (10 ^ 30).
Proof.
  intros Hi Hj H. destruct c as [i j]. unfold val. cbn [fst snd] in *.
  pose proof geo_v as (A & B & _).
  rewrite get_out.
  - destruct Hshape as (_ & _ & O & _). exact O.
  - split; lia.
  - intros K. apply H. now apply (inb_band n m th Hn Hm Hover Hth v i j geo_v).
Qed.

Lemma bd_dec c : bd c \/ ~ bd c.
Proof. destruct c as [i j]. unfold band. cbv zeta. lia. Qed.

Lemma bd_range c : bd c -> 0 <= fst c <= n /\ 0 <= snd c <= m.
Proof. destruct c as [i j]. unfold band. cbv zeta. cbn [fst snd]. lia. Qed.

Lemma move_range c d r : mv c d r -> fst c <= fst d /\ snd c <= snd d /\ fst c + snd c < fst d + snd d.
Proof. intros H; destruct H; cbn [fst snd]; lia. Qed.

(** Every cell: the upper bound, the recurrence, the back pointer. *)
Lemma cell_facts : forall k i j, Z.to_nat (i + j) = k -> bd (i, j) ->
  (val (i, j) <= (3 # 10) * inject_Z (i + j))%Q /\
  (forall c r, bd c -> mv c (i, j) r -> (val (i, j) <= val c + r)%Q) /\
  ((i, j) <> (0, 0) -> exists c r, back (cells t i j) (i, j) = Some c /\ bd c /\ mv c (i, j) r /\
                                   (val (i, j) == val c + r)%Q) /\
  ((i, j) = (0, 0) -> (val (i, j) == 0)%Q).
Proof.
  induction k as [k IH] using lt_wf_ind. intros i j Ek Hb.
  pose proof (bd_range _ Hb) as (Ri & Rj). cbn [fst snd] in Ri, Rj.
  assert (Hin : inb v i j) by (apply (inb_band n m th Hn Hm Hover Hth v i j geo_v); exact Hb).
  destruct (Hfill i j Hin) as (vals & Ev & Et & Es). cbn [fst snd] in Ev, Et, Es.
  destruct (values_moves i j vals Ri Rj Ev) as (V1 & V2).
  destruct (pick_spec vals) as (P1 & P2 & P3).
  assert (Eval : val (i, j) = stored (pick vals)) by (rewrite val_band by exact Hb; exact Es).
  assert (Dec : (i, j) = (0, 0) \/ (i, j) <> (0, 0)).
  { destruct (Z.eq_dec i 0) as [-> |], (Z.eq_dec j 0) as [-> |]; auto; right; congruence. }
  destruct Dec as [Z0|NZ].
  - assert (D : pick vals = (Dead, infinity)).
    { destruct P3 as [D|(D & L)]; [exact D|]. exfalso.
      destruct (pick vals) as [d x]. destruct (V2 d x D L) as (c & r & _ & C1 & C2 & M & _).
      apply move_range in M. injection Z0 as -> ->. cbn [fst snd] in M. lia. }
    rewrite D in Eval. cbn in Eval. rewrite Eval. injection Z0 as -> ->.
    split; [apply Qle_bool_iff; reflexivity|]. split.
    { intros c r Hc M. apply move_range in M. pose proof (bd_range _ Hc). cbn [fst snd] in M. lia. }
    split; [intros K; congruence|reflexivity].
  - (* a predecessor in the band by a skip *)
    assert (Pre : exists c, bd c /\ mv c (i, j) (3 # 10) /\ (val c <= (3 # 10) * inject_Z (i + j - 1))%Q).
    { destruct (band_connected n m th Hn Hm Hth i j Hb NZ) as [(L & B)|(L & B)].
      - exists (i, j - 1). split; [exact B|]. split.
        + replace j with (j - 1 + 1) at 2 by lia. apply skip_target.
        + assert (0 <= i + (j - 1)) by lia.
          destruct (IH (Z.to_nat (i + (j - 1))) ltac:(lia) i (j - 1) eq_refl B) as (U & _).
          replace (i + (j - 1)) with (i + j - 1) in U by lia. exact U.
      - exists (i - 1, j). split; [exact B|]. split.
        + replace i with (i - 1 + 1) at 2 by lia. apply skip_source.
        + destruct (IH (Z.to_nat (i - 1 + j)) ltac:(lia) (i - 1) j eq_refl B) as (U & _).
          replace (i - 1 + j) with (i + j - 1) in U by lia. exact U. }
    destruct Pre as (c0 & B0 & M0 & U0).
    pose proof (bd_range _ B0) as (R1 & R2).
    destruct (V1 c0 _ (proj1 R1) (proj1 R2) M0) as (d0 & x0 & I0 & E0).
    pose proof (P2 _ I0) as L0. cbn [snd] in L0.
    assert (Up : (snd (pick vals) <= (3 # 10) * inject_Z (i + j))%Q).
    { rewrite E0 in L0.
      assert (X : (inject_Z (i + j - 1) == inject_Z (i + j) - 1)%Q).
      { unfold Z.sub. rewrite (inject_Z_plus (i + j)). reflexivity. }
      rewrite X in U0. lra. }
    assert (Fin : (snd (pick vals) < infinity)%Q).
    { eapply Qle_lt_trans; [exact Up|].
      assert (X : (inject_Z (3 * (i + j)) < inject_Z 10000000)%Q) by (rewrite <- Zlt_Qlt; lia).
      rewrite inject_Z_mult in X. unfold infinity.
      assert (Y : (inject_Z 10000000 == 10 * inject_Z 1000000)%Q) by reflexivity.
      assert (Y3 : (inject_Z 3 == 3)%Q) by reflexivity. rewrite Y, Y3 in X. lra. }
    destruct P3 as [D|(D & _)]; [rewrite D in Fin; cbn in Fin; exfalso; apply (Qlt_irrefl _ Fin)|].
    assert (Nd : stored (pick vals) = snd (pick vals)).
    { unfold stored. destruct (fst (pick vals)) eqn:F; auto. exfalso.
      destruct (pick vals) as [d x]. cbn in F. subst d.
      destruct (V2 _ _ D Fin) as (c & r & K & _). cbn in K. discriminate. }
    rewrite Nd in Eval.
    split; [rewrite Eval; exact Up|]. split; [|split].
    + intros c r Hc M. pose proof (bd_range _ Hc) as (C1 & C2).
      destruct (V1 c r (proj1 C1) (proj1 C2) M) as (d & x & I & E).
      pose proof (P2 _ I) as L. cbn [snd] in L. rewrite Eval, <- E. exact L.
    + intros _. rewrite Et. destruct (pick vals) as [d x] eqn:EP. cbn [fst snd] in *.
      destruct (V2 d x D Fin) as (c & r & K & C1 & C2 & M & E).
      exists c, r. split; [exact K|]. split; [|split; [exact M|rewrite Eval; exact E]].
      destruct (bd_dec c) as [Hc|Hc]; [exact Hc|]. exfalso.
      rewrite (val_outside c C1 C2 Hc) in E.
      pose proof (move_cost _ _ _ M) as Mc.
      assert (Big : (inject_Z 1000000 + inject_Z 1000001 <= inject_Z (10 ^ 30))%Q).
      { apply Qle_bool_iff. vm_compute. reflexivity. }
      unfold infinity in Fin. lra.
    + intros K. congruence.
Qed.

Lemma val_back i j : bd (i, j) -> (i, j) <> (0, 0) ->
  exists c r, back (cells t i j) (i, j) = Some c /\ bd c /\ mv c (i, j) r /\ (val (i, j) == val c + r)%Q.
Proof. intros H N. destruct (cell_facts _ i j eq_refl H) as (_ & _ & K & _). auto. Qed.

Lemma val_le c d r : bd c -> bd d -> mv c d r -> (val d <= val c + r)%Q.
Proof. intros Hc Hd M. destruct d as [i j]. destruct (cell_facts _ i j eq_refl Hd) as (_ & K & _). auto. Qed.

Lemma val_zero : (val (0, 0)%Z == 0)%Q.
Proof.
  destruct (cell_facts _ 0 0 eq_refl (band_origin n m th Hn Hm Hth)) as (_ & _ & _ & K). auto.
Qed.

Notation pth := (path (simf w) (lenf hu) (lenf en) bd).

(** Along any path inside the band the value grows at most by the cost. *)
Lemma path_val : forall l q c, pth (c :: l) q -> forall l' b, c :: l = l' ++ [b] -> (val b <= val c + q)%Q.
Proof.
  induction l as [|d l IH]; intros q c P l' b E.
  - apply path_inv1 in P. destruct P as (_ & P). destruct l' as [|x [|y l']]; cbn in E.
    + injection E as <-. lra.
    + discriminate.
    + discriminate.
  - apply path_inv2 in P. destruct P as (r & q' & A & M & P & Eq).
    destruct l' as [|x l']; [discriminate|]. injection E as _ E.
    pose proof (IH _ _ P l' b E) as K.
    pose proof (val_le c d r A (path_hd _ _ _ _ _ _ _ P) M). lra.
Qed.

(** Every value is attained. *)
Lemma val_attained : forall k i j, Z.to_nat (i + j) = k -> bd (i, j) ->
  exists l q, path_from_to (simf w) (lenf hu) (lenf en) bd (0, 0) (i, j) l q /\ (q == val (i, j))%Q.
Proof.
  induction k as [k IH] using lt_wf_ind. intros i j Ek Hb.
  assert (Dec : (i, j) = (0, 0) \/ (i, j) <> (0, 0)).
  { destruct (Z.eq_dec i 0) as [-> |], (Z.eq_dec j 0) as [-> |]; auto; right; congruence. }
  destruct Dec as [Z0|NZ].
  - injection Z0 as -> ->. exists [(0, 0)], 0%Q. split.
    + split; [constructor; [exact Hb|reflexivity]|]. split; [reflexivity|]. exists []. reflexivity.
    + now rewrite val_zero.
  - destruct (val_back i j Hb NZ) as ([a b] & r & _ & Hc & M & E).
    pose proof (move_range _ _ _ M) as (M1 & M2 & M3). cbn [fst snd] in M1, M2, M3.
    pose proof (bd_range _ Hc) as (R1 & R2). cbn [fst snd] in R1, R2.
    destruct (IH (Z.to_nat (a + b)) ltac:(lia) a b eq_refl Hc) as (l & q & (P & Hd & (l' & ->)) & Eq).
    exists (l' ++ [(a, b); (i, j)]), (q + r)%Q. split; [split|].
    + apply (path_app _ _ _ _ l' (a, b) q [(i, j)] r P).
      econstructor; [exact Hc|exact M|constructor; [exact Hb|reflexivity]|]. lra.
    + split.
      * destruct l'; cbn in *; exact Hd.
      * exists (l' ++ [(a, b)]). now rewrite <- app_assoc.
    + rewrite Eq, E. reflexivity.
Qed.

(** The walk back from the corner. *)
Lemma ladder_ok : forall fuel i j l q,
  bd (i, j) -> (Z.to_nat (i + j) < fuel)%nat ->
  pth ((i, j) :: l) q -> (val (n, m) == val (i, j) + q)%Q ->
  exists a b l' q', ladder_loop fuel t i j ((i, j) :: l) = Some ((a, b) :: l') /\
    (a = 0 \/ b = 0) /\ bd (a, b) /\ pth ((a, b) :: l') q' /\ (val (n, m) == val (a, b) + q')%Q /\
    (exists p, (a, b) :: l' = p ++ (i, j) :: l) /\
    ((i <> 0 /\ j <> 0) -> exists p c, (a, b) :: l' = c :: p ++ (i, j) :: l).
Proof.
  induction fuel as [|fuel IH]; intros i j l q Hb Hf P E; [lia|].
  pose proof (bd_range _ Hb) as (R1 & R2). cbn [fst snd] in R1, R2.
  assert (Gt : get t i j = Some (cells t i j)).
  { apply get_in. apply (inb_band n m th Hn Hm Hover Hth t i j); [exact (proj1 (proj2 Hshape))|exact Hb]. }
  cbn [ladder_loop]. rewrite Gt.
  destruct (Z.eqb_spec i 0) as [I0|I0]; cbn [orb].
  { exists i, j, l, q. split; [reflexivity|]. split; [auto|]. split; [auto|]. split; [auto|].
    split; [auto|]. split; [exists []; reflexivity|lia]. }
  destruct (Z.eqb_spec j 0) as [J0|J0].
  { exists i, j, l, q. split; [reflexivity|]. split; [auto|]. split; [auto|]. split; [auto|].
    split; [auto|]. split; [exists []; reflexivity|lia]. }
  destruct (val_back i j Hb ltac:(congruence)) as ([a b] & r & Bk & Hc & M & Ev).
  pose proof (move_range _ _ _ M) as (M1 & M2 & M3). cbn [fst snd] in M1, M2, M3.
  pose proof (bd_range _ Hc) as (R3 & R4). cbn [fst snd] in R3, R4.
  assert (Step : exists a0 b0 l' q', ladder_loop fuel t a b ((a, b) :: (i, j) :: l) = Some ((a0, b0) :: l') /\
    (a0 = 0 \/ b0 = 0) /\ bd (a0, b0) /\ pth ((a0, b0) :: l') q' /\ (val (n, m) == val (a0, b0) + q')%Q /\
    (exists p, (a0, b0) :: l' = p ++ (a, b) :: (i, j) :: l)).
  { destruct (IH a b ((i, j) :: l) (r + q)%Q Hc ltac:(lia)) as (a0 & b0 & l' & q' & A1 & A2 & A3 & A4 & A5 & A6 & _).
    - econstructor; [exact Hc|exact M|exact P|reflexivity].
    - rewrite E, Ev. ring.
    - exists a0, b0, l', q'. auto 8. }
  destruct Step as (a0 & b0 & l' & q' & A1 & A2 & A3 & A4 & A5 & (p & A6)).
  exists a0, b0, l', q'. split.
  - unfold back in Bk. destruct (cells t i j); try discriminate Bk; injection Bk as <- <-; exact A1.
  - split; [auto|]. split; [auto|]. split; [auto|]. split; [auto|].
    split.
    + exists (p ++ [(a, b)]). rewrite <- app_assoc. exact A6.
    + intros _. destruct p as [|c p].
      * exists [], (a, b). exact A6.
      * exists (p ++ [(a, b)]), c. rewrite <- app_assoc. exact A6.
Qed.

Lemma ladder_trail :
  exists a b l q, trelliToLadder t = Some ((a, b) :: l) /\ (a = 0 \/ b = 0) /\ bd (a, b) /\
    pth ((a, b) :: l) q /\ (val (n, m) == val (a, b) + q)%Q /\
    (exists p, (a, b) :: l = p ++ [(n, m)]) /\
    (1 <= n -> 1 <= m -> l <> []).
Proof.
  unfold trelliToLadder. destruct Hshape as (_ & (T1 & T2 & T3) & _). cbn [fst snd] in *.
  rewrite T1, T2. replace (n + 1 - 1) with n by lia. replace (m + 1 - 1) with m by lia.
  pose proof (band_corner n m th Hn Hm Hth) as Hb.
  destruct (ladder_ok (Z.to_nat (n + m) + 1) n m [] 0%Q Hb ltac:(lia)) as
    (a & b & l & q & A1 & A2 & A3 & A4 & A5 & A6 & A7).
  - constructor; [exact Hb|reflexivity].
  - lra.
  - exists a, b, l, q. split; [exact A1|]. split; [exact A2|]. split; [exact A3|]. split; [exact A4|].
    split; [exact A5|]. split; [exact A6|]. intros N1 M1.
    destruct A7 as (p & c & A7); [lia|]. destruct l; [|discriminate].
    injection A7 as _ A7. destruct p; discriminate.
Qed.

Lemma trail_cheapest a b l q :
  bd (a, b) -> pth ((a, b) :: l) q -> (val (n, m) == val (a, b) + q)%Q ->
  (exists p, (a, b) :: l = p ++ [(n, m)]) ->
  exists lead cost, cheapest (simf w) (lenf hu) (lenf en) bd (0, 0) (n, m) (lead ++ (a, b) :: l) cost.
Proof.
  intros Hb P E (p & Ep).
  destruct (val_attained _ a b eq_refl Hb) as (l0 & q0 & (P0 & Hd & (l' & ->)) & E0).
  exists l', (q0 + q)%Q. split; [split|].
  - exact (path_app _ _ _ _ l' (a, b) q0 l q P0 P).
  - split; [destruct l'; exact Hd|]. exists (l' ++ p). rewrite Ep, app_assoc. reflexivity.
  - intros l2 q2 (P2 & Hd2 & (l3 & E3)).
    destruct l2 as [|c l2]; [discriminate|]. injection Hd2 as ->.
    pose proof (path_val l2 q2 (0, 0) P2 l3 (n, m) E3) as K. rewrite val_zero in K. lra.
Qed.
End Opt.

(** ** align *)
Lemma align_ok n m th (w : mat Q) (hu en : list Q) :
  0 <= n -> 0 <= m -> (n + 1) * (m + 1) <= 2 ^ 31 -> m + 1 <= (th / 2) * (n + 1) ->
  3 * (n + m) < 10000000 ->
  height w = n -> width w = m -> thick w = th ->
  Z.of_nat (length hu) = n -> Z.of_nat (length en) = m ->
  (forall i j, (simf w i j <= inject_Z 1000000)%Q) ->
  Forall (fun x => (0 <= x)%Q) hu -> Forall (fun x => (0 <= x)%Q) en ->
  exists a b l v q lead cost,
    align w hu en = Some ((a, b) :: l, v) /\
    geo n m th v /\
    (a = 0 \/ b = 0) /\ (1 <= n -> 1 <= m -> l <> []) /\
    path (simf w) (lenf hu) (lenf en) (band n m th) ((a, b) :: l) q /\
    (exists p, (a, b) :: l = p ++ [(n, m)]) /\
    cheapest (simf w) (lenf hu) (lenf en) (band n m th) (0, 0) (n, m) (lead ++ (a, b) :: l) cost.
Proof.
  intros Hn Hm Hover Hth Hsmall H1 H2 H3 Hhu Hen Hsim Ph Pe. unfold align.
  rewrite H1, H2, H3.
  set (s0 := (mat_new (n + 1) (m + 1) th (inject_Z (10 ^ 30)) 0%Q,
              mat_new (n + 1) (m + 1) th Dead Unset)).
  assert (Sh0 : shape n m th s0).
  { split; [|split; [|split]]; [unfold geo; cbn [height width thick mat_new fst s0]; auto|unfold geo; cbn [height width thick mat_new snd s0]; auto|reflexivity|reflexivity]. }
  assert (Hw : height w = n /\ width w = m /\ thick w = th) by auto.
  destruct (build_ok n m th w hu en Hw Hhu Hen s0 Sh0) as (s & E & Sh & F).
  rewrite E. destruct s as [v t]. cbn [fst snd] in *.
  destruct (ladder_trail n m th w hu en Hn Hm Hover Hth Hsmall Hw Hhu Hen Hsim Ph Pe v t Sh F)
    as (a & b & l & q & A1 & A2 & A3 & A4 & A5 & A6 & A7).
  rewrite A1.
  destruct (trail_cheapest n m th w hu en Hn Hm Hover Hth Hsmall Hw Hhu Hen Hsim Ph Pe v t Sh F a b l q
              A3 A4 A5 A6) as (lead & cost & Ch).
  exists a, b, l, v, q, lead, cost. split; [reflexivity|]. split; [exact (proj1 Sh)|].
  split; [exact A2|]. split; [exact A7|]. split; [exact A4|]. split; [exact A6|]. exact Ch.
Qed.
