From Coq Require Import Bool.
From Verif Require Import Model.Base Proofs.Base Model.Codec Proofs.Codec Model.EndianDouble Proofs.EndianDouble
  Model.TaggerData.
From Verif Require Model.Collection Proofs.Collection Model.ConstantManager Proofs.ConstantManager.

Arguments mktd {P}. Arguments open_class {P}. Arguments forbid_rules {P}. Arguments array_tags {P}.
Arguments tag_index {P}. Arguments enforce_rules {P}. Arguments prefer_rules {P}. Arguments constants {P}.
Arguments output {P}. Arguments plist {P}. Arguments discard {P}. Arguments mkh {P}.
Arguments h_td {P}. Arguments h_n {P}. Arguments h_m {P}. Arguments h_a {P}. Arguments h_b {P}.
Arguments mkl {P}. Arguments l_td {P}. Arguments l_n {P}. Arguments l_d {P}. Arguments useful {P}.

(** the values of one open object fit the encoder *)
Definition fits_list {A} (fits : N -> Prop) (ok : A -> Prop) (l : list A) : Prop :=
  fits (N.of_nat (length l)) /\ Forall ok l.

Record td_ok {P} (fits : N -> Prop) (fitsS : str -> Prop) (fitsP : P -> Prop) (d : td P) : Prop := mkok {
  ok_open_sorted : sorted N.ltb (open_class d) = true;
  ok_open : fits (N.of_nat (length (open_class d))) /\ forall n, (exists x, In x (open_class d) /\ n <= x)%N -> fits n;
  ok_forbid : fits_list fits (fun f => fits (f_i f) /\ fits (f_j f)) (forbid_rules d);
  ok_tags : fits_list fits fitsS (array_tags d);
  ok_index : fits_list fits (fun kv => fitsS (fst kv) /\ fits (snd kv)) (tag_index d);
  ok_index_sorted : sorted str_lt (map fst (tag_index d)) = true;
  ok_enforce : fits_list fits (fun r => fits (e_i r) /\ fits_list fits fits (e_js r)) (enforce_rules d);
  ok_prefer : fits_list fits fitsS (prefer_rules d);
  ok_const : Proofs.ConstantManager.const_ok fits fitsS (constants d);
  ok_output : Proofs.Collection.coll_ok fits (output d);
  ok_plist : fitsP (plist d);
  ok_discard : fits_list fits fitsS (discard d) }.

Lemma undelta_deltas l : forall v, sorted N.ltb l = true -> Forall (fun x => (v <= x)%N) l ->
  undelta v (deltas v l) = l.
Proof.
  induction l as [|x l IH]; intros v Hs Hv; [reflexivity|]. cbn in *.
  inversion Hv as [|? ? H1 H2]; subst. apply andb_prop in Hs as [Hs1 Hs2].
  replace (v + (x - v))%N with x by lia. rewrite IH; [reflexivity|exact Hs2|].
  apply Forall_forall. intros y Hy. rewrite forallb_forall in Hs1. specialize (Hs1 y Hy).
  apply N.ltb_lt in Hs1. lia.
Qed.

Lemma deltas_le l : forall v n, In n (deltas v l) -> exists x, In x l /\ (n <= x)%N.
Proof.
  induction l as [|x l IH]; intros v n; cbn; [tauto|]. intros [<-|H].
  - exists x; split; [left; reflexivity|lia].
  - destruct (IH _ _ H) as [y [H1 H2]]. exists y; auto.
Qed.
Lemma deltas_length l : forall v, length (deltas v l) = length l.
Proof. induction l; intros; cbn; auto. Qed.

Section TD.
  Variable P : Type.
  Variable putN : N -> bytes. Variable getN : reader N. Variable fits : N -> Prop.
  Variable putS : str -> bytes. Variable getS : reader str. Variable fitsS : str -> Prop.
  Variable putP : P -> bytes. Variable getP : reader P. Variable fitsP : P -> Prop.
  Variable e : endian.
  Hypothesis HN : RT putN getN fits.
  Hypothesis HN1 : forall n, fits n -> putN n <> [].
  Hypothesis HS : RT putS getS fitsS.
  Hypothesis HP : RT putP getP fitsP.

  Lemma RT_rule2 : RT (put_rule2 putN) (get_rule2 getN) (fun f => fits (f_i f) /\ fits (f_j f)).
  Proof.
    intros [i j] r [H1 H2]. unfold put_rule2, get_rule2. cbn in *. rewrite <- app_assoc.
    rewrite (RT_bind putN getN fits) by assumption. rewrite (RT_bind putN getN fits) by assumption. reflexivity.
  Qed.
  Lemma RT_ruleE : RT (put_ruleE putN) (get_ruleE getN) (fun f => fits (e_i f) /\ fits_list fits fits (e_js f)).
  Proof.
    intros [i j] r [H1 H2]. unfold put_ruleE, get_ruleE. cbn in *. rewrite <- app_assoc.
    rewrite (RT_bind putN getN fits) by assumption.
    rewrite (RT_bind _ _ _ _ _ _ (RT_vec putN getN fits HN putN getN fits HN)) by exact H2. reflexivity.
  Qed.
  Lemma RT_kv : RT (put_kv putN putS) (get_kv getN getS) (fun kv => fitsS (fst kv) /\ fits (snd kv)).
  Proof. exact (Proofs.ConstantManager.RT_kv putN getN fits HN putS getS fitsS HS). Qed.

  Lemma read_common_write d0 d r : td_ok fits fitsS fitsP d ->
    open_class d0 = [] -> forbid_rules d0 = [] -> array_tags d0 = [] -> tag_index d0 = [] ->
    enforce_rules d0 = [] -> prefer_rules d0 = [] -> output d0 = Collection.empty ->
    read_common P getN getS d0 (write_common P putN putS d ++ r) =
    Some (mktd (open_class d) (forbid_rules d) (array_tags d) (tag_index d) (enforce_rules d)
               (prefer_rules d) (constants d) (output d) (plist d0) (discard d0), r).
  Proof.
    intros [] E1 E2 E3 E4 E5 E6 E7. unfold read_common, write_common. rewrite <- !app_assoc.
    rewrite (RT_bind _ _ _ _ _ _ (RT_vec putN getN fits HN putN getN fits HN)).
    2:{ rewrite deltas_length. destruct ok_open0 as [Ho1 Ho2]. split; [exact Ho1|]. apply Forall_forall. intros n Hn.
        apply Ho2. exact (deltas_le _ _ _ Hn). }
    rewrite (RT_bind _ _ _ _ _ _ (RT_vec putN getN fits HN _ _ _ RT_rule2)) by assumption.
    rewrite (RT_bind _ _ _ _ _ _ (RT_vec putN getN fits HN putS getS fitsS HS)) by assumption.
    rewrite (RT_bind _ _ _ _ _ _ (RT_vec putN getN fits HN _ _ _ RT_kv)) by assumption.
    rewrite (RT_bind _ _ _ _ _ _ (RT_vec putN getN fits HN _ _ _ RT_ruleE)) by assumption.
    rewrite (RT_bind _ _ _ _ _ _ (RT_vec putN getN fits HN putS getS fitsS HS)) by assumption.
    rewrite (RT_bind _ _ _ _ _ _ (Proofs.ConstantManager.RT_const putN getN fits HN putS getS fitsS HS)) by assumption.
    rewrite E7. rewrite (RT_bind _ _ _ _ _ _ (Proofs.Collection.RT_coll putN getN fits HN)) by assumption.
    unfold ret. rewrite E1, E2, E3, E4, E5, E6. cbn [app].
    rewrite undelta_deltas; [|assumption|apply Forall_forall; intros; lia].
    rewrite (set_of_list_app N.ltb Nltb_asym (open_class d) []) by assumption.
    rewrite (map_of_list_app str_lt str_lt_asym (tag_index d) []) by assumption. reflexivity.
  Qed.

  Lemma read_discard_write l : fits_list fits fitsS l ->
    read_discard getN getS (write_discard putN putS l) = Some (l, []).
  Proof.
    intros H. unfold read_discard, write_discard. destruct l as [|s l]; [reflexivity|].
    assert (E := RT_vec putN getN fits HN putS getS fitsS HS _ [] H). rewrite app_nil_r in E.
    assert (K : put_vec putN putS (s :: l) <> []).
    { unfold put_vec. intros K. apply app_eq_nil in K as [K _]. revert K. apply HN1, H. }
    destruct (put_vec putN putS (s :: l)); [congruence|exact E].
  Qed.

  Lemma RT_dbl : RT (put_dbl e) (get_dbl e) (fun x => length x = dsize).
  Proof. intros x r H. unfold get_dbl, put_dbl. rewrite double_roundtrip; auto. Qed.

  (** ** matrices *)
  Lemma list_prod_seq_In n m i j : In (i, j) (pairs n m) <-> i < n /\ j < m.
  Proof. unfold pairs. rewrite in_prod_iff, !in_seq. lia. Qed.

  Lemma flat_map_map {A B} (f : A -> B) (g : B -> bytes) l : flat_map (fun x => g (f x)) l = flat_map g (map f l).
  Proof. induction l; cbn; congruence. Qed.

  Lemma chunk_prod (f : nat * nat -> dbl) n l :
    chunk n (length l) (map f (list_prod l (seq 0 n))) = map (fun i => map (fun j => f (i, j)) (seq 0 n)) l.
  Proof.
    induction l as [|x l IH]; [reflexivity|]. cbn [length chunk list_prod map]. rewrite map_app, map_map.
    assert (L : length (map (fun j => f (x, j)) (seq 0 n)) = n) by (rewrite map_length, seq_length; reflexivity).
    set (A := map (fun j => f (x, j)) (seq 0 n)) in *.
    rewrite firstn_app, skipn_app, L, Nat.sub_diag, <- L, firstn_all, skipn_all, L. cbn.
    rewrite app_nil_r. f_equal. exact IH.
  Qed.

  Lemma map_nth_seq {A} (d : A) l : map (fun j => nth j l d) (seq 0 (length l)) = l.
  Proof.
    induction l as [|x l IH]; [reflexivity|]. cbn. f_equal. rewrite <- seq_shift, map_map. exact IH.
  Qed.

  Definition dims (n m : nat) (a : list (list dbl)) : Prop :=
    length a = n /\ Forall (fun row => length row = m /\ Forall (fun x => length x = dsize) row) a.

  Lemma square_rebuild n a : dims n n a ->
    chunk n n (map (fun ij => cell a (fst ij) (snd ij)) (pairs n n)) = a.
  Proof.
    intros [HL HF]. unfold pairs.
    pose proof (chunk_prod (fun ij => cell a (fst ij) (snd ij)) n (seq 0 n)) as E.
    rewrite seq_length in E. rewrite E. clear E. cbn [fst snd].
    transitivity (map (fun j => nth j a []) (seq 0 (length a))); [|apply map_nth_seq]. rewrite HL. apply map_ext_in. intros i Hi.
    unfold cell. apply in_seq in Hi.
    rewrite Forall_forall in HF. destruct (HF (nth i a [])) as [H1 _]; [apply nth_In; lia|].
    transitivity (map (fun j => nth j (nth i a []) dzero) (seq 0 (length (nth i a [])))); [|apply map_nth_seq].
    apply (f_equal (fun k => map (fun j => nth j (nth i a []) dzero) (seq 0 k))). symmetry; exact H1.
  Qed.

  Lemma cell_dsize n m a i j : dims n m a -> i < n -> j < m -> length (cell a i j) = dsize.
  Proof.
    intros [HL HF] Hi Hj. unfold cell. rewrite Forall_forall in HF.
    destruct (HF (nth i a [])) as [H1 H2]; [apply nth_In; unfold dbl in *; lia|].
    rewrite Forall_forall in H2. apply H2, nth_In; unfold dbl in *; lia.
  Qed.

  Lemma set_row_length {A} j (x : A) l : length (set_row j x l) = length l.
  Proof. revert j; induction l; intros [|j]; cbn; auto. Qed.
  Lemma nth_set_row {A} j (x : A) l d k : nth k (set_row j x l) d = if (k =? j) && (j <? length l) then x else nth k l d.
  Proof.
    revert j k; induction l as [|y l IH]; intros [|j] [|k]; cbn; try reflexivity.
    - destruct (k =? j); reflexivity.
    - rewrite IH. reflexivity.
  Qed.
  Lemma set_row_Forall {A} (Q : A -> Prop) j x l : Forall Q l -> Q x -> Forall Q (set_row j x l).
  Proof. intros H Hx; revert j; induction H; intros [|j]; cbn; auto. Qed.

  Lemma set_cell_spec n m b i j x : dims n m b -> i < n -> j < m -> length x = dsize ->
    exists b', set_cell b i j x = Some b' /\ dims n m b' /\
      forall i' j', cell b' i' j' = if (i' =? i) && (j' =? j) then x else cell b i' j'.
  Proof.
    intros [HL HF] Hi Hj Hx. unfold set_cell.
    destruct (nth_error b i) as [row|] eqn:E; [|apply nth_error_None in E; lia].
    pose proof (nth_error_nth b i [] E) as En.
    assert (Hr : length row = m /\ Forall (fun x => length x = dsize) row).
    { rewrite Forall_forall in HF. apply HF. apply (nth_error_In b i E). }
    destruct Hr as [Hr1 Hr2].
    replace (j <? length row) with true by (symmetry; apply Nat.ltb_lt; lia).
    eexists; split; [reflexivity|]. split.
    - split; [rewrite set_row_length; exact HL|]. apply set_row_Forall; [exact HF|].
      rewrite set_row_length. split; [exact Hr1|]. apply set_row_Forall; assumption.
    - intros i' j'. unfold cell. rewrite nth_set_row.
      replace (i <? length b) with true by (symmetry; apply Nat.ltb_lt; lia). rewrite andb_true_r.
      destruct (i' =? i) eqn:Ei; cbn; [|reflexivity]. apply Nat.eqb_eq in Ei; subst i'.
      rewrite nth_set_row. replace (j <? length row) with true by (symmetry; apply Nat.ltb_lt; lia).
      rewrite andb_true_r, En. reflexivity.
  Qed.

  Definition trip (b : list (list dbl)) (ij : nat * nat) : N * N * dbl :=
    (N.of_nat (fst ij), N.of_nat (snd ij), cell b (fst ij) (snd ij)).

  Lemma set_cells_spec n m b L : dims n m b -> (forall i j, In (i, j) L -> i < n /\ j < m) ->
    forall b0, dims n m b0 ->
    exists b', set_cells b0 (map (trip b) L) = Some b' /\ dims n m b' /\
      forall i j, cell b' i j = if existsb (fun ij => (i =? fst ij) && (j =? snd ij)) L then cell b i j else cell b0 i j.
  Proof.
    intros Hb. induction L as [|[i j] L IH]; intros HL b0 H0.
    - exists b0. repeat split; try apply H0.
    - destruct (HL i j (or_introl eq_refl)) as [Hi Hj].
      destruct (set_cell_spec n m b0 i j (cell b i j) H0 Hi Hj) as [b1 [E1 [D1 C1]]];
        [apply (cell_dsize n m); assumption|].
      destruct (IH (fun i j H => HL i j (or_intror H)) b1 D1) as [b' [E' [D' C']]].
      exists b'. cbn [map trip set_cells]. rewrite !Nnat.Nat2N.id. cbn [fst snd]. rewrite E1.
      split; [exact E'|]. split; [exact D'|]. intros i' j'. rewrite C', C1. cbn [existsb fst snd].
      destruct ((i' =? i) && (j' =? j)) eqn:K; cbn; [|reflexivity].
      apply andb_prop in K as [K1 K2]. apply Nat.eqb_eq in K1, K2; subst.
      destruct (existsb _ L); reflexivity.
  Qed.

  Lemma existsb_filter_pairs (f : nat * nat -> bool) n m i j : i < n -> j < m ->
    existsb (fun ij => (i =? fst ij) && (j =? snd ij)) (filter f (pairs n m)) = f (i, j).
  Proof.
    intros Hi Hj. destruct (f (i, j)) eqn:E.
    - apply existsb_exists. exists (i, j). cbn. rewrite !Nat.eqb_refl. split; [|reflexivity].
      apply filter_In. rewrite list_prod_seq_In. auto.
    - destruct (existsb _ _) eqn:K; [|reflexivity]. apply existsb_exists in K as [[i' j'] [K1 K2]].
      cbn in K2. apply andb_prop in K2 as [K2 K3]. apply Nat.eqb_eq in K2, K3; subst.
      apply filter_In in K1 as [_ K1]. congruence.
  Qed.

  Record hmm_ok (h : hmm P) : Prop := mkhok {
    hok_td : td_ok fits fitsS fitsP (h_td h);
    hok_n : forall k, k <= h_n h -> fits (N.of_nat k);
    hok_m : forall k, k <= h_m h -> fits (N.of_nat k);
    hok_nval : forall k, k <= h_n h * h_m h -> fits (N.of_nat k);
    hok_a : dims (h_n h) (h_n h) (h_a h);
    hok_b : dims (h_n h) (h_m h) (h_b h) }.

  Lemma RT_trip n m b : (forall k, k <= n -> fits (N.of_nat k)) -> (forall k, k <= m -> fits (N.of_nat k)) -> dims n m b ->
    forall L, (forall i j, In (i, j) L -> i < n /\ j < m) -> fits (N.of_nat (length L)) -> forall r,
    get_vec getN (i <- getN ;; j <- getN ;; x <- get_dbl e ;; ret (i, j, x))
      (put_vec putN (fun ij => putN (N.of_nat (fst ij)) ++ putN (N.of_nat (snd ij)) ++
                            put_dbl e (cell b (fst ij) (snd ij))) L ++ r) = Some (map (trip b) L, r).
  Proof.
    intros Hn Hm Hb L HL HF r.
    set (put := fun t : N * N * dbl => putN (fst (fst t)) ++ putN (snd (fst t)) ++ put_dbl e (snd t)).
    assert (R : RT put (i <- getN ;; j <- getN ;; x <- get_dbl e ;; ret (i, j, x))
                  (fun t => fits (fst (fst t)) /\ fits (snd (fst t)) /\ length (snd t) = dsize)).
    { intros [[i j] x] r' [H1 [H2 H3]]. unfold put; cbn in *. rewrite <- !app_assoc.
      rewrite (RT_bind putN getN fits) by assumption. rewrite (RT_bind putN getN fits) by assumption.
      rewrite (RT_bind _ _ _ _ _ _ RT_dbl) by assumption. reflexivity. }
    assert (E := RT_vec putN getN fits HN _ _ _ R (map (trip b) L) r).
    unfold put_vec in *. rewrite map_length in E. rewrite <- flat_map_map in E. apply E.
    split; [exact HF|]. apply Forall_forall. intros t Ht. apply in_map_iff in Ht as [[i j] [<- Ht]].
    destruct (HL _ _ Ht) as [Hi Hj]. cbn. repeat split; [apply Hn; lia|apply Hm; lia|].
    apply (cell_dsize n m); assumption.
  Qed.

  Lemma filter_length_le' {A} (f : A -> bool) l : length (filter f l) <= length l.
  Proof. induction l; cbn; [lia|]. destruct (f a); cbn; lia. Qed.

  Lemma read_write_hmm zero d0 h : length zero = dsize -> hmm_ok h ->
    open_class d0 = [] -> forbid_rules d0 = [] -> array_tags d0 = [] -> tag_index d0 = [] ->
    enforce_rules d0 = [] -> prefer_rules d0 = [] -> output d0 = Collection.empty ->
    exists b', read_hmm P getN getS getP e zero d0 (write_hmm P putN putS putP e h) =
      Some (mkh (h_td h) (h_n h) (h_m h) (h_a h) b', []) /\
      dims (h_n h) (h_m h) b' /\
      forall i j, i < h_n h -> j < h_m h ->
        cell b' i j = if useful (h_td h) i j then cell (h_b h) i j else zero.
  Proof.
    intros Hz [Htd Hn Hm Hnv Ha Hb] E1 E2 E3 E4 E5 E6 E7.
    set (L := filter (fun ij => useful (h_td h) (fst ij) (snd ij)) (pairs (h_n h) (h_m h))).
    assert (HL : forall i j, In (i, j) L -> i < h_n h /\ j < h_m h).
    { intros i j Hij. apply filter_In in Hij as [Hij _]. apply list_prod_seq_In, Hij. }
    assert (D0 : dims (h_n h) (h_m h) (repeat (repeat zero (h_m h)) (h_n h))).
    { split; [apply repeat_length|]. apply Forall_forall. intros row Hrow. apply repeat_spec in Hrow; subst row.
      split; [apply repeat_length|]. apply Forall_forall. intros x Hx. apply repeat_spec in Hx; subst x. exact Hz. }
    destruct (set_cells_spec _ _ _ L Hb HL _ D0) as [b' [Eb [Db Cb]]].
    exists b'. split.
    - unfold read_hmm, write_hmm.
      rewrite (bind_some _ _ _ _ _ (read_common_write d0 (h_td h) _ Htd E1 E2 E3 E4 E5 E6 E7)).
      rewrite (RT_bind putN getN fits) by (try assumption; apply Hn; lia).
      rewrite (RT_bind putN getN fits) by (try assumption; apply Hm; lia).
      rewrite !Nnat.Nat2N.id.
      rewrite (flat_map_map (fun ij => cell (h_a h) (fst ij) (snd ij)) (put_dbl e)).
      assert (Er := RT_repeat (put_dbl e) (get_dbl e) _ RT_dbl
                      (map (fun ij => cell (h_a h) (fst ij) (snd ij)) (pairs (h_n h) (h_n h)))).
      assert (Lp : length (pairs (h_n h) (h_n h)) = h_n h * h_n h)
        by (unfold pairs; rewrite prod_length, !seq_length; reflexivity).
      rewrite map_length, Lp in Er.
      assert (HF : Forall (fun x : list N => length x = dsize)
                  (map (fun ij => cell (h_a h) (fst ij) (snd ij)) (pairs (h_n h) (h_n h)))).
      { apply Forall_forall. intros x Hx. apply in_map_iff in Hx as [[i j] [<- Hx]].
        apply list_prod_seq_In in Hx as [Hi Hj]. apply (cell_dsize (h_n h) (h_n h)); assumption. }
      rewrite (bind_some _ _ _ _ _ (Er _ HF)).
      rewrite (bind_some _ _ _ _ _ (RT_trip (h_n h) (h_m h) (h_b h) Hn Hm Hb L HL
                 ltac:(apply Hnv; unfold L; eapply Nat.le_trans; [apply filter_length_le'|];
                       unfold pairs; rewrite prod_length, !seq_length; lia) _)).
      rewrite (RT_bind putP getP fitsP) by (try assumption; apply Htd).
      rewrite (bind_some _ _ _ _ _ (read_discard_write _ (ok_discard _ _ _ _ Htd))).
      rewrite ?Nnat.Nat2N.id.
      match goal with |- match ?X with _ => _ end = _ => replace X with (Some b') by (symmetry; exact Eb) end.
      rewrite square_rebuild by exact Ha. cbn.
      destruct (h_td h); reflexivity.
    - split; [exact Db|]. intros i j Hi Hj. rewrite Cb. unfold L. rewrite existsb_filter_pairs by assumption.
      cbn [fst snd]. destruct (useful (h_td h) i j); [reflexivity|].
      unfold cell. rewrite nth_indep with (d' := repeat zero (h_m h)) by (rewrite repeat_length; exact Hi).
      rewrite nth_repeat. rewrite nth_indep with (d' := zero) by (rewrite repeat_length; exact Hj).
      apply nth_repeat.
  Qed.

  (** ** LSW *)
  Record lsw_ok (l : lsw P) : Prop := mklok {
    lok_td : td_ok fits fitsS fitsP (l_td l);
    lok_n : forall k, k <= l_n l -> fits (N.of_nat k);
    lok_nval : forall k, k <= l_n l * l_n l * l_n l -> fits (N.of_nat k);
    lok_d : forall i j k, i < l_n l -> j < l_n l -> k < l_n l -> length (l_d l i j k) = dsize }.

  Lemma triples_In n i j k : In (i, j, k) (triples n) <-> i < n /\ j < n /\ k < n.
  Proof. unfold triples. rewrite !in_prod_iff, !in_seq. lia. Qed.

  Definition quad (d : nat -> nat -> nat -> dbl) (t : nat * nat * nat) : nat * nat * nat * dbl :=
    (t, d (fst (fst t)) (snd (fst t)) (snd t)).

  Lemma RT_quad n d : (forall k, k <= n -> fits (N.of_nat k)) ->
    (forall i j k, i < n -> j < n -> k < n -> length (d i j k) = dsize) ->
    forall L, (forall i j k, In (i, j, k) L -> i < n /\ j < n /\ k < n) -> fits (N.of_nat (length L)) -> forall r,
    get_vec getN (get_triple getN e) (put_vec putN (put_triple putN e d) L ++ r) = Some (map (quad d) L, r).
  Proof.
    intros Hn Hd L HL HF r. unfold get_vec, put_vec. rewrite <- app_assoc.
    rewrite (RT_bind putN getN fits) by assumption. rewrite Nnat.Nat2N.id. clear HF.
    induction L as [|[[i j] k] L IH]; [reflexivity|].
    destruct (HL i j k (or_introl eq_refl)) as [Hi [Hj Hk]].
    cbn [length repeat_get flat_map]. rewrite <- app_assoc.
    assert (E : forall r, get_triple getN e (put_triple putN e d (i, j, k) ++ r) = Some (i, j, k, d i j k, r)).
    { intros r'. unfold get_triple, put_triple. rewrite <- !app_assoc.
      rewrite (RT_bind putN getN fits) by (try assumption; apply Hn; lia).
      rewrite (RT_bind putN getN fits) by (try assumption; apply Hn; lia).
      rewrite (RT_bind putN getN fits) by (try assumption; apply Hn; lia).
      rewrite (RT_bind _ _ _ _ _ _ RT_dbl) by auto. unfold ret. rewrite !Nnat.Nat2N.id. reflexivity. }
    rewrite (bind_some _ _ _ _ _ (E _)).
    rewrite (bind_some _ _ _ _ _ (IH (fun i j k H => HL i j k (or_intror H)))). reflexivity.
  Qed.

  Lemma set_all_spec n d L : (forall i j k, In (i, j, k) L -> i < n /\ j < n /\ k < n) -> forall d0,
    exists d', set_all n d0 (map (quad d) L) = Some d' /\
      forall i j k, d' i j k = if existsb (fun t => (i =? fst (fst t)) && (j =? snd (fst t)) && (k =? snd t)) L
                               then d i j k else d0 i j k.
  Proof.
    induction L as [|[[i j] k] L IH]; intros HL d0; [exists d0; auto|].
    destruct (HL i j k (or_introl eq_refl)) as [Hi [Hj Hk]].
    cbn [map quad set_all fst snd].
    replace (i <? n) with true by (symmetry; apply Nat.ltb_lt; lia).
    replace (j <? n) with true by (symmetry; apply Nat.ltb_lt; lia).
    replace (k <? n) with true by (symmetry; apply Nat.ltb_lt; lia). cbn [andb].
    destruct (IH (fun i j k H => HL i j k (or_intror H))
      (fun i' j' k' => if (i' =? i) && (j' =? j) && (k' =? k) then d i j k else d0 i' j' k')) as [d' [E C]].
    exists d'. split; [exact E|]. intros i' j' k'. rewrite C. cbn [existsb fst snd].
    destruct ((i' =? i) && (j' =? j) && (k' =? k)) eqn:K; cbn; [|reflexivity].
    apply andb_prop in K as [K K3]. apply andb_prop in K as [K1 K2]. apply Nat.eqb_eq in K1, K2, K3; subst.
    destruct (existsb _ L); reflexivity.
  Qed.

  Lemma existsb_filter_triples (f : nat * nat * nat -> bool) n i j k : i < n -> j < n -> k < n ->
    existsb (fun t => (i =? fst (fst t)) && (j =? snd (fst t)) && (k =? snd t)) (filter f (triples n)) = f (i, j, k).
  Proof.
    intros Hi Hj Hk. destruct (f (i, j, k)) eqn:E.
    - apply existsb_exists. exists (i, j, k). cbn. rewrite !Nat.eqb_refl. split; [|reflexivity].
      apply filter_In. rewrite triples_In. auto.
    - destruct (existsb _ _) eqn:K; [|reflexivity]. apply existsb_exists in K as [[[i' j'] k'] [K1 K2]].
      cbn in K2. apply andb_prop in K2 as [K2 K4]. apply andb_prop in K2 as [K2 K3].
      apply Nat.eqb_eq in K2, K3, K4; subst.
      apply filter_In in K1 as [_ K1]. congruence.
  Qed.

  Lemma read_write_lsw big d0 l : lsw_ok l ->
    open_class d0 = [] -> forbid_rules d0 = [] -> array_tags d0 = [] -> tag_index d0 = [] ->
    enforce_rules d0 = [] -> prefer_rules d0 = [] -> output d0 = Collection.empty ->
    exists d', read_lsw P getN getS getP e d0 (write_lsw P putN putS putP e big l) =
      Some (mkl (l_td l) (l_n l) d', []) /\
      forall i j k, i < l_n l -> j < l_n l -> k < l_n l ->
        d' i j k = if big (l_d l i j k) then l_d l i j k else dzero.
  Proof.
    intros [Htd Hn Hnv Hd] E1 E2 E3 E4 E5 E6 E7.
    set (L := filter (fun t => let '(i, j, k) := t in big (l_d l i j k)) (triples (l_n l))).
    assert (HL : forall i j k, In (i, j, k) L -> i < l_n l /\ j < l_n l /\ k < l_n l).
    { intros i j k H. apply filter_In in H as [H _]. apply triples_In, H. }
    destruct (set_all_spec (l_n l) (l_d l) L HL (fun _ _ _ => dzero)) as [d' [Ed Cd]].
    exists d'. split.
    - unfold read_lsw, write_lsw.
      rewrite (bind_some _ _ _ _ _ (read_common_write d0 (l_td l) _ Htd E1 E2 E3 E4 E5 E6 E7)).
      rewrite (RT_bind putN getN fits) by (try assumption; apply Hn; lia).
      rewrite (bind_some _ _ _ _ _ (RT_quad (l_n l) (l_d l) Hn Hd L HL
                 ltac:(apply Hnv; unfold L; eapply Nat.le_trans; [apply filter_length_le'|];
                       unfold triples; rewrite !prod_length, !seq_length; lia) _)).
      rewrite (RT_bind putP getP fitsP) by (try assumption; apply Htd).
      rewrite (bind_some _ _ _ _ _ (read_discard_write _ (ok_discard _ _ _ _ Htd))).
      rewrite Nnat.Nat2N.id, Ed. cbn. destruct (l_td l); reflexivity.
    - intros i j k Hi Hj Hk. rewrite Cd. unfold L. rewrite existsb_filter_triples by assumption.
      reflexivity.
  Qed.
End TD.
From Verif Require Import Model.TaggerDataCopy.

Lemma useful_In {P} (d : td P) i j s : Collection.at_ j (output d) = Some s ->
  useful d i j = true <-> In (N.of_nat i) s.
Proof.
  intros E. unfold useful. rewrite E. rewrite existsb_exists. split.
  - intros [x [H1 H2]]. apply N.eqb_eq in H2. subst x; exact H1.
  - intros H. exists (N.of_nat i). split; [exact H|apply N.eqb_refl].
Qed.

Lemma hmm_roundtrip_fresh :
  forall (P : Type) putN getN fits putS getS fitsS (putP : P -> bytes) getP fitsP,
  RT putN getN fits -> (forall n, fits n -> putN n <> []) -> RT putS getS fitsS -> RT putP getP fitsP ->
  forall (e : endian) (zero : dbl) (p0 : P) (h : hmm P), length zero = 8 ->
  hmm_ok P fits fitsS fitsP h ->
  exists b', read_hmm P getN getS getP e zero (td_fresh p0) (write_hmm P putN putS putP e h) =
      Some (mkh (h_td h) (h_n h) (h_m h) (h_a h) b', []) /\
    (length b' = h_n h /\ Forall (fun row => length row = h_m h) b') /\
    forall i j s, i < h_n h -> j < h_m h -> Collection.at_ j (output (h_td h)) = Some s ->
      (In (N.of_nat i) s -> cell b' i j = cell (h_b h) i j) /\ (~ In (N.of_nat i) s -> cell b' i j = zero).
Proof.
  intros P putN getN fits putS getS fitsS putP getP fitsP HN HN1 HS HP e zero p0 h Hz Hok.
  destruct (read_write_hmm P putN getN fits putS getS fitsS putP getP fitsP e HN HN1 HS HP zero (td_fresh p0) h
              Hz Hok eq_refl eq_refl eq_refl eq_refl eq_refl eq_refl eq_refl) as [b' [E [[D1 D2] C]]].
  exists b'. split; [exact E|]. split.
  - split; [exact D1|]. eapply Forall_impl; [|exact D2]. intros row H. apply H.
  - intros i j s Hi Hj Hs. rewrite (C i j Hi Hj). pose proof (useful_In (h_td h) i j s Hs) as U.
    destruct (useful (h_td h) i j); split; intros H; try reflexivity.
    + exfalso. apply H, U. reflexivity.
    + apply U in H. discriminate.
Qed.

Lemma lsw_roundtrip_fresh :
  forall (P : Type) putN getN fits putS getS fitsS (putP : P -> bytes) getP fitsP,
  RT putN getN fits -> (forall n, fits n -> putN n <> []) -> RT putS getS fitsS -> RT putP getP fitsP ->
  forall (e : endian) (big : dbl -> bool) (p0 : P) (l : lsw P), lsw_ok P fits fitsS fitsP l ->
  exists d', read_lsw P getN getS getP e (td_fresh p0) (write_lsw P putN putS putP e big l) =
      Some (mkl (l_td l) (l_n l) d', []) /\
    forall i j k, i < l_n l -> j < l_n l -> k < l_n l ->
      d' i j k = if big (l_d l i j k) then l_d l i j k else dzero.
Proof.
  intros P putN getN fits putS getS fitsS putP getP fitsP HN HN1 HS HP e big p0 l Hok.
  exact (read_write_lsw P putN getN fits putS getS fitsS putP getP fitsP e HN HN1 HS HP big (td_fresh p0) l Hok
            eq_refl eq_refl eq_refl eq_refl eq_refl eq_refl eq_refl).
Qed.
