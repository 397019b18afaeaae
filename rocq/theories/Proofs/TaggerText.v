From Coq Require Import QArith Sorted.
From Verif Require Import Model.Base Model.TaggerWord Model.Similar Model.MorphoStream Model.TaggerText Spec.MorphoStream Spec.TaggerText.
From Verif Require Import Proofs.Base Proofs.TaggerWord Proofs.MorphoStream.
From Verif Require Proofs.Similar.
From Verif Require Model.HMM Spec.HMM Proofs.HMM.
Open Scope nat_scope.

Lemma F2_length {X Y} {R : X -> Y -> Prop} {a b} : Forall2 R a b -> length a = length b.
Proof. induction 1; cbn; congruence. Qed.

Lemma NoDup_map_inj {X Y} (f : X -> Y) l : (forall x y, f x = f y -> x = y) -> NoDup l -> NoDup (map f l).
Proof.
  intros Hf. induction 1 as [|x l Hx H IH]; cbn; constructor; [|exact IH]. intros K. apply in_map_iff in K as (y & E & Hy).
  apply Hf in E. subst. contradiction.
Qed.

(** ** events to text *)
Section E.
Variable keof : nat.
Variables (gm si ssf nf : bool) (eos : nat) (A B : HMM.mat).
Notation print := (print keof gm si ssf).
Notation out_text := (out_text keof gm si ssf).
Definition nul_if (w : HMM.vw) : str := if HMM.w_eof w && nf then [cNUL] else [].
Fixpoint written (tws : list tword) (vws : list HMM.vw) (is : list nat) : str :=
  match tws, vws, is with w :: a, v :: b, i :: c => print i w ++ nul_if v ++ written a b c | _, _, _ => [] end.
Lemma out_seg : forall seg tws p rest evs, length tws = length seg -> length p = length seg -> Forall (fun w => nul_if w = []) seg ->
  out_text (tws ++ rest) (map (fun wt => HMM.EWord (fst wt) (snd wt)) (combine seg p) ++ evs) = written tws seg p ++ out_text rest evs.
Proof.
  induction seg as [|v seg IH]; intros [|w tws] [|i p] rest evs H1 H2 H3; cbn in H1, H2; try lia; [reflexivity|].
  inversion H3 as [|? ? H4 H5]; subst. cbn. rewrite H4. cbn [app]. rewrite <- app_assoc. f_equal. apply IH; [lia|lia|exact H5].
Qed.
Lemma written_app : forall a1 b1 c1 a2 b2 c2, length a1 = length b1 -> length c1 = length b1 ->
  written (a1 ++ a2) (b1 ++ b2) (c1 ++ c2) = written a1 b1 c1 ++ written a2 b2 c2.
Proof.
  induction a1 as [|w a1 IH]; intros [|v b1] [|i c1] a2 b2 c2 H1 H2; cbn in H1, H2; try lia; [reflexivity|].
  cbn. rewrite IH by lia. rewrite !app_assoc. reflexivity.
Qed.

Definition ends_single (vws : list HMM.vw) : Prop := vws = [] \/ exists l v t, vws = l ++ [v] /\ HMM.w_tags v = [t].
Lemma tagging_text t vws evs : Spec.HMM.tagging A B eos nf t vws evs -> forall tws, length tws = length vws ->
  Forall (Spec.HMM.proper_word nf) vws -> ends_single vws ->
  exists is, Forall2 (fun v i => In i (HMM.w_tags v)) vws is /\ out_text tws evs = written tws vws is.
Proof.
  induction 1 as [t ws Hamb|t seg w t' p rest evs Hseg Hw Hp Ht IH]; intros tws Hl Hprop Hlast.
  - destruct Hlast as [->|(l & v & t1 & -> & Ev)].
    + exists []. split; [constructor|]. destruct tws; reflexivity.
    + exfalso. apply Forall_app in Hamb as [_ H]. inversion H as [|? ? K _]; subst. rewrite Ev in K. cbn in K. lia.
  - assert (Hrest : ends_single rest).
    { destruct Hlast as [K|(l & v & t1 & E & Ev)]; [destruct seg; discriminate|].
      destruct rest as [|x r] using rev_ind; [left; reflexivity|]. right. clear IHr.
      change (seg ++ w :: r ++ [x]) with (seg ++ (w :: r) ++ [x]) in E. rewrite app_assoc in E. apply app_inj_tail in E as [_ ->].
      exists r, v, t1. split; [reflexivity|exact Ev]. }
    destruct Hp as [Hc _]. apply Forall_app in Hprop as [Pseg Prest]. inversion Prest as [|? ? Pw Prest']; subst.
    rewrite app_length in Hl. cbn in Hl.
    assert (T : exists t1 tw t2, tws = t1 ++ tw :: t2 /\ length t1 = length seg /\ length t2 = length rest).
    { exists (firstn (length seg) tws). destruct (skipn (length seg) tws) as [|tw t2] eqn:E.
      - assert (length (skipn (length seg) tws) = 0) by (rewrite E; reflexivity). rewrite skipn_length in H. lia.
      - exists tw, t2. assert (L : length (skipn (length seg) tws) = S (length t2)) by (rewrite E; reflexivity). rewrite skipn_length in L.
        split; [rewrite <- E; symmetry; apply firstn_skipn|]. split; [rewrite firstn_length; lia|lia]. }
    destruct T as (t1 & tw & t2 & -> & L1 & L2).
    apply Forall2_app_inv_l in Hc as (p1 & p2 & C1 & C2 & ->). inversion C2 as [|? i ? ? Ci C2']; subst. inversion C2'; subst.
    destruct (IH t2 L2 Prest' Hrest) as (is & I1 & I2).
    exists (p1 ++ i :: is). split.
    + apply Forall2_app; [exact C1|]. constructor; [exact Ci|exact I1].
    + pose proof (F2_length C1) as Lp.
      assert (Nseg : Forall (fun w => nul_if w = []) seg).
      { apply Forall_forall. intros x Hx. unfold nul_if. destruct (HMM.w_eof x && nf) eqn:E; [|reflexivity]. exfalso.
        rewrite Forall_forall in Pseg. destruct (Pseg x Hx) as (_ & _ & K). destruct (K E) as [tt Et].
        rewrite Forall_forall in Hseg. specialize (Hseg x Hx). rewrite Et in Hseg. cbn in Hseg. lia. }
      rewrite written_app by lia. cbn [written]. 
      assert (CM : combine (seg ++ [w]) (p1 ++ [i]) = combine seg p1 ++ [(w, i)]).
      { clear - Lp. revert p1 Lp. induction seg as [|x seg IH]; intros [|y p1] L; cbn in L; try lia; [reflexivity|]. cbn. f_equal. apply IH. lia. }
      rewrite CM, map_app, <- app_assoc. rewrite out_seg by (lia || exact Nseg). f_equal. cbn [map app fst snd TaggerText.out_text]. f_equal.
      unfold nul_if. destruct (HMM.w_eof w && nf); cbn [app TaggerText.out_text]; rewrite I2; reflexivity.
Qed.
End E.

(** ** classes *)
Section G.
Variable keof : nat.
Let ke := N.of_nat keof.
Import Verif.Model.Collection.
Definition good (m : tmodel) : Prop :=
  Similar.okm m /\ (forall x, In x (element (m_out m)) -> NoDup x) /\
  (forall x, In x (element (m_out m)) -> In ke x -> x = [ke]) /\ In [ke] (element (m_out m)) /\ m_open m <> [] /\ ~ In ke (m_open m).
Definition tw_ok (w : tword * bool) : Prop :=
  NoDup (tags (fst w)) /\ (tags (fst w) = [keof] \/ ~ In keof (tags (fst w))) /\ (snd w = true -> tags (fst w) = [keof]).
Definition hmm_of (w : tword * bool) (v : HMM.vw) : Prop :=
  HMM.w_eof v = snd w /\ (tags (fst w) <> [] -> HMM.w_tags v = tags (fst w)) /\
  (tags (fst w) = [] -> HMM.w_tags v <> [] /\ NoDup (HMM.w_tags v) /\ ~ In keof (HMM.w_tags v)).
Lemma to_of l : map N.to_nat (map N.of_nat l) = l.
Proof. induction l as [|x l IH]; cbn; [reflexivity|]. rewrite Nnat.Nat2N.id, IH. reflexivity. Qed.
Lemma hmm_words_cons m w b r : hmm_words m ((w, b) :: r) =
  let '(m1, (tg, cls, k)) := lookup m (map N.of_nat (tags w)) in HMM.mkw (map N.to_nat tg) k b :: hmm_words m1 r.
Proof.
  unfold hmm_words. cbn [map fst lookups]. destruct (lookup m (map N.of_nat (tags w))) as [m1 [[tg cls] k]].
  destruct (lookups m1 (map (fun w0 => map N.of_nat (tags (fst w0))) r)). reflexivity.
Qed.
Lemma in_ke l : In ke (map N.of_nat l) <-> In keof l.
Proof.
  split; [|apply in_map]. intros H. apply in_map_iff in H as (x & E & H). unfold ke in E. apply Nnat.Nat2N.inj in E. subst. exact H.
Qed.
Lemma hmm_words_ok ws : forall m, good m -> Forall tw_ok ws -> Forall2 hmm_of ws (hmm_words m ws).
Proof.
  induction ws as [|[w b] ws IH]; intros m Hm Hw; [constructor|]. inversion Hw as [|? ? (N1 & K1 & B1) Hw']; subst. cbn [fst snd] in *.
  rewrite hmm_words_cons. destruct Hm as (M1 & M2 & M3 & M4 & M5 & M6).
  pose proof (Similar.lookup_ok m (map N.of_nat (tags w)) M1) as L. destruct (lookup m (map N.of_nat (tags w))) as [m1 [[tg cls] k]].
  destruct L as (L1 & L2 & _ & _ & L3 & L4 & L5).
  assert (Hm1 : good m1).
  { destruct (in_dec (list_eq_dec N.eq_dec) tg (element (m_out m))) as [K|K].
    - destruct (L4 K) as [_ ->]. repeat split; try assumption; apply M1.
    - destruct (L5 K) as [E1 E2]. split; [exact L1|]. rewrite L2, E1, E2.
      split; [exact M2|]. split; [exact M3|]. split; [exact M4|].
      assert (Hmap : tg = map N.of_nat (tags w)).
      { subst tg. destruct (tags w); [cbn in K; exfalso; apply K; apply M1|reflexivity]. }
      assert (Hne : tags w <> []).
      { intros E. apply K. rewrite L3, E. apply M1. }
      destruct (Similar.pick_spec tg (element (m_out m)) (m_open m)) as (_ & _ & [->|(l1 & l2 & Q1 & Q2 & _)]); [split; assumption|].
      set (r := fold_left _ _ _) in *. assert (In r (element (m_out m))) as Hr by (rewrite Q1 at 1; apply in_or_app; right; left; reflexivity).
      destruct (tags w) as [|t0 tr] eqn:Et; [congruence|].
      assert (Ht0 : In (N.of_nat t0) r) by (apply Q2; rewrite Hmap; left; reflexivity).
      split; [intros E; rewrite E in Ht0; exact Ht0|]. intros Hk. apply M3 in Hk; [|exact Hr]. rewrite Hk in Ht0. destruct Ht0 as [Ht0|[]].
      unfold ke in Ht0. apply Nnat.Nat2N.inj in Ht0. subst t0. destruct K1 as [K1|K1]; [|apply K1; left; reflexivity].
      apply K. rewrite Hmap, K1. exact M4. }
  constructor; [|apply IH; assumption]. unfold hmm_of. cbn [HMM.w_eof HMM.w_tags fst snd]. split; [reflexivity|]. split.
  - intros Hne. subst tg. destruct (tags w) as [|t0 tr]; [congruence|]. exact (to_of (t0 :: tr)).
  - intros E. rewrite E in L3. cbn in L3. subst tg. split; [|split].
    + intros K. apply M5. destruct (m_open m); [reflexivity|discriminate].
    + apply NoDup_map_inj; [intros x y; apply Nnat.N2Nat.inj|]. apply M2. apply M1.
    + intros K. apply in_map_iff in K as (x & Ex & Hx). apply M6. unfold ke. rewrite <- Ex, Nnat.N2Nat.id. exact Hx.
Qed.
Lemma hmm_proper nf ws vws : Forall2 hmm_of ws vws -> Forall tw_ok ws -> Forall (Spec.HMM.proper_word nf) vws.
Proof.
  induction 1 as [|[w b] v ws vws (E1 & E2 & E3) H IH]; intros Hw; [constructor|]. inversion Hw as [|? ? (N1 & K1 & B1) Hw']; subst. cbn [fst snd] in *.
  constructor; [|apply IH, Hw']. destruct (tags w) as [|t0 tr] eqn:Et.
  - destruct (E3 eq_refl) as (F1 & F2 & _). split; [exact F1|]. split; [exact F2|]. intros K. apply andb_true_iff in K as [K _].
    rewrite E1 in K. specialize (B1 K). discriminate.
  - specialize (E2 ltac:(discriminate)). unfold Spec.HMM.proper_word. rewrite E2. split; [discriminate|]. split; [exact N1|]. intros K.
    apply andb_true_iff in K as [K _]. rewrite E1 in K. specialize (B1 K). rewrite B1. exists keof. reflexivity.
Qed.
End G.

(** ** words of lexical units *)
Section P.
Variable mt : str -> str -> bool.
Variables prefer discardr : list str.
Notation addt := (add_tag mt prefer).
Notation dsc := (discard mt discardr).

Lemma mput_keys t s l : map fst (mput t s l) = sins t (map fst l).
Proof.
  induction l as [|[k v] r IH]; [reflexivity|]. cbn [mput map fst sins]. destruct (t <? k); [reflexivity|].
  destruct (Nat.eqb_spec t k) as [->|N]; [reflexivity|]. cbn. f_equal. exact IH.
Qed.
Lemma mput_In t s l f : In f (mput t s l) -> f = (t, s) \/ In f l.
Proof.
  induction l as [|[k v] r IH]; [cbn; intros [<-|[]]; auto|]. cbn [mput]. destruct (t <? k); [intros [<-|H]; auto|].
  destruct (t =? k); [intros [<-|H]; [auto|right; right; exact H]|]. intros [<-|H]; [right; left; reflexivity|]. destruct (IH H); auto. right; right; assumption.
Qed.
Definition wok (w : tword) : Prop := StronglySorted lt (map fst (forms w)) /\ tags w = map fst (forms w).
Lemma add_wok v t w : wok w -> wok (addt v t w).
Proof.
  intros [S T]. unfold add_tag. destruct (has_tag v (tags w)) eqn:E; cbn [negb].
  - destruct (existsb (mt t) prefer); [|split; assumption]. apply has_tag_In in E. unfold wok. cbn [forms tags].
    rewrite mput_keys, sins_mem; [split; assumption|rewrite <- T; exact E|exact S].
  - unfold wok. cbn [forms tags]. rewrite mput_keys, T. split; [apply sins_sorted, S|reflexivity].
Qed.
Lemma add_forms v t w f : In f (forms (addt v t w)) -> f = (v, t) \/ In f (forms w).
Proof.
  unfold add_tag. destruct (negb _); [apply mput_In|]. destruct (existsb (mt t) prefer); [apply mput_In|auto].
Qed.
Lemma add_ne v t w : wok w -> forms (addt v t w) <> [].
Proof.
  intros [S T]. unfold add_tag. destruct (has_tag v (tags w)) eqn:E; cbn [negb].
  - apply has_tag_In in E. rewrite T in E. destruct (existsb (mt t) prefer); cbn [forms].
    + intros K. assert (map fst (mput v t (forms w)) = []) as Q by (rewrite K; reflexivity). rewrite mput_keys in Q.
      assert (In v (sins v (map fst (forms w)))) as X by (apply sins_In; auto). rewrite Q in X. exact X.
    + intros K. rewrite K in E. exact E.
  - cbn [forms]. intros K. assert (map fst (mput v t (forms w)) = []) as Q by (rewrite K; reflexivity). rewrite mput_keys in Q.
    assert (In v (sins v (map fst (forms w)))) as X by (apply sins_In; auto). rewrite Q in X. exact X.
Qed.
Lemma sins_len t l : length (sins t l) <= S (length l).
Proof. induction l as [|x r IH]; [cbn; lia|]. cbn [sins]. destruct (t <? x); [cbn; lia|]. destruct (t =? x); cbn; lia. Qed.
Lemma add_len v t w : length (forms (addt v t w)) <= S (length (forms w)).
Proof.
  assert (Q : length (mput v t (forms w)) <= S (length (forms w))) by (rewrite <- (map_length fst), mput_keys, <- (map_length fst (forms w)); apply sins_len).
  unfold add_tag. destruct (negb _); [exact Q|]. destruct (existsb (mt t) prefer); [exact Q|cbn; lia].
Qed.
Lemma add_same v t w : sf (addt v t w) = sf w /\ ign (addt v t w) = ign w /\ pcut (addt v t w) = pcut w /\ cut (addt v t w) = cut w.
Proof. unfold add_tag. destruct (negb _); [repeat split|]. destruct (existsb (mt t) prefer); repeat split. Qed.

(** readings of one word *)
Definition adds (l : list (str * nat)) (w : tword) : tword := fold_left (fun w x => addt (snd x) (fst x) w) l w.
Lemma adds_ok l : forall w, wok w -> wok (adds l w) /\ length (forms (adds l w)) <= length l + length (forms w) /\
  (forall f, In f (forms (adds l w)) -> In (snd f, fst f) l \/ In f (forms w)) /\ (l <> [] -> forms (adds l w) <> []) /\
  sf (adds l w) = sf w /\ ign (adds l w) = ign w /\ pcut (adds l w) = pcut w /\ cut (adds l w) = cut w.
Proof.
  induction l as [|[t v] l IH] using rev_ind; intros w Hw.
  - cbn. split; [exact Hw|]. split; [lia|]. split; [auto|]. split; [congruence|]. repeat split.
  - unfold adds. rewrite fold_left_app. fold (adds l w). cbn [fold_left fst snd].
    destruct (IH w Hw) as (I1 & I2 & I3 & _ & I5 & I6 & I7 & I8). destruct (add_same v t (adds l w)) as (A1 & A2 & A3 & A4).
    split; [apply add_wok, I1|]. split; [pose proof (add_len v t (adds l w)); rewrite app_length; cbn; lia|].
    split; [|split; [intros _; apply add_ne, I1|rewrite A1, A2, A3, A4; auto]].
    intros f Hf. apply add_forms in Hf as [->|Hf]; [left; apply in_or_app; right; left; reflexivity|].
    destruct (I3 f Hf); [left; apply in_or_app; left; assumption|right; assumption].
Qed.
(** analyses of one part *)
Lemma lu_words_single first pss : Forall (fun ps => length ps = 1) pss -> cut first = false ->
  lu_words addt first pss = [adds (concat pss) first].
Proof.
  intros H Hc. unfold lu_words.
  assert (Mx : fold_right Nat.max 1 (map (@length _) pss) = 1).
  { clear Hc. induction H as [|ps pss Hp H IH]; [reflexivity|]. cbn [map fold_right]. rewrite Hp, IH. reflexivity. }
  rewrite Mx. cbn [seq map]. f_equal. unfold word_k.
  assert (X : existsb (fun ps : list (str * nat) => 1 <? length ps) pss = false).
  { clear - H. induction H as [|ps pss Hp H IH]; [reflexivity|]. cbn [existsb]. rewrite Hp, IH. reflexivity. }
  rewrite X. assert (Q : forall w, fold_left (fun w ps => match nth_error ps 0 with Some (t, v) => addt v t w | None => w end) pss w = adds (concat pss) w).
  { clear - H. induction H as [|ps pss Hp H IH]; intros w; [reflexivity|]. cbn [fold_left concat].
    destruct ps as [|[t v] [|]]; try discriminate. cbn [nth_error app adds fold_left fst snd]. apply IH. }
  rewrite Q. assert (C : cut (adds (concat pss) first) = false).
  { rewrite <- Hc. clear. generalize (concat pss) as l. intros l. revert first. induction l as [|x l IH]; intros w; [reflexivity|].
    cbn [adds fold_left]. unfold adds in IH. rewrite IH. apply add_same. }
  rewrite <- C. destruct (adds (concat pss) first); reflexivity.
Qed.
(** one analysis *)
Fixpoint chain (first : tword) (ps : list (str * nat)) : list tword :=
  match ps with
  | [] => []
  | (t, v) :: r => mktw (sf first) [v] [(v, t)] (ign first) (match r with [] => false | _ => true end) (pcut first) :: chain (tword0 true) r
  end.
Lemma chain_nth ps : forall first k, nth_error (chain first ps) k = match nth_error ps k with
  | Some (t, v) => let b := match k with 0 => first | _ => tword0 true end in Some (mktw (sf b) [v] [(v, t)] (ign b) (S k <? length ps) (pcut b))
  | None => None end.
Proof.
  induction ps as [|[t v] ps IH]; intros first k; [destruct k; reflexivity|]. destruct k as [|k].
  - cbn. destruct ps; reflexivity.
  - cbn [chain nth_error]. rewrite IH. destruct (nth_error ps k) as [[t' v']|]; [|reflexivity]. destruct k; reflexivity.
Qed.
Lemma lu_words_chain first ps : ps <> [] -> tags first = [] -> forms first = [] -> lu_words addt first [ps] = chain first ps.
Proof.
  intros Hne Ht Hf. apply list_ext. intros k. rewrite lu_words_nth, chain_nth. cbn [map fold_right].
  destruct (nth_error ps k) as [[t v]|] eqn:E.
  - assert (k < length ps) by (apply nth_error_Some; congruence). destruct (Nat.ltb_spec k (Nat.max (length ps) 1)); [|lia]. f_equal.
    unfold word_k. cbn [fold_left existsb]. rewrite E, orb_false_r. destruct k as [|k].
    + unfold add_tag. rewrite Ht, Hf. reflexivity.
    + reflexivity.
  - apply nth_error_None in E. destruct (Nat.ltb_spec k (Nat.max (length ps) 1)) as [L|L]; [|reflexivity].
    destruct ps; [congruence|]. cbn [length] in *. lia.
Qed.
End P.

(** ** parts *)
Section L.
Variable M : Type.
Variables (minit : M) (mstep : M -> char -> M) (mtag : M -> str -> M) (mfin : M -> option nat) (mdead : M -> bool).
Variables keof kundef : nat.
Hypothesis fin_ok : forall m, mfin m <> Some keof.
Hypothesis und_ok : kundef <> keof.
Notation scan := (scan M mstep mtag mfin mdead).
Notation lrlm := (lrlm M minit mstep mtag mfin mdead kundef).
Lemma scan_tag toks : forall m pre best,
  (forall p v r, best = Some (p, v, r) -> v <> keof /\ text p <> []) ->
  match scan m pre toks best with Whole v => v <> keof | Cut _ p v _ => v <> keof /\ text p <> [] | Nothing => True end.
Proof.
  induction toks as [|t r IH]; intros m pre best Hb; cbn [Spec.MorphoStream.scan].
  - destruct (mfin m) as [v|] eqn:E; [intros ->; exact (fin_ok m E)|]. destruct best as [[[p v] q]|]; [|exact I]. exact (Hb _ _ _ eq_refl).
  - match goal with |- context[if mdead _ then match ?b with _ => _ end else _] => set (best' := b) end.
    assert (Hb' : forall p v r, best' = Some (p, v, r) -> v <> keof /\ text p <> []).
    { unfold best'. intros p v q. destruct t as [c|n]; [|apply Hb]. destruct (mfin m) as [x|] eqn:E; [|apply Hb].
      destruct (c =?c cPLUS) eqn:Ec; cbn [andb]; [|apply Hb].
      destruct (Nat.leb_spec 2 (length (text pre))) as [L|L]; [|apply Hb]. intros K. inversion K; subst. split; [intros ->; exact (fin_ok m E)|].
      intros K'. rewrite K' in L. cbn in L. lia. }
    destruct (mdead (tstep M mstep mtag m t)).
    + destruct best' as [[[p v] q]|] eqn:Eb; [|exact I]. exact (Hb' _ _ _ eq_refl).
    + apply IH, Hb'.
Qed.
Lemma text_ne ts : ts <> [] -> text ts <> [].
Proof.
  destruct ts as [|t ts]; [congruence|]. intros _ K. pose proof (ttext_len t). cbn [text flat_map] in K. destruct (ttext t); [cbn in H; lia|discriminate].
Qed.
Lemma lrlm_parts b ts ps : lrlm b ts ps -> Forall (fun x => snd x <> keof) ps /\ (ts <> [] -> Forall (fun x => fst x <> []) ps).
Proof.
  induction 1 as [b ts v H|ts H|b ts e p v r ps H Hr _ [I1 I2]].
  - pose proof (scan_tag ts minit [] None ltac:(discriminate)) as S. rewrite H in S. split; [constructor; [exact S|constructor]|].
    intros N. constructor; [apply text_ne, N|constructor].
  - split; [constructor; [exact und_ok|constructor]|]. intros N. constructor; [apply text_ne, N|constructor].
  - pose proof (scan_tag ts minit [] None ltac:(discriminate)) as S. rewrite H in S. split; [constructor; [apply S|exact I1]|].
    intros _. constructor; [apply S|apply I2, Hr].
Qed.
End L.

Lemma discard1_same mt p w w' : discard1 mt p w = Some w' -> sf w' = sf w /\ ign w' = ign w /\ cut w' = cut w /\ pcut w' = pcut w.
Proof.
  unfold discard1. destruct (isAmbiguous w); [|intros E; inversion E; auto].
  destruct (dloop _ _ _ _ _ _) as [[fs ns]|]; [|discriminate]. intros E. inversion E. cbn. auto.
Qed.
Lemma discard_all_same mt rules : forall w w', discard_all mt rules w = Some w' -> sf w' = sf w /\ ign w' = ign w /\ cut w' = cut w /\ pcut w' = pcut w.
Proof.
  induction rules as [|p r IH]; intros w w' E; cbn in E; [inversion E; auto|].
  destruct (discard1 mt p w) as [w1|] eqn:E1; [|discriminate]. destruct (discard1_same _ _ _ _ E1) as (A1 & A2 & A3 & A4).
  destruct (IH _ _ E) as (B1 & B2 & B3 & B4). repeat split; congruence.
Qed.

(** ** texts *)
Section Z.
Variable mt : str -> str -> bool.
Variables prefer discardr : list str.
Variable M : Type.
Variables (minit : M) (mstep : M -> char -> M) (mtag : M -> str -> M) (mfin : M -> option nat) (mdead : M -> bool).
Variables keof kundef : nat.
Hypothesis fin_ok : forall m, mfin m <> Some keof.
Hypothesis und_ok : kundef <> keof.
Notation lrlm := (lrlm M minit mstep mtag mfin mdead kundef).
Variable parts : list tok -> list (str * nat).
Variables ssf nf : bool.
Notation addt := (add_tag mt prefer).
Notation dsc := (discard mt discardr).
Notation written := (written keof false true ssf nf).
Definition lcond (l : lu) : Prop :=
  lu_ok nf l /\ (forall ans a, l_read l = Known ans -> In a ans -> lrlm false a (parts a)) /\ uniform parts l /\ starless parts l /\ long_rules discardr l.
Definition fits (v : HMM.vw) (i : nat) : Prop := In i (HMM.w_tags v).
Definition writes (ws : list (tword * bool)) (Q : str -> Prop) : Prop :=
  Forall (tw_ok keof) ws /\ forall vws is, Forall2 (hmm_of keof) ws vws -> Forall2 fits vws is -> Q (written (map fst ws) vws is).
Lemma print_first i w : i <> keof -> pcut w = false -> cut w = false ->
  (forall f r, forms w = f :: r -> starts_star (snd f) = false) ->
  print keof false true ssf i w = ign w ++ cCARET :: (if ssf then sf w ++ [cSLASH] else []) ++ (match forms w with [] => cSTAR :: sf w | _ => form_of i w end) ++ [cDOL].
Proof.
  intros Hi Hp Hc Hs. unfold print. destruct (Nat.eqb_spec i keof); [congruence|]. unfold get_lexical_form. rewrite Hp, Hc. cbn [andb].
  assert (E : forall x, str_eqb ((ign w ++ [cCARET] ++ (if ssf then sf w ++ [cSLASH] else [])) ++ x) (ign w) = false).
  { intros x. destruct (str_eqb _ _) eqn:K; [|reflexivity]. apply str_eqb_eq in K. apply (f_equal (@length _)) in K. rewrite !app_length in K. cbn in K. lia. }
  destruct (forms w) as [|[k f] r] eqn:Ef.
  - rewrite E. rewrite <- !app_assoc. cbn [app]. reflexivity.
  - pose proof (Hs _ _ eq_refl) as K. cbn [snd] in K. rewrite K, E. rewrite <- !app_assoc. cbn [app]. reflexivity.
Qed.
Lemma print_next i t v c : i <> keof -> i = v -> t <> [] -> starts_star t = false ->
  print keof false true ssf i (mktw [] [v] [(v, t)] [] c true) = t ++ [if c then cPLUS else cDOL].
Proof.
  intros Hi -> Ht Hs. unfold print. destruct (Nat.eqb_spec v keof); [congruence|]. unfold get_lexical_form. cbn [pcut ign forms cut app]. rewrite Hs.
  assert (F : form_of v (mktw [] [v] [(v, t)] [] c true) = t) by (unfold form_of; cbn; rewrite Nat.eqb_refl; reflexivity). rewrite F.
  destruct (str_eqb t []) eqn:K; [apply str_eqb_eq in K; congruence|]. reflexivity.
Qed.
Lemma hmm_tag w v i : hmm_of keof w v -> fits v i -> ~ In keof (tags (fst w)) -> i <> keof /\ (tags (fst w) <> [] -> In i (tags (fst w))).
Proof.
  intros (_ & H2 & H3) Hi Hn. destruct (tags (fst w)) as [|t r] eqn:E.
  - destruct (H3 eq_refl) as (_ & _ & K). split; [intros ->; contradiction|congruence].
  - specialize (H2 ltac:(discriminate)). unfold fits in Hi. rewrite H2 in Hi. split; [intros ->; contradiction|auto].
Qed.
Lemma hmm_nul w v : hmm_of keof w v -> snd w = false -> nul_if nf v = [].
Proof. intros (H & _) E. unfold nul_if. rewrite H, E. reflexivity. Qed.
(* the rest of an analysis of several parts *)
Lemma chain_rest ps : ps <> [] -> Forall (fun x => snd x <> keof) ps -> Forall (fun x => fst x <> []) ps -> Forall (fun x => starts_star (fst x) = false) ps ->
  writes (map (fun w => (w, false)) (chain (tword0 true) ps)) (fun s => exists t r, ps = t :: r /\ s = fst t ++ flat_map (fun x => cPLUS :: fst x) r ++ [cDOL]).
Proof.
  induction ps as [|[t v] ps IH]; intros Hne H1 H2 H3; [congruence|]. inversion H1 as [|? ? K1 H1']; inversion H2 as [|? ? K2 H2']; inversion H3 as [|? ? K3 H3']; subst.
  cbn [fst snd] in *. cbn [chain map sf ign pcut tword0].
  assert (T : tw_ok keof (mktw [] [v] [(v, t)] [] match ps with [] => false | _ => true end true, false)).
  { unfold tw_ok. cbn. split; [constructor; [exact (fun x => x)|constructor]|]. split; [right; intros [K|[]]; congruence|discriminate]. }
  destruct ps as [|q ps].
  - split; [constructor; [exact T|constructor]|]. intros vws is F1 F2. inversion F1 as [|? v1 ? ? G1 G2]; subst. inversion G2; subst. inversion F2 as [|? i ? ? J1 J2]; subst. inversion J2; subst.
    destruct (hmm_tag _ _ _ G1 J1) as [I1 I2]; [cbn; intros [K|[]]; congruence|]. cbn in I2. destruct (I2 ltac:(discriminate)) as [I3|[]].
    exists (t, v), []. split; [reflexivity|]. cbn [map fst TaggerText.written written flat_map]. rewrite (hmm_nul _ _ G1 eq_refl).
    rewrite print_next by (assumption || congruence). cbn [app]. rewrite ?app_nil_r. reflexivity.
  - destruct (IH ltac:(discriminate) H1' H2' H3') as [W1 W2]. split; [constructor; [exact T|exact W1]|]. intros vws is F1 F2.
    inversion F1 as [|? v1 ? vs G1 G2]; subst. inversion F2 as [|? i ? is' J1 J2]; subst.
    destruct (hmm_tag _ _ _ G1 J1) as [I1 I2]; [cbn; intros [K|[]]; congruence|]. cbn in I2. destruct (I2 ltac:(discriminate)) as [I3|[]].
    destruct (W2 _ _ G2 J2) as (t' & r' & E & Q). exists (t, v), (q :: ps). split; [reflexivity|]. inversion E; subst t' r'.
    change (print keof false true ssf i (mktw [] [v] [(v, t)] [] true true) ++ nul_if nf v1 ++ written (map fst (map (fun w => (w, false)) (chain (tword0 true) (q :: ps)))) vs is'
            = t ++ (flat_map (fun x => cPLUS :: fst x) (q :: ps) ++ [cDOL])).
    rewrite Q, (hmm_nul _ _ G1 eq_refl), print_next by (assumption || congruence). cbn [flat_map app]. rewrite <- !app_assoc. reflexivity.
Qed.

Lemma discard_single w : isAmbiguous w = false -> dsc w = Some w.
Proof. intros H. unfold discard. rewrite H. reflexivity. Qed.
Lemma on_words_id ws : Forall (fun x => isAmbiguous (fst x) = false) ws -> on_words dsc ws = Some ws.
Proof. induction 1 as [|[w b] r H _ IH]; [reflexivity|]. cbn [on_words]. cbn in H. rewrite discard_single by exact H. rewrite IH. reflexivity. Qed.

Lemma lu_writes l : lcond l -> exists ws, on_words dsc (map (fun w => (w, false)) (words_of addt parts l)) = Some ws /\
  writes ws (fun s => exists c, choice l c /\ s = lu_out ssf l c).
Proof.
  intros (O & HL & U & SL & LR). unfold words_of, uniform, starless, long_rules, choice, lu_out in *. destruct O as (_ & _ & O). destruct (l_read l) as [ans|s] eqn:El.
  2: { exists [(first_word l, false)]. split; [reflexivity|]. split.
       - constructor; [|constructor]. split; [constructor|]. split; [right; exact (fun x => x)|discriminate].
       - intros vws is F1 F2. inversion F1 as [|? v1 ? ? G1 G2]; subst. inversion G2; subst. inversion F2 as [|? i ? ? J1 J2]; subst. inversion J2; subst.
         destruct (hmm_tag _ _ _ G1 J1) as [I1 _]; [exact (fun x => x)|].
         exists (cSTAR :: l_sf l). split; [reflexivity|]. cbn [map fst TaggerText.written written]. rewrite (hmm_nul _ _ G1 eq_refl).
         rewrite print_first; [|exact I1|reflexivity|reflexivity|discriminate]. cbn [first_word ign sf forms app]. rewrite app_nil_r. reflexivity. }
  destruct O as [One Oall].
  assert (Hparts : forall a, In a ans -> Forall (fun x => snd x <> keof) (parts a) /\ (a <> [] -> Forall (fun x => fst x <> []) (parts a))).
  { intros a Ha. apply (lrlm_parts M minit mstep mtag mfin mdead keof kundef fin_ok und_ok false). apply (HL ans a eq_refl Ha). }
  assert (Single : Forall (fun a => length (parts a) = 1) ans \/ exists a, ans = [a] /\ 2 <= length (parts a)).
  { destruct U as [U|U]; [left; exact U|]. destruct ans as [|a [|]]; try discriminate.
    assert (PN : parts a <> []) by (eapply parts_ne; apply (HL [a] a eq_refl); left; reflexivity).
    destruct (parts a) as [|p1 [|p2 q]] eqn:Ep; [congruence| |].
    - left. constructor; [rewrite Ep; reflexivity|constructor].
    - right. exists a. split; [reflexivity|]. rewrite Ep. cbn. lia. }
  destruct Single as [U1|(a & -> & Hlen)].
  - (* one word *)
    assert (Hone : forall a, In a ans -> exists v, parts a = [(text a, v)]).
    { intros a Ha. rewrite Forall_forall in U1. specialize (U1 a Ha). destruct (pieces_text _ _ _ _ _ _ _ _ _ _ (HL ans a eq_refl Ha)) as (t & v & r & E & Et).
      exists v. rewrite E in U1 |- *. destruct r; [|discriminate]. rewrite Et. cbn. rewrite app_nil_r. reflexivity. }
    rewrite lu_words_single; [|apply Forall_map, U1|reflexivity]. cbn [map on_words].
    set (cc := concat (map parts ans)).
    assert (Hcc : forall t v, In (t, v) cc -> exists a, In a ans /\ t = text a /\ v <> keof).
    { intros t v H. apply in_concat in H as (ps & H1 & H2). apply in_map_iff in H1 as (a & <- & Ha). exists a. split; [exact Ha|].
      destruct (Hone a Ha) as [x Ex]. rewrite Ex in H2. destruct H2 as [H2|[]]. inversion H2; subst. split; [reflexivity|].
      destruct (Hparts a Ha) as [K _]. rewrite Ex in K. inversion K; subst. assumption. }
    assert (Hccl : length cc = length ans).
    { unfold cc. clear - U1. induction U1 as [|a r E _ IH]; [reflexivity|]. cbn [map concat]. rewrite app_length, E, IH. reflexivity. }
    assert (W0 : wok (first_word l)) by (split; [constructor|reflexivity]).
    destruct (adds_ok mt prefer cc (first_word l) W0) as (A1 & A2 & A3 & A4 & A5 & A6 & A7 & A8).
    set (w := adds mt prefer cc (first_word l)) in *. cbn [first_word forms length sf ign pcut cut] in A2, A3, A5, A6, A7, A8.
    assert (Nw : forms w <> []). { apply A4. intros K. rewrite K in Hccl. destruct ans; [congruence|discriminate]. }
    assert (Ow : okw w). { destruct A1 as [S1 T1]. split; [exact S1|]. rewrite T1. split; [exact S1|apply incl_refl]. }
    assert (Tw : tags w <> []). { destruct A1 as [_ T1]. rewrite T1. intros K. apply Nw. destruct (forms w); [reflexivity|discriminate]. }
    assert (D : exists w', dsc w = Some w' /\ okw w' /\ incl (forms w') (forms w) /\ tags w' <> [] /\ sf w' = sf w /\ ign w' = ign w /\ cut w' = cut w /\ pcut w' = pcut w).
    { unfold discard. destruct (isAmbiguous w).
      - destruct (discard_all_ok mt discardr w Ow) as (w' & E & O' & I & T & _). { intros p Hp. specialize (LR p Hp). lia. }
        exists w'. split; [exact E|]. split; [exact O'|]. split; [exact I|]. split; [auto|]. apply (discard_all_same _ _ _ _ E).
      - exists w. split; [reflexivity|]. split; [exact Ow|]. split; [apply incl_refl|]. split; [exact Tw|]. auto. }
    destruct D as (w' & E & (S1 & S2 & S3) & I & T & B1 & B2 & B3 & B4). rewrite E. exists [(w', false)]. split; [reflexivity|].
    assert (F : forall k f, In (k, f) (forms w') -> exists a, In a ans /\ f = text a /\ k <> keof).
    { intros k f H. apply I in H. destruct (A3 _ H) as [K|[]]. exact (Hcc _ _ K). }
    assert (NK : ~ In keof (tags w')).
    { intros K. apply S3 in K. apply in_map_iff in K as ([k f] & Ek & K). cbn in Ek. subst k. destruct (F _ _ K) as (a & _ & _ & X). congruence. }
    split.
    + constructor; [|constructor]. split; [apply SS_NoDup, S2|]. split; [right; exact NK|discriminate].
    + intros vws is F1 F2. inversion F1 as [|? v1 ? ? G1 G2]; subst. inversion G2; subst. inversion F2 as [|? i ? ? J1 J2]; subst. inversion J2; subst.
      destruct (hmm_tag _ _ _ G1 J1) as [I1 I2]; [exact NK|]. specialize (I2 T). cbn [fst] in I2. apply S3 in I2. apply in_map_iff in I2 as ([k f] & Ek & Hf). cbn in Ek. subst k.
      destruct (F _ _ Hf) as (a & Ha & -> & _). exists (text a). split; [exists a; auto|].
      cbn [map fst TaggerText.written written]. rewrite (hmm_nul _ _ G1 eq_refl).
      rewrite print_first; [|exact I1|congruence|congruence|].
      * rewrite B1, B2, A5, A6. assert (FO : form_of i w' = text a) by (unfold form_of; rewrite (mget_sorted i (text a) (forms w') S1 Hf); reflexivity).
        rewrite FO. destruct (forms w') as [|]; [contradiction|]. cbn [app]. rewrite app_nil_r. reflexivity.
      * intros [k f] r Er. assert (In (k, f) (forms w')) as Hk by (rewrite Er; left; reflexivity). destruct (F _ _ Hk) as (a' & Ha' & -> & _).
        rewrite Forall_forall in Oall. apply (Oall a' Ha').
  - (* several words *)
    specialize (HL [a] a eq_refl (or_introl eq_refl)). destruct (Hparts a (or_introl eq_refl)) as [P1 P2].
    inversion Oall as [|? ? (T1 & T2 & T3) _]; subst. inversion SL as [|? ? S1 _]; subst.
    destruct (pieces_text _ _ _ _ _ _ _ _ _ _ HL) as (t & v & r & E & Et). rewrite E in *. destruct r as [|q r]; [cbn in Hlen; lia|].
    assert (Hane : a <> []). { intros ->. cbn in Et. destruct t; discriminate. }
    specialize (P2 Hane). inversion P1 as [|? ? K1 P1']; inversion P2 as [|? ? K2 P2']; inversion S1 as [|? ? K3 S1']; subst. cbn [fst snd] in *.
    cbn [map]. rewrite E, lu_words_chain; [|discriminate|reflexivity|reflexivity]. cbn [chain]. fold (chain (tword0 true) (q :: r)).
    assert (AMB : forall ps f, Forall (fun x : tword * bool => isAmbiguous (fst x) = false) (map (fun w => (w, false)) (chain f ps))).
    { clear. induction ps as [|[t v] ps IH]; intros f; cbn; [constructor|]. constructor; [reflexivity|apply IH]. }
    eexists. split; [apply on_words_id; exact (AMB ((t, v) :: q :: r) (first_word l))|].
    destruct (chain_rest (q :: r) ltac:(discriminate) P1' P2' S1') as [W1 W2]. split.
    + cbn [chain map]. constructor; [|exact W1]. unfold tw_ok. cbn. split; [constructor; [exact (fun x => x)|constructor]|]. split; [right; intros [K|[]]; congruence|discriminate].
    + intros vws is F1 F2. cbn [chain map] in F1. inversion F1 as [|? v1 ? vs G1 G2]; subst. inversion F2 as [|? i ? is' J1 J2]; subst.
      destruct (hmm_tag _ _ _ G1 J1) as [I1 I2]; [cbn; intros [K|[]]; congruence|]. cbn in I2. destruct (I2 ltac:(discriminate)) as [I3|[]]. subst i.
      destruct (W2 _ _ G2 J2) as (t' & r' & E' & Q). inversion E'; subst t' r'. exists (text a). split; [exists a; split; [left; reflexivity|reflexivity]|].
      match goal with |- ?L = _ => change L with (print keof false true ssf v (mktw (l_sf l) [v] [(v, t)] (l_blank l) true false) ++ nul_if nf v1 ++ written (map fst (map (fun w => (w, false)) (chain (tword0 true) (q :: r)))) vs is') end.
      rewrite Q, (hmm_nul _ _ G1 eq_refl). clear Q. unfold print. destruct (Nat.eqb_spec v keof); [congruence|]. unfold get_lexical_form. cbn [pcut ign forms cut app andb sf]. rewrite K3.
      assert (FO : form_of v (mktw (l_sf l) [v] [(v, t)] (l_blank l) true false) = t) by (unfold form_of; cbn; rewrite Nat.eqb_refl; reflexivity). rewrite FO.
      destruct (str_eqb _ (l_blank l)) eqn:Ke; [apply str_eqb_eq in Ke; apply (f_equal (@length _)) in Ke; rewrite !app_length in Ke; cbn in Ke; lia|].
      rewrite Et. rewrite <- !app_assoc. cbn [app flat_map]. rewrite <- !app_assoc. f_equal. 
Qed.
Lemma writes_app ws1 ws2 (Q1 Q2 : str -> Prop) : writes ws1 Q1 -> writes ws2 Q2 ->
  writes (ws1 ++ ws2) (fun s => exists a b, s = a ++ b /\ Q1 a /\ Q2 b).
Proof.
  intros [A1 A2] [B1 B2]. split; [apply Forall_app; auto|]. intros vws is F1 F2.
  apply Forall2_app_inv_l in F1 as (v1 & v2 & V1 & V2 & ->). apply Forall2_app_inv_l in F2 as (i1 & i2 & I1 & I2 & ->).
  exists (written (map fst ws1) v1 i1), (written (map fst ws2) v2 i2). split; [|split; [apply A2|apply B2]; assumption].
  rewrite map_app. apply written_app; [rewrite map_length; apply (F2_length V1)|symmetry; apply (F2_length I1)].
Qed.
Lemma writes_impl ws (Q1 Q2 : str -> Prop) : (forall s, Q1 s -> Q2 s) -> writes ws Q1 -> writes ws Q2.
Proof. intros H [A B]. split; [exact A|]. intros. apply H, B; assumption. Qed.
Lemma lus_writes lus : Forall lcond lus -> exists ws, on_words dsc (map (fun w => (w, false)) (flat_map (words_of addt parts) lus)) = Some ws /\ writes ws (lus_out ssf lus).
Proof.
  induction 1 as [|l lus H _ (ws & E & W)].
  - exists []. split; [reflexivity|]. split; [constructor|]. intros vws is F1 F2. constructor.
  - destruct (lu_writes l H) as (w1 & E1 & W1). exists (w1 ++ ws). cbn [flat_map]. rewrite map_app, on_words_app, E1, E. split; [reflexivity|].
    eapply writes_impl; [|apply writes_app; eassumption]. intros s (a & b & -> & (c & C & ->) & Hb). constructor; assumption.
Qed.
Definition dcond (d : doc) : Prop := Forall lcond (d_lus d).
Definition ends_doc (ws : list (tword * bool)) : Prop := exists l b, ws = l ++ [(end_word keof b, true)].
Lemma doc_writes d : dcond d -> exists ws, on_words dsc (doc_words addt keof parts d) = Some ws /\ ends_doc ws /\
  writes ws (fun s => exists a, s = a ++ d_end d ++ (if nf then [cNUL] else []) /\ lus_out ssf (d_lus d) a).
Proof.
  intros H. destruct (lus_writes _ H) as (ws & E & W). exists (ws ++ [(end_word keof (d_end d), true)]). unfold doc_words. rewrite on_words_app, E. cbn [on_words].
  rewrite dsc_end. split; [reflexivity|]. split; [eexists _, _; reflexivity|].
  eapply writes_impl; [|apply writes_app; [exact W|]]; [|instantiate (1 := fun s => s = d_end d ++ (if nf then [cNUL] else []))].
  - intros s (a & b & -> & Ha & ->). exists a. split; [reflexivity|exact Ha].
  - split.
    + constructor; [|constructor]. split; [constructor; [exact (fun x => x)|constructor]|]. split; [left; reflexivity|reflexivity].
    + intros vws is F1 F2. inversion F1 as [|? v1 ? ? G1 G2]; subst. inversion G2; subst. inversion F2 as [|? i ? ? J1 J2]; subst. inversion J2; subst.
      destruct G1 as (G1 & G3 & _). cbn in G1, G3. unfold fits in J1. rewrite (G3 ltac:(discriminate)) in J1. destruct J1 as [<-|[]].
      cbn [map fst TaggerText.written written]. unfold print. rewrite Nat.eqb_refl. unfold nul_if. rewrite G1. cbn [get_lexical_form ign end_word andb]. rewrite app_nil_r. reflexivity.
Qed.
Lemma docs_writes ds : forall d, Forall dcond (d :: ds) -> exists ws, on_words dsc (docs_words addt keof parts d ds) = Some ws /\ ends_doc ws /\ writes ws (docs_out ssf nf (d :: ds)).
Proof.
  induction ds as [|d2 ds IH]; intros d H; inversion H as [|? ? H1 H2]; subst; destruct (doc_writes d H1) as (w1 & E1 & X1 & W1).
  - exists w1. split; [exact E1|]. split; [exact X1|]. eapply writes_impl; [|exact W1]. intros s (a & -> & Ha).
    assert (DO := DO_cons ssf nf d [] a [] Ha (DO_nil ssf nf)). rewrite app_nil_r in DO. exact DO.
  - destruct (IH d2 H2) as (ws & E & X & W). exists (w1 ++ ws). cbn [docs_words]. rewrite on_words_app, E1, E. split; [reflexivity|]. split.
    + destruct X as (l & b & ->). exists (w1 ++ l), b. apply app_assoc.
    + eapply writes_impl; [|apply writes_app; eassumption]. intros s (a & b & -> & (a' & -> & Ha) & Hb).
      rewrite <- !app_assoc. constructor; assumption.
Qed.

Theorem text_to_text : forall (m : tmodel) eos (A B : HMM.mat) d ds,
  mfin minit = None -> (forall i j, (0 <= A i j)%Q) -> (forall i k, (0 <= B i k)%Q) -> good keof m -> (ds = [] \/ nf = true) -> Forall (doc_ok nf) (d :: ds) -> Forall dcond (d :: ds) ->
  exists ws, MorphoStream.words mt prefer discardr keof kundef M minit mstep mtag mfin mdead nf (S (length (docs_text d ds))) (docs_text d ds) = Some ws /\
    docs_out ssf nf (d :: ds) (tagger_text keof false true ssf nf eos A B m ws).
Proof.
  intros m eos A B d ds Hini HA HB Hm Hnf Hok Hc. destruct (docs_writes ds d Hc) as (ws & E & X & T & W). exists ws. split.
  - rewrite <- E. apply words_docs; [exact Hini|exact Hnf|exact Hok| |apply fuel_ok].
    intros d' Hd' l ans a Hl Hr Ha. rewrite Forall_forall in Hc. specialize (Hc d' Hd'). unfold dcond in Hc. rewrite Forall_forall in Hc.
    destruct (Hc l Hl) as (_ & K & _). exact (K ans a Hr Ha).
  - pose proof (hmm_words_ok keof ws m Hm T) as HW. pose proof (hmm_proper keof nf ws _ HW T) as HP.
    destruct (tagging_text keof false true ssf nf eos A B eos _ _ (Proofs.HMM.tagger_tagging A B eos nf HA HB _ HP) (map fst ws)) as (is & I1 & I2).
    + rewrite map_length. apply (F2_length HW).
    + exact HP.
    + right. destruct X as (l & b & ->). apply Forall2_app_inv_l in HW as (v1 & v2 & V1 & V2 & E2). inversion V2 as [|? v ? ? G1 G2]; subst. inversion G2; subst.
      exists v1, v, keof. split; [exact E2|]. destruct G1 as (_ & G & _). apply G. discriminate.
    + unfold tagger_text. rewrite I2. apply W; [exact HW|exact I1].
Qed.
End Z.
