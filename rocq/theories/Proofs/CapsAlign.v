(** The streams of symbols the rules accept, against sequences of words. *)
From Coq Require Import String ZArith.
From Verif Require Import Model.Base Model.CapsRules Spec.CapsRules Proofs.Base Proofs.CapsCompile Proofs.CapsWords Proofs.CapsValid.
Open Scope nat_scope.

(** what the machine has read: a mark of the beginning, a word, or the boundary after the word *)
Inductive etk := XT (t : tk) | XE.
Section A.
Variable isupper : char -> bool.
Definition wsyms (w : word) : stream := let '(src, form, surf) := w in word_syms isupper src form surf.
Definition es1 (e : etk) : stream := match e with XT TBegin => [[null_boundary]] | XT (TWord w) => wsyms w | XE => [[word_boundary]] end.
Definition estream (l : list etk) : stream := flat_map es1 l.
Definition pv (p : list str) : list str := flat_map (fun s => [t_bound; s]) p.
Definition tgood (t : tk) : Prop := match t with TWord w => good_word w | TBegin => True end.
Definition egood (e : etk) : Prop := match e with XT t => tgood t | XE => True end.
Lemma estream_app a b : estream (a ++ b) = estream a ++ estream b.
Proof. apply flat_map_app. Qed.
Lemma pv_app a b : pv (a ++ b) = pv a ++ pv b.
Proof. apply flat_map_app. Qed.

(** ** boundaries *)
Definition marks : list isym := [word_boundary; null_boundary].
Lemma char_free b c : In b marks -> ~ In b (alts isupper (IChar c)).
Proof. intros [<-|[<-|[]]]; unfold alts; destruct (isupper c); intros K; vm_compute in K; intuition discriminate. Qed.
Lemma usual_free b l : In b marks -> Forall usual l -> Forall (fun a => ~ In b a) (map (alts isupper) l).
Proof.
  intros Hb F. rewrite Forall_map. eapply Forall_impl; [|exact F]. intros [c|t] U; [apply char_free; exact Hb|]. cbn [alts]. intros [K|[K|[]]].
  - apply U. destruct Hb as [<-|[<-|[]]]; injection K as ->; vm_compute; tauto.
  - destruct Hb as [<-|[<-|[]]]; discriminate.
Qed.
Lemma note_free b src : In b marks -> Forall (fun a => ~ In b a) (note_syms isupper src).
Proof.
  intros Hb. unfold note_syms. rewrite Forall_map. apply Forall_forall. intros c _. destruct (c =?c cSLASH); [|apply char_free; exact Hb].
  intros [K|[]]. destruct Hb as [<-|[<-|[]]]; discriminate.
Qed.
Lemma body_free b src form surf : In b marks -> good_word (src, form, surf) -> Forall (fun a => ~ In b a) (body isupper src form surf).
Proof.
  intros Hb ((lf & Tf & Uf) & (ls & Ts & Us)). unfold body. rewrite (tokenize_toks _ _ Tf), (tokenize_toks _ _ Ts).
  assert (SLF : ~ In b SL) by (intros [K|[]]; destruct Hb as [<-|[<-|[]]]; discriminate).
  apply Forall_app. split; [apply note_free; exact Hb|]. constructor; [exact SLF|]. apply Forall_app. split; [apply usual_free; auto|]. constructor; [exact SLF|apply usual_free; auto].
Qed.
Lemma plang_free b ps : forall prev x, Forall (fun c => sym_of c <> b) ps -> plang prev ps x -> ~ In [b] x.
Proof.
  assert (G : forall i x, i <> b -> all_in i x -> ~ In [b] x).
  { intros i x N A K. unfold all_in in A. rewrite Forall_forall in A. apply A in K. destruct K as [K|[]]. congruence. }
  induction ps as [|c ps IH]; intros prev x N P.
  - cbn in P. subst x. intros [].
  - inversion N as [|? ? N1 N2]; subst. destruct c as [i|i|i]; cbn [plang sym_of] in *.
    + destruct (prev_dec prev i); [eapply IH; eauto|]. destruct P as (a & y & -> & Ha & P). intros [K|K]; [subst a; destruct Ha as [Ha|[]]; congruence|]. exact (IH _ _ N2 P K).
    + destruct (prev_dec prev i); [eapply IH; eauto|]. destruct P as (y & z & -> & _ & Ha & P). rewrite in_app_iff. intros [K|K]; [exact (G _ _ N1 Ha K)|exact (IH _ _ N2 P K)].
    + destruct P as (y & z & -> & Ha & P). rewrite in_app_iff. intros [K|K]; [exact (G _ _ N1 Ha K)|exact (IH _ _ N2 P K)].
Qed.
Lemma class_free b c : In b marks -> CapsCompile.class_sym isupper c <> b.
Proof.
  intros Hb K. unfold CapsCompile.class_sym in K. destruct (c =?c cSTAR); [|destruct (c =?c cSP); [|destruct (isupper c)]]; subst b; destruct Hb as [Hb|[Hb|[]]]; discriminate.
Qed.
Lemma spec_free b s : In b marks -> Forall (fun c => sym_of c <> b) (spec_pieces isupper s).
Proof. intros Hb. unfold spec_pieces. rewrite Forall_map. apply Forall_forall. intros c _. apply class_free. exact Hb. Qed.
Lemma text_free b lit case : In b marks -> Forall (fun c => sym_of c <> b) (text_pieces isupper lit case).
Proof.
  intros Hb. unfold text_pieces. destruct (is_star (attr lit)); [apply spec_free; exact Hb|]. rewrite Forall_map. apply Forall_forall. intros c _. unfold lit_piece.
  destruct (c =?c cSTAR); cbn; intros K; subst b; destruct Hb as [Hb|[Hb|[]]]; discriminate.
Qed.
Lemma tags_free b l : In b marks -> forall a, plain_tags a l -> Forall (fun c => sym_of c <> b) (flat_map tag_piece l).
Proof.
  intros Hb. assert (AT : any_tag <> b) by (intros K; subst b; destruct Hb as [Hb|[Hb|[]]]; discriminate).
  induction l as [|t l IH]; intros a H; cbn [flat_map]; [constructor|]. cbn [plain_tags] in H. apply Forall_app. unfold tag_piece.
  change (u "+"%string) with [cPLUS] in H. change (u "*"%string) with [cSTAR] in H. change (u "?"%string) with [cQM] in H.
  destruct (str_eqb t [cPLUS]); [destruct H as [_ H]; split; [repeat constructor; exact AT|eauto]|]. destruct (str_eqb t [cSTAR]); [split; [repeat constructor; exact AT|eauto]|].
  destruct (str_eqb t [cQM]); [destruct H as [_ H]; split; [repeat constructor; exact AT|eauto]|]. destruct t as [|c t]; [split; [constructor|eauto]|]. destruct H as [N H]. split; [|eauto].
  constructor; [|constructor]. cbn [sym_of]. intros K. apply N. change (u "<"%string ++ (c :: t) ++ u ">"%string) with (cLT :: (c :: t) ++ [cGT]).
  apply (f_equal (fun x => match x with ITag t => t | IChar _ => [] end)) in K. rewrite K. destruct Hb as [<-|[<-|[]]]; vm_compute; tauto.
Qed.
Lemma match_free b m : In b marks -> plain_match m -> Forall (fun c => sym_of c <> b) (match_pieces isupper m).
Proof.
  intros Hb (PT & _). unfold match_pieces. assert (SLb : sym_of slash <> b) by (cbn; intros K; subst b; destruct Hb as [Hb|[Hb|[]]]; discriminate).
  repeat (apply Forall_app; split); try (apply spec_free; exact Hb); try (apply text_free; exact Hb); try (constructor; [exact SLb|constructor]). eapply tags_free; [exact Hb|exact PT].
Qed.
Lemma match_nonempty m y : plang None (match_pieces isupper m) y -> y <> [].
Proof.
  unfold match_pieces. intros P K. subst y. apply plang_app in P. destruct P as (y & z & E & _ & P). symmetry in E. apply app_eq_nil in E. destruct E as [-> ->]. cbn [app plang slash] in P.
  destruct (prev_dec _ (IChar cSLASH)) as [Q|Q].
  - apply after_noslash in Q; [exact Q|apply spec_noslash|discriminate].
  - destruct P as (a & y & K & _). discriminate.
Qed.

(** ** from streams to words *)
Lemma match_align m x o rest ets : plain_match m -> Forall egood ets -> mlang isupper m x o -> x ++ rest = estream ets ->
  exists w ets', ets = XT (TWord w) :: ets' /\ x = wsyms w /\ rest = estream ets' /\ word_ok isupper m w /\ o = [t_bound; vote m].
Proof.
  intros PM G (y & b & s & -> & P & Hb & Hs & ->) H. rewrite <- app_assoc in H. cbn [app] in H. apply select_vote in Hs. subst s.
  pose proof (plang_free word_boundary _ _ _ (match_free word_boundary m (or_introl eq_refl) PM) P) as N1. pose proof (plang_free null_boundary _ _ _ (match_free null_boundary m (or_intror (or_introl eq_refl)) PM) P) as N2.
  pose proof (match_nonempty _ _ P) as NE. destruct ets as [|e ets]; [destruct y; discriminate|]. cbn [estream flat_map] in H. fold (estream ets) in H. inversion G as [|? ? G1 G2]; subst.
  destruct e as [[|w]|]; cbn [es1 app] in H.
  - destruct y as [|a y]; [congruence|]. injection H as -> _. exfalso. apply N2. left; reflexivity.
  - destruct w as [[src form] surf]. cbn [wsyms] in H. rewrite word_body in H. rewrite <- app_assoc in H. cbn [app] in H. cbn [egood tgood] in G1. pose proof (body_free word_boundary _ _ _ (or_introl eq_refl) G1) as FB.
    assert (K : y = body isupper src form surf /\ b = [word_boundary] /\ rest = estream ets).
    { revert H FB N1. generalize (body isupper src form surf) as z. clear - Hb. induction y as [|a y IH]; intros [|c z] H FB N; cbn [app] in H.
      - injection H as -> ->. auto.
      - injection H as -> _. inversion FB; subst. contradiction.
      - injection H as -> _. exfalso. apply N. left; reflexivity.
      - injection H as -> H. inversion FB; subst. destruct (IH z H) as (-> & -> & ->); auto. intros K. apply N. right; exact K. }
    destruct K as (-> & -> & ->). exists (src, form, surf), ets. rewrite <- word_body. repeat split; auto. apply match_word; assumption.
  - destruct y as [|a y]; [congruence|]. injection H as -> _. exfalso. apply N1. left; reflexivity.
Qed.
Definition aligns (L : lang) (R : list tk -> list str -> Prop) : Prop := forall x o rest ets, L x o -> Forall egood ets -> x ++ rest = estream ets ->
  exists ts ets' p, ets = map XT ts ++ ets' /\ x = estream (map XT ts) /\ rest = estream ets' /\ R ts p /\ o = pv p.
Lemma cat_aligns L1 L2 (R1 R2 : list tk -> list str -> Prop) : aligns L1 R1 -> aligns L2 R2 -> aligns (cat L1 L2) (fun ts p => exists ts1 ts2 p1 p2, ts = ts1 ++ ts2 /\ p = p1 ++ p2 /\ R1 ts1 p1 /\ R2 ts2 p2).
Proof.
  intros A1 A2 x o rest ets (x1 & x2 & o1 & o2 & -> & -> & H1 & H2) G H. rewrite <- app_assoc in H. destruct (A1 _ _ _ _ H1 G H) as (ts1 & e1 & p1 & -> & -> & K & R & ->).
  apply Forall_app in G. destruct G as [G1 G2]. destruct (A2 _ _ _ _ H2 G2 K) as (ts2 & e2 & p2 & -> & -> & K2 & R' & ->).
  exists (ts1 ++ ts2), e2, (p1 ++ p2). rewrite map_app, estream_app, pv_app, app_assoc. repeat split; auto. exists ts1, ts2, p1, p2. auto.
Qed.
Lemma unit_aligns (R : list tk -> list str -> Prop) : R [] [] -> aligns unit_l R.
Proof. intros HR x o rest ets [-> ->] G H. exists [], ets, []. auto. Qed.
Lemma aligns_impl L (R R' : list tk -> list str -> Prop) : (forall ts p, R ts p -> R' ts p) -> aligns L R -> aligns L R'.
Proof. intros I A x o rest ets H G E. destruct (A _ _ _ _ H G E) as (ts & e & p & K1 & K2 & K3 & K4 & K5). exists ts, e, p. auto 8. Qed.
Lemma seq_aligns l : Forall (fun n => plain_node n -> aligns (slang isupper n) (Spec.CapsRules.node_ok isupper n)) l -> Forall plain_node l -> aligns (seql (map (slang isupper) l)) (seq_ok isupper l).
Proof.
  intros F. induction F as [|n l Hn F IH]; intros P; cbn [map seql]; [apply unit_aligns; constructor|]. inversion P as [|? ? P1 P2]; subst.
  eapply aligns_impl; [|apply cat_aligns; [apply Hn; exact P1|apply IH; exact P2]]. intros ts p (ts1 & ts2 & p1 & p2 & -> & -> & H1 & H2). constructor; assumption.
Qed.
Lemma node_aligns : forall n, plain_node n -> aligns (slang isupper n) (Spec.CapsRules.node_ok isupper n).
Proof.
  apply (cnode_rec' (fun n => plain_node n -> aligns (slang isupper n) (Spec.CapsRules.node_ok isupper n))).
  - intros m P x o rest ets H G E. inversion P; subst. destruct (match_align m x o rest ets) as (w & ets' & -> & -> & -> & W & ->); auto. exists [TWord w], ets', [vote m]. cbn. rewrite app_nil_r. repeat split; auto. constructor; exact W.
  - intros _ x o rest ets ((a & -> & Ha) & ->) G E. destruct ets as [|e ets]; [discriminate|]. cbn [estream flat_map] in E. fold (estream ets) in E. inversion G as [|? ? G1 G2]; subst. destruct e as [[|w]|]; cbn [es1 app] in E.
    + injection E as -> ->. exists [TBegin], ets, []. repeat split; auto. constructor.
    + exfalso. destruct w as [[src form] surf]. cbn [wsyms] in E. rewrite word_body in E. cbn [egood tgood] in G1. pose proof (body_free null_boundary _ _ _ (or_intror (or_introl eq_refl)) G1) as FB.
      destruct (body isupper src form surf) as [|c z]; cbn [app] in E; injection E as E _; subst a; [destruct Ha as [Ha|[]]; discriminate|]. inversion FB; subst. contradiction.
    + injection E as -> _. destruct Ha as [Ha|[]]. discriminate.
  - intros l F P. inversion P as [| |? P1|]; subst. cbn [slang]. destruct l as [|n l]; [apply unit_aligns; constructor|]. intros x o rest ets H G E. apply Exists_exists in H. destruct H as (L & HL & H). apply in_map_iff in HL. destruct HL as (k & <- & Hk).
    rewrite Forall_forall in F, P1. destruct (F k Hk (P1 k Hk) x o rest ets H G E) as (ts & e & p & K1 & K2 & K3 & K4 & K5). exists ts, e, p. repeat split; auto. eapply NK_or; eauto.
  - intros a b l F P. inversion P as [| | |? ? ? P1]; subst. cbn [slang]. intros x o rest ets (k & K & H) G E.
    assert (A : forall k, aligns (pow (seql (map (slang isupper) l)) k) (rep_ok isupper k l)).
    { clear - F P1. induction k as [|k IH]; cbn [pow]; [apply unit_aligns; constructor|]. eapply aligns_impl; [|apply cat_aligns; [apply seq_aligns; [exact F|exact P1]|exact IH]].
      intros ts p (ts1 & ts2 & p1 & p2 & -> & -> & H1 & H2). constructor; assumption. }
    destruct (A k x o rest ets H G E) as (ts & e & p & K1 & K2 & K3 & K4 & K5). exists ts, e, p. repeat split; auto. eapply NK_repeat; eauto.
Qed.
(** ** from words to streams *)
Definition accepts (n : cnode) : Prop := plain_node n -> valid n -> forall ts p, Forall tgood ts -> Spec.CapsRules.node_ok isupper n ts p -> slang isupper n (estream (map XT ts)) (pv p).
Lemma seq_accepts l : Forall accepts l -> Forall plain_node l -> Forall valid l -> forall ts p, Forall tgood ts -> seq_ok isupper l ts p -> seql (map (slang isupper) l) (estream (map XT ts)) (pv p).
Proof.
  intros F. induction F as [|n l Hn F IH]; intros P V ts p G H; inversion H as [|? ? ts1 p1 ts2 p2 H1 H2]; subst; cbn [map seql]; [split; reflexivity|].
  inversion P; inversion V; subst. apply Forall_app in G. destruct G as [G1 G2]. exists (estream (map XT ts1)), (estream (map XT ts2)), (pv p1), (pv p2). rewrite map_app, estream_app, pv_app. repeat split; auto.
Qed.
Lemma node_accepts : forall n, accepts n.
Proof.
  apply cnode_rec'.
  - intros m P V ts p G H. inversion H as [? w W| | | |]; subst. inversion P; inversion V; subst. cbn [slang]. match goal with V : valid_match m |- _ => destruct (proj2 (match_valid isupper m) V) as (_ & s & Hs) end.
    destruct w as [[src form] surf]. inversion G as [|? ? G1 _]; subst. cbn. rewrite app_nil_r, word_body. exists (body isupper src form surf), [word_boundary], s. repeat split; [apply match_word; assumption|left; reflexivity|exact Hs|]. f_equal. f_equal. symmetry. apply select_vote. exact Hs.
  - intros _ _ ts p G H. inversion H; subst. cbn. split; [|reflexivity]. eexists. split; [reflexivity|left; reflexivity].
  - intros l F P V ts p G H. inversion P as [| |? P1|]; inversion V as [| |? V1|]; subst. inversion H as [| |n ? ts' p' Hn H1| |]; subst.
    + cbn [slang]. destruct l as [|n0 l]; [destruct Hn|]. apply Exists_exists. exists (slang isupper n). split; [apply in_map; exact Hn|]. rewrite Forall_forall in F, P1, V1. apply F; auto.
    + split; reflexivity.
  - intros a b l F P V ts p G H. inversion P as [| | |? ? ? P1]; inversion V as [| | |? ? ? _ V1]; subst. inversion H as [| | | |? ? ? k ts' p' K H1]; subst. cbn [slang]. exists k. split; [exact K|].
    clear K H V. revert ts p G H1. induction k as [|k IH]; intros ts p G H; inversion H as [|? ? ts1 p1 ts2 p2 H1 H2]; subst; cbn [pow]; [split; reflexivity|].
    apply Forall_app in G. destruct G as [G1 G2]. exists (estream (map XT ts1)), (estream (map XT ts2)), (pv p1), (pv p2). rewrite map_app, estream_app, pv_app. repeat split; auto. apply seq_accepts; auto.
Qed.
(** ** a whole rule *)
Lemma rule_stream i r ets o : Forall plain_node r -> Forall valid r -> Forall egood ets ->
  rlang isupper i r (estream ets) o <-> exists ts p, ets = map XT ts ++ [XE] /\ seq_ok isupper r ts p /\ o = pv p ++ [t_bound; rule_id i].
Proof.
  intros P V G. split.
  - intros (y & b & o' & E & Hb & H & ->). symmetry in E.
    assert (A : aligns (seql (map (slang isupper) r)) (seq_ok isupper r)) by (apply seq_aligns; [apply Forall_forall; intros; apply node_aligns; assumption|exact P]).
    destruct (A _ _ _ _ H G E) as (ts & e & p & -> & -> & K & R & ->). exists ts, p. repeat split; auto. f_equal.
    apply Forall_app in G. destruct G as [_ G]. destruct e as [|e1 e]; [discriminate|]. cbn [estream flat_map] in K. fold (estream e) in K. inversion G as [|? ? G1 G2]; subst.
    destruct e1 as [[|w]|]; cbn [es1 app] in K.
    + injection K as -> _. destruct Hb as [Hb|[]]. discriminate.
    + exfalso. destruct w as [[src form] surf]. cbn [wsyms] in K. rewrite word_body in K. unfold body in K. apply (f_equal (@length _)) in K. rewrite !app_length in K. cbn [length] in K. rewrite !app_length in K. cbn [length] in K. lia.
    + injection K as _ K. destruct e as [|[[|[[src form] surf]]|] e]; [reflexivity|discriminate| |discriminate]. exfalso. cbn [estream flat_map es1 wsyms] in K. symmetry in K. apply app_eq_nil in K. destruct K as [K _]. rewrite word_body in K. apply app_eq_nil in K. destruct K; discriminate.
  - intros (ts & p & -> & H & ->). apply Forall_app in G. destruct G as [G _]. exists (estream (map XT ts)), [word_boundary], (pv p). rewrite estream_app. repeat split; [left; reflexivity|].
    apply seq_accepts; auto; [apply Forall_forall; intros; apply node_accepts|]. rewrite Forall_map in G. exact G.
Qed.
(** ** paths *)
Fixpoint nw (ts : list tk) : nat := match ts with [] => 0 | TWord _ :: r => S (nw r) | TBegin :: r => nw r end.
Lemma nw_app a b : nw (a ++ b) = nw a + nw b.
Proof. induction a as [|[|w] a IH]; cbn [app nw]; lia. Qed.
Lemma seq_path_len : (forall n ts p, Spec.CapsRules.node_ok isupper n ts p -> length p = nw ts) /\ (forall l ts p, seq_ok isupper l ts p -> length p = nw ts).
Proof.
  assert (G : forall n ts p, Spec.CapsRules.node_ok isupper n ts p -> length p = nw ts).
  { apply (cnode_rec' (fun n => forall ts p, Spec.CapsRules.node_ok isupper n ts p -> length p = nw ts)).
    - intros m ts p H. inversion H; subst. reflexivity.
    - intros ts p H. inversion H; subst. reflexivity.
    - intros l F ts p H. rewrite Forall_forall in F. inversion H; subst; [eapply F; eauto|reflexivity].
    - intros a b l F ts p H. inversion H as [| | | |? ? ? k ts' p' K R]; subst. clear K H. revert ts p R. induction k as [|k IH]; intros ts p R; inversion R as [|? ? ts1 p1 ts2 p2 H1 H2]; subst; [reflexivity|].
      rewrite app_length, nw_app. apply IH in H2. rewrite H2. f_equal. clear - F H1. revert ts1 p1 H1. induction F as [|n l Hn F IH]; intros ts p H; inversion H; subst; [reflexivity|]. rewrite app_length, nw_app. f_equal; auto. }
  split; [exact G|]. induction l as [|n l IH]; intros ts p H; inversion H; subst; [reflexivity|]. rewrite app_length, nw_app. f_equal; eauto.
Qed.
End A.
