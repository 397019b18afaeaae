From Coq Require Import Sorted.
From Verif Require Import Model.Base Model.TaggerWord Model.MorphoStream Model.FilterAmb Spec.MorphoStream Spec.FilterAmb.
From Verif Require Import Proofs.Base Proofs.TaggerWord Proofs.MorphoStream Proofs.TaggerText.

Lemma class_eqb_eq a b : class_eqb a b = true <-> a = b.
Proof. unfold class_eqb. destruct (list_eq_dec Nat.eq_dec a b); intuition congruence. Qed.
Lemma seen_In c seen : existsb (class_eqb c) seen = true <-> In c seen.
Proof.
  rewrite existsb_exists. split; [intros (x & H & E); apply class_eqb_eq in E; subst; exact H|intros H; exists c; split; [exact H|apply class_eqb_eq; reflexivity]].
Qed.
Fixpoint sel (seen : list (list nat)) (ws : list tword) : list tword :=
  match ws with
  | [] => []
  | w :: r => if (0 <? length (tags w)) && negb (existsb (class_eqb (tags w)) seen) then w :: sel (tags w :: seen) r else sel seen r
  end.
Lemma loop_sel ws : forall seen, classes_loop seen ws = flat_map orig (sel seen ws).
Proof. induction ws as [|w r IH]; intros seen; [reflexivity|]. cbn. destruct (_ && _); cbn; rewrite IH; reflexivity. Qed.
Lemma fresh_iff seen w : (0 <? length (tags w)) && negb (existsb (class_eqb (tags w)) seen) = true <-> tags w <> [] /\ ~ In (tags w) seen.
Proof.
  rewrite andb_true_iff, Nat.ltb_lt, negb_true_iff. split; intros [A B]; split.
  - intros E. rewrite E in A. cbn in A. lia.
  - intros I. apply seen_In in I. congruence.
  - destruct (tags w); [congruence|cbn; lia].
  - destruct (existsb (class_eqb (tags w)) seen) eqn:E; [|reflexivity]. apply seen_In in E. contradiction.
Qed.
(** the positions printed *)
Theorem printed ws : exists idx, StronglySorted lt idx /\ (forall i, In i idx <-> first_of_class ws i) /\
  classes_loop [] ws = flat_map (fun i => match nth_error ws i with Some w => orig w | None => [] end) idx.
Proof.
  assert (G : forall r pre seen, (forall c, In c seen <-> exists w, In w pre /\ tags w = c /\ c <> []) ->
    exists idx, StronglySorted lt idx /\ (forall i, In i idx <-> (length pre <= i /\ first_of_class (pre ++ r) i)) /\
      classes_loop seen r = flat_map (fun i => match nth_error (pre ++ r) i with Some w => orig w | None => [] end) idx).
  { induction r as [|w r IH]; intros pre seen Hs.
    - exists []. split; [constructor|]. split; [|reflexivity]. intros i. split; [intros []|]. rewrite app_nil_r. intros [L (w & E & _)].
      assert (i < length pre) by (apply nth_error_Some; congruence). lia.
    - assert (App : pre ++ w :: r = (pre ++ [w]) ++ r) by (rewrite <- app_assoc; reflexivity).
      assert (Nw : nth_error (pre ++ w :: r) (length pre) = Some w) by (rewrite nth_error_app2 by lia; rewrite Nat.sub_diag; reflexivity).
      cbn [classes_loop]. destruct ((0 <? length (tags w)) && negb (existsb (class_eqb (tags w)) seen)) eqn:F.
      + apply fresh_iff in F. destruct F as [F1 F2]. destruct (IH (pre ++ [w]) (tags w :: seen)) as (idx & S1 & S2 & S3).
        { intros c. cbn [In]. rewrite Hs. split.
          - intros [<-|(x & H1 & H2 & H3)]; [exists w; split; [apply in_or_app; right; left; reflexivity|auto]|exists x; split; [apply in_or_app; left; exact H1|auto]].
          - intros (x & H1 & H2 & H3). apply in_app_or in H1. destruct H1 as [H1|[<-|[]]]; [right; exists x; auto|left; exact H2]. }
        exists (length pre :: idx). rewrite App. rewrite app_length in S2. cbn [length] in S2. split; [|split].
        * constructor; [exact S1|]. apply Forall_forall. intros i Hi. apply S2 in Hi. lia.
        * intros i. cbn [In]. rewrite S2. split.
          -- intros [<-|[L H]]; [|split; [lia|exact H]]. split; [lia|]. rewrite <- App. exists w. split; [exact Nw|]. split; [exact F1|].
             intros j w' Hj E K. apply F2. apply Hs. rewrite nth_error_app1 in E by lia. apply nth_error_In in E. exists w'. split; [exact E|]. split; [exact K|exact F1].
          -- intros [L H]. destruct (Nat.eq_dec (length pre) i) as [E|E]; [left; exact E|right; split; [lia|exact H]].
        * cbn [flat_map]. rewrite <- App at 1. rewrite Nw. f_equal. exact S3.
      + destruct (IH (pre ++ [w]) seen) as (idx & S1 & S2 & S3).
        { intros c. rewrite Hs. split; [intros (x & H1 & H2); exists x; split; [apply in_or_app; left; exact H1|exact H2]|].
          intros (x & H1 & H2 & H3). apply in_app_or in H1. destruct H1 as [H1|[<-|[]]]; [exists x; auto|].
          destruct (in_dec (list_eq_dec Nat.eq_dec) (tags w) seen) as [I|I]; [subst c; apply Hs; exact I|]. exfalso.
          assert (X : (0 <? length (tags w)) && negb (existsb (class_eqb (tags w)) seen) = true) by (apply fresh_iff; split; [congruence|exact I]). congruence. }
        exists idx. rewrite App. rewrite app_length in S2. cbn [length] in S2. split; [exact S1|]. split; [|exact S3].
        intros i. rewrite S2. split; [intros [L H]; split; [lia|exact H]|]. intros [L H]. split; [|exact H].
        destruct (Nat.eq_dec (length pre) i) as [E|E]; [|lia]. exfalso. subst i. destruct H as (w0 & E & H1 & H2). rewrite <- App, Nw in E. injection E as <-.
        assert (X : (0 <? length (tags w)) && negb (existsb (class_eqb (tags w)) seen) = true); [|congruence].
        apply fresh_iff. split; [exact H1|]. intros K. apply Hs in K. destruct K as (x & Hx & Ex & _). apply In_nth_error in Hx. destruct Hx as [j Ej].
        assert (j < length pre) by (apply nth_error_Some; congruence). apply (H2 j x); [lia| |exact Ex]. rewrite <- App, nth_error_app1 by lia. exact Ej. }
  destruct (G ws [] []) as (idx & S1 & S2 & S3); [intros c; split; [intros []|intros (x & [] & _)]|].
  exists idx. split; [exact S1|]. split; [|exact S3]. intros i. rewrite S2. cbn. split; [intros [_ H]; exact H|intros H; split; [lia|exact H]].
Qed.

Lemma c_str_id s : ~ In cNUL s -> c_str s = s.
Proof.
  induction s as [|c r IH]; intros H; [reflexivity|]. cbn. rewrite (proj2 (ceq_neq c cNUL)) by (intros ->; apply H; left; reflexivity).
  f_equal. apply IH. intros K. apply H. right. exact K.
Qed.
Lemma orig_line w : forms w <> [] -> Forall (fun x => snd x <> [] /\ ~ In cNUL (snd x)) (forms w) -> ~ In cNUL (sf w) -> orig w = unit_line w.
Proof.
  intros N F S0. unfold orig, unit_line.
  assert (E : flat_map (fun x : nat * str => match snd x with [] => [] | f => cSLASH :: f end) (forms w) = flat_map (fun x => cSLASH :: snd x) (forms w)).
  { clear N. induction F as [|x r [Hx _] _ IH]; [reflexivity|]. cbn [flat_map]. rewrite IH. destruct x as [v f]. cbn [snd] in *. destruct f; [congruence|reflexivity]. }
  rewrite E. destruct (sf w ++ flat_map (fun x => cSLASH :: snd x) (forms w)) as [|c r] eqn:K.
  - exfalso. destruct (forms w) as [|x r]; [congruence|]. destruct (sf w); discriminate K.
  - rewrite <- K, c_str_id; [rewrite <- app_assoc; reflexivity|]. intros I. apply in_app_or in I. destruct I as [I|I]; [exact (S0 I)|].
    apply in_flat_map in I. destruct I as (x & Hx & I). destruct I as [I|I]; [discriminate I|]. rewrite Forall_forall in F. exact (proj2 (F x Hx) I).
Qed.

Section F.
Variable mt : str -> str -> bool.
Variables prefer : list str.
Variables keof kundef : nat.
Variable M : Type.
Variables (minit : M) (mstep : M -> char -> M) (mtag : M -> str -> M) (mfin : M -> option nat) (mdead : M -> bool).
Hypothesis init_nofin : mfin minit = None.
Notation addt := (add_tag mt prefer).
Notation lrlm := (lrlm M minit mstep mtag mfin mdead kundef).
Notation scan := (scan M mstep mtag mfin mdead).
Notation words := (words mt prefer [] keof kundef M minit mstep mtag mfin mdead false).
Notation filter_amb := (filter_amb mt prefer [] keof kundef M minit mstep mtag mfin mdead).

(** *** parts of analyses can be analysed alone *)
Lemma scan_part toks : forall m pre best e p v r, scan m pre toks best = Cut e p v r ->
  best = Some (p, v, r) \/ exists t1, p = pre ++ t1 /\ (exists c, toks = t1 ++ TC c :: r) /\ forall b, scan m pre t1 b = Whole v.
Proof.
  induction toks as [|t toks IH]; intros m pre best e p v r H; cbn [MorphoStream.scan] in H.
  - destruct (mfin m); [discriminate|]. destruct best as [[[p' v'] r']|]; [|discriminate]. injection H as <- -> -> ->. left. reflexivity.
  - set (best' := match t, mfin m with TC c, Some v => if (c =?c cPLUS) && (2 <=? length (text pre)) then Some (pre, v, toks) else best | _, _ => best end) in *.
    assert (B : forall p v r, best' = Some (p, v, r) -> best = Some (p, v, r) \/ (exists c, t = TC c) /\ p = pre /\ r = toks /\ mfin m = Some v).
    { intros p' v' r' E. unfold best' in E. destruct t as [c|n]; [|left; exact E]. destruct (mfin m); [|left; exact E].
      destruct ((c =?c cPLUS) && (2 <=? length (text pre))); [|left; exact E]. injection E as <- <- <-. right. repeat split. exists c. reflexivity. }
    assert (W : forall p v r, best' = Some (p, v, r) -> best = Some (p, v, r) \/ exists t1, p = pre ++ t1 /\ (exists c, t :: toks = t1 ++ TC c :: r) /\ forall b, scan m pre t1 b = Whole v).
    { intros p' v' r' E. destruct (B _ _ _ E) as [K|([c Hc] & -> & -> & Hm)]; [left; exact K|right]. exists []. split; [rewrite app_nil_r; reflexivity|].
      split; [exists c; rewrite Hc; reflexivity|]. intros b. cbn. rewrite Hm. reflexivity. }
    destruct (mdead (tstep M mstep mtag m t)) eqn:D.
    + destruct best' as [[[p' v'] r']|] eqn:Eb; [|discriminate]. injection H as _ -> -> ->. apply W. reflexivity.
    + destruct (IH _ _ _ _ _ _ _ H) as [K|(t1 & -> & [c Hc] & K)]; [apply W; exact K|].
      right. exists (t :: t1). split; [rewrite <- app_assoc; reflexivity|]. split; [exists c; rewrite Hc; reflexivity|].
      intros b. cbn [MorphoStream.scan]. rewrite D. apply K.
Qed.
Definition standing (x : str * nat) : Prop := exists ts, text ts = fst x /\ Forall tok_ok ts /\ lrlm false ts [x].
Lemma lrlm_standing b ts ps : lrlm b ts ps -> Forall tok_ok ts -> Forall standing ps.
Proof.
  induction 1 as [b ts v E|ts E|b ts e p v r ps E Hr H IH]; intros O.
  - constructor; [|constructor]. exists ts. split; [reflexivity|]. split; [exact O|]. apply L_whole, E.
  - constructor; [|constructor]. exists ts. split; [reflexivity|]. split; [exact O|]. apply L_none, E.
  - destruct (scan_part _ _ _ _ _ _ _ _ E) as [K|(t1 & -> & [c ->] & K)]; [discriminate|]. cbn [app] in *.
    apply Forall_app in O. destruct O as [O1 O2]. inversion O2; subst. constructor; [|apply IH; assumption].
    exists t1. split; [reflexivity|]. split; [exact O1|]. apply L_whole, K.
Qed.
Definition parts' (a : list tok) : list (str * nat) := [(text a, match scan minit [] a None with Whole v => v | _ => kundef end)].
Lemma lrlm_parts' ts x : lrlm false ts [x] -> parts' ts = [x].
Proof.
  intros H. unfold parts'. inversion H as [? ? ? E|? E|? ? ? ? ? ? ? E Hr H']; subst; rewrite E; [reflexivity|reflexivity|]. inversion H'.
Qed.

(** *** words of a text and their lexical units *)
Definition good (w : tword) : Prop :=
  wok w /\ Forall (fun x => standing (snd x, fst x) /\ alone (snd x, fst x)) (forms w) /\ part_ok false (sf w) /\ ~ In cNUL (sf w).
Definition core (w : tword) : str * list nat * list (nat * str) := (sf w, tags w, forms w).
Lemma adds_sorted fs : forall w, wok w -> StronglySorted lt (map fst (forms w ++ fs)) ->
  core (adds mt prefer (map (fun x => (snd x, fst x)) fs) w) = (sf w, map fst (forms w ++ fs), forms w ++ fs).
Proof.
  induction fs as [|[k f] fs IH]; intros w [Hs Ht] S0.
  - cbn. unfold core. rewrite app_nil_r, Ht. reflexivity.
  - cbn [map adds fold_left fst snd]. fold (adds mt prefer (map (fun x => (snd x, fst x)) fs) (addt k f w)).
    assert (L : Forall (fun x => x < k) (map fst (forms w))).
    { rewrite map_app in S0. clear - S0. induction (map fst (forms w)) as [|x r IHr]; [constructor|]. cbn in S0. inversion S0 as [|? ? S1 S2]; subst.
      constructor; [|apply IHr; exact S1]. rewrite Forall_forall in S2. apply S2. apply in_or_app. right. left. reflexivity. }
    assert (E : addt k f w = mktw (sf w) (map fst (forms w) ++ [k]) (forms w ++ [(k, f)]) (ign w) (cut w) (pcut w)).
    { unfold add_tag. destruct (has_tag k (tags w)) eqn:X.
      - exfalso. apply has_tag_In in X. rewrite Ht in X. rewrite Forall_forall in L. specialize (L _ X). lia.
      - cbn [negb]. rewrite Ht, sins_snoc by exact L. f_equal. clear - L. induction (forms w) as [|[x y] r IHr]; [reflexivity|]. cbn [mput map fst app] in *. inversion L; subst.
        destruct (Nat.ltb_spec k x); [lia|]. destruct (Nat.eqb_spec k x); [lia|]. f_equal. apply IHr. assumption. }
    rewrite IH.
    + rewrite E. cbn [sf forms]. rewrite <- app_assoc. reflexivity.
    + apply add_wok. split; assumption.
    + rewrite E. cbn [forms]. rewrite <- app_assoc. exact S0.
Qed.
Lemma orig_good w : good w -> tags w <> [] -> orig w = unit_line w.
Proof.
  intros (W & F & P & N) T. apply orig_line; [|eapply Forall_impl; [|exact F]|exact N].
  - intros E. apply T. rewrite (proj2 W), E. reflexivity.
  - intros x [_ (_ & A & _ & B)]. split; assumption.
Qed.
Lemma to_unit b w : blank_ok false b -> good w -> tags w <> [] ->
  exists l, lu_ok false l /\ b ++ orig w = lu_text l ++ [cNL] /\ (forall ans a, l_read l = Known ans -> In a ans -> lrlm false a (parts' a)) /\
    map core (words_of addt parts' l) = [core w].
Proof.
  intros B G T. rewrite (orig_good w G T). destruct G as (W & F & P & N).
  assert (A : exists ans, Forall2 (fun a x => text a = snd x /\ Forall tok_ok a /\ lrlm false a [(snd x, fst x)]) ans (forms w)).
  { clear - F. induction F as [|x r [(ts & H1 & H2 & H3) _] _ [ans IH]]; [exists []; constructor|]. exists (ts :: ans). constructor; [split; [exact H1|split; [exact H2|exact H3]]|exact IH]. }
  destruct A as [ans A]. exists (mklu b (sf w) (Known ans)).
  assert (FN : forms w <> []) by (intros E; apply T; rewrite (proj2 W), E; reflexivity).
  assert (AN : ans <> []) by (intros ->; inversion A as [E|]; apply FN; symmetry; assumption).
  assert (PE : map parts' ans = map (fun x => [(snd x, fst x)]) (forms w)).
  { clear - A. induction A as [|a x r s (_ & _ & H) _ IH]; [reflexivity|]. cbn [map]. rewrite IH, (lrlm_parts' _ _ H). reflexivity. }
  split; [|split; [|split]].
  - split; [exact B|]. split; [exact P|]. cbn. split; [exact AN|]. clear - A F. induction A as [|a x r s (H1 & H2 & H3) _ IH]; [constructor|].
    inversion F as [|? ? [_ (X1 & X2 & X3 & X4)] F']; subst. constructor; [|apply IH; exact F']. rewrite H1. split; [exact H2|split; [exact X1|exact X3]].
  - unfold lu_text. cbn. unfold unit_line. rewrite <- app_assoc. f_equal. cbn [app]. f_equal. rewrite <- app_assoc. f_equal.
    assert (J : forall a x ans fs, Forall2 (fun a x => text a = snd x /\ Forall tok_ok a /\ lrlm false a [(snd x, fst x)]) (a :: ans) (x :: fs) ->
      cSLASH :: join (map text (a :: ans)) = flat_map (fun x : nat * str => cSLASH :: snd x) (x :: fs)).
    { clear. intros a x ans. revert a x. induction ans as [|b ans IH]; intros a x fs H; inversion H as [|? ? ? ? [H1 _] H2]; subst; inversion H2 as [|? y ? fs' H3 H4]; subst.
      - cbn. rewrite H1, app_nil_r. reflexivity.
      - specialize (IH b y fs' H2). cbn [map] in IH. change (join (map text (a :: b :: ans))) with (text a ++ cSLASH :: join (text b :: map text ans)). rewrite IH, H1. reflexivity. }
    destruct ans as [|a ans]; [congruence|]. destruct (forms w) as [|x fs]; [congruence|]. symmetry. refine (eq_trans _ (f_equal (fun z => z ++ [cDOL; cNL]) (J a x ans fs A))). cbn [app]. rewrite <- !app_assoc. reflexivity.
  - intros ans' a E Ha. cbn in E. injection E as <-. clear - A Ha. induction A as [|a' x r s (_ & _ & H) _ IH]; [destruct Ha|].
    destruct Ha as [<-|Ha]; [rewrite (lrlm_parts' _ _ H); exact H|apply IH; exact Ha].
  - unfold words_of. cbn [l_read]. rewrite PE. rewrite lu_words_single.
    + cbn [map]. assert (C : concat (map (fun x : nat * str => [(snd x, fst x)]) (forms w)) = map (fun x => (snd x, fst x)) (forms w))
        by (clear; induction (forms w) as [|x r IH]; [reflexivity|cbn; f_equal; exact IH]).
      rewrite C, adds_sorted.
      * cbn. rewrite <- (proj2 W). reflexivity.
      * split; [constructor|reflexivity].
      * cbn. exact (proj1 W).
    + apply Forall_forall. intros ps Hp. apply in_map_iff in Hp. destruct Hp as (x & <- & _). reflexivity.
    + reflexivity.
Qed.
Lemma to_units l : forall b, blank_ok false b -> Forall (fun w => good w /\ tags w <> []) l ->
  exists lus e, b ++ flat_map orig l = flat_map lu_text lus ++ e /\ Forall (lu_ok false) lus /\ blank_ok false e /\
    (forall u ans a, In u lus -> l_read u = Known ans -> In a ans -> lrlm false a (parts' a)) /\
    map core (flat_map (words_of addt parts') lus) = map core l.
Proof.
  induction l as [|w l IH]; intros b B H.
  - exists [], b. split; [rewrite app_nil_r; reflexivity|]. split; [constructor|]. split; [exact B|]. split; [intros ? ? ? []|reflexivity].
  - inversion H as [|? ? [G T] H']; subst. destruct (to_unit b w B G T) as (x & X1 & X2 & X3 & X4).
    assert (NL : blank_ok false [cNL]) by (constructor; [discriminate|intros [K|[_ K]]; discriminate|constructor]).
    destruct (IH [cNL] NL H') as (lus & e & E1 & E2 & E3 & E4 & E5). exists (x :: lus), e. split; [|split; [|split; [|split]]].
    + cbn [flat_map]. rewrite app_assoc, X2, <- !app_assoc. rewrite E1. reflexivity.
    + constructor; assumption.
    + exact E3.
    + intros u ans a [<-|I]; [apply X3|apply E4; exact I].
    + cbn [flat_map map]. rewrite map_app, X4, E5. reflexivity.
Qed.

(** *** words of a corpus are good *)
Variable parts : list tok -> list (str * nat).
Definition corpus (d : doc) : Prop :=
  doc_ok false d /\ forall l, In l (d_lus d) -> ~ In cNUL (l_sf l) /\
    match l_read l with Known ans => forall a, In a ans -> lrlm false a (parts a) /\ Forall alone (parts a) | Unknown _ => True end.
Lemma word_k_forms first pss k x : In x (forms (word_k addt first pss k)) -> (exists ps, In ps pss /\ In (snd x, fst x) ps) \/ In x (forms first).
Proof.
  unfold word_k. cbn [forms].
  assert (G : forall pss w, In x (forms (fold_left (fun w ps => match nth_error ps k with Some (t, v) => addt v t w | None => w end) pss w)) ->
    (exists ps, In ps pss /\ In (snd x, fst x) ps) \/ In x (forms w)).
  { clear. induction pss as [|ps pss IH]; intros w H; [right; exact H|]. cbn [fold_left] in H. destruct (IH _ H) as [(q & Hq & K)|K].
    - left. exists q. split; [right; exact Hq|exact K].
    - destruct (nth_error ps k) as [[t v]|] eqn:E; [|right; exact K]. apply add_forms in K. destruct K as [->|K]; [|right; exact K].
      left. exists ps. split; [left; reflexivity|]. apply nth_error_In in E. exact E. }
  intros H. apply G in H. destruct H as [H|H]; [left; exact H|]. destruct k; [right; exact H|destruct H].
Qed.
Lemma word_k_wok first pss k : wok first -> wok (word_k addt first pss k).
Proof.
  intros Hf. unfold word_k. set (b := match k with 0 => first | _ => tword0 true end). assert (Hb : wok b) by (subst b; destruct k; [exact Hf|split; [constructor|reflexivity]]).
  assert (Q : forall pss w, wok w -> wok (fold_left (fun w ps => match nth_error ps k with Some (t, v) => addt v t w | None => w end) pss w)).
  { clear. induction pss as [|ps pss IH]; intros w Hw; [exact Hw|]. cbn [fold_left]. apply IH. destruct (nth_error ps k) as [[t v]|]; [apply add_wok; exact Hw|exact Hw]. }
  exact (Q pss b Hb).
Qed.
Lemma word_k_sf first pss k : sf (word_k addt first pss k) = match k with 0 => sf first | _ => [] end.
Proof.
  unfold word_k. cbn [sf].
  assert (Q : forall pss w, sf (fold_left (fun w ps => match nth_error ps k with Some (t, v) => addt v t w | None => w end) pss w) = sf w).
  { clear. induction pss as [|ps pss IH]; intros w; [reflexivity|]. cbn [fold_left]. rewrite IH. destruct (nth_error ps k) as [[t v]|]; [|reflexivity].
    apply (proj1 (add_same mt prefer v t w)). }
  rewrite Q. destruct k; reflexivity.
Qed.
Lemma words_good d w : corpus d -> In w (flat_map (words_of addt parts) (d_lus d)) -> good w.
Proof.
  intros [[O _] C] H. apply in_flat_map in H. destruct H as (l & Hl & H). destruct (C l Hl) as [N R].
  rewrite Forall_forall in O. destruct (O l Hl) as (_ & P & Q). unfold words_of in H. destruct (l_read l) as [ans|s] eqn:E.
  - unfold lu_words in H. apply in_map_iff in H. destruct H as (k & <- & _). split; [apply word_k_wok; split; [constructor|reflexivity]|]. split; [|rewrite word_k_sf].
    + apply Forall_forall. intros x Hx. apply word_k_forms in Hx. destruct Hx as [(ps & Hp & Hx)|[]]. apply in_map_iff in Hp. destruct Hp as (a & <- & Ha).
      destruct (R a Ha) as [L A]. destruct Q as [_ Q]. rewrite Forall_forall in Q. destruct (Q a Ha) as (Q1 & _ & _).
      pose proof (lrlm_standing _ _ _ L Q1) as S0. rewrite Forall_forall in S0, A. split; [exact (S0 _ Hx)|exact (A _ Hx)].
    + destruct k; [split; [exact P|exact N]|split; [constructor|intros []]].
  - destruct H as [<-|[]]. split; [split; [constructor|reflexivity]|]. split; [constructor|]. split; [exact P|exact N].
Qed.
Lemma discard_none ws : on_words (discard mt []) ws = Some ws.
Proof. induction ws as [|[w b] r IH]; [reflexivity|]. cbn [on_words]. rewrite IH. unfold discard. destruct (isAmbiguous w); reflexivity. Qed.
Lemma words_corpus ps d : doc_ok false d -> analyses_in (fun a => lrlm false a (ps a)) d ->
  words (S (length (doc_text d))) (doc_text d) = Some (map (fun w => (w, false)) (flat_map (words_of addt ps) (d_lus d)) ++ [(end_word keof (d_end d), true)]).
Proof.
  intros O A. rewrite <- (discard_none (map _ _ ++ _)). apply (words_docs mt prefer [] keof kundef M minit mstep mtag mfin mdead false init_nofin ps [] d).
  - left. reflexivity.
  - constructor; [exact O|constructor].
  - intros d' [<-|[]]. exact A.
  - apply (fuel_ok [] d).
Qed.
Lemma sel_app a b : forall seen, exists seen', sel seen (a ++ b) = sel seen a ++ sel seen' b.
Proof. induction a as [|w a IH]; intros seen; [exists seen; reflexivity|]. cbn. destruct (_ && _); [destruct (IH (tags w :: seen)) as [s ->]; exists s; reflexivity|apply IH]. Qed.
Lemma end_prints b seen : flat_map orig (sel seen [end_word keof b]) = [].
Proof. cbn [sel]. match goal with |- context [if ?b then _ else _] => destruct b end; reflexivity. Qed.
Lemma filter_corpus ps d : doc_ok false d -> analyses_in (fun a => lrlm false a (ps a)) d ->
  filter_amb (doc_text d) = Some (flat_map orig (sel [] (flat_map (words_of addt ps) (d_lus d)))).
Proof.
  intros O A. unfold FilterAmb.filter_amb. rewrite (words_corpus ps d O A). f_equal. rewrite map_app, map_map. cbn [map fst]. rewrite map_id.
  rewrite loop_sel. destruct (sel_app (flat_map (words_of addt ps) (d_lus d)) [end_word keof (d_end d)] []) as [s ->].
  rewrite flat_map_app, end_prints. apply app_nil_r.
Qed.
Lemma sel_In w seen ws : In w (sel seen ws) -> In w ws /\ tags w <> [] /\ ~ In (tags w) seen.
Proof.
  revert seen. induction ws as [|x r IH]; intros seen H; [destruct H|]. cbn [sel] in H.
  destruct ((0 <? length (tags x)) && negb (existsb (class_eqb (tags x)) seen)) eqn:F.
  - apply fresh_iff in F. destruct H as [<-|H]; [split; [left; reflexivity|exact F]|]. destruct (IH _ H) as (A & B & C). split; [right; exact A|]. split; [exact B|].
    intros K. apply C. right. exact K.
  - destruct (IH _ H) as (A & B & C). split; [right; exact A|split; assumption].
Qed.
Lemma sel_NoDup ws : forall seen, NoDup (map tags (sel seen ws)).
Proof.
  induction ws as [|x r IH]; intros seen; [constructor|]. cbn [sel]. destruct (_ && _); [|apply IH]. cbn [map]. constructor; [|apply IH].
  intros K. apply in_map_iff in K. destruct K as (w & E & H). apply sel_In in H. destruct H as (_ & _ & N). apply N. left. symmetry. exact E.
Qed.
Lemma sel_all ws : forall seen c, c <> [] -> In c (map tags ws) -> ~ In c seen -> In c (map tags (sel seen ws)).
Proof.
  induction ws as [|x r IH]; intros seen c N H S0; [destruct H|]. cbn [sel map] in *.
  destruct ((0 <? length (tags x)) && negb (existsb (class_eqb (tags x)) seen)) eqn:F.
  - destruct (list_eq_dec Nat.eq_dec (tags x) c) as [E|E]; [left; exact E|]. right. apply IH; [exact N|destruct H; [contradiction|assumption]|]. intros [K|K]; contradiction.
  - apply IH; [exact N| |exact S0]. destruct H as [<-|H]; [|exact H]. exfalso.
    assert (X : (0 <? length (tags x)) && negb (existsb (class_eqb (tags x)) seen) = true) by (apply fresh_iff; split; assumption). congruence.
Qed.
(** a second selection takes everything *)
Lemma sel_fix l : NoDup (map tags l) -> (forall w, In w l -> tags w <> []) -> forall seen, (forall w, In w l -> ~ In (tags w) seen) -> sel seen l = l.
Proof.
  induction l as [|x r IH]; intros D T seen S0; [reflexivity|]. inversion D as [|? ? D1 D2]; subst. cbn [sel].
  destruct ((0 <? length (tags x)) && negb (existsb (class_eqb (tags x)) seen)) eqn:F.
  - f_equal. apply IH; [exact D2|intros w Hw; apply T; right; exact Hw|]. intros w Hw [K|K]; [apply D1; rewrite K; apply in_map; exact Hw|]. apply (S0 w); [right; exact Hw|exact K].
  - exfalso. assert (X : (0 <? length (tags x)) && negb (existsb (class_eqb (tags x)) seen) = true) by (apply fresh_iff; split; [apply T|apply S0]; left; reflexivity). congruence.
Qed.
Lemma core_orig a b : core a = core b -> orig a = orig b.
Proof. unfold core, orig. intros [= -> _ ->]. reflexivity. Qed.
Lemma core_map a b : map core a = map core b -> map tags a = map tags b /\ flat_map orig a = flat_map orig b.
Proof.
  revert b. induction a as [|x a IH]; intros [|y b] H; try discriminate; [split; reflexivity|]. cbn [map] in H. injection H as H1 H2 H3 H4.
  destruct (IH b H4) as [I1 I2]. cbn [map flat_map]. rewrite I1, I2, H2. split; [reflexivity|]. f_equal. apply core_orig. unfold core. congruence.
Qed.
Lemma filter_ne (l : list (list nat)) : Forall (fun c => c <> []) l -> filter (fun c => match c with [] => false | _ => true end) l = l.
Proof. induction 1 as [|c l H _ IH]; [reflexivity|]. cbn. destruct c; [congruence|]. f_equal. exact IH. Qed.
Theorem reread d : corpus d -> (forall x, mfin x <> Some keof) -> kundef <> keof ->
  exists out ws ws', words (S (length (doc_text d))) (doc_text d) = Some ws /\ filter_amb (doc_text d) = Some out /\
    words (S (length out)) out = Some ws' /\ NoDup (classes ws') /\ (forall c, In c (classes ws') <-> In c (classes ws)) /\ filter_amb out = Some out.
Proof.
  intros C K1 K2. pose proof C as [O CC].
  assert (A : analyses_in (fun a => lrlm false a (parts a)) d).
  { intros l ans a Hl E Ha. destruct (CC l Hl) as [_ R]. rewrite E in R. exact (proj1 (R a Ha)). }
  set (ws0 := flat_map (words_of addt parts) (d_lus d)). set (l := sel [] ws0).
  assert (G : Forall (fun w => good w /\ tags w <> []) l).
  { apply Forall_forall. intros w Hw. apply sel_In in Hw. destruct Hw as (H1 & H2 & _). split; [exact (words_good d w C H1)|exact H2]. }
  destruct (to_units l [] (P_nil _ _) G) as (lus & e & E1 & E2 & E3 & E4 & E5). cbn [app] in E1.
  set (d' := mkdoc lus e). assert (O' : doc_ok false d') by (split; assumption). assert (A' : analyses_in (fun a => lrlm false a (parts' a)) d') by exact E4.
  assert (T : flat_map orig l = doc_text d') by exact E1.
  destruct (core_map _ _ E5) as [Et Eo]. set (ws1 := flat_map (words_of addt parts') lus) in *.
  assert (ND : NoDup (map tags l)) by apply sel_NoDup.
  assert (NE : forall w, In w l -> tags w <> []) by (intros w Hw; rewrite Forall_forall in G; exact (proj2 (G w Hw))).
  assert (NK : forall w, good w -> tags w <> [keof]).
  { intros w (W & F & _) E. rewrite (proj2 W) in E. destruct (forms w) as [|[v f] r]; [discriminate|]. cbn in E. injection E as -> _. inversion F as [|? ? [(ts & _ & _ & L) _] _]; subst.
    cbn [fst snd] in L. inversion L as [? ? ? E|? E|? ? ? ? ? ? ? E Hr H']; subst.
    - clear - E K1. revert E. generalize (@nil tok) at 1 as pre. generalize (@None (list tok * nat * list tok)) as best. generalize minit as m.
      induction ts as [|t ts IH]; intros m best pre E; cbn [MorphoStream.scan] in E.
      + destruct (mfin m) eqn:X; [injection E as ->; exact (K1 m X)|]. destruct best as [[[? ?] ?]|]; discriminate.
      + destruct (mdead _); [|apply IH in E; exact E]. match type of E with match ?b with _ => _ end = _ => destruct b as [[[? ?] ?]|] end; discriminate.
    - congruence.
    - inversion H'. }
  exists (doc_text d'), (map (fun w => (w, false)) ws0 ++ [(end_word keof (d_end d), true)]), (map (fun w => (w, false)) ws1 ++ [(end_word keof e, true)]).
  split; [apply words_corpus; assumption|]. split; [rewrite (filter_corpus parts d O A); rewrite <- T; reflexivity|].
  split; [exact (words_corpus parts' d' O' A')|].
  assert (CL : forall ws b, classes (map (fun w => (w, false)) ws ++ [(end_word keof b, true)]) = filter (fun c => match c with [] => false | _ => true end) (map tags ws) ++ [[keof]]).
  { intros ws b. unfold classes. rewrite map_app, map_map, filter_app. reflexivity. }
  rewrite !CL, Et. rewrite filter_ne by (apply Forall_forall; intros c Hc; apply in_map_iff in Hc; destruct Hc as (w & <- & Hw); exact (NE w Hw)).
  split; [|split].
  - assert (Nk : ~ In [keof] (map tags l)).
    { intros Hk. apply in_map_iff in Hk. destruct Hk as (w & E & Hw). rewrite Forall_forall in G. exact (NK w (proj1 (G w Hw)) E). }
    clear - ND Nk. induction (map tags l) as [|c r IH]; [repeat constructor; intros []|]. inversion ND; subst. cbn. constructor; [|apply IH; [assumption|intros K; apply Nk; right; exact K]].
    intros K. apply in_app_or in K. destruct K as [K|[K|[]]]; [contradiction|]. apply Nk. left. symmetry. exact K.
  - intros c. rewrite !in_app_iff. assert (X : In c (map tags l) <-> In c (filter (fun c => match c with [] => false | _ => true end) (map tags ws0))); [|tauto].
    rewrite filter_In. split.
    + intros H. apply in_map_iff in H. destruct H as (w & <- & Hw). split; [apply in_map; exact (proj1 (sel_In _ _ _ Hw))|]. specialize (NE w Hw). destruct (tags w); [congruence|reflexivity].
    + intros [H1 H2]. apply sel_all; [intros ->; discriminate H2|exact H1|intros []].
  - rewrite (filter_corpus parts' d' O' A'). fold ws1. cbn [d_lus d']. fold ws1. f_equal. rewrite <- T, <- Eo. f_equal. apply sel_fix.
    + rewrite Et. exact ND.
    + intros w Hw. assert (I : In (tags w) (map tags ws1)) by (apply in_map; exact Hw). rewrite Et in I. apply in_map_iff in I. destruct I as (x & <- & Hx). exact (NE x Hx).
    + intros w _ [].
Qed.
End F.
