(** C47: the words the statistical tagger reads from a text.  See Spec/MorphoStream.v: [docs_text] is the text of a
    sequence of documents of lexical units and blanks, [docs_words] their words. *)
From Coq Require Import String Sorted.
From Verif Require Import Model.Base Model.TaggerWord Model.MorphoStream Spec.MorphoStream.
From Verif Require Import Proofs.Base Proofs.TaggerWord Proofs.MorphoStream Proofs.TaggerText.

(** Every text of well-formed lexical units gives exactly the words of its units, in order, with their blanks, each
    document ended by its mark; all words pass the discard rules (C37).
    Partial: the analyses whose parts [lrlm] does not define are missing (see Spec/MorphoStream.v). *)
Theorem C47_words_partial : forall mt prefer discardr keof kundef M (minit : M) mstep mtag mfin mdead nf parts d ds,
  mfin minit = None -> (ds = [] \/ nf = true) -> Forall (doc_ok nf) (d :: ds) ->
  (forall d', In d' (d :: ds) -> analyses_in (fun a => lrlm M minit mstep mtag mfin mdead kundef false a (parts a)) d') ->
  words mt prefer discardr keof kundef M minit mstep mtag mfin mdead nf (S (length (docs_text d ds))) (docs_text d ds)
  = on_words (discard mt discardr) (docs_words (add_tag mt prefer) keof parts d ds).
Proof. intros. apply words_docs; try assumption. apply fuel_ok. Qed.
Print Assumptions C47_words_partial.

(** The parts of an analysis, joined by '+', are the analysis. *)
Theorem C47_parts_join : forall M (minit : M) mstep mtag mfin mdead kundef b ts ps,
  lrlm M minit mstep mtag mfin mdead kundef b ts ps ->
  exists t v r, ps = (t, v) :: r /\ text ts = t ++ flat_map (fun x => cPLUS :: fst x) r.
Proof. intros M minit mstep mtag mfin mdead kundef b ts ps. apply pieces_text. Qed.
Print Assumptions C47_parts_join.

(** Longest match: if no state of the matcher that is dead accepts or comes back to life, an analysis is taken as a
    whole if the patterns accept it as a whole, otherwise it is cut at the last '+' such that the patterns accept what
    is before it (at least two characters). *)
Section Longest.
Variable M : Type.
Variables (minit : M) (mstep : M -> char -> M) (mtag : M -> str -> M) (mfin : M -> option nat) (mdead : M -> bool).
Definition run (m : M) (ts : list tok) : M := fold_left (fun m t => match t with TC c => mstep m c | TT n => mtag m (cLT :: n ++ [cGT]) end) ts m.
Definition cut_at (ts p : list tok) (v : nat) (r : list tok) : Prop :=
  ts = p ++ TC cPLUS :: r /\ mfin (run minit p) = Some v /\ 2 <= length (text p).
Lemma scan_longest : (forall m, mdead m = true -> mfin m = None) -> (forall m c, mdead m = true -> mdead (mstep m c) = true) ->
  (forall m n, mdead m = true -> mdead (mtag m n) = true) ->
  forall toks pre best, let ts := pre ++ toks in
  (forall p v r, best = Some (p, v, r) -> cut_at ts p v r) ->
  (forall p v r, cut_at ts p v r -> length p < length pre -> exists p' v' r', best = Some (p', v', r') /\ length p <= length p') ->
  match scan M mstep mtag mfin mdead (run minit pre) pre toks best with
  | Whole v => mfin (run minit ts) = Some v
  | Cut _ p v r => mfin (run minit ts) = None /\ cut_at ts p v r /\ forall p' v' r', cut_at ts p' v' r' -> length p' <= length p
  | Nothing => mfin (run minit ts) = None /\ forall p v r, ~ cut_at ts p v r
  end.
Proof.
  intros H1 H2 H3.
  assert (Dead : forall l m, mdead m = true -> mfin (run m l) = None /\ mdead (run m l) = true).
  { induction l as [|t l IH]; intros m Hm; [split; [apply H1, Hm|exact Hm]|]. cbn. apply IH. destruct t; [apply H2|apply H3]; exact Hm. }
  assert (Cat : forall a b m, run m (a ++ b) = run (run m a) b) by (intros; apply fold_left_app).
  induction toks as [|t toks IH]; intros pre best ts B1 B2.
  - cbn [scan]. subst ts. rewrite app_nil_r in *. destruct (mfin (run minit pre)) as [v|] eqn:E; [reflexivity|].
    assert (Lt : forall p v r, cut_at pre p v r -> length p < length pre).
    { intros p v r (-> & _). rewrite app_length. cbn. lia. }
    destruct best as [[[p v] r]|].
    + split; [reflexivity|]. split; [apply B1; reflexivity|]. intros p' v' r' K. destruct (B2 _ _ _ K (Lt _ _ _ K)) as (q & w & s & Eq & L). inversion Eq; subst. exact L.
    + split; [reflexivity|]. intros p v r K. destruct (B2 _ _ _ K (Lt _ _ _ K)) as (q & w & s & Eq & L). discriminate.
  - cbn [scan]. match goal with |- context[if mdead _ then match ?b with _ => _ end else _] => set (best' := b) end.
    assert (Ts : ts = (pre ++ [t]) ++ toks) by (subst ts; rewrite <- app_assoc; reflexivity).
    assert (Nth : forall p v r, cut_at ts p v r -> length p = length pre -> p = pre /\ t = TC cPLUS /\ r = toks).
    { intros p v r (E & _) L. subst ts. assert (K : p = pre /\ TC cPLUS :: r = t :: toks).
      { revert p L E. clear. induction pre as [|x pre IH]; intros [|y p] L E; cbn in L, E; try lia; [auto|].
        inversion E; subst. destruct (IH p) as [-> ->]; [lia|assumption|auto]. }
      destruct K as [-> K]. inversion K. auto. }
    assert (C1 : forall p v r, best' = Some (p, v, r) -> cut_at ts p v r).
    { unfold best'. intros p v r. destruct t as [c|n]; [|apply B1]. destruct (mfin (run minit pre)) as [x|] eqn:E; [|apply B1].
      destruct (c =?c cPLUS) eqn:Ec; cbn [andb]; [|apply B1]. destruct (Nat.leb_spec 2 (length (text pre))); [|apply B1].
      intros K. inversion K; subst. apply ceq_eq in Ec. subst c. split; [reflexivity|]. split; assumption. }
    assert (C2 : forall p v r, cut_at ts p v r -> length p < length (pre ++ [t]) -> exists p' v' r', best' = Some (p', v', r') /\ length p <= length p').
    { intros p v r K L. rewrite app_length in L. cbn in L.
      destruct (Nat.eq_dec (length p) (length pre)) as [Q|Q].
      - destruct (Nth _ _ _ K Q) as (-> & -> & ->). destruct K as (_ & K1 & K2). exists pre, v, toks. split; [|lia]. unfold best'. rewrite K1, ceq_refl. cbn [andb].
        destruct (Nat.leb_spec 2 (length (text pre))); [reflexivity|lia].
      - destruct (B2 _ _ _ K ltac:(lia)) as (p' & v' & r' & Eb & Lb).
        unfold best'. destruct t as [c|n]; [|eauto 6]. destruct (mfin (run minit pre)) as [x|]; [|eauto 6].
        destruct ((c =?c cPLUS) && (2 <=? length (text pre))); [|eauto 6]. exists pre, x, toks. split; [reflexivity|lia]. }
    assert (St : tstep M mstep mtag (run minit pre) t = run minit (pre ++ [t])) by (rewrite Cat; reflexivity).
    rewrite St. destruct (mdead (run minit (pre ++ [t]))) eqn:Ed.
    + assert (Dl : forall l, mfin (run minit ((pre ++ [t]) ++ l)) = None) by (intros l; rewrite Cat; apply Dead; exact Ed).
      assert (Lt : forall p v r, cut_at ts p v r -> length p < length (pre ++ [t])).
      { intros p v r (E & K & _). destruct (Nat.lt_ge_cases (length p) (length (pre ++ [t]))) as [L|L]; [exact L|exfalso].
        rewrite Ts in E. assert (P : exists l, p = (pre ++ [t]) ++ l).
        { clear - L E. revert p L E. generalize (pre ++ [t]). intros q. induction q as [|x q IH]; intros [|y p] L E; cbn in L; try lia; [exists []; reflexivity|eexists; reflexivity|].
          inversion E; subst. destruct (IH p) as [l ->]; [lia|assumption|]. exists l. reflexivity. }
        destruct P as [l ->]. rewrite Dl in K. discriminate. }
      destruct best' as [[[p v] r]|].
      * split; [rewrite Ts; apply Dl|]. split; [apply C1; reflexivity|]. intros p' v' r' K. destruct (C2 _ _ _ K (Lt _ _ _ K)) as (q & w & s & Eq & L). inversion Eq; subst. exact L.
      * split; [rewrite Ts; apply Dl|]. intros p v r K. destruct (C2 _ _ _ K (Lt _ _ _ K)) as (q & w & s & Eq & L). discriminate.
    + specialize (IH (pre ++ [t]) best'). cbv zeta in IH. rewrite <- Ts in IH. exact (IH C1 C2).
Qed.
Theorem C47_longest : (forall m, mdead m = true -> mfin m = None) -> (forall m c, mdead m = true -> mdead (mstep m c) = true) ->
  (forall m n, mdead m = true -> mdead (mtag m n) = true) ->
  forall ts, match scan M mstep mtag mfin mdead minit [] ts None with
  | Whole v => mfin (run minit ts) = Some v
  | Cut _ p v r => mfin (run minit ts) = None /\ cut_at ts p v r /\ forall p' v' r', cut_at ts p' v' r' -> length p' <= length p
  | Nothing => mfin (run minit ts) = None /\ forall p v r, ~ cut_at ts p v r
  end.
Proof. intros H1 H2 H3 ts. apply (scan_longest H1 H2 H3 ts [] None); [discriminate|]. intros p v r _ L. cbn in L. lia. Qed.
End Longest.
Print Assumptions C47_longest.

(** The readings of a word: for every tag, the form is that of the last reading with this tag that a prefer rule
    matches, or the first reading with this tag if there is none later. *)
Fixpoint preferred (mt : str -> str -> bool) (prefer : list str) (t : nat) (l : list (str * nat)) (cur : option str) : option str :=
  match l with
  | [] => cur
  | (s, v) :: r =>
    preferred mt prefer t r
      (if v =? t then match cur with None => Some s | Some c => if existsb (mt s) prefer then Some s else Some c end else cur)
  end.
Lemma mget_mput t v s l : StronglySorted lt (map fst l) -> mget t (mput v s l) = if v =? t then Some s else mget t l.
Proof.
  induction l as [|[k x] r IH]; intros HS; cbn [mput mget].
  - rewrite (Nat.eqb_sym t v). reflexivity.
  - inversion HS as [|? ? S1 S2]; subst. destruct (Nat.ltb_spec v k) as [L|L]; [cbn [mget]; rewrite (Nat.eqb_sym t v); reflexivity|].
    destruct (Nat.eqb_spec v k) as [->|N].
    + cbn [mget]. rewrite (Nat.eqb_sym t k). destruct (k =? t); reflexivity.
    + cbn [mget]. destruct (Nat.eqb_spec t k) as [->|N2].
      * destruct (Nat.eqb_spec v k); [congruence|reflexivity].
      * apply IH, S1.
Qed.
Lemma mget_has t l : StronglySorted lt (map fst l) -> has_tag t (map fst l) = match mget t l with Some _ => true | None => false end.
Proof.
  induction l as [|[k x] r IH]; intros HS; [reflexivity|]. inversion HS; subst. cbn [map fst has_tag existsb mget]. fold (has_tag t (map fst r)).
  destruct (t =? k); [reflexivity|]. cbn [orb]. apply IH. assumption.
Qed.
Theorem C47_readings : forall mt prefer l t,
  mget t (forms (fold_left (fun w x => add_tag mt prefer (snd x) (fst x) w) l (tword0 false))) = preferred mt prefer t l None
  /\ tags (fold_left (fun w x => add_tag mt prefer (snd x) (fst x) w) l (tword0 false)) =
     map fst (forms (fold_left (fun w x => add_tag mt prefer (snd x) (fst x) w) l (tword0 false))).
Proof.
  intros mt prefer l t.
  assert (G : forall l w, wok w -> mget t (forms (adds mt prefer l w)) = preferred mt prefer t l (mget t (forms w))).
  { clear l. induction l as [|[s v] l IH]; intros w Hw; [reflexivity|]. cbn [adds fold_left fst snd preferred]. fold (adds mt prefer l (add_tag mt prefer v s w)).
    rewrite IH by (apply add_wok, Hw). f_equal. destruct Hw as [HS HT]. unfold add_tag. rewrite HT, (mget_has v _ HS).
    destruct (mget v (forms w)) as [y|] eqn:E; cbn [negb].
    - destruct (existsb (mt s) prefer) eqn:Ep; cbn [forms].
      + rewrite mget_mput by exact HS. destruct (Nat.eqb_spec v t) as [->|]; [|reflexivity]. rewrite E. reflexivity.
      + destruct (Nat.eqb_spec v t) as [->|]; [|reflexivity]. rewrite E. reflexivity.
    - cbn [forms]. rewrite mget_mput by exact HS. destruct (Nat.eqb_spec v t) as [->|]; [|reflexivity]. rewrite E. reflexivity. }
  assert (W : wok (tword0 false)) by (split; [constructor|reflexivity]).
  split; [exact (G l _ W)|]. exact (proj2 (proj1 (adds_ok mt prefer l _ W))).
Qed.
Print Assumptions C47_readings.

(** The words are defined (no iterator is moved past the end by the discard rules) if every discard rule is longer
    than the number of analyses of any lexical unit. *)
Theorem C47_defined : forall mt prefer discardr keof parts d ds,
  (forall d' l ans p, In d' (d :: ds) -> In l (d_lus d') -> l_read l = Known ans -> In p discardr -> length ans < length p) ->
  exists ws, on_words (discard mt discardr) (docs_words (add_tag mt prefer) keof parts d ds) = Some ws /\
    Forall2 (fun w w' => snd w = snd w' /\ incl (forms (fst w')) (forms (fst w)) /\ (tags (fst w) <> [] -> tags (fst w') <> []) /\
                         sf (fst w') = sf (fst w) /\ ign (fst w') = ign (fst w)) (docs_words (add_tag mt prefer) keof parts d ds) ws.
Proof.
  intros mt prefer discardr keof parts d ds H.
  set (R := fun w w' : tword * bool => snd w = snd w' /\ incl (forms (fst w')) (forms (fst w)) /\ (tags (fst w) <> [] -> tags (fst w') <> []) /\
                         sf (fst w') = sf (fst w) /\ ign (fst w') = ign (fst w)).
  assert (One : forall w b, wok w -> (isAmbiguous w = true -> forall p, In p discardr -> length (forms w) < length p) -> exists w', discard mt discardr w = Some w' /\ R (w, b) (w', b)).
  { intros w b [S T] Hl. unfold discard. destruct (isAmbiguous w).
    - destruct (discard_all_ok mt discardr w) as (w' & E & _ & I & K & _); [|exact (Hl eq_refl)|].
      { split; [exact S|]. rewrite T. split; [exact S|apply incl_refl]. }
      exists w'. split; [exact E|]. destruct (discard_all_same _ _ _ _ E) as (A1 & A2 & _). unfold R. cbn. auto.
    - exists w. split; [reflexivity|]. unfold R. cbn. split; [reflexivity|]. split; [apply incl_refl|]. auto. }
  assert (All : forall l, Forall (fun x => wok (fst x) /\ (isAmbiguous (fst x) = true -> forall p, In p discardr -> length (forms (fst x)) < length p)) l ->
     exists ws, on_words (discard mt discardr) l = Some ws /\ Forall2 R l ws).
  { induction 1 as [|[w b] l [H1 H2] _ (ws & E & F)]; [exists []; split; [reflexivity|constructor]|]. cbn [fst] in *.
    destruct (One w b H1 H2) as (w' & E' & Hr). exists ((w', b) :: ws). cbn [on_words]. rewrite E', E. split; [reflexivity|]. constructor; assumption. }
  apply All.
  assert (Wk : forall first pss k, wok first -> forms first = [] -> wok (word_k (add_tag mt prefer) first pss k) /\ length (forms (word_k (add_tag mt prefer) first pss k)) <= length pss).
  { intros first pss k Hf Hn. unfold word_k. set (b := match k with 0 => first | _ => tword0 true end).
    assert (Hb : wok b /\ forms b = []). { subst b. destruct k; [auto|]. split; [split; [constructor|reflexivity]|reflexivity]. }
    destruct Hb as [Hb1 Hb2].
    assert (Q : forall pss w, wok w -> wok (fold_left (fun w ps => match nth_error ps k with Some (t, v) => add_tag mt prefer v t w | None => w end) pss w) /\
       length (forms (fold_left (fun w ps => match nth_error ps k with Some (t, v) => add_tag mt prefer v t w | None => w end) pss w)) <= length pss + length (forms w)).
    { clear. induction pss as [|ps pss IH]; intros w Hw; [split; [exact Hw|cbn; lia]|]. cbn [fold_left length]. destruct (nth_error ps k) as [[t v]|].
      - destruct (IH _ (add_wok mt prefer v t w Hw)) as [I1 I2]. split; [exact I1|]. pose proof (add_len mt prefer v t w). lia.
      - destruct (IH w Hw) as [I1 I2]. split; [exact I1|lia]. }
    destruct (Q pss b Hb1) as [Q1 Q2]. rewrite Hb2 in Q2. cbn in Q2. cbn [forms]. split; [exact Q1|lia]. }
  assert (Doc : forall d', In d' (d :: ds) -> Forall (fun x => wok (fst x) /\ (isAmbiguous (fst x) = true -> forall p, In p discardr -> length (forms (fst x)) < length p)) (doc_words (add_tag mt prefer) keof parts d')).
  { intros d' Hd'. unfold doc_words. apply Forall_app. split.
    - apply Forall_map, Forall_forall. intros w Hw. cbn [fst]. apply in_flat_map in Hw as (l & Hl & Hw). unfold words_of in Hw.
      assert (W0 : wok (first_word l)) by (split; [constructor|reflexivity]).
      destruct (l_read l) as [ans|s] eqn:El.
      + unfold lu_words in Hw. apply in_map_iff in Hw as (k & <- & _). destruct (Wk (first_word l) (map parts ans) k W0 eq_refl) as [K1 K2].
        split; [exact K1|]. intros _ p Hp. specialize (H d' l ans p Hd' Hl El Hp). rewrite map_length in K2. lia.
      + destruct Hw as [<-|[]]. split; [exact W0|discriminate].
    - constructor; [|constructor]. split; [split; [constructor; constructor|reflexivity]|discriminate]. }
  clear - Doc. revert d Doc. induction ds as [|d2 ds IH]; intros d Doc; cbn [docs_words].
  - apply Doc. left. reflexivity.
  - apply Forall_app. split; [apply Doc; left; reflexivity|]. apply IH. intros d' Hd'. apply Doc. right. exact Hd'.
Qed.
Print Assumptions C47_defined.

(** ** concrete cases: a matcher for a finite list of lexical forms *)
Definition dict : list (str * nat) :=
  [(u "a<n>"%string, 1); (u "a<v>"%string, 2); (u "b<pr>"%string, 3); (u "a<n>+b<pr>+x<z>"%string, 4); (u "c<n>"%string, 1)].
Fixpoint prefix (a b : str) : bool := match a, b with [], _ => true | x :: a, y :: b => (x =?c y) && prefix a b | _, [] => false end.
Definition dfin (m : str) : option nat := match filter (fun x => str_eqb (fst x) m) dict with (_, v) :: _ => Some v | [] => None end.
Definition ddead (m : str) : bool := negb (existsb (fun x => prefix m (fst x)) dict).
Definition dstep (m : str) (c : char) : str := m ++ [c].
Definition dtag (m : str) (n : str) : str := m ++ n.
Definition run_words (nf : bool) (s : str) := words (fun _ _ => false) [] [] 9 8 str [] dstep dtag dfin ddead nf (S (length s)) s.

Definition C (s : str) : list tok := map TC s.
Definition T (n : str) : list tok := [TT n].
Definition a_n := (C (u "a"%string) ++ T (u "n"%string)).
Definition a_v := (C (u "a"%string) ++ T (u "v"%string)).
Definition b_pr := (C (u "b"%string) ++ T (u "pr"%string)).
Definition plus := [TC cPLUS].
Definition ex_parts (a : list tok) : list (str * nat) :=
  if str_eqb (text a) (u "a<n>"%string) then [(u "a<n>"%string, 1)] else
  if str_eqb (text a) (u "a<v>"%string) then [(u "a<v>"%string, 2)] else
  if str_eqb (text a) (u "q<v>"%string) then [(u "q<v>"%string, 8)] else
  if str_eqb (text a) (u "a<n>+b<pr>"%string) then [(u "a<n>"%string, 1); (u "b<pr>"%string, 3)] else [(u "a<v>"%string, 2); (u "a<n>"%string, 1); (u "b<pr>"%string, 3)].
Definition ex_doc1 : doc := mkdoc
  [mklu [] (u "as"%string) (Known [a_n; a_v]); mklu (u " [<i>\^]"%string) (u "ab"%string) (Known [a_n ++ plus ++ b_pr]);
   mklu (u " "%string) (u "zz"%string) (Unknown (u "zz"%string)); mklu (u " "%string) (u "q"%string) (Known [C (u "q"%string) ++ T (u "v"%string)])] (u "."%string).
Definition ex_doc2 : doc := mkdoc [mklu (u "!"%string) (u "aab"%string) (Known [a_v ++ plus ++ a_n ++ plus ++ b_pr])] (u " end "%string).
Lemma ex_lrlm : forall d, In d [ex_doc1; ex_doc2] -> analyses_in (fun a => lrlm str [] dstep dtag dfin ddead 8 false a (ex_parts a)) d.
Proof.
  intros d Hd l ans a Hl Hr Ha. destruct Hd as [<-|[<-|[]]].
  - destruct Hl as [<-|[<-|[<-|[<-|[]]]]]; inversion Hr; subst; cbn in Ha.
    + destruct Ha as [<-|[<-|[]]]; apply L_whole; vm_compute; reflexivity.
    + destruct Ha as [<-|[]]. eapply (L_cut _ _ _ _ _ _ _ _ _ true a_n 1 b_pr); [vm_compute; reflexivity|discriminate|]. apply (L_whole _ _ _ _ _ _ _ true b_pr 3). vm_compute. reflexivity.
    + destruct Ha as [<-|[]]. apply L_none. vm_compute. reflexivity.
  - destruct Hl as [<-|[]]; inversion Hr; subst; cbn in Ha. destruct Ha as [<-|[]].
    eapply (L_cut _ _ _ _ _ _ _ _ _ false a_v 2 (a_n ++ plus ++ b_pr)); [vm_compute; reflexivity|discriminate|].
    eapply (L_cut _ _ _ _ _ _ _ _ _ true a_n 1 b_pr); [vm_compute; reflexivity|discriminate|]. apply (L_whole _ _ _ _ _ _ _ true b_pr 3). vm_compute. reflexivity.
Qed.
Fixpoint plainb (st bd : char -> bool) (s : str) : bool :=
  match s with
  | [] => true
  | c :: r => if c =?c cBS then match r with [] => false | d :: r' => negb (bd d) && plainb st bd r' end else negb (st c) && plainb st bd r
  end.
Lemma plainb_ok (stop bad : char -> Prop) st bd : (forall c, stop c -> st c = true) -> (forall c, bad c -> bd c = true) ->
  forall n s, length s <= n -> plainb st bd s = true -> plain stop bad s.
Proof.
  intros H1 H2. induction n as [|n IH]; intros s Hn E; (destruct s as [|c r]; [constructor|]); cbn in Hn; [lia|]. cbn [plainb] in E.
  destruct (ceq_spec c cBS) as [->|N].
  - destruct r as [|d r]; [discriminate|]. apply andb_true_iff in E as [E1 E2]. apply P_esc; [intros K; apply H2 in K; rewrite K in E1; discriminate|].
    apply IH; [cbn in Hn; lia|exact E2].
  - apply andb_true_iff in E as [E1 E2]. apply P_char; [exact N|intros K; apply H1 in K; rewrite K in E1; discriminate|]. apply IH; [lia|exact E2].
Qed.
Lemma blankb s : plainb (fun c => (c =?c cCARET) || (c =?c cNUL)) (fun c => c =?c cNUL) s = true -> blank_ok true s.
Proof.
  apply (plainb_ok _ _ _ _) with (n := length s); [| |reflexivity].
  - intros c [->|[_ ->]]; reflexivity.
  - intros c [_ ->]. reflexivity.
Qed.
Lemma partb s : plainb (fun c => (c =?c cSLASH) || (c =?c cDOL) || (c =?c cNUL)) (fun c => false) s = true -> part_ok true s.
Proof.
  apply (plainb_ok _ _ _ _) with (n := length s); [| |reflexivity].
  - intros c [->|[->|[_ ->]]]; reflexivity.
  - intros c [].
Qed.
Ltac toks_ok := repeat (constructor; [try (cbn; discriminate); cbn; split; intros K; vm_compute in K; decompose [or] K; (discriminate || contradiction)|]); constructor.
Ltac lu_tac := split; [apply blankb; vm_compute; reflexivity|split; [apply partb; vm_compute; reflexivity|cbn [l_read]]].
Ltac an_tac := split; [toks_ok|split; [apply partb; vm_compute; reflexivity|vm_compute; reflexivity]].
Lemma ex_ok : Forall (doc_ok true) [ex_doc1; ex_doc2].
Proof.
  constructor; [|constructor; [|constructor]]; (split; [cbn [d_lus ex_doc1 ex_doc2]|apply blankb; vm_compute; reflexivity]).
  - constructor; [lu_tac; split; [discriminate|constructor; [an_tac|constructor; [an_tac|constructor]]]|].
    constructor; [lu_tac; split; [discriminate|constructor; [an_tac|constructor]]|].
    constructor; [lu_tac; apply partb; vm_compute; reflexivity|].
    constructor; [lu_tac; split; [discriminate|constructor; [an_tac|constructor]]|]. constructor.
  - constructor; [lu_tac; split; [discriminate|constructor; [an_tac|constructor]]|]. constructor.
Qed.
Example ex_words : run_words true (docs_text ex_doc1 [ex_doc2]) =
  on_words (discard (fun _ _ => false) []) (docs_words (add_tag (fun _ _ => false) []) 9 ex_parts ex_doc1 [ex_doc2]).
Proof. apply C47_words_partial; [reflexivity|right; reflexivity|exact ex_ok|exact ex_lrlm]. Qed.
(** the words, computed *)
Example ex_computed : run_words true (docs_text ex_doc1 [ex_doc2]) = Some
  [(mktw (u "as"%string) [1; 2] [(1, u "a<n>"%string); (2, u "a<v>"%string)] [] false false, false);
   (mktw (u "ab"%string) [1] [(1, u "a<n>"%string)] (u " [<i>\^]"%string) true false, false);
   (mktw [] [3] [(3, u "b<pr>"%string)] [] false true, false);
   (mktw (u "zz"%string) [] [] (u " "%string) false false, false);
   (mktw (u "q"%string) [8] [(8, u "q<v>"%string)] (u " "%string) false false, false);
   (mktw [] [9] [(9, [])] (u "."%string) false false, true);
   (mktw (u "aab"%string) [2] [(2, u "a<v>"%string)] (u "!"%string) true false, false);
   (mktw [] [1] [(1, u "a<n>"%string)] [] true true, false);
   (mktw [] [3] [(3, u "b<pr>"%string)] [] false true, false);
   (mktw [] [9] [(9, [])] (u " end "%string) false false, true)].
Proof. vm_compute. reflexivity. Qed.

(** ** findings *)
(** A lexical unit without analyses swallows the next one: its analysis is the text up to the next slash. *)
Theorem C47_no_analysis_refuted :
  run_words false (u "^a$ ^b/c<n>$"%string) = Some
  [(mktw (u "a"%string) [1; 8] [(1, u "c<n>"%string); (8, u "a ^b"%string)] (u "$"%string) false false, false); (mktw [] [9] [(9, [])] [] false false, true)].
Proof. vm_compute. reflexivity. Qed.
Print Assumptions C47_no_analysis_refuted.
(** Superblanks are not recognised: a caret in one starts a lexical unit. *)
Theorem C47_superblank_refuted :
  run_words false (u "[^]^b/c<n>$"%string) = Some
  [(mktw (u "]^b"%string) [1] [(1, u "c<n>"%string)] (u "["%string) false false, false); (mktw [] [9] [(9, [])] [] false false, true)].
Proof. vm_compute. reflexivity. Qed.
Print Assumptions C47_superblank_refuted.
(** A lexical unit cut off by the end of a document gets the end mark as a further reading. *)
Theorem C47_truncated_refuted :
  run_words false (u "^b/a<n>/c"%string) = Some
  [(mktw (u "b"%string) [1; 9] [(1, u "a<n>"%string); (9, [])] (u "c"%string) false false, true)].
Proof. vm_compute. reflexivity. Qed.
Print Assumptions C47_truncated_refuted.
(** Analyses with different numbers of parts: the parts of one are joined with readings of the other; taking the
    second tag of the first word writes "a<v>+b<pr>", which is not an analysis. *)
Theorem C47_mixed_refuted :
  run_words false (u "^ab/a<n>+b<pr>/a<v>$"%string) = Some
  [(mktw (u "ab"%string) [1; 2] [(1, u "a<n>"%string); (2, u "a<v>"%string)] [] true false, false);
   (mktw [] [3] [(3, u "b<pr>"%string)] [] false true, false); (mktw [] [9] [(9, [])] [] false false, true)]
  /\ get_lexical_form false true false (Some 2) (mktw (u "ab"%string) [1; 2] [(1, u "a<n>"%string); (2, u "a<v>"%string)] [] true false)
     ++ get_lexical_form false true false (Some 3) (mktw [] [3] [(3, u "b<pr>"%string)] [] false true) = (u "^a<v>+b<pr>$"%string).
Proof. split; vm_compute; reflexivity. Qed.
Print Assumptions C47_mixed_refuted.
