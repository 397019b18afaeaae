(** C58: apertium-tmxbuild.  Spec/TmxBuild.v: documents, sentences, segments and units;
    Spec/TmxAlign.v: alignments.  Model: Model/TmxBuild.v ([generateTMX]: the contents of the two
    files to the TMX; [None]: the program ends with an exception).  The character classes of ICU
    outside ASCII are arbitrary ([oa od os op]). *)
From Coq Require Import QArith String Lia.
From Verif Require Import Model.Base Model.TmxAlign Model.TmxBuild Spec.TmxAlign Spec.TmxBuild Proofs.Base
  Proofs.TmxAlign Proofs.TmxTool Proofs.TmxRead Proofs.TmxSegment Proofs.TmxSplit Proofs.TmxUtf8 Proofs.TmxPrint
  Proofs.TmxDoc.
From Verif Require Props.C57.
Open Scope Z_scope.

(** ** What is written *)
(** Documents of characters of the basic plane, without newlines outside blanks. *)
Definition document (d : list item) : Prop :=
  Forall item_ok d /\ Forall (fun i => match i with Char c | Esc c => c <> cNL | _ => True end) d.
(** Names of languages: no NUL, one code unit each. *)
Definition name (s : str) : Prop := forall c, In c s -> (0 < c < 65536)%N.

Section Statement.
Variables oa od os op : char -> bool.
Notation alpha := (u_isalpha oa).
Notation alnum := (u_isalnum oa od).
Notation space := (u_isspace os).
Notation punct := (u_ispunct op).

(** [book d b]: the sentences of the document, each as its words. *)
Definition book (d : list item) (b : list (list str)) : Prop :=
  exists l, sentences space d l /\ Forall2 words (map text l) b.

Lemma book_exists d : exists b, book d b.
Proof.
  destruct (sentences_exist os d) as (l & H).
  assert (W : exists b, Forall2 words (map text l) b).
  { clear. induction (map text l) as [|t ts (b & IH)]; [exists []; constructor|].
    destruct (words_exist t) as (w & W). exists (w :: b). now constructor. }
  destruct W as (b & W). exists b, l. auto.
Qed.

(** The bytes of a book. *)
Definition bytes (b : list (list str)) : list (list str) := map (map utf8) b.

(** [cuts] is an alignment of the two books (of C57): sentences are compared as bytes; the points
    are some of those of a cheapest path within the band; from the border of the grid on, every
    sentence is in one piece. *)
Definition alignment (src trg : list (list str)) (cuts : list (Z * Z)) : Prop :=
  let n := Z.of_nat (List.length src) in
  let m := Z.of_nat (List.length trg) in
  exists sim slen tlen lead trail cost p q,
    similarities (bytes src) (bytes trg) (search_thickness n m) sim /\
    lengths (bytes src) slen /\ lengths (bytes trg) tlen /\
    cheapest sim slen tlen (band n m (search_thickness n m)) (0, 0) (n, m) (lead ++ trail) cost /\
    thin trail cuts /\
    hd_error trail = Some (Z.of_nat p, Z.of_nat q) /\ (p = O \/ q = O) /\
    concat (map fst (pieces cuts src trg)) = skipn p src /\
    concat (map snd (pieces cuts src trg)) = skipn q trg /\
    (forall g, In g (pieces cuts src trg) -> g <> ([], [])).

(** Missing for the property as one would want it: see the refutations below. *)
Theorem C58_tmx_partial : forall lang1 lang2 ln show thr version d1 d2 b1 b2,
  document d1 -> document d2 -> name lang1 -> name lang2 ->
  (forall x c, In c (show x) -> (32 <= c < 127)%N) ->
  book d1 b1 -> book d2 b2 ->
  let n := Z.of_nat (List.length b1) + 1 in
  let m := Z.of_nat (List.length b2) + 1 in
  m <= 5 * n + 4 -> n <= 5 * m + 4 -> (n + 1) * (m + 1) <= 2 ^ 31 ->
  exists cuts units,
    generateTMX oa od os op lang1 lang2 ln show thr version (raw d1) (raw d2)
      = Some (tmx version lang1 lang2 units) /\
    alignment (b1 ++ [[]]) (b2 ++ [[]]) cuts /\
    units_of alpha alnum space punct lang1 lang2 true (pieces cuts (b1 ++ [[]]) (b2 ++ [[]])) units.
Proof.
  intros lang1 lang2 ln show thr version d1 d2 b1 b2 (F1 & G1) (F2 & G2) N1 N2 Sh (l1 & S1 & W1) (l2 & S2 & W2) n m R1 R2 Ov.
  destruct (split_ok os d1 l1 b1 S1 F1 G1 W1) as (f1 & Ef1 & Rf1).
  destruct (split_ok os d2 l2 b2 S2 F2 G2 W2) as (f2 & Ef2 & Rf2).
  set (src := b1 ++ [[]]) in *. set (trg := b2 ++ [[]]) in *.
  assert (So1 : solid_book src) by exact (book_solid os d1 l1 b1 S1 F1 W1).
  assert (So2 : solid_book trg) by exact (book_solid os d2 l2 b2 S2 F2 W2).
  assert (Ls : Z.of_nat (List.length src) = n) by (unfold src, n; rewrite app_length; cbn; lia).
  assert (Lt : Z.of_nat (List.length trg) = m) by (unfold trg, m; rewrite app_length; cbn; lia).
  assert (Ls' : Z.of_nat (List.length (enc src)) = n) by (unfold enc; rewrite map_length; exact Ls).
  assert (Lt' : Z.of_nat (List.length (enc trg)) = m) by (unfold enc; rewrite map_length; exact Lt).
  destruct (tool_ok ln show thr (enc src) (enc trg))
    as (sim & slen & tlen & lead & trail & cost & cuts & p & q & scores & E & Len & Si & Sl & Tl & Ch & Th & Hd & Pq & C1 & C2 & NE);
    try lia.
  rewrite Ls', Lt' in *. rewrite pieces_enc in *. rewrite map_length in Len.
  assert (In1 : forall g, In g (pieces cuts src trg) -> solid_book (fst g) /\ solid_book (snd g)).
  { intros g Hg. destruct (pieces_in cuts src trg g Hg) as (A & B). split; intros s w I J; [apply (So1 s w)|apply (So2 s w)]; auto. }
  destruct (aligned_out oa od os op lang1 lang2 show N1 N2 Sh (pieces cuts src trg) scores Len In1) as (us & Eu & U).
  exists cuts, us. split.
  - unfold generateTMX, outputTU. rewrite Ef1, Ef2. unfold alignerToolWithFilenames. rewrite Rf1, Rf2, E.
    change (list (list (list str))) with (list (list (list str))) in *.
    cbv beta. rewrite Eu. unfold tmx, Spec.TmxBuild.q. rewrite !c_str_good by assumption. reflexivity.
  - split; [|exact U]. unfold alignment. rewrite Ls, Lt.
    exists sim, slen, tlen, lead, trail, cost, p, q.
    assert (D : forall (f : list (list str) * list (list str) -> list (list str)) book k, (f = fst \/ f = snd) -> solid_book book ->
      concat (map f (map (fun g => (enc (fst g), enc (snd g))) (pieces cuts src trg))) = skipn k (enc book) ->
      concat (map f (pieces cuts src trg)) = skipn k book).
    { intros f bk k Hf Sb H. apply enc_inj.
      - apply solid_book_good. intros s w I J. apply in_concat in I. destruct I as (x & X & I). apply in_map_iff in X.
        destruct X as (g & <- & X). destruct (In1 g X) as (A & B). destruct Hf as [-> | ->]; eauto.
      - apply solid_book_good. intros s w I J. apply (Sb s w); [|exact J].
        rewrite <- (firstn_skipn k bk). apply in_or_app. now right.
      - unfold enc at 2. rewrite <- skipn_map. fold (enc bk). rewrite <- H, <- enc_concat, !map_map. f_equal.
        apply map_ext. intros g. destruct Hf as [-> | ->]; reflexivity. }
    split; [exact Si|]. split; [exact Sl|]. split; [exact Tl|]. split; [exact Ch|]. split; [exact Th|].
    split; [exact Hd|]. split; [exact Pq|].
    split; [apply (D fst src p); auto|]. split; [apply (D snd trg q); auto|].
    intros g Hg E0. apply (NE (enc (fst g), enc (snd g))); [|rewrite E0; reflexivity].
    apply in_map_iff. exists g. auto.
Qed.
End Statement.
Print Assumptions C58_tmx_partial.

(** Documents of very different sizes: no unit at all. *)
Theorem C58_sizes : forall oa od os op lang1 lang2 ln show thr version d1 d2 b1 b2,
  document d1 -> document d2 -> name lang1 -> name lang2 ->
  book os d1 b1 -> book os d2 b2 ->
  let n := Z.of_nat (List.length b1) + 1 in
  let m := Z.of_nat (List.length b2) + 1 in
  5 * n + 4 < m \/ 5 * m + 4 < n ->
  generateTMX oa od os op lang1 lang2 ln show thr version (raw d1) (raw d2) = Some (tmx version lang1 lang2 []).
Proof.
  intros oa od os op lang1 lang2 ln show thr version d1 d2 b1 b2 (F1 & G1) (F2 & G2) N1 N2 (l1 & S1 & W1) (l2 & S2 & W2) n m R.
  destruct (split_ok os d1 l1 b1 S1 F1 G1 W1) as (f1 & Ef1 & Rf1).
  destruct (split_ok os d2 l2 b2 S2 F2 G2 W2) as (f2 & Ef2 & Rf2).
  unfold generateTMX, outputTU. rewrite Ef1, Ef2.
  rewrite (C57.C57_sizes ln show thr f1 f2 _ _ Rf1 Rf2).
  - unfold tmx, Spec.TmxBuild.q. rewrite !c_str_good by assumption. reflexivity.
  - unfold enc. rewrite !map_length, !app_length. cbn [List.length]. lia.
Qed.
Print Assumptions C58_sizes.

(** Whatever the files are: if the program ends normally it has written a TMX in which every unit
    has an empty source segment. *)
Theorem C58_source_empty : forall oa od os op lang1 lang2 ln show thr version f1 f2 out,
  generateTMX oa od os op lang1 lang2 ln show thr version f1 f2 = Some out ->
  exists units, out = tmx version (c_str lang1) (c_str lang2) units /\
    forall x, In x units -> exists seg, x = tu (c_str lang1) [] (c_str lang2) seg.
Proof.
  intros oa od os op lang1 lang2 ln show thr version f1 f2 out H. unfold generateTMX, outputTU in H.
  destruct (splitAndMove os f1) as [fl|]; [|discriminate]. destruct (splitAndMove os f2) as [fr|]; [|discriminate].
  destruct (alignerToolWithFilenames ln show thr fl fr) as [a|]; [|discriminate].
  destruct (read_source_empty oa od os op lang1 lang2 (utf8_decode a) 0 [] []) as (us & E & F).
  exists us. split.
  - injection H as <-. rewrite E. reflexivity.
  - intros x X. exact (proj1 (Forall_forall _ _) F x X).
Qed.
Print Assumptions C58_source_empty.

(** A blank that is not closed ends the program. *)
Lemma rest_open b : blank_text b -> restOfBlank b = None.
Proof.
  induction 1 as [|c b H IH|c b N1 N2 H IH]; cbn [restOfBlank]; [reflexivity|..].
  - change (cBS =? cBS)%N with true. cbn iota. now rewrite IH.
  - destruct (N.eqb_spec c cBS); [congruence|]. destruct (N.eqb_spec c cRB); [congruence|]. now rewrite IH.
Qed.
Lemma next_open os b : blank_text b -> forall d, Forall item_ok d -> forall f cur,
  (List.length d < f)%nat ->
  nextTU os f (raw d ++ cLB :: b) cur = None \/
  exists t d', nextTU os f (raw d ++ cLB :: b) cur = Some (t, raw d' ++ cLB :: b, false) /\ Forall item_ok d' /\
               (List.length d' < List.length d)%nat.
Proof.
  intros B. induction d as [|i d IH]; intros F f cur L; (destruct f as [|f]; [lia|]); cbn [List.length] in L.
  - left. cbn [raw map concat app nextTU]. change (cLB =? cBS)%N with false. change (cLB =? cLB)%N with true. cbn iota.
    now rewrite rest_open.
  - inversion F as [|? ? Hi Fd Eq]. subst. rewrite raw_cons, <- app_assoc.
    assert (G : forall cur', nextTU os f (raw d ++ cLB :: b) cur' = None \/
       exists t d', nextTU os f (raw d ++ cLB :: b) cur' = Some (t, raw d' ++ cLB :: b, false) /\ Forall item_ok d' /\
               (List.length d' < List.length (i :: d))%nat).
    { intros cur'. destruct (IH Fd f cur' ltac:(lia)) as [E|(t & d' & E & F' & L')]; [now left|right; exists t, d']. cbn [List.length].
      split; [exact E|]. split; [exact F'|lia]. }
    destruct i as [c|c|x| |c]; cbn [raw_item app nextTU].
    + destruct Hi as (_ & Ni). cbn in Ni.
      destruct (N.eqb_spec c cBS); [exfalso; apply Ni; auto|]. destruct (N.eqb_spec c cLB); [exfalso; apply Ni; auto|].
      destruct (N.eqb_spec c cDOT); [exfalso; apply Ni; auto 6|]. destruct (N.eqb_spec c cQM); [exfalso; apply Ni; auto 6|].
      destruct (N.eqb_spec c 33); [exfalso; apply Ni; auto 7|]. cbn [orb]. apply G.
    + change (cBS =? cBS)%N with true. cbn iota. apply G.
    + change (cLB =? cBS)%N with false. change (cLB =? cLB)%N with true. cbn iota.
      rewrite <- app_assoc. cbn [app]. rewrite rest_ok by exact Hi. apply G.
    + change (cDOT =? cBS)%N with false. change (cDOT =? cLB)%N with false. change (cDOT =? cDOT)%N with true. cbn iota.
      destruct (raw d ++ cLB :: b) as [|y z] eqn:E; [destruct (raw d); discriminate|].
      destruct (negb (y =? cLB)%N && negb (u_isspace os y)).
      * apply G.
      * right. eexists _, d. split; [rewrite E; reflexivity|]. split; [exact Fd|cbn; lia].
    + assert (E : (c =? cBS)%N = false /\ (c =? cLB)%N = false /\ (c =? cDOT)%N = false /\ (c =? cQM)%N || (c =? 33)%N = true).
      { destruct Hi as [-> | ->]; repeat split. }
      destruct E as (E1 & E2 & E3 & E4). rewrite E1, E2, E3, E4.
      right. eexists _, d. split; [reflexivity|]. split; [exact Fd|cbn; lia].
Qed.
Lemma list_open os b : blank_text b -> forall n d f, (List.length d <= n)%nat -> Forall item_ok d ->
  sentenceList os f (raw d ++ cLB :: b) = None.
Proof.
  intros B. induction n as [|n IH]; intros d f L F; (destruct f as [|f]; [reflexivity|]); cbn [sentenceList].
  - destruct d; [|cbn in L; lia].
    destruct (next_open os b B [] F (List.length (raw [] ++ cLB :: b) + 2) []) as [E|(t & d' & _ & _ & L')]; [cbn; lia| |cbn in L'; lia].
    now rewrite E.
  - destruct (next_open os b B d F (List.length (raw d ++ cLB :: b) + 2) []) as [E|(t & d' & E & F' & L')].
    { rewrite app_length. pose proof (raw_length d). lia. }
    + now rewrite E.
    + rewrite E. cbv beta iota. rewrite IH; [reflexivity|lia|exact F'].
Qed.
Theorem C58_unclosed_blank : forall oa od os op lang1 lang2 ln show thr version d b f2,
  Forall item_ok d -> blank_text b ->
  generateTMX oa od os op lang1 lang2 ln show thr version (raw d ++ cLB :: b) f2 = None.
Proof.
  intros. unfold generateTMX, outputTU, splitAndMove. erewrite list_open; eauto.
Qed.
Print Assumptions C58_unclosed_blank.

(** ** Segments *)
Section Segments.
Variables oa od os op : char -> bool.
Notation alpha := (u_isalpha oa).
Notation alnum := (u_isalnum oa od).
Notation space := (u_isspace os).
Notation punct := (u_ispunct op).
Notation blank_tok := (empty_tok alnum punct).
Notation seg := (segment alpha alnum space punct).

(** Every text has one segment. *)
Theorem C58_segment_unique : forall s, exists t, seg s t /\ forall t', seg s t' -> t' = t.
Proof.
  intros s. exists (TmxBuild.filter oa od os op s). split; [apply filter_ok|].
  intros t' H. eapply segment_fun; [exact H|apply filter_ok].
Qed.

(** If no placeholder stands between the blanks at the beginning or the end, the segment is the
    text without blanks, placeholders and full stops at its ends. *)
Lemma skip_both {A} (f g : A -> bool) l :
  match skip_while g (skip_while f l) with x :: _ => f x = false | [] => True end ->
  skip_while (fun x => f x || g x) l = skip_while g (skip_while f l).
Proof.
  induction l as [|x l IH]; [reflexivity|]. cbn [skip_while]. destruct (f x) eqn:Fx; cbn [orb]; [exact IH|].
  clear IH. cbn [skip_while]. destruct (g x) eqn:Gx; [|reflexivity].
  induction l as [|y l IH]; [reflexivity|]. cbn [skip_while]. destruct (g y) eqn:Gy; [rewrite orb_true_r; exact IH|].
  intros ->. reflexivity.
Qed.
Theorem C58_trimmed : forall l,
  (forall r, skip_while blank_tok (skip_while is_ph l) <> Ph :: r) ->
  (forall r, skip_while blank_tok (skip_while is_ph (rev (skip_while (fun t => is_ph t || blank_tok t) l))) <> Ph :: r) ->
  cleaned alnum punct l = trimmed alnum punct l.
Proof.
  intros l H1 H2. unfold cleaned, trimmed. f_equal.
  assert (E : skip_while (fun t => is_ph t || blank_tok t) l = skip_while blank_tok (skip_while is_ph l)).
  { apply skip_both. destruct (skip_while blank_tok _) as [|[|c| |] r]; try exact I; try reflexivity. destruct (H1 r eq_refl). }
  assert (E' : cleaned_left alnum punct l = skip_while (fun t => is_ph t || blank_tok t) l).
  { rewrite E. unfold cleaned_left. destruct (skip_while blank_tok _) as [|[|c| |] r]; try reflexivity. destruct (H1 r eq_refl). }
  rewrite E'. clear E E'. set (l' := skip_while (fun t => is_ph t || blank_tok t) l) in *. unfold cleaned_right, skip_back. f_equal.
  clearbody l'. rewrite (skip_both is_ph blank_tok); destruct (skip_while blank_tok (skip_while is_ph (rev l'))) as [|[|c| |] r];
    try exact I; try reflexivity; destruct (H2 r eq_refl).
Qed.

(** Such a segment is well-formed XML content. *)
Lemma xml_content l : ~ In Cut l -> content (xml l).
Proof.
  induction l as [|t l IH]; intros N; [constructor|]. rewrite xml_cons.
  assert (C : content (xml l)) by (apply IH; intros H; apply N; now right).
  destruct t as [|c| |]; cbn [xml_tok].
  - now apply co_ph.
  - destruct (N.eqb_spec c cLT); [now apply co_lt|]. destruct (N.eqb_spec c cGT); [now apply co_gt|].
    destruct (N.eqb_spec c 38); [now apply co_amp|]. now apply co_chr.
  - apply co_chr; [discriminate|discriminate|exact C].
  - exfalso. apply N. now left.
Qed.
Lemma skip_in {A} (f : A -> bool) l x : In x (skip_while f l) -> In x l.
Proof. induction l as [|y l IH]; [intros []|]. cbn. destruct (f y); intros H; [right; auto|exact H]. Qed.
Lemma tokens_nocut s : ~ In Cut (tokens s).
Proof.
  assert (H : forall n s, (List.length s <= n)%nat -> ~ In Cut (tokens s)).
  { clear. induction n as [|n IH]; intros s L; [destruct s; [intros []|cbn in L; lia]|].
    destruct s as [|c s]; [intros []|]. cbn [List.length] in L.
    destruct (starts (u "<ph/>") (c :: s)) eqn:S.
    - apply starts_ph in S. destruct S as (r & E). rewrite E, tokens_ph. intros [H|H]; [discriminate|]. revert H. apply IH.
      apply (f_equal (@List.length char)) in E. rewrite app_length in E. cbn in E. lia.
    - rewrite tokens_ch by exact S. intros [H|H]; [discriminate|]. revert H. apply IH. lia. }
  apply (H (List.length s)); lia.
Qed.
Theorem C58_wellformed : forall s t, seg s t ->
  (forall r, skip_while blank_tok (skip_while is_ph (rev (cleaned_left alnum punct (tokens s)))) <> Ph :: r) ->
  content t.
Proof.
  intros s t [N|Y] H; [constructor|]. apply xml_content. intros C. unfold cleaned, skip_back in C.
  apply in_rev in C. apply skip_in in C. apply in_rev in C. unfold cleaned_right in C. apply in_rev in C.
  set (l := cleaned_left alnum punct (tokens s)) in *.
  assert (Nl : ~ In Cut l).
  { unfold l, cleaned_left. pose proof (tokens_nocut s) as T. intros D.
    assert (X : In Cut (skip_while blank_tok (skip_while is_ph (tokens s)))).
    { destruct (skip_while blank_tok (skip_while is_ph (tokens s))) as [|[|c| |] r]; try exact D. cbn [app] in D. repeat (destruct D as [D|D]; [discriminate|]). now right. }
    apply skip_in, skip_in in X. tauto. }
  assert (X : In Cut (skip_while blank_tok (skip_while is_ph (rev l)))).
  { clearbody l. destruct (skip_while blank_tok (skip_while is_ph (rev l))) as [|[|c| |] r]; try exact C. destruct (H r eq_refl). }
  apply skip_in, skip_in in X. apply in_rev in X. tauto.
Qed.

(** But a text that begins with a placeholder after a blank (and the second texts of all pairs begin
    with a tab) loses the placeholder's first character. *)
Lemma skip_stop (f : tok -> bool) a : f a = false -> forall m pre, exists r, skip_while f (m ++ a :: pre) = r ++ a :: pre.
Proof.
  intros Fa m pre. induction m as [|y m (r & IH)]; cbn [app skip_while].
  - rewrite Fa. exists []. reflexivity.
  - destruct (f y); [exists r; exact IH|exists (y :: m); reflexivity].
Qed.
Theorem C58_placeholder_damaged : forall blank r t, blank = cTAB \/ blank = cNL \/ blank = cSP ->
  seg (blank :: u "<ph/>" ++ r) t -> t <> [] -> exists t', t = u "ph/" ++ t'.
Proof.
  intros blank r t Hb [N|Y] Nt; [congruence|]. clear Nt Y.
  assert (B : starts (u "<ph/>") (blank :: u "<ph/>" ++ r) = false) by (destruct Hb as [-> | [-> | ->]]; reflexivity).
  rewrite tokens_ch by exact B. rewrite tokens_ph.
  assert (Eb : blank_tok (Ch blank) = true) by (destruct Hb as [-> | [-> | ->]]; reflexivity).
  assert (L : cleaned_left alnum punct (Ch blank :: Ph :: tokens r) = [Ch 112%N; Ch 104%N; Ch 47%N] ++ Gt :: tokens r).
  { unfold cleaned_left. cbn [skip_while is_ph]. cbn [skip_while]. rewrite Eb. reflexivity. }
  assert (R : exists m, cleaned_right alnum punct ([Ch 112%N; Ch 104%N; Ch 47%N] ++ Gt :: tokens r) = [Ch 112%N; Ch 104%N; Ch 47%N] ++ m).
  { unfold cleaned_right. rewrite rev_app_distr. cbn [rev app]. rewrite <- !app_assoc. cbn [app].
    destruct (skip_stop is_ph (Ch 47%N) eq_refl (rev (tokens r) ++ [Gt]) [Ch 104%N; Ch 112%N]) as (m & E).
    rewrite <- app_assoc in E. cbn [app] in E. rewrite E.
    destruct (skip_stop blank_tok (Ch 47%N) eq_refl m [Ch 104%N; Ch 112%N]) as (m2 & E2). rewrite E2.
    destruct m2 as [|[|c| |] m2]; cbn [app].
    - exists []. reflexivity.
    - exists (rev m2 ++ [Cut]). cbn [rev]. rewrite rev_app_distr. cbn [rev app]. reflexivity.
    - exists (rev m2 ++ [Ch c]). cbn [rev]. rewrite rev_app_distr. cbn [rev app]. reflexivity.
    - exists (rev m2 ++ [Gt]). cbn [rev]. rewrite rev_app_distr. cbn [rev app]. reflexivity.
    - exists (rev m2 ++ [Cut]). cbn [rev]. rewrite rev_app_distr. cbn [rev app]. reflexivity. }
  destruct R as (m & R). unfold cleaned. rewrite L, R. unfold skip_back. rewrite rev_app_distr. cbn [rev app].
  destruct (skip_stop is_dot (Ch 47%N) eq_refl (rev m) [Ch 104%N; Ch 112%N]) as (m2 & E). rewrite E, rev_app_distr. cbn [rev app].
  exists (xml (rev m2)). reflexivity.
Qed.
End Segments.
Print Assumptions C58_segment_unique.
Print Assumptions C58_trimmed.
Print Assumptions C58_wellformed.
Print Assumptions C58_placeholder_damaged.

(** ** Concrete documents *)
Definition none (c : char) : bool := false.
Definition show0 (x : Q) : str := u "0".
Definition run (a b : string) : option str :=
  generateTMX none none none none (u "en") (u "es") (fun x => x) show0 (-100) (u "1") (u a) (u b).

Definition chars (s : string) : list item := map Char (u s).
Definition alpha0 := u_isalpha none.
Definition space0 := u_isspace none.
Definition seg0 := segment alpha0 (u_isalnum none none) space0 (u_ispunct none).

Definition en : list item := chars "the white house is red" ++ [Dot].
Definition es : list item := chars "la casa blanca es roja" ++ [Dot].
Definition hi : list item := [Blank (u "<p>")] ++ chars "hi" ++ [Dot].

Lemma doc_ok d : forallb (fun i => match i with
    | Char c => (0 <? c)%N && (c <? 65536)%N && negb (mem c [cBS; cLB; cDOT; cQM; 33%N]) && negb (c =? cNL)%N
    | Dot => true
    | Blank b => forallb (fun c => negb (c =? cBS)%N && negb (c =? cRB)%N) b
    | _ => false end) d = true -> document d.
Proof.
  intros H. split; apply Forall_forall; intros i I; rewrite forallb_forall in H; specialize (H i I); destruct i as [c|c|b| |c];
    try discriminate; try exact Logic.I.
  - repeat (apply andb_prop in H; destruct H as (H & ?)). cbn [item_ok]. unfold plain_char.
    apply N.ltb_lt in H, H2. split; [lia|]. apply negb_true_iff, mem_nIn in H1. exact H1.
  - cbn [item_ok]. clear I. induction b as [|c b IH]; [constructor|]. cbn [forallb] in H. apply andb_prop in H. destruct H as (H & H'). specialize (IH H').
    apply andb_prop in H. destruct H as (H1 & H2). apply negb_true_iff in H1, H2. apply N.eqb_neq in H1, H2.
    now apply bt_chr.
  - repeat (apply andb_prop in H; destruct H as (H & ?)). apply negb_true_iff in H0. now apply N.eqb_neq in H0.
Qed.

Lemma one_sentence d b : Forall (fun i => match i with Dot | Mark _ => False | _ => True end) d ->
  sentences space0 (d ++ [Dot; Blank b]) [d ++ [Dot]].
Proof.
  intros F. change (d ++ [Dot; Blank b]) with (d ++ ([Dot] ++ [Blank b])). rewrite app_assoc. apply ss_more.
  - induction F as [|i d H F IH]; [now apply se_end|]. cbn [app]. apply se_more; [|exact IH].
    destruct i; cbn in *; tauto.
  - apply ss_rest. constructor; [intros []|constructor].
Qed.
Lemma chars_plain s : Forall (fun i => match i with Dot | Mark _ => False | _ => True end) (chars s).
Proof. unfold chars. apply Forall_forall. intros i I. apply in_map_iff in I. destruct I as (c & <- & _). exact Logic.I. Qed.
Lemma seg0_is s t : TmxBuild.filter none none none none s = t -> seg0 s t.
Proof. intros <-. apply filter_ok. Qed.

(** The hypotheses of C58_tmx_partial are met, and a unit is written (for a source text that is too
    short to be a segment). *)
Example C58_witness : exists b1 b2,
  document (hi ++ [Blank []]) /\ document (es ++ [Blank []]) /\
  book none (hi ++ [Blank []]) b1 /\ book none (es ++ [Blank []]) b2 /\
  (let n := Z.of_nat (List.length b1) + 1 in let m := Z.of_nat (List.length b2) + 1 in
   m <= 5 * n + 4 /\ n <= 5 * m + 4 /\ (n + 1) * (m + 1) <= 2 ^ 31) /\
  raw (hi ++ [Blank []]) = u "[<p>]hi.[]" /\ raw (es ++ [Blank []]) = u "la casa blanca es roja.[]" /\
  run "[<p>]hi.[]" "la casa blanca es roja.[]"
  = Some (tmx (u "1") (u "en") (u "es") [tu (u "en") [] (u "es") (u "la casa blanca es roja")]).
Proof.
  assert (W : forall (l : list (list item)), exists ws, Forall2 words (map text l) ws /\ List.length ws = List.length l).
  { intros l. induction l as [|t l (ws & H & L)]; [exists []; split; [constructor|reflexivity]|].
    destruct (words_exist (text t)) as (w & Hw). exists (w :: ws). split; [now constructor|cbn; now rewrite L]. }
  destruct (W [hi]) as (b1 & W1 & L1). destruct (W [es]) as (b2 & W2 & L2).
  exists b1, b2. split; [apply doc_ok; reflexivity|]. split; [apply doc_ok; reflexivity|].
  split. { exists [hi]. split; [|exact W1]. apply (one_sentence (Blank (u "<p>") :: chars "hi")). constructor; [exact I|apply chars_plain]. }
  split. { exists [es]. split; [|exact W2]. apply (one_sentence (chars "la casa blanca es roja")). apply chars_plain. }
  rewrite L1, L2. cbn [List.length]. split; [lia|]. split; [reflexivity|]. split; [reflexivity|]. vm_compute. reflexivity.
Qed.

(** What a user would expect, a text of one sentence and its translation being written as a unit, is
    never the case (C58_source_empty); concretely: *)
Theorem C58_translation_refuted : ~ forall s1 s2 b t1 t2 out,
  document (s1 ++ [b]) -> document (s2 ++ [b]) ->
  sentences space0 (s1 ++ [b]) [s1] -> sentences space0 (s2 ++ [b]) [s2] ->
  seg0 (text s1) t1 -> t1 <> [] -> seg0 (text s2) t2 -> t2 <> [] ->
  generateTMX none none none none (u "en") (u "es") (fun x => x) show0 (-100) (u "1") (raw (s1 ++ [b])) (raw (s2 ++ [b])) = Some out ->
  exists before after, out = before ++ t1 ++ after.
Proof.
  intros H. specialize (H en es (Blank []) (u "the white house is red") (u "la casa blanca es roja") (tmx (u "1") (u "en") (u "es") [])).
  destruct H as (x & y & E).
  - apply doc_ok. reflexivity.
  - apply doc_ok. reflexivity.
  - apply (one_sentence (chars "the white house is red")), chars_plain.
  - apply (one_sentence (chars "la casa blanca es roja")), chars_plain.
  - apply seg0_is. vm_compute. reflexivity.
  - discriminate.
  - apply seg0_is. vm_compute. reflexivity.
  - discriminate.
  - vm_compute. reflexivity.
  - assert (I : In 119%N (tmx (u "1") (u "en") (u "es") [])).
    { rewrite E. apply in_or_app. right. apply in_or_app. left. cbn. auto 10. }
    apply mem_In in I. vm_compute in I. discriminate.
Qed.
Print Assumptions C58_translation_refuted.

(** What follows the last end of a sentence is lost, also after a full stop at the end of the file. *)
Theorem C58_last_sentence_refuted : ~ forall d1 d2 t out,
  document d1 -> document d2 -> seg0 (text d2) t -> t <> [] ->
  generateTMX none none none none (u "en") (u "es") (fun x => x) show0 (-100) (u "1") (raw d1) (raw d2) = Some out ->
  exists before after, out = before ++ t ++ after.
Proof.
  intros H. specialize (H (hi ++ [Blank []]) (chars "we are all here" ++ [Dot]) (u "we are all here") (tmx (u "1") (u "en") (u "es") [])).
  destruct H as (x & y & E).
  - apply doc_ok. reflexivity.
  - apply doc_ok. reflexivity.
  - apply seg0_is. vm_compute. reflexivity.
  - discriminate.
  - vm_compute. reflexivity.
  - assert (I : In 119%N (tmx (u "1") (u "en") (u "es") [])).
    { rewrite E. apply in_or_app. right. apply in_or_app. left. cbn. auto 10. }
    apply mem_In in I. vm_compute in I. discriminate.
Qed.
Print Assumptions C58_last_sentence_refuted.

(** A placeholder before blanks at the end makes the unit ill-formed. *)
Theorem C58_wellformed_refuted : ~ forall s t, seg0 s t -> content t.
Proof.
  intros H. specialize (H (u "a b c d e<ph/> ") (u "a b c d e<ph/")).
  assert (C : content (u "a b c d e<ph/")) by (apply H, seg0_is; vm_compute; reflexivity).
  cbn in C. do 9 (inversion C as [|? ? _ _ C' E|? ? E|? ? E|? ? E|? ? E]; subst; clear C; rename C' into C).
  inversion C as [|? ? X _ _ E|? ? E|? ? E|? ? E|? ? E]; subst. now apply X.
Qed.
Print Assumptions C58_wellformed_refuted.

(** The segment of a text is not always the trimmed one (see C58_placeholder_damaged). *)
Theorem C58_trimmed_refuted : ~ forall s t, seg0 s t -> t <> [] ->
  t = xml (trimmed (u_isalnum none none) (u_ispunct none) (tokens s)).
Proof.
  intros H. specialize (H (cTAB :: u "<ph/>a b c d e") (u "ph/>a b c d e")).
  assert (C : u "ph/>a b c d e" = xml (trimmed (u_isalnum none none) (u_ispunct none) (tokens (cTAB :: u "<ph/>a b c d e"))))
    by (apply H; [apply seg0_is; vm_compute; reflexivity|discriminate]).
  vm_compute in C. discriminate.
Qed.
Print Assumptions C58_trimmed_refuted.

(** Characters outside the basic plane become others. *)
Theorem C58_characters_refuted : ~ forall f1 f2 seg,
  (forall c, In c f2 -> ~ In c [cLB; cLT; cGT; 38%N]) ->
  generateTMX none none none none (u "en") (u "es") (fun x => x) show0 (-100) (u "1") f1 f2
    = Some (tmx (u "1") (u "en") (u "es") [tu (u "en") [] (u "es") seg]) ->
  forall c, In c seg -> In c f2.
Proof.
  intros H. specialize (H (u "hi!") (u "we " ++ [(65536 + 97)%N] ++ u " here too now!") (u "we a here too now!")).
  assert (E : In 97%N (u "we " ++ [(65536 + 97)%N] ++ u " here too now!")).
  { apply H; [|vm_compute; reflexivity|cbn; auto 10]. intros c C D. apply mem_In in C. destruct D as [<-|[<-|[<-|[<-|[]]]]]; vm_compute in C; discriminate. }
  apply mem_In in E. vm_compute in E. discriminate.
Qed.
Print Assumptions C58_characters_refuted.

(** C58_trimmed and C58_wellformed: hypotheses met by a text with placeholders inside and at its ends. *)
Example C58_segment_witness :
  let s := u "<ph/> a b<ph/> c & d <e>." in
  let l := tokens s in
  let e := empty_tok (u_isalnum none none) (u_ispunct none) in
  (forall r, skip_while e (skip_while is_ph l) <> Ph :: r) /\
  (forall r, skip_while e (skip_while is_ph (rev (skip_while (fun t => is_ph t || e t) l))) <> Ph :: r) /\
  (forall r, skip_while e (skip_while is_ph (rev (cleaned_left (u_isalnum none none) (u_ispunct none) l))) <> Ph :: r) /\
  seg0 s (u "a b<ph/> c &amp; d &lt;e&gt;").
Proof.
  cbv zeta. split; [intros r E; vm_compute in E; discriminate|]. split; [intros r E; vm_compute in E; discriminate|].
  split; [intros r E; vm_compute in E; discriminate|]. apply seg0_is. vm_compute. reflexivity.
Qed.
