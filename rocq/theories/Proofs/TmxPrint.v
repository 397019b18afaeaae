(** From the aligned file to the TMX: outputTU, generateTMX. *)
From Coq Require Import QArith String Lia.
From Verif Require Import Model.Base Model.TmxAlign Model.TmxBuild Spec.TmxAlign Spec.TmxBuild Proofs.Base
  Proofs.TmxSegment Proofs.TmxSplit Proofs.TmxUtf8.
Open Scope N_scope.

Definition good_char (c : char) : Prop := 0 < c < 65536.
Definition good (s : str) : Prop := forall c, In c s -> good_char c.
Definition solid (s : str) : Prop := good s /\ ~ In cTAB s /\ ~ In cNL s.

Lemma c_str_good s : good s -> c_str s = s.
Proof.
  intros G. unfold c_str. induction s as [|c s IH]; [reflexivity|]. cbn.
  assert (0 < c < 65536) by (apply G; now left). destruct (N.eqb_spec c 0); [lia|]. cbn. f_equal. apply IH.
  intros d D. apply G. now right.
Qed.

Section Print.
Variables oa od os op : char -> bool.
Variables lang1 lang2 : str.
Notation isalpha := (u_isalpha oa).
Notation isalnum := (u_isalnum oa od).
Notation isspace' := (u_isspace os).
Notation ispunct := (u_ispunct op).
Notation seg := (segment isalpha isalnum isspace' ispunct).

Notation unit_of := (unit_of isalpha isalnum isspace' ispunct lang1 lang2).

(** ** The characters of a segment *)
Definition good_tok (t : tok) : Prop := match t with Ch c => good_char c | _ => True end.
Lemma tokens_good s : good s -> Forall good_tok (tokens s).
Proof.
  assert (H : forall n s, (List.length s <= n)%nat -> good s -> Forall good_tok (tokens s)).
  { clear. induction n as [|n IH]; intros s L G; [destruct s; [constructor|cbn in L; lia]|].
    destruct s as [|c s]; [constructor|]. cbn [List.length] in L.
    destruct (starts (u "<ph/>") (c :: s)) eqn:S.
    - apply starts_ph in S. destruct S as (r & E). rewrite E, tokens_ph. constructor; [exact I|]. apply IH.
      + apply (f_equal (@List.length char)) in E. rewrite app_length in E. cbn in E. lia.
      + intros d D. apply G. rewrite E. apply in_or_app. now right.
    - rewrite tokens_ch by exact S. constructor; [apply G; now left|]. apply IH; [lia|]. intros d D. apply G. now right. }
  eapply H; eauto.
Qed.
Lemma skip_good f l : Forall good_tok l -> Forall good_tok (skip_while f l).
Proof. induction 1; cbn; [constructor|]. destruct (f x); auto. Qed.
Lemma rev_good l : Forall good_tok l -> Forall good_tok (rev l).
Proof. intros H. apply Forall_forall. intros x X. apply in_rev in X. refine (proj1 (Forall_forall _ _) H x X). Qed.
Lemma cleaned_good l : Forall good_tok l -> Forall good_tok (cleaned isalnum ispunct l).
Proof.
  intros H. unfold cleaned, skip_back, cleaned_right. apply rev_good, skip_good, rev_good, rev_good.
  assert (A : Forall good_tok (cleaned_left isalnum ispunct l)).
  { unfold cleaned_left. pose proof (skip_good (empty_tok isalnum ispunct) _ (skip_good is_ph _ H)) as S.
    destruct (skip_while _ _) as [|[|c| |] r]; auto. inversion S; subst. cbn [app].
    repeat (constructor; [cbn; unfold good_char; try lia; exact I|]). assumption. }
  pose proof (skip_good (empty_tok isalnum ispunct) _ (skip_good is_ph _ (rev_good _ A))) as S.
  destruct (skip_while _ _) as [|[|c| |] r]; auto. inversion S; subst. constructor; [exact I|assumption].
Qed.
Lemma xml_good l : Forall good_tok l -> good (xml l).
Proof.
  induction 1 as [|t l T H IH]; [intros c []|]. intros c C. rewrite xml_cons in C. apply in_app_or in C.
  destruct C as [C|C]; [|auto]. destruct t as [|d| |]; cbn [xml_tok] in C.
  - cbn in C. unfold good_char. repeat (destruct C as [<-|C]; [lia|]). destruct C.
  - destruct (d =? cLT); [cbn in C; unfold good_char; repeat (destruct C as [<-|C]; [lia|]); destruct C|].
    destruct (d =? cGT); [cbn in C; unfold good_char; repeat (destruct C as [<-|C]; [lia|]); destruct C|].
    destruct (d =? 38); [cbn in C; unfold good_char; repeat (destruct C as [<-|C]; [lia|]); destruct C|].
    destruct C as [<-|[]]. exact T.
  - cbn in C. unfold good_char. destruct C as [<-|[]]. lia.
  - cbn in C. unfold good_char. repeat (destruct C as [<-|C]; [lia|]). destruct C.
Qed.
Lemma segment_good s t : good s -> seg s t -> good t.
Proof. intros G [N|Y]; [intros c []|]. apply xml_good, cleaned_good, tokens_good, G. Qed.

(** ** printTU *)
Hypothesis good1 : good lang1.
Hypothesis good2 : good lang2.
Notation print := (printTU oa od os op lang1 lang2).

Lemma print_ok l r : good r -> exists us, print l r = concat us /\ (l <> [] -> unit_of l r us).
Proof.
  intros G. unfold printTU.
  pose proof (filter_ok oa od os op l) as Fl. pose proof (filter_ok oa od os op r) as Fr.
  destruct (TmxBuild.filter oa od os op l) as [|x a] eqn:El.
  - destruct (TmxBuild.filter oa od os op r) as [|y b] eqn:Er.
    + exists []. split; [reflexivity|]. intros _. now apply unit_target.
    + exists [tu lang1 [] lang2 (y :: b)]. split.
      * rewrite !c_str_good; auto; [|apply (segment_good r); assumption|intros c []].
        unfold tu, tuv, q. cbn [concat]. rewrite app_nil_r. repeat (rewrite <- !app_assoc; cbn [app]). reflexivity.
      * intros N. apply unit_written; auto. discriminate.
  - exists []. split; [reflexivity|]. intros _. eapply unit_source; [exact Fl|discriminate].
Qed.

(** ** The loop over the aligned file *)
Notation read := (read_aligned oa od os op lang1 lang2).

Lemma read_part0 l rest p0 : solid l -> read (l ++ rest) 0 p0 [] = read rest 0 (p0 ++ l) [].
Proof.
  revert p0. induction l as [|c l IH]; intros p0 (G & T & N); [cbn; now rewrite app_nil_r|].
  cbn [app read_aligned]. destruct (N.eqb_spec c cTAB); [exfalso; apply T; now left|].
  destruct (N.eqb_spec c cNL); [exfalso; apply N; now left|]. cbn [app].
  rewrite u16_small by (assert (0 < c < 65536) by (apply G; now left); lia).
  rewrite IH; [now rewrite <- app_assoc|]. split; [intros d D; apply G; now right|].
  split; intros D; [apply T|apply N]; now right.
Qed.
Lemma read_part1 l rest p0 p1 : solid l -> read (l ++ rest) 1 p0 p1 = read rest 1 p0 (p1 ++ l).
Proof.
  revert p1. induction l as [|c l IH]; intros p1 (G & T & N); [cbn; now rewrite app_nil_r|].
  cbn [app read_aligned]. destruct (N.eqb_spec c cTAB); [exfalso; apply T; now left|].
  destruct (N.eqb_spec c cNL); [exfalso; apply N; now left|]. cbn [app].
  rewrite u16_small by (assert (0 < c < 65536) by (apply G; now left); lia).
  rewrite IH; [now rewrite <- app_assoc|]. split; [intros d D; apply G; now right|].
  split; intros D; [apply T|apply N]; now right.
Qed.
Lemma read_part2 l rest p0 p1 : solid l -> read (l ++ rest) 2 p0 p1 = read rest 2 p0 p1.
Proof.
  induction l as [|c l IH]; intros (G & T & N); [reflexivity|].
  cbn [app read_aligned]. destruct (N.eqb_spec c cTAB); [exfalso; apply T; now left|].
  destruct (N.eqb_spec c cNL); [exfalso; apply N; now left|]. cbn [app].
  apply IH. split; [intros d D; apply G; now right|]. split; intros D; [apply T|apply N]; now right.
Qed.

(** One line: the first part gets what was left of the line before, the second part the tab. *)
Lemma read_line_ok p0 l r sc rest : solid l -> solid r -> solid sc -> good p0 ->
  exists us, read (l ++ [cTAB] ++ r ++ [cTAB] ++ sc ++ [cNL] ++ rest) 0 p0 []
             = concat us ++ read rest 0 [cNL] [] /\ unit_of (p0 ++ l) (cTAB :: r) us.
Proof.
  intros Sl Sr Ss Gp. rewrite read_part0 by exact Sl.
  change ([cTAB] ++ r ++ [cTAB] ++ sc ++ [cNL] ++ rest) with (cTAB :: r ++ cTAB :: sc ++ cNL :: rest).
  cbn [read_aligned]. change (cTAB =? cTAB) with true. cbn iota. cbn [app]. change (u16 cTAB) with cTAB.
  rewrite read_part1 by exact Sr. cbn [app].
  cbn [read_aligned]. change (cTAB =? cTAB) with true. cbn iota. cbn [app].
  rewrite read_part2 by exact Ss.
  cbn [read_aligned]. change (cNL =? cTAB) with false. change (cNL =? cNL) with true. cbn iota. cbn [app].
  change (u16 cNL) with cNL.
  destruct (p0 ++ l) as [|x y] eqn:E.
  - exists []. split; [reflexivity|apply unit_nothing].
  - destruct (print_ok (x :: y) (cTAB :: r)) as (us & -> & H).
    { intros c [<-|C]; [unfold good_char, cTAB; lia|apply Sr, C]. }
    exists us. split; [reflexivity|apply H; discriminate].
Qed.

(** Whatever the aligned file is, units have an empty source segment. *)
Definition source_empty (unit : str) : Prop := exists b, unit = tu (c_str lang1) [] (c_str lang2) b.
Lemma print_source_empty l r : exists us, print l r = concat us /\ Forall source_empty us.
Proof.
  unfold printTU. destruct (TmxBuild.filter oa od os op l) as [|x a]; [|exists []; auto].
  destruct (TmxBuild.filter oa od os op r) as [|y b]; [exists []; auto|].
  exists [tu (c_str lang1) [] (c_str lang2) (c_str (y :: b))]. split.
  - unfold tu, tuv, q. cbn [concat]. rewrite app_nil_r. repeat (rewrite <- !app_assoc; cbn [app]). reflexivity.
  - constructor; [eexists; reflexivity|constructor].
Qed.
Lemma read_source_empty s : forall k p0 p1, exists us, read s k p0 p1 = concat us /\ Forall source_empty us.
Proof.
  induction s as [|c s IH]; intros k p0 p1; [exists []; auto|]. cbn [read_aligned].
  assert (H : forall out k p0 p1, (exists us, out = concat us /\ Forall source_empty us) ->
     exists us, out ++ match k with O => read s k (p0 ++ [u16 c]) p1 | S O => read s k p0 (p1 ++ [u16 c]) | _ => read s k p0 p1 end
                = concat us /\ Forall source_empty us).
  { clear p0 p1 k. intros out k p0 p1 (us & -> & F).
    assert (G : forall r, (exists vs, r = concat vs /\ Forall source_empty vs) ->
                exists ws, concat us ++ r = concat ws /\ Forall source_empty ws).
    { intros r (vs & -> & F'). exists (us ++ vs). rewrite concat_app. split; [reflexivity|now apply Forall_app]. }
    destruct k as [|[|k]]; apply G, IH. }
  destruct (c =? cTAB); [apply (H [] (S k) p0 p1); exists []; auto|].
  destruct (c =? cNL); [|apply (H [] k p0 p1); exists []; auto].
  apply (H _ O [] []). destruct p0 as [|x p0]; [exists []; auto|]. destruct p1 as [|y p1]; [exists []; auto|]. apply print_source_empty.
Qed.

(** All lines of the aligner. *)
Variable show : Q -> str.
Hypothesis show_solid : forall x, solid (show x).

Notation units_of := (units_of isalpha isalnum isspace' ispunct lang1 lang2).

Lemma read_lines_ok : forall (ps : list (list (list str) * list (list str))) (scores : list Q) (first : bool), List.length scores = List.length ps ->
  Forall (fun p => solid (sentences_text (fst p)) /\ solid (sentences_text (snd p))) ps ->
  exists us, read (concat (map (line show) (combine ps scores))) 0 (if first then [] else [cNL]) [] = concat us /\
             units_of first ps us.
Proof.
  induction ps as [|(l, r) ps IH]; intros scores first L F.
  - exists []. split; [destruct scores; [reflexivity|discriminate]|constructor].
  - destruct scores as [|x scores]; [discriminate|]. injection L as L. inversion F as [|? ? (Sl & Sr) F' Eq]. subst. cbn [fst snd] in *.
    cbn [combine map concat]. unfold line at 1. cbn [fst snd]. rewrite <- !app_assoc.
    destruct (read_line_ok (if first then [] else [cNL]) (sentences_text l) (sentences_text r) (show x)
                (concat (map (line show) (combine ps scores))) Sl Sr (show_solid x)) as (us & E & U).
    { destruct first; [intros c []|]. intros c [<-|[]]. unfold good_char, cNL. lia. }
    destruct (IH scores false L F') as (vs & E' & V). exists (us ++ vs). split.
    + match goal with |- ?a = _ => etransitivity; [exact E|] end. rewrite concat_app. f_equal. exact E'.
    + constructor; assumption.
Qed.
End Print.

(** ** Aligned pieces in UTF-8 *)
Definition enc (l : list (list str)) : list (list str) := map (map utf8) l.

Lemma spaced_utf8 l : spaced (map utf8 l) = utf8 (spaced l).
Proof.
  induction l as [|w [|v l] IH]; [reflexivity|reflexivity|].
  change (spaced (map utf8 (w :: v :: l))) with (utf8 w ++ [cSP] ++ spaced (map utf8 (v :: l))). rewrite IH.
  change (spaced (w :: v :: l)) with (w ++ [cSP] ++ spaced (v :: l)). now rewrite !utf8_app.
Qed.
Lemma sentences_utf8 l : sentences_text (enc l) = utf8 (sentences_text l).
Proof.
  unfold sentences_text, enc. rewrite map_map. rewrite <- spaced_utf8, map_map. f_equal. apply map_ext. intros w. apply spaced_utf8.
Qed.
Lemma slice_map {A B} (f : A -> B) a b l : slice a b (map f l) = map f (slice a b l).
Proof. unfold slice. now rewrite skipn_map, firstn_map. Qed.
Lemma pieces_enc cuts S T : pieces cuts (enc S) (enc T) = map (fun p => (enc (fst p), enc (snd p))) (pieces cuts S T).
Proof.
  induction cuts as [|c [|d cuts] IH]; [reflexivity|reflexivity|].
  change (pieces (c :: d :: cuts) (enc S) (enc T)) with
    ((slice (fst c) (fst d) (enc S), slice (snd c) (snd d) (enc T)) :: pieces (d :: cuts) (enc S) (enc T)).
  rewrite IH. unfold enc. rewrite !slice_map. reflexivity.
Qed.
Lemma lines_utf8 show ps : forall scores : list Q, (forall x c, In c (show x) -> c < 128) ->
  concat (map (line show) (combine (map (fun p => (enc (fst p), enc (snd p))) ps) scores))
  = utf8 (concat (map (line show) (combine ps scores))).
Proof.
  intros scores H. revert scores. induction ps as [|(l, r) ps IH]; intros scores; [reflexivity|].
  destruct scores as [|x scores]; [reflexivity|]. cbn [map combine concat]. rewrite utf8_app, IH. f_equal.
  unfold line. cbn [fst snd]. rewrite !sentences_utf8, !utf8_app.
  assert (E : utf8 (show x) = show x).
  { specialize (H x). clear - H. induction (show x) as [|c s IH]; [reflexivity|]. rewrite utf8_cons, utf8_low by (apply H; now left).
    cbn. f_equal. apply IH. intros d D. apply H. now right. }
  now rewrite E.
Qed.

(** Characters of pieces. *)
Definition solid_book (l : list (list str)) : Prop := forall s w, In s l -> In w s -> solid w.
Lemma solid_app a b : solid a -> solid b -> solid (a ++ b).
Proof.
  intros (A1 & A2 & A3) (B1 & B2 & B3). repeat split; try (intros H; apply in_app_or in H; tauto).
  - apply in_app_or in H as [H|H]; [apply A1 in H|apply B1 in H]; apply H.
  - apply in_app_or in H as [H|H]; [apply A1 in H|apply B1 in H]; apply H.
Qed.
Lemma solid_nil : solid [].
Proof. repeat split; try (intros []); destruct H. Qed.
Lemma solid_sp : solid [cSP].
Proof. split; [intros c [<-|[]]; unfold good_char, cSP; lia|]. split; intros [H|[]]; discriminate. Qed.
Lemma solid_spaced l : (forall w, In w l -> solid w) -> solid (spaced l).
Proof.
  induction l as [|w [|v l] IH]; intros H; [apply solid_nil|apply H; now left|].
  change (spaced (w :: v :: l)) with (w ++ [cSP] ++ spaced (v :: l)).
  apply solid_app; [apply H; now left|]. apply solid_app; [apply solid_sp|]. apply IH. intros x X. apply H. now right.
Qed.
Lemma solid_text l : solid_book l -> solid (sentences_text l).
Proof.
  intros H. apply solid_spaced. intros w W. apply in_map_iff in W. destruct W as (s & <- & S). apply solid_spaced. intros v V. eapply H; eauto.
Qed.
Lemma in_slice {A} a b (l : list A) x : In x (slice a b l) -> In x l.
Proof.
  unfold slice. intros H. rewrite <- (firstn_skipn (Z.to_nat a) l). apply in_or_app. right.
  rewrite <- (firstn_skipn (Z.to_nat (b - a)) (skipn (Z.to_nat a) l)). apply in_or_app. now left.
Qed.
Lemma pieces_in cuts S T p : In p (pieces cuts S T) ->
  (forall s, In s (fst p) -> In s S) /\ (forall s, In s (snd p) -> In s T).
Proof.
  induction cuts as [|c [|d cuts] IH]; [intros []|intros []|].
  change (pieces (c :: d :: cuts) S T) with ((slice (fst c) (fst d) S, slice (snd c) (snd d) T) :: pieces (d :: cuts) S T).
  intros [<-|H]; [|auto]. split; intros s; cbn; apply in_slice.
Qed.
