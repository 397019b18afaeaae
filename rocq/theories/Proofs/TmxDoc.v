(** apertium-tmxbuild, composed: from two documents to the TMX. *)
From Coq Require Import QArith String Lia.
From Verif Require Import Model.Base Model.TmxAlign Model.TmxBuild Spec.TmxAlign Spec.TmxBuild Proofs.Base
  Proofs.TmxAlign Proofs.TmxTool Proofs.TmxRead Proofs.TmxSegment Proofs.TmxSplit Proofs.TmxUtf8 Proofs.TmxPrint.
Open Scope N_scope.

(** ** Sentences as lines *)
Definition line_item (i : item) : Prop := match i with Char c | Esc c => c <> cNL | _ => True end.

Lemma text_item_good i : item_ok i -> good (text_item i).
Proof.
  assert (P : good (u "<ph/>")).
  { intros c C. cbn in C. unfold good_char. repeat (destruct C as [<-|C]; [lia|]). destruct C. }
  assert (S : forall b : bool, good (if b then [cSP] else [])).
  { intros [|]; [intros c [<-|[]]; unfold good_char, cSP; lia|intros c []]. }
  destruct i as [c|c|b| |c]; cbn [item_ok text_item].
  - intros (H & _) d [<-|[]]. exact H.
  - intros H d [<-|[]]. exact H.
  - intros _ d D. apply in_app_or in D. destruct D as [D|D].
    + destruct b as [|x b]; [destruct D|]. exact (S _ d D).
    + apply in_app_or in D. destruct D as [D|D]; [exact (P d D)|]. destruct (rev b) as [|x r]; [destruct D|]. exact (S _ d D).
  - intros _ d [<-|[]]. unfold good_char, cDOT. lia.
  - intros [-> | ->] d [<-|[]]; unfold good_char, cQM; lia.
Qed.
Lemma text_item_nl i : item_ok i -> line_item i -> ~ In cNL (text_item i).
Proof.
  assert (P : ~ In cNL (u "<ph/>")).
  { cbn. intros C. repeat (destruct C as [C|C]; [discriminate|]). destruct C. }
  assert (S : forall b : bool, ~ In cNL (if b then [cSP] else [])).
  { intros [|]; [intros [C|[]]; discriminate|intros []]. }
  destruct i as [c|c|b| |c]; cbn [item_ok line_item text_item].
  - intros _ H [E|[]]. congruence.
  - intros _ H [E|[]]. congruence.
  - intros _ _ D. apply in_app_or in D. destruct D as [D|D].
    + destruct b as [|x b]; [destruct D|]. exact (S _ D).
    + apply in_app_or in D. destruct D as [D|D]; [exact (P D)|]. destruct (rev b) as [|x r]; [destruct D|]. exact (S _ D).
  - intros _ _ [E|[]]. discriminate.
  - intros [-> | ->] _ [E|[]]; discriminate.
Qed.
Lemma text_good d : Forall item_ok d -> good (text d).
Proof.
  induction 1 as [|i d H F IH]; [intros c []|]. rewrite text_cons. intros c C. apply in_app_or in C.
  destruct C as [C|C]; [exact (text_item_good i H c C)|auto].
Qed.
Lemma text_nl d : Forall item_ok d -> Forall line_item d -> ~ In cNL (text d).
Proof.
  intros F G. induction F as [|i d H F IH]; [intros []|]. inversion G; subst. rewrite text_cons. intros C. apply in_app_or in C.
  destruct C as [C|C]; [eapply text_item_nl; eauto|apply IH; auto].
Qed.

Section Doc.
Variables oa od os op : char -> bool.
Notation sp := (u_isspace os).

Lemma sentences_in d l : sentences sp d l -> forall s i, In s l -> In i s -> In i d.
Proof.
  intros H s i S I. destruct (sentences_prefix os d l H) as (t & -> & _). apply in_or_app. left.
  apply in_concat. eauto.
Qed.
Lemma sentences_each d l : sentences sp d l -> forall s, In s l -> exists rest, sentence sp s rest.
Proof. induction 1 as [|s rest l S H IH]; [intros s []|]. intros t [<-|T]; eauto. Qed.

Lemma text_ok_tail s rest : sentence sp s rest -> Forall item_ok s -> ok_tail (text s).
Proof.
  intros S F. destruct (sentence_last os s rest S) as (s' & i & -> & H). right.
  apply Forall_app in F. destruct F as (_ & F). inversion F as [|? ? Hi _ Eq]; subst.
  unfold text. rewrite map_app, concat_app. cbn [map concat]. rewrite app_nil_r.
  destruct H as [-> | (c & ->)]; cbn [text_item]; eexists _, _; (split; [reflexivity|]); [reflexivity|].
  destruct Hi as [-> | ->]; reflexivity.
Qed.

(** The books of the two documents. *)
Lemma split_ok d l ws : sentences sp d l -> Forall item_ok d -> Forall line_item d ->
  Forall2 words (map text l) ws ->
  exists f, splitAndMove os (raw d) = Some f /\ readNoIds f = Some (enc (ws ++ [[]])).
Proof.
  intros S F G W. unfold splitAndMove. rewrite (sentences_ok os d l S F) by lia. cbv beta.
  eexists. split; [reflexivity|]. apply read_utf8.
  assert (Fl : forall s, In s l -> Forall item_ok s).
  { intros s I. apply Forall_forall. intros i J. refine (proj1 (Forall_forall _ _) F i _). eapply sentences_in; eauto. }
  assert (Gl : forall s, In s l -> Forall line_item s).
  { intros s I. apply Forall_forall. intros i J. refine (proj1 (Forall_forall _ _) G i _). eapply sentences_in; eauto. }
  assert (E : map (fun t => c_str t ++ [cNL]) (map text l) = map (fun t => t ++ [cNL]) (map text l)).
  { rewrite !map_map. apply map_ext_in. intros s I. rewrite c_str_good; [reflexivity|]. apply text_good. auto. }
  rewrite E. apply read_texts; [| |exact W].
  - apply Forall_forall. intros t T. apply in_map_iff in T. destruct T as (s & <- & I).
    destruct (sentences_each d l S s I) as (rest & R). eapply text_ok_tail; eauto.
  - apply Forall_forall. intros t T. apply in_map_iff in T. destruct T as (s & <- & I). apply text_nl; auto.
Qed.

Lemma words_chars s l : words s l -> forall w c, In w l -> In c w -> In c s /\ ascii_blank c = false.
Proof.
  induction 1 as [|b s l B H IH|w s l Nw W S H IH]; intros v c V C; [destruct V|..].
  - destruct (IH v c V C). split; [now right|assumption].
  - destruct V as [<-|V]; [split; [apply in_or_app; now left|auto]|]. destruct (IH v c V C).
    split; [apply in_or_app; now right|assumption].
Qed.
Lemma book_solid d l ws : sentences sp d l -> Forall item_ok d -> Forall2 words (map text l) ws -> solid_book (ws ++ [[]]).
Proof.
  intros S F W s w I J. apply in_app_or in I. destruct I as [I|[<-|[]]]; [|destruct J].
  assert (X : exists t, In t l /\ words (text t) s).
  { clear - W I. remember (map text l) as ts eqn:E. revert l E. induction W as [|t s' ts ws H W IH]; intros l E; [destruct I|].
    destruct l as [|a l]; [discriminate|]. injection E as -> ->. destruct I as [->|I].
    - exists a. split; [now left|assumption].
    - destruct (IH I l eq_refl) as (x & X & Y). exists x. split; [now right|assumption]. }
  destruct X as (t & T & Wt).
  assert (B : forall c, In c w -> In c (text t) /\ ascii_blank c = false) by (intros c C; eapply words_chars; eauto).
  split.
  - intros c C. apply (text_good t); [|now apply B]. apply Forall_forall. intros i K.
    refine (proj1 (Forall_forall _ _) F i _). eapply sentences_in; eauto.
  - split; intros C; apply B in C; destruct C as (_ & C); discriminate.
Qed.
End Doc.

(** ** Encoding is injective *)
Lemma utf8_inj a b : good a -> good b -> utf8 a = utf8 b -> a = b.
Proof.
  intros A B E. rewrite <- (decode_ok a), <- (decode_ok b); [now rewrite E|..]; intros c C; [apply B in C|apply A in C]; apply C.
Qed.
Lemma map_inj_on {A B} (f : A -> B) (P : A -> Prop) : (forall x y, P x -> P y -> f x = f y -> x = y) ->
  forall l m, Forall P l -> Forall P m -> map f l = map f m -> l = m.
Proof.
  intros I l. induction l as [|x l IH]; intros [|y m] F G E; try discriminate; [reflexivity|].
  inversion F; inversion G; subst. injection E as E1 E2. f_equal; auto.
Qed.
Definition good_book (l : list (list str)) : Prop := Forall (Forall good) l.
Lemma enc_inj a b : good_book a -> good_book b -> enc a = enc b -> a = b.
Proof.
  apply map_inj_on with (P := Forall good). apply map_inj_on. exact utf8_inj.
Qed.
Lemma solid_book_good l : solid_book l -> good_book l.
Proof. intros H. apply Forall_forall. intros s S. apply Forall_forall. intros w W. apply (H s w S W). Qed.

Lemma enc_concat l : concat (map enc l) = enc (concat l).
Proof. unfold enc. rewrite concat_map. reflexivity. Qed.
Lemma enc_nil l : enc l = [] -> l = [].
Proof. destruct l; [reflexivity|discriminate]. Qed.

(** ** The whole program *)
Section Whole.
Variables oa od os op : char -> bool.
Variables lang1 lang2 : str.
Variable ln : Q -> Q.
Variable show : Q -> str.
Variable thr : Q.
Hypothesis good1 : good lang1.
Hypothesis good2 : good lang2.
Hypothesis show_ascii : forall x c, In c (show x) -> 32 <= c < 127.

Lemma show_solid x : solid (show x).
Proof.
  split; [intros c C; apply show_ascii in C; unfold good_char; lia|].
  split; intros C; apply show_ascii in C; unfold cTAB, cNL in C; lia.
Qed.

Lemma aligned_out ps scores : List.length scores = List.length ps ->
  (forall p, In p ps -> solid_book (fst p) /\ solid_book (snd p)) ->
  exists us, read_aligned oa od os op lang1 lang2
    (utf8_decode (concat (map (line show) (combine (map (fun p => (enc (fst p), enc (snd p))) ps) scores)))) 0 [] []
    = concat us /\ units_of (u_isalpha oa) (u_isalnum oa od) (u_isspace os) (u_ispunct op) lang1 lang2 true ps us.
Proof.
  intros L F.
  rewrite lines_utf8 by (intros x c C; apply show_ascii in C; lia).
  rewrite decode_ok.
  - apply (read_lines_ok oa od os op lang1 lang2 good1 good2 show show_solid ps scores true L).
    apply Forall_forall. intros p P. destruct (F p P). split; apply solid_text; assumption.
  - intros c C. apply in_concat in C. destruct C as (x & X & C). apply in_map_iff in X. destruct X as ((p, s) & <- & X).
    apply in_combine_l in X. destruct (F p X) as (A & B). apply solid_text in A, B. unfold line in C. cbn [fst snd] in C.
    repeat (apply in_app_or in C; destruct C as [C|C]);
      try (apply A in C; unfold good_char in C; lia); try (apply B in C; unfold good_char in C; lia);
      try (apply show_ascii in C; lia); destruct C as [<-|[]]; unfold cTAB, cNL; lia.
Qed.
End Whole.
