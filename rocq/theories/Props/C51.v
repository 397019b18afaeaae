(** C51: deformatting and reformatting give back the document; what a deformatter writes is a well-formed stream. *)
From Coq Require Import String.
From Verif Require Import Model.Base Model.Format Spec.Format Proofs.Base Proofs.Format.
From Coq Require Import Lia Arith.

Theorem C51_roundtrip : forall F tmpname eosIncond s out files,
  good_format F -> good_names tmpname -> document s ->
  deformat F eosIncond false false tmpname s = (out, files) ->
  exists y, reformat F files out = Some y /\ SameText F s y.
Proof.
  intros F tmpname e s out fs G N [V Z] E. unfold deformat in E.
  assert (O : ok F (mkd [] [] false false [] 0)) by (split; [reflexivity|split; [reflexivity|constructor]]).
  destruct (lex_ok F G e tmpname N (length s) s _ _ out fs eq_refl (Nat.lt_succ_diag_r _) V Z O E) as (_ & _ & v & y & H1 & H2 & H3).
  exists y. split; [apply H3; unfold reformat; lia|]. exists v. split; [exact H1|exact H2].
Qed.
Print Assumptions C51_roundtrip.

(** formats without entities: the very document *)
Theorem C51_exact : forall F tmpname eosIncond s out files,
  good_format F -> good_names tmpname -> document s -> f_repl F = [] ->
  deformat F eosIncond false false tmpname s = (out, files) -> reformat F files out = Some s.
Proof.
  intros F tmpname e s out fs G N D E0 E. destruct (C51_roundtrip F tmpname e s out fs G N D E) as (y & -> & v & H1 & H2).
  apply Reads_no_entities in H1; [|exact E0]. apply Reads_no_entities in H2; [|exact E0]. congruence.
Qed.
Print Assumptions C51_exact.

(** whatever bytes are read and whatever options are given, the output is a well-formed stream *)
Theorem C51_wellformed : forall F tmpname eosIncond noDot markEoh s,
  reserves F -> is_esc F cDOT = false -> WellFormed F tmpname (fst (deformat F eosIncond noDot markEoh tmpname s)).
Proof. intros F t e n m s G D. apply lex_wf; [exact G|exact D|apply partial_nil]. Qed.
Print Assumptions C51_wellformed.

(** ** Plain text *)
Lemma blank_lines_spec : forall n s k, length s <= n -> blank_lines s = k -> k <= length s /\
  (0 < k -> (nth 0 s 0%N < 128)%N /\ (nth (k - 1) s 0%N < 128)%N).
Proof.
  induction n as [|n IH]; intros s k L E.
  - destruct s; [|cbn in L; lia]. cbn in E. subst. cbn. lia.
  - destruct s as [|a [|b r]]; [cbn in E; subst; cbn; lia|cbn in E; subst; cbn; lia|].
    cbn [blank_lines] in E. destruct ((a =?c cNL) && (b =?c cNL)) eqn:E1.
    + apply andb_prop in E1. destruct E1 as [Ea Eb]. apply ceq_eq in Ea, Eb. subst a b. destruct (blank_lines r) as [|j] eqn:Ej.
      * subst k. cbn. repeat split; auto; lia.
      * destruct (IH r (S j) ltac:(cbn in L; lia) Ej) as [H1 H2]. subst k. split; [cbn [length]; lia|]. intros _. split; [reflexivity|].
        destruct H2 as [_ H2]; [lia|]. replace (2 + S j - 1) with (S (S (S j - 1))) by lia. exact H2.
    + destruct r as [|c [|d r]]; [subst; cbn; lia|subst; cbn; lia|].
      destruct ((a =?c 13%N) && (b =?c cNL) && (c =?c 13%N) && (d =?c cNL)) eqn:E2; [|subst; cbn; lia].
      apply andb_prop in E2. destruct E2 as [E2 Ed]. apply andb_prop in E2. destruct E2 as [E2 Ec]. apply andb_prop in E2. destruct E2 as [Ea Eb].
      apply ceq_eq in Ea, Eb, Ec, Ed. subst a b c d. destruct (blank_lines r) as [|j] eqn:Ej.
      * subst k. cbn. repeat split; auto; lia.
      * destruct (IH r (S j) ltac:(cbn in L; lia) Ej) as [H1 H2]. subst k. split; [cbn [length]; lia|]. intros _. split; [reflexivity|].
        destruct H2 as [_ H2]; [lia|]. replace (4 + S j - 1) with (S (S (S (S (S j - 1))))) by lia. exact H2.
Qed.
Lemma mem_ascii c l : (forall x, In x l -> (x < 128)%N) -> mem c l = true -> (c < 128)%N.
Proof. intros H M. apply H. now apply mem_In. Qed.
Lemma txt_good : good_format txt.
Proof.
  constructor; try reflexivity.
  - right. reflexivity.
  - intros c [H|H].
    + unfold is_esc in H. cbn [txt f_esc existsb] in H. rewrite orb_false_r in H. refine (mem_ascii c _ _ H).
      intros x Hx. repeat (destruct Hx as [<-|Hx]; [reflexivity|]). destruct Hx.
    + refine (mem_ascii c _ _ H). intros x Hx. repeat (destruct Hx as [<-|Hx]; [reflexivity|]). destruct Hx.
  - intros r [<-|[]]. split; [|discriminate]. cbn [r_m]. apply ascii_bounded_whole. intros s n.
    destruct (blank_lines s) as [|k] eqn:E; [discriminate|]. intros H. injection H as <-.
    destruct (blank_lines_spec (length s) s (S k) (le_n _) E) as [H1 H2]. split; [lia|]. apply H2. lia.
  - intros m t [].
  - intros k w c [].
  - intros w k [].
Qed.
Lemma txt_reserves : reserves txt.
Proof.
  split; [intros c H; apply (g_ascii txt txt_good); now left|]. split; [reflexivity|]. split; [reflexivity|]. intros k w c [].
Qed.
Theorem C51_txt : forall tmpname eosIncond s out files, good_names tmpname -> document s ->
  deformat txt eosIncond false false tmpname s = (out, files) -> reformat txt files out = Some s.
Proof. intros t e s o f N D. apply C51_exact; [exact txt_good|exact N|exact D|reflexivity]. Qed.
Print Assumptions C51_txt.
Theorem C51_txt_wellformed : forall tmpname e n m s, WellFormed txt tmpname (fst (deformat txt e n m tmpname s)).
Proof. intros. apply C51_wellformed; [exact txt_reserves|reflexivity]. Qed.

(** names as tmpnam makes them *)
Definition name (n : nat) : str := u "/tmp/file" ++ repeat 65%N n.
Lemma name_good : good_names name.
Proof.
  split.
  - intros i j E. unfold name in E. apply app_inv_head in E. apply (f_equal (@length char)) in E. now rewrite !repeat_length in E.
  - intros i. split; [discriminate|]. unfold name. intros H. apply in_app_or in H. destruct H as [H|H].
    + repeat (destruct H as [H|H]; [discriminate|]). destruct H.
    + apply repeat_spec in H. discriminate.
Qed.

(** ** A format with tags, comments and entities, in the manner of html-format.xml *)
Definition lit (t : str) : matcher := fun s => if str_eqb (firstn (length t) s) t then Some (length t) else None.
Fixpoint upto (x : char) (s : str) : option nat :=       (* [^x]* x *)
  match s with [] => None | c :: r => if c =?c x then Some 1 else match upto x r with Some n => Some (S n) | None => None end end.
Definition from_to (a b : char) : matcher :=
  fun s => match s with c :: r => if c =?c a then match upto b r with Some n => Some (S n) | None => None end else None | [] => None end.
Definition tag : matcher := fun s => match s with _ :: 33%N :: _ => None | _ => from_to cLT cGT s end.
Definition quote : str := [34%N].
Definition demo : format := mkfmt
  [mkfr (lit (u "<!--")) (Some (lit (u "-->"))) false false 1; mkfr (lit (u "<p>")) None true false 2; mkfr tag None false false 3]
  [(from_to 38%N cSEMI, [(u "&quot;", quote); (u "&#34;", quote)])] [(quote, u "&quot;")]
  (fun c => mem c [cSP; cNL; cTAB; 13%N; cLT; cGT]) [fun c => mem c (u "][^@\/${}")] true 10.
Lemma lit_whole t : t <> [] -> (forall c, In c t -> (c < 128)%N) -> whole (lit t).
Proof.
  intros Hn Ha. apply ascii_bounded_whole. intros s n. unfold lit. destruct (str_eqb _ _) eqn:E; [|discriminate]. apply str_eqb_eq in E.
  intros H. injection H as <-.
  assert (Lt : length t <= length s). { assert (length (firstn (length t) s) = length t) as K by exact (f_equal (@length char) E). rewrite firstn_length in K. lia. }
  destruct t as [|t0 t1] eqn:Et; [congruence|]. rewrite <- Et in *. assert (L1 : 0 < length t) by (rewrite Et; cbn; lia).
  split; [split; [exact L1|exact Lt]|].
  assert (K : forall i, i < length t -> (nth i s 0%N < 128)%N).
  { intros i Hi. rewrite <- (firstn_skipn (length t) s). unfold char in *. rewrite E, app_nth1 by exact Hi. apply Ha. now apply nth_In. }
  split; apply K; [exact L1|]. apply Nat.sub_lt; [exact L1|constructor].
Qed.
Lemma from_to_bound a b : (a < 128)%N -> (b < 128)%N -> forall s n, from_to a b s = Some n ->
  0 < n <= length s /\ (nth 0 s 0 < 128)%N /\ (nth (n - 1) s 0 < 128)%N.
Proof.
  intros Ha Hb s n. destruct s as [|c r]; [discriminate|]. cbn [from_to].
  destruct (ceq_spec c a) as [->|]; [|discriminate]. destruct (upto b r) as [k|] eqn:E; [|discriminate]. intros H. injection H as <-.
  assert (K : forall r k, upto b r = Some k -> 0 < k <= length r /\ nth (k - 1) r 0%N = b).
  { clear. induction r as [|c r IH]; intros k; [discriminate|]. cbn [upto]. destruct (ceq_spec c b) as [->|].
    - intros H. injection H as <-. cbn. split; [lia|reflexivity].
    - destruct (upto b r) as [j|] eqn:E; [|discriminate]. intros H. injection H as <-. destruct (IH j eq_refl) as [H1 H2]. cbn [length]. split; [lia|].
      replace (S j - 1) with (S (j - 1)) by lia. exact H2. }
  destruct (K _ _ E) as [H1 H2]. cbn [length]. split; [lia|]. split; [exact Ha|]. replace (S k - 1) with (S (k - 1)) by lia. cbn [nth]. now rewrite H2.
Qed.
Lemma from_to_whole a b : (a < 128)%N -> (b < 128)%N -> whole (from_to a b).
Proof. intros Ha Hb. apply ascii_bounded_whole. now apply from_to_bound. Qed.
Lemma tag_whole : whole tag.
Proof.
  apply ascii_bounded_whole. intros s n H. apply (from_to_bound cLT cGT); [reflexivity|reflexivity|].
  destruct s as [|a [|b r]]; [exact H|exact H|]. destruct (N.eq_dec b 33) as [->|Nb]; [discriminate|]. revert H. unfold tag.
  destruct b as [|p]; [auto|]. do 6 (destruct p as [p|p|]; auto). all: congruence.
Qed.
Lemma demo_good : good_format demo.
Proof.
  constructor; try reflexivity.
  - right. reflexivity.
  - intros c [H|H].
    + unfold is_esc in H. cbn [demo f_esc existsb] in H. rewrite orb_false_r in H. refine (mem_ascii c _ _ H).
      intros x Hx. repeat (destruct Hx as [<-|Hx]; [reflexivity|]). destruct Hx.
    + refine (mem_ascii c _ _ H). intros x Hx. repeat (destruct Hx as [<-|Hx]; [reflexivity|]). destruct Hx.
  - intros r [<-|[<-|[<-|[]]]]; (split; [|intros m E; try discriminate E; injection E as <-]); cbn [r_m];
      try exact tag_whole; apply lit_whole; try discriminate;
      intros c Hc; repeat (destruct Hc as [<-|Hc]; [reflexivity|]); destruct Hc.
  - intros m t [E|[]]. injection E as <- <-. apply from_to_whole; reflexivity.
  - intros k w c [E|[E|[]]] Hc; injection E as <- <-; destruct Hc as [<-|[]]; repeat split; discriminate.
  - intros w k [E|[]]. injection E as <- <-. split; [now left|]. intros H. repeat (destruct H as [H|H]; [discriminate|]). destruct H.
Qed.
Definition page : str := u "A <b>caf" ++ [195; 169]%N ++ u "</b> &#34;@x&#34;<!-- [" ++ [195; 169]%N ++ u "] <p> --> a long blank follows<p>the end. " .
Example page_document : document page.
Proof. split; [reflexivity|]. unfold page. intros H. repeat (destruct H as [H|H]; [discriminate|]). destruct H. Qed.
Example page_stream : deformat demo false false false name page =
  (u "A[ <b>]caf" ++ [195; 169]%N ++ u "[<\/b> ]" ++ quote ++ u "\@x" ++ quote ++ u "[@/tmp/file]a long blank follows.[][<p>]the end..[] ",
   [(u "/tmp/file", u "<!-- [" ++ [195; 169]%N ++ u "] <p> --> ")]).
Proof. vm_compute. reflexivity. Qed.
(** both quotes come back in the preferred spelling *)
Example page_back : exists o f, deformat demo false false false name page = (o, f) /\ reformat demo f o =
  Some (u "A <b>caf" ++ [195; 169]%N ++ u "</b> &quot;@x&quot;<!-- [" ++ [195; 169]%N ++ u "] <p> --> a long blank follows<p>the end. ").
Proof. eexists _, _. split; [exact page_stream|]. vm_compute. reflexivity. Qed.

(** ** FINDINGS: where the document does not come back *)
(** option -n: the mark "[]" of the end of the text swallows a period before it *)
Theorem C51_nodot_refuted : exists s out files, document s /\ deformat txt false true false name s = (out, files) /\ reformat txt files out <> Some s.
Proof. exists (u "Hi."), (u "Hi.[]"), []. split; [split; [reflexivity|intros H; repeat (destruct H as [H|H]; [discriminate|]); destruct H]|]. split; [reflexivity|]. discriminate. Qed.
(** option -o: the mark of a heading stays in the text *)
Definition headed : format := mkfmt [mkfr (lit (u "<h>")) None false true 1] [] [] (f_space txt) (f_esc txt) true (f_large txt).
Theorem C51_heading_refuted : exists s out files, document s /\ deformat headed false false true name s = (out, files) /\
  reformat headed files out = Some ([226; 157; 161]%N ++ s).
Proof.
  exists (u "<h>Hi"), (u "[]" ++ [226; 157; 161]%N ++ u "[\<h\>]Hi.[]"), [].
  split; [split; [reflexivity|intros H; repeat (destruct H as [H|H]; [discriminate|]); destruct H]|]. split; vm_compute; reflexivity.
Qed.
(** a byte that is not UTF-8 swallows all the text after it (blanks and escaped characters excepted) *)
Lemma bad_stuck a x : within 194 244 a = false -> (128 <= a)%N -> valid (a :: x) = false.
Proof.
  intros W H. assert (B : forall lo hi, (194 <= lo)%N -> (hi <= 244)%N -> within lo hi a = false).
  { intros lo hi L1 L2. destruct (within lo hi a) eqn:E; [|reflexivity]. apply within_le in E. exfalso.
    assert (within 194 244 a = true) by (apply within_le; lia). congruence. }
  rewrite valid_unfold. assert ((a <? 128)%N = false) as -> by (apply N.ltb_ge; exact H).
  destruct x as [|b x]; [reflexivity|]. rewrite B by lia. destruct x as [|c x]; [reflexivity|]. rewrite B by lia. destruct x as [|d x]; [reflexivity|]. now rewrite B by lia.
Qed.
Definition is_word (c : char) : Prop := c <> cNUL /\ f_space txt c = false /\ is_esc txt c = false.
Lemma word_pick c w : f_space txt c = false -> is_esc txt c = false -> pick (rules_of txt []) (c :: w) = Some (1, AChar).
Proof.
  intros H2 H3. assert (Hnl : c <> cNL) by (intros ->; discriminate H2).
  rewrite pick_rules. assert (blank_lines (c :: w) = 0) as E.
  { destruct w as [|b r]; [reflexivity|]. cbn [blank_lines]. destruct (ceq_spec c cNL); [congruence|]. cbn [andb].
    destruct r as [|c' [|d r]]; [reflexivity|reflexivity|]. destruct (ceq_spec c 13%N) as [->|]; [discriminate H2|reflexivity]. }
  assert (pick (long txt []) (c :: w) = None) as ->.
  { apply pick_none'. intros m a [H|[]]. injection H as <- <-. now rewrite E. }
  unfold singles, pick, one. rewrite H2, H3. destruct (ceq_spec c cNL); [congruence|reflexivity].
Qed.
Theorem C51_invalid_byte : forall (a : char) (w : str), (128 <= a)%N -> within 194 244 a = false -> (forall c, In c w -> is_word c) ->
  deformat txt false false false name (a :: w) = (u ".[]", []).
Proof.
  intros a w Ha Hw Hc.
  assert (K : forall w x fuel, (forall c, In c w -> is_word c) -> length w < fuel ->
     lex txt false false false name fuel (mkd [] (a :: x) false false [] 0) w = (u ".[]", [])).
  { clear w Hc. induction w as [|c w IH]; intros x fuel Hc L; (destruct fuel; [cbn in L; lia|]); [reflexivity|].
    cbn [lex d_stack]. destruct (Hc c (or_introl eq_refl)) as (H1 & H2 & H3). rewrite (word_pick c w H2 H3).
    cbn [firstn skipn act]. change (printBuffer txt false false false name (mkd [] (a :: x) false false [] 0)) with (@nil char, @nil (str * str), mkd [] (a :: x) false false [] 0).
    cbn [cstr d_sym]. destruct (ceq_spec c cNUL); [congruence|]. match goal with |- context [valid ?z] => assert (valid z = false) as -> by (exact (bad_stuck a (x ++ [c]) Hw Ha)) end.
    unfold with_sym. cbn [d_buf d_dot d_eoh d_stack d_tmp].
    match goal with |- (let '(_, _) := ?z in _) = _ => replace z with (u ".[]", @nil (str * str)) end; [reflexivity|].
    symmetry. apply (IH (x ++ [c]) fuel); [intros; apply Hc; now right|cbn in L; lia]. }
  assert (Wa : is_word a).
  { split; [now apply ge128_nul|]. split.
    - destruct (f_space txt a) eqn:E; [|reflexivity]. pose proof (g_ascii txt txt_good a (or_intror E)). lia.
    - destruct (is_esc txt a) eqn:E; [|reflexivity]. pose proof (g_ascii txt txt_good a (or_introl E)). lia. }
  unfold deformat. change (length (a :: w)) with (S (length w)). remember (S (length w)) as fl eqn:El. cbn [lex d_stack]. destruct Wa as (H1 & H2 & H3). rewrite (word_pick a w H2 H3).
  cbn [firstn skipn act]. change (printBuffer txt false false false name (mkd [] [] false false [] 0)) with (@nil char, @nil (str * str), mkd [] [] false false [] 0).
  cbn [cstr d_sym]. destruct (ceq_spec a cNUL); [congruence|]. match goal with |- context [valid ?z] => assert (valid z = false) as -> by (exact (bad_stuck a [] Hw Ha)) end.
  unfold with_sym. cbn [d_buf d_dot d_eoh d_stack d_tmp]. 
  match goal with |- (let '(_, _) := ?z in _) = _ => replace z with (u ".[]", @nil (str * str)) end; [reflexivity|].
  symmetry. apply (K w []); [exact Hc|subst fl; constructor].
Qed.
Print Assumptions C51_invalid_byte.
(** rtf-format-cp1250.xml and -cp1251.xml: escape-chars without parentheses; the reformatter drops every slash *)
Definition rtf1250 : format := mkfmt [] [] [] (fun c => mem c [cSP; cNL; cTAB; 13%N; cDOL; cSTAR; cTILDE])
  [fun c => c =?c cBS; fun c => mem c (u "][<>@^$/{}")] false (2 ^ 13).
Theorem C51_rtf_refuted : exists s out files, document s /\ deformat rtf1250 false false false name s = (out, files) /\
  reformat rtf1250 files out = Some (u "a\b").
Proof.
  exists (u "a/b"), (u "a\/b.[]"), []. split; [split; [reflexivity|intros H; repeat (destruct H as [H|H]; [discriminate|]); destruct H]|].
  split; vm_compute; reflexivity.
Qed.
(** a preferred spelling of a character of more than one byte is never restored *)
Theorem C51_prefer_multibyte : forall F w k, In (w, k) (f_prefer F) -> 1 < length w ->
  (forall w' k', In (w', k') (f_prefer F) -> 1 < length w') -> forall c, plain_out F c = [c].
Proof.
  intros F w k _ _ H c. unfold plain_out. destruct (lookup [c] (f_prefer F)) as [t|] eqn:E; [|reflexivity].
  apply lookup_In in E. apply H in E. cbn in E. lia.
Qed.
