(** C57: the sentence aligner of apertium-tmxbuild.  Spec/TmxAlign.v: what an alignment, its cost
    and its pieces are.  Model: Model/TmxAlign.v ([alignerToolWithFilenames]: contents of the two
    files to the lines printed; [None] would be an exception, an index out of range or undefined
    behaviour). *)
From Coq Require Import QArith Qminmax String Lia.
From Verif Require Import Model.Base Model.TmxAlign Spec.TmxAlign Proofs.Base Proofs.TmxAlign
  Proofs.TmxTool Proofs.TmxRead.
Open Scope Z_scope.

(** A book as a file: a line per sentence, words separated by spaces. *)
Definition file_of (book : list (list str)) : str := concat (map (fun s => spaced s ++ [cNL]) book).
(** A word: some bytes, none of which a blank. *)
Definition proper_word (w : str) : Prop :=
  w <> [] /\ forall c, In c w -> c <> 32%N /\ ~ (9 <= c <= 13)%N.

Lemma proper_wordy w : proper_word w -> wordy w.
Proof.
  intros (N & H). split; [exact N|]. apply forallb_forall. intros c I. destruct (H c I) as (A & B).
  unfold isspace. destruct (N.eqb_spec c 32); [congruence|]. cbn [orb].
  destruct (N.leb_spec 9 c); [|reflexivity]. destruct (N.leb_spec c 13); [lia|reflexivity].
Qed.
Lemma proper_wordys l : (forall s w, In s l -> In w s -> proper_word w) -> Forall (Forall wordy) l.
Proof.
  intros H. apply Forall_forall. intros s I. apply Forall_forall. intros w J. apply proper_wordy. eauto.
Qed.

(** ** Reading *)
(** any two files are read, as at least one sentence each *)
Theorem C57_reads_anything : forall s, exists l, readNoIds s = Some l /\ l <> [].
Proof. exact read_total. Qed.
Print Assumptions C57_reads_anything.

(** a file of lines is read as those lines, and one more sentence, without words *)
Theorem C57_reads_lines : forall book, (forall s w, In s book -> In w s -> proper_word w) ->
  readNoIds (file_of book) = Some (book ++ [[]]).
Proof. intros book H. apply read_lines, proper_wordys, H. Qed.
Print Assumptions C57_reads_lines.

(** ** Aligning *)
(** What is printed for two books, given as sentences. *)
Definition printed_alignment (show : Q -> str) (src trg : list (list str)) (out : str) : Prop :=
  let n := Z.of_nat (List.length src) in
  let m := Z.of_nat (List.length trg) in
  exists sim slen tlen lead trail cost cuts p q scores,
    (* the printed lines are the pieces between the cuts, with their scores *)
    out = concat (map (line show) (combine (pieces cuts src trg) scores)) /\
    List.length scores = List.length (pieces cuts src trg) /\
    (* the costs are those of the sentences *)
    similarities src trg (search_thickness n m) sim /\ lengths src slen /\ lengths trg tlen /\
    (* [lead ++ trail] is a cheapest path among all those within the band *)
    cheapest sim slen tlen (band n m (search_thickness n m)) (0, 0) (n, m) (lead ++ trail) cost /\
    (* only its points are cuts *)
    thin trail cuts /\
    (* the trail begins at the border of the grid, *)
    hd_error trail = Some (Z.of_nat p, Z.of_nat q) /\ (p = O \/ q = O) /\
    (* and from there on every sentence of both books is printed, once and in order *)
    concat (map fst (pieces cuts src trg)) = skipn p src /\
    concat (map snd (pieces cuts src trg)) = skipn q trg /\
    (* no line is empty on both sides *)
    (forall g, In g (pieces cuts src trg) -> g <> ([], [])).

(** Missing for a full proof: [p = q = 0] (see [C57_nothing_lost_refuted]) and books of more than
    2^31 pairs of sentences, for which the program's [int] products overflow. *)
Theorem C57_alignment_partial : forall ln show thr src trg,
  let n := Z.of_nat (List.length src) + 1 in
  let m := Z.of_nat (List.length trg) + 1 in
  (forall s w, In s src -> In w s -> proper_word w) ->
  (forall s w, In s trg -> In w s -> proper_word w) ->
  m <= 5 * n + 4 -> n <= 5 * m + 4 -> (n + 1) * (m + 1) <= 2 ^ 31 ->
  exists out, alignerToolWithFilenames ln show thr (file_of src) (file_of trg) = Some out /\
              printed_alignment show (src ++ [[]]) (trg ++ [[]]) out.
Proof.
  intros ln show thr src trg n m Hs Ht R1 R2 Ov.
  unfold alignerToolWithFilenames. rewrite !C57_reads_lines by assumption.
  assert (Ls : Z.of_nat (List.length (src ++ [[]])) = n) by (unfold n; rewrite app_length; cbn; lia).
  assert (Lt : Z.of_nat (List.length (trg ++ [[]])) = m) by (unfold m; rewrite app_length; cbn; lia).
  destruct (tool_ok ln show thr (src ++ [[]]) (trg ++ [[]]))
    as (sim & slen & tlen & lead & trail & cost & cuts & p & q & scores & E & H); try lia.
  eexists. split; [exact E|].
  exists sim, slen, tlen, lead, trail, cost, cuts, p, q, scores. split; [reflexivity|exact H].
Qed.
Print Assumptions C57_alignment_partial.

(** The same for whatever files the two books were read from. *)
Theorem C57_any_files_partial : forall ln show thr srcfile trgfile (src trg : list (list str)),
  readNoIds srcfile = Some src -> readNoIds trgfile = Some trg ->
  let n := Z.of_nat (List.length src) in
  let m := Z.of_nat (List.length trg) in
  m <= 5 * n + 4 -> n <= 5 * m + 4 -> (n + 1) * (m + 1) <= 2 ^ 31 ->
  exists out, alignerToolWithFilenames ln show thr srcfile trgfile = Some out /\
              printed_alignment show src trg out.
Proof.
  intros ln show thr srcfile trgfile src trg Es Et n m R1 R2 Ov.
  assert (NE : forall f l, readNoIds f = Some l -> 1 <= Z.of_nat (List.length l)).
  { intros f l E. destruct (read_total f) as (l' & E' & N). rewrite E in E'. injection E' as <-.
    destruct l; [congruence|cbn; lia]. }
  unfold alignerToolWithFilenames. rewrite Es, Et.
  pose proof (NE _ _ Es). pose proof (NE _ _ Et).
  destruct (tool_ok ln show thr src trg)
    as (sim & slen & tlen & lead & trail & cost & cuts & p & q & scores & E & H'); try lia; try assumption.
  eexists. split; [exact E|].
  exists sim, slen, tlen, lead, trail, cost, cuts, p, q, scores. split; [reflexivity|exact H'].
Qed.
Print Assumptions C57_any_files_partial.

(** Books of very different sizes give no output at all. *)
Theorem C57_sizes : forall ln show thr srcfile trgfile (src trg : list (list str)),
  readNoIds srcfile = Some src -> readNoIds trgfile = Some trg ->
  let n := Z.of_nat (List.length src) in
  let m := Z.of_nat (List.length trg) in
  5 * n + 4 < m \/ 5 * m + 4 < n ->
  alignerToolWithFilenames ln show thr srcfile trgfile = Some [].
Proof.
  intros ln show thr srcfile trgfile src trg Es Et n m H.
  unfold alignerToolWithFilenames. rewrite Es, Et. unfold alignerTool.
  change (@List.length phrase) with (@List.length (list str)). fold n m.
  assert (Q : forall a b, 0 <= a -> 5 * a + 4 < b -> (a <? Z.quot b 5) = true).
  { intros a b A B. apply Z.ltb_lt. rewrite Z.quot_div_nonneg by lia.
    assert (a + 1 <= b / 5) by (apply Z.div_le_lower_bound; lia). lia. }
  destruct H as [H|H]; [rewrite (Q n m) by lia; now rewrite orb_true_r|].
  rewrite (Q m n) by lia. reflexivity.
Qed.
Print Assumptions C57_sizes.

(** For books of at most 249 target sentences the band is the whole grid: the path is the best of
    all. *)
Theorem C57_small_books : forall n m i j, 1 <= n <= 200000 -> 1 <= m <= 249 ->
  0 <= i <= n -> 0 <= j <= m -> band n m (search_thickness n m) (i, j).
Proof.
  intros n m i j Hn Hm Hi Hj. cbn [band].
  assert (T : 500 <= search_thickness n m).
  { unfold search_thickness. apply Z.min_glb; [|apply Z.le_max_l].
    apply Z.div_le_lower_bound; lia. }
  assert (D : 0 <= i * (m + 1) / (n + 1) <= m).
  { split; [apply Z.div_pos; nia|].
    assert (i * (m + 1) / (n + 1) < m + 1); [|lia]. apply Z.div_lt_upper_bound; nia. }
  pose proof (Z.div_mod (search_thickness n m) 2 ltac:(lia)).
  pose proof (Z.mod_pos_bound (search_thickness n m) 2 ltac:(lia)). lia.
Qed.
Print Assumptions C57_small_books.

(** The unprinted sentences at the beginning are all of one book, and the path leaves each of them
    unpaired. *)
Lemma lead_zero sim slen tlen inside f : (f = fst \/ f = snd) ->
  forall lead trail cost c p, path sim slen tlen inside (lead ++ trail) cost ->
  hd_error (lead ++ trail) = Some c -> hd_error trail = Some p -> f p = 0 -> 0 <= f c ->
  f c = 0 /\ exists k, p = (if f (0, 1) =? 1 then (fst c + Z.of_nat k, 0) else (0, snd c + Z.of_nat k)) /\
    lead = map (fun i => if f (0, 1) =? 1 then (fst c + Z.of_nat i, 0) else (0, snd c + Z.of_nat i)) (seq 0 k).
Proof.
  intros Hf. induction lead as [|x lead IH]; intros trail cost c p P Hc Hp Fp Nc.
  - cbn [app] in *. rewrite Hc in Hp. injection Hp as ->. split; [exact Fp|].
    exists O. cbn [seq map]. split; [|reflexivity]. destruct p as (a, b).
    destruct Hf as [-> | ->]; cbn in Fp; subst; cbn; f_equal; lia.
  - cbn [app hd_error] in Hc. injection Hc as ->. cbn [app] in P.
    destruct (lead ++ trail) as [|d r] eqn:Er.
    { apply app_eq_nil in Er. destruct Er as (_ & ->). discriminate. }
    inversion P as [|? ? ? q r0 s Ic M P' E Eq1 Eq2]. subst.
    assert (D : f d = 0 /\ exists k, p = (if f (0, 1) =? 1 then (fst d + Z.of_nat k, 0) else (0, snd d + Z.of_nat k)) /\
      lead = map (fun i => if f (0, 1) =? 1 then (fst d + Z.of_nat i, 0) else (0, snd d + Z.of_nat i)) (seq 0 k)).
    { apply (IH trail q d p); [rewrite Er; exact P'|rewrite Er; reflexivity|exact Hp|exact Fp|].
      destruct Hf as [-> | ->]; inversion M; subst; cbn in *; lia. }
    destruct D as (Fd & k & Ep & El).
    assert (Md : f c = 0 /\ d = if f (0, 1) =? 1 then (fst c + 1, 0) else (0, snd c + 1)).
    { destruct Hf as [-> | ->]; inversion M; subst; cbn in *; split; try lia; f_equal; lia. }
    destruct Md as (Fc & Ed). split; [exact Fc|]. exists (S k). rewrite Ep, El.
    destruct c as (c1, c2). destruct Hf as [-> | ->]; cbn in Ed, Fc |- *; subst d; cbn [fst snd] in *.
    + split; [f_equal; lia|]. f_equal; [f_equal; lia|]. rewrite <- seq_shift, map_map. apply map_ext. intros i. f_equal; lia.
    + split; [f_equal; lia|]. f_equal; [f_equal; lia|]. rewrite <- seq_shift, map_map. apply map_ext. intros i. f_equal; lia.
Qed.

Theorem C57_lead_unpaired : forall sim slen tlen inside lead trail cost p q,
  path sim slen tlen inside (lead ++ trail) cost -> hd_error (lead ++ trail) = Some (0, 0) ->
  hd_error trail = Some (Z.of_nat p, Z.of_nat q) ->
  (p = O -> lead = map (fun j => (0, Z.of_nat j)) (seq 0 q)) /\
  (q = O -> lead = map (fun i => (Z.of_nat i, 0)) (seq 0 p)).
Proof.
  intros sim slen tlen inside lead trail cost p q P Hc Hp. split; intros ->.
  - destruct (lead_zero sim slen tlen inside fst (or_introl eq_refl) lead trail cost _ _ P Hc Hp eq_refl ltac:(cbn; lia))
      as (_ & k & Ep & El). cbn in Ep. injection Ep as Ek. apply Nat2Z.inj in Ek. subst k. exact El.
  - destruct (lead_zero sim slen tlen inside snd (or_intror eq_refl) lead trail cost _ _ P Hc Hp eq_refl ltac:(cbn; lia))
      as (_ & k & Ep & El). cbn in Ep. injection Ep as Ek. apply Nat2Z.inj in Ek. subst k. exact El.
Qed.
Print Assumptions C57_lead_unpaired.

(** ** Concrete books *)
Definition book (l : list string) : str := concat (map (fun s => u s ++ [cNL]) l).
Definition no_show (q : Q) : str := [].
Definition words (l : list string) : list str := map u l.

(** A pair of books that meets the hypotheses. *)
Example C57_witness : exists src trg : list (list str),
  let n := Z.of_nat (List.length src) + 1 in
  let m := Z.of_nat (List.length trg) + 1 in
  (forall s w, In s src -> In w s -> proper_word w) /\
  (forall s w, In s trg -> In w s -> proper_word w) /\
  m <= 5 * n + 4 /\ n <= 5 * m + 4 /\ (n + 1) * (m + 1) <= 2 ^ 31 /\
  file_of src = book ["la casa roja 7"; "hola"]%string /\
  alignerToolWithFilenames (fun x => x) no_show (-100) (file_of src) (file_of trg)
  = Some (u "la casa roja 7" ++ [cTAB] ++ u "the house 7" ++ [cTAB; cNL]
          ++ u "hola" ++ [cTAB] ++ u "hello" ++ [cTAB; cNL] ++ [cTAB; cTAB; cNL]).
Proof.
  exists [words ["la"; "casa"; "roja"; "7"]; words ["hola"]]%string,
         [words ["the"; "house"; "7"]; words ["hello"]]%string.
  assert (P : forall ws : list (list str),
    forallb (fun s => forallb (fun w => negb (str_eqb w []) && forallb (fun c => negb (isspace c)) w) s) ws = true ->
    forall s w, In s ws -> In w s -> proper_word w).
  { intros ws F s w I J. rewrite forallb_forall in F. specialize (F s I). rewrite forallb_forall in F.
    specialize (F w J). apply andb_prop in F. destruct F as (A & B). split.
    - intros ->. discriminate.
    - intros c K. rewrite forallb_forall in B. specialize (B c K). apply negb_true_iff in B.
      unfold isspace in B. apply orb_false_iff in B. destruct B as (B1 & B2).
      apply N.eqb_neq in B1. split; [exact B1|]. intros (L1 & L2).
      apply N.leb_le in L1, L2. rewrite L1, L2 in B2. discriminate. }
  split; [apply P; vm_compute; reflexivity|]. split; [apply P; vm_compute; reflexivity|].
  vm_compute. repeat split; congruence.
Qed.

Definition wx : list str := words ["x"]%string.
Definition wcr : list str := words ["casa"; "roja"]%string.
(** The program may drop the first sentences of one of the books. *)
Theorem C57_nothing_lost_refuted : ~ forall ln show thr src trg out,
  readNoIds (file_of src) = Some (src ++ [[]]) -> readNoIds (file_of trg) = Some (trg ++ [[]]) ->
  alignerToolWithFilenames ln show thr (file_of src) (file_of trg) = Some out ->
  exists cuts scores,
    out = concat (map (line show) (combine (pieces cuts (src ++ [[]]) (trg ++ [[]])) scores)) /\
    List.length scores = List.length (pieces cuts (src ++ [[]]) (trg ++ [[]])) /\
    concat (map snd (pieces cuts (src ++ [[]]) (trg ++ [[]]))) = trg ++ [[]].
Proof.
  intros H.
  specialize (H (fun x => x) no_show (-100)%Q [wcr] [wx; wcr]
    (u "casa roja" ++ [cTAB] ++ u "casa roja" ++ [cTAB; cNL] ++ [cTAB; cTAB; cNL])%list).
  destruct H as (cuts & scores & E & L & C); [vm_compute; reflexivity..|].
  (* the text x does not occur in the output, but would have to *)
  assert (I : forall g l (sc : list Q), List.length sc = List.length l -> In g l -> forall c, In c (sentences_text (snd g)) ->
              In c (concat (map (line no_show) (combine l sc)))).
  { clear. induction l as [|h l IH]; intros [|s sc] L I c J; try discriminate; [destruct I..|].
    cbn [combine map concat]. apply in_or_app. destruct I as [->|I]; [left|right; apply (IH sc); auto].
    unfold line. apply in_or_app. right. apply in_or_app. right. apply in_or_app. left. exact J. }
  assert (X : exists g, In g (pieces cuts ([wcr] ++ [[]]) ([wx; wcr] ++ [[]]))
              /\ In (wx) (snd g)).
  { set (ps := pieces _ _ _) in *.
    assert (K : In (wx) (concat (map snd ps))) by (rewrite C; now left).
    apply in_concat in K. destruct K as (t & T1 & T2). apply in_map_iff in T1.
    destruct T1 as (g & <- & G). eauto. }
  destruct X as (g & G1 & G2).
  assert (M : In 120%N (sentences_text (snd g))).
  { clear - G2. unfold sentences_text.
    assert (S1 : forall l w, In w l -> forall c, In c w -> In c (spaced l)).
    { clear. induction l as [|y [|z l] IH]; intros w I c J; [destruct I|destruct I as [->|[]]; exact J|].
      change (spaced (y :: z :: l)) with (y ++ [cSP] ++ spaced (z :: l)).
      destruct I as [->|I]; [apply in_or_app; now left|]. apply in_or_app. right. apply in_or_app. right.
      eapply IH; eauto. }
    apply (S1 _ (spaced wx)); [apply in_map; exact G2|]. now left. }
  pose proof (I g _ scores L G1 120%N M) as F. rewrite <- E in F.
  vm_compute in F. repeat (destruct F as [F|F]; [discriminate|]). exact F.
Qed.
Print Assumptions C57_nothing_lost_refuted.

(** The two books are not treated alike: one sentence against two is found, two against one is
    not. *)
Theorem C57_symmetry_refuted : ~ forall ln show thr a b l r scores,
  List.length l = List.length r ->
  alignerToolWithFilenames ln show thr a b
    = Some (concat (map (line show) (combine (combine l r) scores))) ->
  exists scores',
  alignerToolWithFilenames ln show thr b a
    = Some (concat (map (line show) (combine (combine r l) scores'))).
Proof.
  intros H.
  specialize (H (fun x => x) no_show (-100)%Q
    (book ["x"; "uno 1 dos 2"; "tres"])%string (book ["x"; "uno 1"; "dos 2"; "tres"])%string
    [[words ["x"]]; [words ["uno"; "1"; "dos"; "2"]]; [words ["tres"]]; [[]]]%string
    [[words ["x"]]; [words ["uno"; "1"]; words ["dos"; "2"]]; [words ["tres"]]; [[]]]%string
    [0; 0; 0; 0]%Q eq_refl).
  destruct H as (sc & E); [vm_compute; reflexivity|].
  vm_compute in E.
  destruct sc as [|? [|? [|? [|? sc]]]]; vm_compute in E; discriminate.
Qed.
Print Assumptions C57_symmetry_refuted.
