From Coq Require Import String ZArith.
From Verif Require Import Model.Base Proofs.Base Model.ChunkLoop Model.ChunkTokens Model.TransferRules Model.TransferUnit Model.TrxPatterns Model.TrxMachine Model.Interchunk
  Spec.ChunkLoop Spec.ChunkTokens Spec.TransferUnit Spec.TrxPatterns Spec.TransferRun Spec.Interchunk
  Proofs.TransferMult Proofs.ChunkLoop Proofs.ChunkTokens Proofs.Patterns Proofs.TransferUnit Proofs.TrxPatterns Proofs.TrxRules Proofs.TrxMatch Proofs.TrxMachine Proofs.TransferRun Proofs.Interchunk.

(** ** chunks *)
Definition hchar (c : char) : Prop := ~ In c [cBS; cLB; cRB; cLC; cLT; cGT; cDOL; cCARET; cNUL].
Lemma scan_chars t : Forall hchar t -> forall s pre b, iw_scan (t ++ s) pre false b = iw_scan s (pre ++ t) false b.
Proof.
  induction 1 as [|c t Hc _ IH]; intros s pre b; cbn [app iw_scan]; [rewrite app_nil_r; reflexivity|]. unfold hchar in Hc. nin Hc. rewrite IH. f_equal. appeq.
Qed.
Lemma scan_reading r : Forall head_item_ok r -> forall s pre b, iw_scan (reading_str r ++ s) pre false b = iw_scan s (pre ++ reading_str r) false b.
Proof.
  induction 1 as [|i r Hi _ IH]; intros s pre b; [cbn; rewrite app_nil_r; reflexivity|]. change (reading_str (i :: r)) with (item_str i ++ reading_str r). rewrite <- app_assoc.
  destruct i as [c|c|t]; cbn [item_str app head_item_ok] in *.
  - cbn [iw_scan]. nin Hi. rewrite IH. f_equal. appeq.
  - cbn [iw_scan]. rewrite ceq_refl. rewrite IH. f_equal. appeq.
  - cbn [iw_scan]. repeat match goal with |- context [cLT =?c ?b] => change (cLT =?c b) with false end. cbn iota. rewrite <- app_assoc, scan_chars by exact Hi.
    cbn [app iw_scan]. repeat match goal with |- context [cGT =?c ?b] => change (cGT =?c b) with false end. cbn iota. rewrite IH. f_equal. appeq.
Qed.
Lemma init_chunk x : chunk_ok x -> iw_init (chunk_str x) = Some (as_word x).
Proof.
  intros [H _]. unfold iw_init, chunk_str. rewrite scan_reading by exact H. unfold as_word, content_str. destruct (c_content x) as [i|]; cbn [iw_scan app].
  - change (cLC =?c cBS) with false. change (cLC =?c cLC) with true. reflexivity.
  - rewrite app_nil_r. reflexivity.
Qed.
Lemma load_chunks l : Forall chunk_ok l -> load_words (map chunk_str l) = Some (map as_word l).
Proof. induction 1 as [|x l H _ IH]; [reflexivity|]. cbn [map load_words]. rewrite (init_chunk x H), IH. reflexivity. Qed.
Lemma wtext_chars t : Forall hchar t -> forall s, WText s -> WText (t ++ s).
Proof. induction 1 as [|c t Hc _ IH]; intros s W; [exact W|]. cbn [app]. unfold hchar in Hc. apply wt_char; try (intros ->; apply Hc; cbn; tauto). auto. Qed.
Lemma wtext_reading r : Forall head_item_ok r -> WText (reading_str r).
Proof.
  induction 1 as [|i r Hi _ IH]; [constructor|]. change (reading_str (i :: r)) with (item_str i ++ reading_str r). destruct i as [c|c|t]; cbn [item_str app head_item_ok] in *.
  - apply wt_char; try (intros ->; apply Hi; cbn; tauto). exact IH.
  - apply wt_esc, IH.
  - apply wt_char; try discriminate. rewrite <- app_assoc. apply wtext_chars; [exact Hi|]. apply wt_char; try discriminate. exact IH.
Qed.
Lemma chunk_text x : chunk_ok x -> ChunkText (chunk_str x).
Proof.
  intros [H I]. unfold chunk_str, content_str. destruct (c_content x) as [i|]; [apply ct_chunk; [apply wtext_reading, H|exact I]|]. rewrite app_nil_r. apply ct_plain, wtext_reading, H.
Qed.
Lemma text_stream l final : chunks_text l final = stream (tokl chunk chunk_str l) final.
Proof. induction l as [|[b x] l IH]; [reflexivity|]. cbn. rewrite IH. reflexivity. Qed.

Section M.
Variable lower : char -> char.
Definition csym (i : ritem) : msym := match i with RChar c | REsc c => MChar (lower c) | RTag t => MTag (cLT :: t ++ [cGT]) end.
Lemma csyms_reading r : Forall head_item_ok r -> forall s, (s = [] \/ exists i, s = cLC :: i) -> forall fuel, List.length (reading_str r ++ s) < fuel ->
  iword_syms lower fuel (reading_str r ++ s) = map csym r ++ [MMark cDOL].
Proof.
  induction 1 as [|i r Hi _ IH]; intros s Hs fuel L.
  - cbn [reading_str flat_map app map] in *. destruct fuel as [|fuel]; [lia|]. destruct Hs as [->|(j & ->)]; reflexivity.
  - change (reading_str (i :: r)) with (item_str i ++ reading_str r) in *. rewrite <- app_assoc in *. destruct i as [c|c|t]; cbn [item_str app head_item_ok] in *; (destruct fuel as [|fuel]; [cbn in L; lia|]); cbn [List.length] in L; cbn [iword_syms map csym app].
    + nin Hi. rewrite IH; [reflexivity|exact Hs|lia].
    + rewrite ceq_refl. rewrite IH; [reflexivity|exact Hs|lia].
    + repeat match goal with |- context [?a =?c ?b] => first [change (a =?c b) with true | change (a =?c b) with false] end. cbn iota.
      rewrite <- app_assoc in *. cbn [app] in *. rewrite findgt.
      * cbn [app]. rewrite IH; [reflexivity|exact Hs|]. rewrite app_length in L. cbn [List.length] in L. rewrite app_length in *. lia.
      * eapply Forall_impl; [|exact Hi]. intros c Hc. unfold tagchar. cbn in Hc |- *. tauto.
Qed.
Lemma chunk_syms x : chunk_ok x -> ichunk_syms lower (chunk_str x) = symbols lower (c_head x).
Proof.
  intros [H _]. unfold ichunk_syms, symbols, chunk_str. f_equal. apply csyms_reading; [exact H| |lia]. unfold content_str. destruct (c_content x) as [i|]; [right; eauto|left; reflexivity].
Qed.
Lemma em_chunk_unit t x M : chunk_ok x -> em_chunk lower t M (chunk_str x) = fold_left (em_step t) (symbols lower (c_head x)) M.
Proof. intros H. unfold em_chunk. rewrite (chunk_syms x H). reflexivity. Qed.
Lemma em_chunk_dead t w : em_chunk lower t [] w = [].
Proof. apply em_dead_run. Qed.
End M.

(** ** states that may have aborted *)
Section Opt.
Variable U : Type.
Variable matches : nat -> list U -> Prop.
Variable G : Type.
Variable apply : nat -> G -> list U -> list str -> str -> list str -> G -> Prop.
Variable default : U -> str.
Definition opt_apply (n : nat) (g : option G) (us : list U) (bs : list str) (o : str) (lf : list str) (g1 : option G) : Prop :=
  match g with None => o = [] /\ lf = [] /\ g1 = None | Some v => exists v', g1 = Some v' /\ apply n v us bs o lf v' end.
Lemma opt_fun : (forall n g us bs o1 l1 g1 o2 l2 g2, apply n g us bs o1 l1 g1 -> apply n g us bs o2 l2 g2 -> o1 = o2 /\ l1 = l2 /\ g1 = g2) ->
  forall n g us bs o1 l1 g1 o2 l2 g2, opt_apply n g us bs o1 l1 g1 -> opt_apply n g us bs o2 l2 g2 -> o1 = o2 /\ l1 = l2 /\ g1 = g2.
Proof.
  intros F n [g|] us bs o1 l1 g1 o2 l2 g2; cbn [opt_apply].
  - intros (v1 & -> & A1) (v2 & -> & A2). destruct (F _ _ _ _ _ _ _ _ _ _ A1 A2) as (-> & -> & ->). auto.
  - intros (-> & -> & ->) (-> & -> & ->). auto.
Qed.
Lemma opt_transferred v l final o h : Transferred U matches (option G) opt_apply default (Some v) l final o h <-> exists v', h = Some v' /\ Transferred U matches G apply default v l final o v'.
Proof.
  split.
  - intros T. remember (Some v) as g eqn:E. revert v E. induction T as [g final|g b x l final n k o bs g1 o1 g2 us K M MX MN AP T IH|g b x l final o g2 NM T IH]; intros v ->.
    + exists v. split; [reflexivity|constructor].
    + destruct AP as (v1 & -> & AP). destruct (IH v1 eq_refl) as (v' & -> & T'). exists v'. split; [reflexivity|]. econstructor; eassumption.
    + destruct (IH v eq_refl) as (v' & -> & T'). exists v'. split; [reflexivity|]. constructor; assumption.
  - intros (v' & -> & T). induction T as [g final|g b x l final n k o bs g1 o1 g2 us K M MX MN AP T IH|g b x l final o g2 NM T IH].
    + constructor.
    + econstructor; [eassumption..| |exact IH]. exists g1. auto.
    + constructor; assumption.
Qed.
End Opt.

(** ** the rules *)
Section Act.
Variable attr_match : str -> str -> str.
Variable attr_replace : str -> str -> str -> str.
Variable copy_case case_from : str -> str -> str.
Variable get_case lower_str : str -> str.
Variable lists : str -> list str.
Variable dict_case : bool.
Variable macros : str -> nat.
Variable macro_map : list (nat * list iinstr).
Variable ps : list (list str).
Variable bodies : list (list iinstr).
Variable rank : nat -> nat.
Variable depth fuel : nat.
Notation N := (file_nodes macro_map bodies).
Hypothesis N_one : one_instr N.
Hypothesis macros_wf : wf_macros macros macro_map rank.
Hypothesis rules_wf : wf_rules macros macro_map rank depth ps bodies.
Hypothesis enough : depth <= fuel.
Hypothesis content_re : uses_content N -> forall s, attr_match (u "content") s = from_brace s.
Notation act1 := (iact attr_match attr_replace copy_case case_from get_case lower_str lists dict_case macros macro_map fuel bodies).
Notation ac := (acall attr_match attr_replace copy_case case_from get_case lower_str lists dict_case macros macro_map fuel).
Notation aruns := (aruns attr_match attr_replace copy_case case_from get_case lower_str lists dict_case ac).
Notation means := (rule_means attr_match attr_replace copy_case case_from get_case lower_str lists dict_case macros macro_map bodies).
Lemma macro_nodes : forall k npar body, nth_error macro_map k = Some (npar, body) -> incl (flat_map jnodes_i body) N.
Proof. intros k npar body E x H. apply in_or_app. left. apply in_flat_map. exists (npar, body). split; [exact (nth_error_In _ _ E)|exact H]. Qed.
Lemma body_nodes k body : nth_error bodies k = Some body -> incl (flat_map jnodes_i body) N.
Proof. intros E x H. apply in_or_app. right. apply in_flat_map. exists body. split; [exact (nth_error_In _ _ E)|exact H]. Qed.
Lemma body_wf r body : nth_error bodies (r - 1) = Some body -> Forall (wf_i macros macro_map (plen ps r) rank fuel) body.
Proof.
  intros E. destruct rules_wf as [L W]. destruct (nth_error ps (r - 1)) as [p|] eqn:P.
  - unfold plen. rewrite (nth_error_nth _ _ _ P). apply (wf_below _ _ _ _ _ depth); [exact enough|]. exact (W _ _ _ P E).
  - exfalso. apply nth_error_None in P. assert (nth_error bodies (r - 1) <> None) by congruence. apply nth_error_Some in H. lia.
Qed.
Definition start (l : list iword) (v : str -> str) (bs : list str) : cst := mkcst l (seq 0 (List.length l)) v bs [].
Definition act2 (r : nat) (g : option (str -> str)) (ws bs : list str) : str * list str * Z * option (str -> str) :=
  match g, nth_error bodies (r - 1), load_words (firstn (plen ps r) ws) with
  | Some v, Some body, Some l => match aruns body (start l v bs) with Some s => (k_out s, k_bq s, (-1)%Z, Some (k_vars s)) | None => ([], [], (-1)%Z, None) end
  | _, _, _ => ([], [], (-1)%Z, None)
  end.
Definition RG (g1 : option iglob) (g2 : option (str -> str)) : Prop :=
  match g1, g2 with Some (v, c), Some v' => v = v' /\ cache_ok N c | None, None => True | _, _ => False end.
Lemma firstn_seq n a len : firstn n (seq a len) = seq a (Nat.min n len).
Proof. revert a len. induction n as [|n IH]; intros a len; [reflexivity|]. destruct len as [|len]; [reflexivity|]. cbn. f_equal. apply IH. Qed.
Lemma load_some ws : Forall (fun w => exists x, chunk_ok x /\ chunk_str x = w) ws -> exists l, ws = map chunk_str l /\ Forall chunk_ok l.
Proof. induction 1 as [|w ws (x & Hx & <-) _ (l & -> & Hl)]; [exists []; auto|]. exists (x :: l). split; [reflexivity|auto]. Qed.
Lemma act_R r g1 g2 ws bs : RG g1 g2 -> Forall (fun w => exists x, chunk_ok x /\ chunk_str x = w) ws ->
  let '(o, lf, z, g1') := act1 r g1 ws bs in exists g2', act2 r g2 ws bs = (o, lf, z, g2') /\ RG g1' g2'.
Proof.
  intros R F. apply load_some in F as (l & -> & F). unfold iact, act2. destruct g1 as [[v c]|], g2 as [v'|]; try contradiction R; [|exists None; auto].
  destruct R as [<- C]. destruct (nth_error bodies (r - 1)) as [body|] eqn:B; [|exists None; split; [reflexivity|exact I]].
  assert (F' : Forall chunk_ok (firstn (plen ps r) l)) by (apply Forall_forall; intros x H; apply in_firstn in H; exact (proj1 (Forall_forall _ _) F x H)).
  replace (firstn (plen ps r) (map chunk_str l)) with (map chunk_str (firstn (plen ps r) l)) by (symmetry; apply firstn_map). rewrite (load_chunks _ F'). unfold iapply. rewrite (load_chunks _ F). cbn [fst snd].
  set (st := mki (map as_word l) (map Some (seq 0 (List.length (map as_word l)))) v false bs [] c).
  assert (REL : Rel N (plen ps r) st (start (map as_word (firstn (plen ps r) l)) v bs)).
  { unfold st, start. split; [exists (plen ps r); cbn; rewrite firstn_map; reflexivity|]. split; [cbn; rewrite firstn_map, firstn_seq, !map_length, firstn_length; reflexivity|].
    split; [cbn; apply Forall_forall; intros i H; apply in_seq in H; lia|]. cbn. auto. }
  assert (K := runs_ok attr_match attr_replace copy_case case_from get_case lower_str lists dict_case macros macro_map N N_one rank
    (icall attr_match attr_replace copy_case case_from get_case lower_str lists dict_case macros macro_map fuel) ac fuel
    (fun n m args st s A _ B => call_all attr_match attr_replace copy_case case_from get_case lower_str lists dict_case macros macro_map N N_one rank macros_wf macro_nodes fuel n m args st s A B)
    (plen ps r) body (body_wf r body B) (body_nodes _ _ B) st _ REL eq_refl).
  unfold z_ok in K. destruct (irun_list _ _ _ _ _ _ _ _ _ body st) as [[z st']|].
  - destruct K as (-> & s' & -> & R1 & _). exists (Some (k_vars s')). destruct R1 as (_ & _ & _ & D & E1 & E2 & E3). split; [rewrite E1, E2; reflexivity|]. split; assumption.
  - rewrite K. exists None. split; [reflexivity|exact I].
Qed.
Lemma act_local r g ws bs : act2 r g ws bs = act2 r g (firstn (plen ps r) ws) bs.
Proof. unfold act2. rewrite firstn_firstn, Nat.min_id. reflexivity. Qed.
Lemma act_neg r g ws bs : (snd (fst (act2 r g ws bs)) < 0)%Z.
Proof.
  unfold act2. destruct g; [|reflexivity]. destruct (nth_error bodies (r - 1)); [|reflexivity]. destruct (load_words _); [|reflexivity]. destruct (aruns _ _); reflexivity.
Qed.
Definition content_there (x : chunk) : Prop := uses_content N -> c_content x <> None.
Lemma act_apply lower defs r g l bs : Forall (fun x => chunk_ok x /\ content_there x) l -> rule_matches lower defs ps r (map c_head l) -> List.length l = S (List.length bs) ->
  let '(o, lf, z, g1) := act2 r g (map chunk_str l) bs in opt_apply chunk (str -> str) means r g l bs o lf g1.
Proof.
  intros F (cs & P & R1 & F2) _. unfold act2. destruct g as [v|]; [|cbn; auto]. assert (LN := F2_len _ _ _ F2). rewrite map_length in LN.
  assert (PL : plen ps r = List.length l) by (unfold plen; rewrite (nth_error_nth _ _ _ P); exact LN).
  destruct rules_wf as [L W]. destruct (nth_error bodies (r - 1)) as [body|] eqn:B.
  2: { exfalso. apply nth_error_None in B. assert (nth_error ps (r - 1) <> None) by congruence. apply nth_error_Some in H. lia. }
  rewrite PL, <- (map_length chunk_str l), firstn_all. assert (F1 : Forall chunk_ok l) by (eapply Forall_impl; [|exact F]; cbn; tauto). rewrite (load_chunks l F1).
  set (s0 := start (map as_word l) v bs).
  assert (S : sound_st N (plen ps r) s0).
  { unfold s0, start. split; [cbn; rewrite seq_length, map_length; symmetry; exact PL|]. split; [cbn; apply Forall_forall; intros i H; apply in_seq in H; lia|].
    intros UC. cbn. rewrite map_map. apply Forall_map. eapply Forall_impl; [|exact F]. intros x [[_ HI] HC]. cbn. unfold content_str. specialize (HC UC). destruct (c_content x) as [i|]; [|contradiction]. exists i. split; [reflexivity|]. intros ->. inversion HI. }
  assert (T := aruns_total attr_match attr_replace copy_case case_from get_case lower_str lists dict_case macros macro_map N rank content_re ac fuel
    (acall_keep attr_match attr_replace copy_case case_from get_case lower_str lists dict_case macros macro_map fuel)
    (acall_total attr_match attr_replace copy_case case_from get_case lower_str lists dict_case macros macro_map N rank macros_wf macro_nodes content_re fuel)
    (plen ps r) body (body_wf r body B) (body_nodes _ _ B) s0 S).
  destruct (aruns body s0) as [s|] eqn:E; [|contradiction]. exists (k_vars s). split; [reflexivity|]. exists body, s. split; [exact B|].
  split; [|auto]. assert (SD := aruns_sound attr_match attr_replace copy_case case_from get_case lower_str lists dict_case macros macro_map _
    (acall_sound attr_match attr_replace copy_case case_from get_case lower_str lists dict_case macros macro_map fuel) _ _ _ E). unfold s0, start in SD. rewrite map_length in SD. exact SD.
Qed.
Lemma means_fun n v us bs o1 l1 g1 o2 l2 g2 : means n v us bs o1 l1 g1 -> means n v us bs o2 l2 g2 -> o1 = o2 /\ l1 = l2 /\ g1 = g2.
Proof.
  intros (b1 & s1 & B1 & S1 & -> & -> & ->) (b2 & s2 & B2 & S2 & -> & -> & ->). rewrite B1 in B2. injection B2 as <-. rewrite (seq_det _ _ _ _ _ _ _ _ _ _ _ _ _ S1 _ S2). auto.
Qed.
End Act.
