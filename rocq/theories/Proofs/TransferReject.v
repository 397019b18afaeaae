(** Rules that reject themselves (C62). *)
From Coq Require Import ZArith.
From Verif Require Import Model.Base Proofs.Base Model.ChunkLoop Model.ChunkTokens Model.TransferUnit Model.TransferRules Model.TransferAct Model.TrxPatterns Model.TrxMachine
  Spec.ChunkLoop Spec.ChunkTokens Spec.TransferUnit Spec.TrxPatterns Spec.TrxReject Spec.TransferRules Spec.TransferRun Spec.TransferText Spec.TransferReject
  Proofs.TransferMult Proofs.ChunkLoop Proofs.ChunkTokens Proofs.TransferUnit Proofs.TrxPatterns Proofs.TrxRules Proofs.TrxMatch Proofs.TrxMachine Proofs.TrxReject
  Proofs.TransferRules Proofs.TransferSeq Proofs.TransferLocal Proofs.TransferDefined Proofs.TransferRun Proofs.TransferText Model.TransferRules.
Open Scope nat_scope.

(** ** The loop on the compiled machine *)
Section Machine.
Variable U : Type.
Variable tok : U -> str.
Variable lower : char -> char.
Variable defs : list (str * list cat_item).
Variable ps : list (list str).
Variable t : trans.
Hypothesis wf : forall c items, lookup_cat defs c = Some items -> Forall item_wf items.
Hypothesis comp : TrxPatterns.compile defs ps = Some t.
Hypothesis nonempty : Forall (fun cs => cs <> []) ps.
Variable rd : U -> reading.
Variable uok : U -> Prop.
Hypothesis uok_nb : forall x, uok x -> no_bs lower (rd x).
Variable Wd : list (list nat) -> str -> list (list nat).
Hypothesis word_run0 : forall x M, uok x -> Wd M (tok x) = fold_left (em_step t) (symbols lower (rd x)) M.
Hypothesis word_dead : forall w, Wd [] w = [].
Variable us : list U.
Hypothesis us_fine : Forall (unit_fine U lower rd uok) us.
Variable G : Type.
Variable act : nat -> G -> list str -> list str -> str * list str * Z * G.
Variable apply : nat -> G -> list U -> list str -> bool -> str -> list str -> G -> Prop.
Variable dflt : str -> str.
Variable default : U -> str.
Notation plen := (TransferRun.plen ps).
Hypothesis act_local : forall r g ws bs, act r g ws bs = act r g (firstn (plen r) ws) bs.
Let cand := fun n (l : list U) => seen lower defs ps (map rd l) n.
Hypothesis act_apply : forall r g l bs, Forall uok l -> cand r l -> length l = S (length bs) -> let '(o, lf, z, g1) := act r g (map tok l) bs in apply r g l bs (z =? 0)%Z o lf g1.
Hypothesis dflt_default : forall x, uok x -> dflt (tok x) = default x.
Let GM := gst (list (list nat)).
Let acc := laccepts GM (g_init (list (list nat)) (em_init t)) (g_word (list (list nat)) Wd (known U tok us)) (g_blank (list (list nat)) (em_blank t)) (g_rules (list (list nat)) (em_rules t)).
Let GD := run_good U tok lower defs ps t wf comp nonempty rd uok Wd word_run0 word_dead us us_fine G act dflt act_local.
Let inus (l : list U) : Prop := forall y, In y l -> In y us.
Lemma acc_cand r x l : inus (x :: map snd l) -> (acc r (core U tok x l) <-> cand r (x :: map snd l)).
Proof.
  intros H. assert (F := fine_sub U lower rd uok us us_fine _ H).
  eapply iff_trans; [exact (acc_spec U tok defs ps t wf comp Wd word_dead us dflt r (core U tok x l))|].
  rewrite (core_visible U tok lower t rd uok Wd word_run0 r x l F).
  assert (NB : Forall (no_bs lower) (map rd (x :: map snd l))) by (apply Forall_map; eapply Forall_impl; [|exact F]; intros y [Y _]; apply uok_nb, Y).
  rewrite (visible_seen lower defs ps t wf comp _ (fine_nd U lower rd uok x l F) NB r). unfold cand. split; [tauto|]. intros K. split; [exact K|]. split; [apply core_alt|apply core_known, H].
Qed.
Lemma cand_units n : ~ cand n [].
Proof. intros (ms & (cs & N & _ & L & F) & _). destruct ms; [|discriminate]. cbn in F. inversion F. subst cs. apply nth_error_In in N. exact (proj1 (Forall_forall _ _) nonempty _ N eq_refl). Qed.
Lemma firstn_core x (l : list (str * U)) j : x :: map snd (firstn j l) = firstn (S j) (x :: map snd l).
Proof. cbn [firstn]. rewrite firstn_map. reflexivity. Qed.
Lemma longest_best bn x l m rest r : inus (x :: map snd l) -> Longest acc bn (core U tok x l) m rest r ->
  exists j, j <= length l /\ m = core U tok x (firstn j l) /\ rest = stream_items (tokl U tok (skipn j l)) /\ first_longest U cand bn (x :: map snd l) r (S j).
Proof.
  intros SubL (E & A & NB & Lmax & Lmin). assert (Aw := good_word _ _ _ _ _ _ _ _ _ _ GD r m A). destruct (core_prefix U tok x l m rest E Aw) as (j & Hj & -> & ->).
  exists j. split; [exact Hj|]. split; [reflexivity|]. split; [reflexivity|]. assert (SubF := fun j => sub_firstn U us x l j SubL).
  split; [cbn; rewrite map_length; lia|]. split; [rewrite <- firstn_core; exact (proj1 (acc_cand r x _ (SubF j)) A)|]. split; [exact NB|]. split.
  - intros n' [|j'] Hk M Nn; [lia|]. cbn in Hk. rewrite map_length in Hk. rewrite <- firstn_core in M. apply (acc_cand n' x _ (SubF j')) in M.
    specialize (Lmax _ _ n' (core_split U tok x l j') M Nn). rewrite !core_length, !firstn_length in Lmax. lia.
  - intros n' M Nn. rewrite <- firstn_core in M. apply (acc_cand n' x _ (SubF j)) in M. exact (Lmin n' M Nn).
Qed.
Lemma applied x l j r g bs : inus (x :: map snd l) -> j <= length l -> first_longest U cand bs (x :: map snd l) r (S j) ->
  let '(o, lf, z, g1) := act r g (words (core U tok x (firstn j l))) (blanks (core U tok x (firstn j l))) in
  apply r g (firstn (S j) (x :: map snd l)) (firstn (S j - 1) (map fst l)) (z =? 0)%Z o lf g1.
Proof.
  intros SubL Hj (_ & C & _). rewrite core_words, core_blanks. cbn [Nat.sub]. rewrite Nat.sub_0_r, firstn_map. rewrite <- firstn_core in *.
  apply act_apply; [|exact C|cbn [length]; rewrite !map_length; reflexivity].
  eapply Forall_impl; [|exact (fine_sub U lower rd uok us us_fine _ (sub_firstn U us x l j SubL))]. intros y [Y _]. exact Y.
Qed.
Lemma run_transferred_r bn g items final o g' : Run acc G act dflt bn g items final o g' ->
  (forall l, bn = [] -> items = stream_items (tokl U tok l) -> inus (map snd l) -> TransferredR U cand G apply default [] g l final o g') /\
  (forall x l b, items = core U tok x l -> inus (x :: map snd l) -> TransferredR U cand G apply default bn g ((b, x) :: l) final (b ++ o) g').
Proof.
  assert (START : forall bn l m rest r, Longest acc bn (stream_items (tokl U tok l)) m rest r -> False).
  { intros bn0 l m rest r (E & A & _). destruct (good_start _ _ _ _ _ _ _ _ _ _ r m GD A) as (v & s & ->). destruct l as [|[b x] l]; discriminate. }
  assert (SubR : forall x (l : list (str * U)) j, inus (x :: map snd l) -> inus (map snd (skipn j l))).
  { intros x l j H y Hy. apply (H y). right. rewrite <- skipn_map in Hy. apply in_skipn in Hy. exact Hy. }
  induction 1 as [bn g final|g b0 l0 final o g' R [IH1 IH2]|bn g l0 m rest r o lf z g1 final o2 g2 L Hact Hz R [IH1 IH2]|bn g l0 m rest r o lf g1 final o2 g2 L Hact R [IH1 IH2]|bn g w l0 final o g' NM R [IH1 IH2]]; split.
  - intros [|[b x] l] _ E _; [constructor|discriminate].
  - intros x l b E. discriminate.
  - intros [|[b x] l] _ E H; [discriminate|]. rewrite stream_cons in E. injection E as -> E. exact (IH2 x l b E H).
  - intros x l b E. discriminate.
  - intros l _ -> _. destruct (START _ _ _ _ _ L).
  - intros x l b -> H. destruct (longest_best _ _ _ _ _ _ H L) as (j & Hj & -> & -> & BE). assert (AP := applied x l j r g bn H Hj BE). rewrite Hact in AP. rewrite (proj2 (Z.eqb_neq z 0) Hz) in AP.
    apply (rj_rule U cand G apply default bn g b x l final r (S j) o lf g1 o2 g2 BE AP). cbn [skipn]. exact (IH1 (skipn j l) eq_refl eq_refl (SubR x l j H)).
  - intros l _ -> _. destruct (START _ _ _ _ _ L).
  - intros x l b -> H. destruct (longest_best _ _ _ _ _ _ H L) as (j & Hj & -> & _ & BE). assert (AP := applied x l j r g bn H Hj BE). rewrite Hact in AP.
    exact (rj_reject U cand G apply default bn g b x l final r (S j) o lf g1 o2 g2 BE AP (IH2 x l [] eq_refl H)).
  - intros [|[b x] l] _ E; discriminate.
  - intros x l b E H. injection E as -> ->. rewrite dflt_default by (apply (proj1 (Forall_forall _ _) us_fine x), (H x); left; reflexivity). apply rj_default.
    + intros n [|k] Hk M; [destruct (cand_units n M)|]. rewrite <- firstn_core in M. apply (acc_cand n x _ (sub_firstn U us x l k H)) in M. exact (NM _ _ n (core_split U tok x l k) M).
    + apply IH1; [reflexivity|reflexivity|]. intros y Hy. apply (H y). right. exact Hy.
Qed.
End Machine.

(** ** One result *)
Section Det.
Variable U : Type.
Variable cand : nat -> list U -> Prop.
Variable G : Type.
Variable apply : nat -> G -> list U -> list str -> bool -> str -> list str -> G -> Prop.
Hypothesis apply_fun : forall n g us bs z1 o1 l1 g1 z2 o2 l2 g2, apply n g us bs z1 o1 l1 g1 -> apply n g us bs z2 o2 l2 g2 -> z1 = z2 /\ o1 = o2 /\ l1 = l2 /\ g1 = g2.
Variable default : U -> str.
Lemma best_det bn us n k n' k' : first_longest U cand bn us n k -> first_longest U cand bn us n' k' -> n = n' /\ k = k'.
Proof.
  intros (A1 & A2 & A3 & A4 & A5) (B1 & B2 & B3 & B4 & B5). assert (k = k') as <- by (specialize (A4 _ _ B1 B2 B3); specialize (B4 _ _ A1 A2 A3); lia).
  split; [|reflexivity]. specialize (A5 _ B2 B3). specialize (B5 _ A2 A3). lia.
Qed.
Lemma best_some bn x (l : list (str * U)) n k : first_longest U cand bn (x :: map snd l) n k -> ~ forall n k, k <= S (length l) -> cand n (firstn k (x :: map snd l)) -> In n bn.
Proof. intros (A1 & A2 & A3 & _) H. apply A3, (H n k); [|exact A2]. cbn in A1. rewrite map_length in A1. exact A1. Qed.
Lemma transferred_r_det bn g l final o g' : TransferredR U cand G apply default bn g l final o g' -> forall o2 g2, TransferredR U cand G apply default bn g l final o2 g2 -> o = o2 /\ g' = g2.
Proof.
  induction 1 as [bn g final|bn g b x l final n k o bs g1 o1 g2 BE AP T IH|bn g b x l final n k o bs g1 o1 g2 BE AP T IH|bn g b x l final o g2 NM T IH]; intros o' g' T'.
  - inversion T'; auto.
  - inversion T' as [|? ? ? ? ? ? n' k' ? ? ? ? ? BE' AP' T1|? ? ? ? ? ? n' k' ? ? ? ? ? BE' AP' T1|? ? ? ? ? ? ? ? NM']; subst; [| |destruct (best_some _ _ _ _ _ BE NM')];
      destruct (best_det _ _ _ _ _ _ BE BE') as [<- <-]; destruct (apply_fun _ _ _ _ _ _ _ _ _ _ _ _ AP AP') as (E & <- & <- & <-); [|discriminate].
    destruct (IH _ _ T1) as [<- <-]. auto.
  - inversion T' as [|? ? ? ? ? ? n' k' ? ? ? ? ? BE' AP' T1|? ? ? ? ? ? n' k' ? ? ? ? ? BE' AP' T1|? ? ? ? ? ? ? ? NM']; subst; [| |destruct (best_some _ _ _ _ _ BE NM')];
      destruct (best_det _ _ _ _ _ _ BE BE') as [<- <-]; destruct (apply_fun _ _ _ _ _ _ _ _ _ _ _ _ AP AP') as (E & <- & <- & <-); [discriminate|].
    destruct (IH _ _ T1) as [<- <-]. auto.
  - inversion T' as [|? ? ? ? ? ? n' k' ? ? ? ? ? BE' AP' T1|? ? ? ? ? ? n' k' ? ? ? ? ? BE' AP' T1|? ? ? ? ? ? ? ? NM' T1]; subst; [destruct (best_some _ _ _ _ _ BE' NM)|destruct (best_some _ _ _ _ _ BE' NM)|].
    destruct (IH _ _ T1) as [<- <-]. auto.
Qed.
End Det.

(** ** Tokens to text *)
Section Text.
Variable U : Type.
Variable tok : U -> str.
Variable lower : char -> char.
Variable defs : list (str * list cat_item).
Variable ps : list (list str).
Variable t : trans.
Hypothesis wf : forall c items, lookup_cat defs c = Some items -> Forall item_wf items.
Hypothesis comp : TrxPatterns.compile defs ps = Some t.
Hypothesis nonempty : Forall (fun cs => cs <> []) ps.
Variable rd : U -> reading.
Variable uok : U -> Prop.
Hypothesis uok_nb : forall x, uok x -> no_bs lower (rd x).
Variable Wd : list (list nat) -> str -> list (list nat).
Hypothesis word_run0 : forall x M, uok x -> Wd M (tok x) = fold_left (em_step t) (symbols lower (rd x)) M.
Hypothesis word_dead : forall w, Wd [] w = [].
Variable clear : bool.
Variables G1 G2 : Type.
Variable R : G1 -> G2 -> Prop.
Variable act1 : nat -> G1 -> list str -> list str -> str * list str * Z * G1.
Variable act2 : nat -> G2 -> list str -> list str -> str * list str * Z * G2.
Variable apply : nat -> G2 -> list U -> list str -> bool -> str -> list str -> G2 -> Prop.
Variable dflt : str -> str.
Variable default : U -> str.
Hypothesis act_R : forall r g1 g2 ws bs, R g1 g2 -> Forall (fun w => exists x, uok x /\ tok x = w) ws -> let '(o, lf, z, g1') := act1 r g1 ws bs in exists g2', act2 r g2 ws bs = (o, lf, z, g2') /\ R g1' g2'.
Hypothesis act_local : forall r g ws bs, act2 r g ws bs = act2 r g (firstn (TransferRun.plen ps r) ws) bs.
Hypothesis act_code : shifts_whole act2 (TransferRun.plen ps).
Hypothesis act_apply : forall r g l bs, Forall uok l -> seen lower defs ps (map rd l) r -> length l = S (length bs) ->
  let '(o, lf, z, g1) := act2 r g (map tok l) bs in apply r g l bs (z =? 0)%Z o lf g1.
Hypothesis apply_fun : forall n g us bs z1 o1 l1 g1 z2 o2 l2 g2, apply n g us bs z1 o1 l1 g1 -> apply n g us bs z2 o2 l2 g2 -> z1 = z2 /\ o1 = o2 /\ l1 = l2 /\ g1 = g2.
Hypothesis dflt_default : forall x, uok x -> dflt (tok x) = default x.
Lemma run_text_r l final g1 g2 : Forall (fun bx => uok (snd bx) /\ no_dollar lower (rd (snd bx))) l -> R g1 g2 ->
  exists out g2', (exists f0 st, R (l_g _ _ st) g2' /\ forall fuel, f0 <= fuel ->
      lloop clear (list (list nat)) (em_init t) Wd (em_blank t) em_empty (em_rules t) G1 act1 dflt fuel (utoks U tok l final) (lstart _ (em_init t) G1 [] g1) = Some (out, st)) /\
    forall o h, TransferredR U (fun n us => seen lower defs ps (map rd us) n) G2 apply default [] g2 l final o h <-> o = out /\ h = g2'.
Proof.
  intros HL HR. assert (US : Forall (unit_fine U lower rd uok) (map snd l)) by (apply Forall_map; exact HL).
  assert (GD := run_good U tok lower defs ps t wf comp nonempty rd uok Wd word_run0 word_dead (map snd l) US G2 act2 dflt act_local).
  destruct (loop_correct clear _ _ _ _ _ _ G2 act2 dflt _ _ (stream_items (tokl U tok l)) final g2 GD act_code (sep_stream _)) as (f0 & out & st & H1 & H2 & _).
  assert (SIM := fun f => start_sim clear (list (list nat)) (em_init t) Wd (em_blank t) em_empty (em_rules t) G2 act2 dflt (known U tok (map snd l)) (utoks U tok l final)
    (fun p w H => proj2 (known_spec U tok (map snd l) w) (utoks_word U tok l final p w H)) (fun p => proj1 (utoks_alt U tok l final p)) (fun p => proj2 (utoks_alt U tok l final p)) [] g2 f).
  assert (TR := proj1 (run_transferred_r U tok lower defs ps t wf comp nonempty rd uok uok_nb Wd word_run0 word_dead (map snd l) US G2 act2 apply dflt default act_local act_apply dflt_default _ _ _ _ _ _ H2) l eq_refl eq_refl (fun y H => H)).
  exists out, (l_g _ _ st). split.
  - assert (OUT : forall f, f0 <= f -> lloop clear (list (list nat)) (em_init t) Wd (em_blank t) em_empty (em_rules t) G2 act2 dflt f (utoks U tok l final) (lstart _ (em_init t) G2 [] g2) = Some (out, erase _ G2 st)).
    { intros f Hf. rewrite SIM. unfold utoks. rewrite (H1 f Hf). reflexivity. }
    assert (START : Rl (list (list nat)) G1 G2 R (fun w => exists x, uok x /\ tok x = w) (lstart _ (em_init t) G1 [] g1) (lstart _ (em_init t) G2 [] g2)) by (apply Rl_intro; [exact HR|constructor]).
    assert (WORDS : forall p w, nth_error (utoks U tok l final) p = Some (KWord w) -> exists x, uok x /\ tok x = w).
    { intros p w E. destruct (utoks_word U tok l final p w E) as (x & I & EX). exists x. split; [|exact EX]. apply in_map_iff in I as (bx & <- & I). exact (proj1 (proj1 (Forall_forall _ _) HL bx I)). }
    assert (Q := fun f => loop_R clear (list (list nat)) (em_init t) Wd (em_blank t) em_empty (em_rules t) G1 G2 R act1 act2 dflt _ act_R (utoks U tok l final) f WORDS _ _ START).
    assert (Q0 := Q f0). rewrite (OUT f0 (le_n _)) in Q0.
    destruct (lloop clear (list (list nat)) (em_init t) Wd (em_blank t) em_empty (em_rules t) G1 act1 dflt f0 (utoks U tok l final) (lstart _ (em_init t) G1 [] g1)) as [[o a]|] eqn:E; [|discriminate].
    destruct Q0 as (b & [= <- <-] & RB). exists f0, a. split; [exact (proj1 (proj1 RB))|]. intros f Hf. exact (lloop_mono_le _ _ _ _ _ _ _ _ _ _ _ _ _ _ _ Hf E).
  - intros o2 h2. split.
    + intros T. destruct (transferred_r_det _ _ _ _ apply_fun _ _ _ _ _ _ _ TR _ _ T) as [<- <-]. auto.
    + intros [-> ->]. exact TR.
Qed.
End Text.

(** ** Rules *)
Section Rules.
Variable attr_match : str -> str -> str.
Variable attr_replace : str -> str -> str -> str.
Variable copy_case case_from : str -> str -> str.
Variable get_case lower : str -> str.
Variable lists : str -> list str.
Variable dict_case : bool.
Variable macros : str -> nat.
Variable macro_map : list (nat * list instr).
Variable ps : list (list str).
Variable bodies : list (list instr).
Hypothesis ps_nonempty : Forall (fun cs => cs <> []) ps.
Hypothesis WF : wf_rejecting ps macro_map bodies.
Notation N := (file_nodes macro_map bodies).
Notation tact := (tact attr_match attr_replace copy_case case_from get_case lower lists dict_case macros macro_map).
Notation unit_rule_r := (unit_rule_r attr_match attr_replace copy_case case_from get_case lower lists dict_case macros macro_map bodies).
Notation run := (run attr_match attr_replace copy_case case_from get_case lower lists dict_case).
Notation run_list := (run_list attr_match attr_replace copy_case case_from get_case lower lists dict_case).
Notation call := (call attr_match attr_replace copy_case case_from get_case lower lists dict_case macros macro_map).
Notation plen := (TransferText.plen ps).
Notation Clean := (Clean macro_map bodies).
(** the code of a rule *)
Lemma rej_run n cl i : rej_i n i = true -> forall st z st', run cl i st = Some (z, st') -> (z <= 0 \/ z = n)%Z.
Proof.
  assert (L : forall l, Forall (fun i => rej_i n i = true -> forall st z st', run cl i st = Some (z, st') -> (z <= 0 \/ z = n)%Z) l -> forallb (rej_i n) l = true -> forall st z st', run_list cl l st = Some (z, st') -> (z <= 0 \/ z = n)%Z).
  { induction 1 as [|x l Hx H IH]; intros Hs st z st' E; cbn [TransferRules.run_list] in E; [injection E as <- _; lia|]. cbn [forallb] in Hs. apply andb_prop in Hs as [H1 H2].
    destruct (run cl x st) as [[z1 st1]|] eqn:E1; [|discriminate]. destruct (z1 =? -1)%Z; [exact (IH H2 _ _ _ E)|]. injection E as <- <-. exact (Hx H1 _ _ _ E1). }
  assert (G : forall (o : option rst) z st', match o with Some st1 => Some ((-1)%Z, st1) | None => None end = Some (z, st') -> (z <= 0 \/ z = n)%Z) by (intros [x|] z st' E; [injection E as <- _; lia|discriminate]).
  induction i as [l e|m l|l|l e|m args|z0|l IH] using instr_ind2; intros Hs st z st' E; try (exact (G _ _ _ E)).
  - cbn in E. injection E as <- _. cbn in Hs. apply orb_prop in Hs as [Hs|Hs]; [apply Z.leb_le in Hs; lia|apply Z.eqb_eq in Hs; auto].
  - rewrite run_choose in E. cbn [rej_i] in Hs. revert st E. induction IH as [|[[c|] b] l Hb H IHl]; intros st E; cbn [TransferRules.run_opts] in E; [injection E as <- _; lia| |]; cbn [forallb snd] in Hs; apply andb_prop in Hs as [H1 H2].
    + destruct (test attr_match copy_case case_from get_case lower lists dict_case c st) as [[[] st1]|]; [exact (L b Hb H1 _ _ _ E)|exact (IHl H2 _ E)|discriminate].
    + destruct (run_list cl b st) as [[z1 st1]|] eqn:E1; [|discriminate]. destruct (z1 =? -1)%Z; [exact (IHl H2 _ E)|]. injection E as <- <-. exact (L b Hb H1 _ _ _ E1).
Qed.
Lemma rej_list n cl l : forallb (rej_i n) l = true -> forall st z st', run_list cl l st = Some (z, st') -> (z <= 0 \/ z = n)%Z.
Proof.
  intros Hs. induction l as [|x l IH]; intros st z st' E; cbn [TransferRules.run_list] in E; [injection E as <- _; lia|]. cbn [forallb] in Hs. apply andb_prop in Hs as [H1 H2].
  destruct (run cl x st) as [[z1 st1]|] eqn:E1; [|discriminate]. destruct (z1 =? -1)%Z; [exact (IH H2 _ _ _ E)|]. injection E as <- <-. exact (rej_run n cl x H1 _ _ _ E1).
Qed.
Lemma tact_code f r g ws bs : (snd (fst (tact f bodies r g ws bs)) <= 0 \/ snd (fst (tact f bodies r g ws bs)) = Z.of_nat (plen r))%Z.
Proof.
  unfold TransferAct.tact. destruct g as [st|]; [|left; discriminate]. destruct (nth_error bodies (r - 1)) as [b|] eqn:B; [|left; discriminate]. destruct (body_wf macro_map ps bodies ps_nonempty WF r b B) as (_ & _ & _ & Hk & _).
  destruct (twords ws) as [l|]; [|left; discriminate]. destruct (run_list (call f) b _) as [[z st1]|] eqn:E; [|left; discriminate]. exact (rej_list _ _ b Hk _ _ _ E).
Qed.
Lemma tact_sound_r f n st us bs o lf z st1 : Clean st -> Forall lunit_ok us -> length us = S (length bs) -> tact f bodies n (Some st) (map token us) bs = (o, lf, z, Some st1) ->
  unit_rule_r n (glob st) us bs (z =? 0)%Z o lf (glob st1).
Proof.
  intros HC HU L E. unfold TransferAct.tact in E. destruct (nth_error bodies (n - 1)) as [b|] eqn:B; [|discriminate]. destruct (body_wf macro_map ps bodies ps_nonempty WF n b B) as (Hn & Hs & _). rewrite (twords_units us HU) in E.
  destruct (run_list (call f) b _) as [[z1 st2]|] eqn:E1; [|discriminate]. injection E as <- <- <- <-.
  destruct (run_clean attr_match attr_replace copy_case case_from get_case lower lists dict_case macros macro_map ps bodies WF f b _ z1 st2 (tload_inv macro_map bodies us _ bs st HC) Hn Hs E1) as [X _]. rewrite (start_proj macro_map bodies us bs st HC L) in X.
  exists b, z1, (proj st2). split; [exact B|]. split; [exact X|]. split; [reflexivity|]. split; [reflexivity|]. split; reflexivity.
Qed.
Lemma tact_complete_r n st us bs rj o lf g1 : Clean st -> Forall lunit_ok us -> length us = S (length bs) -> unit_rule_r n (glob st) us bs rj o lf g1 ->
  exists f0 z st1, Clean st1 /\ g1 = (glob st1) /\ rj = (z =? 0)%Z /\ forall f, f0 <= f -> tact f bodies n (Some st) (map token us) bs = (o, lf, z, Some st1).
Proof.
  intros HC HU L (b & z & s & B & X & -> & -> & -> & ->). destruct (body_wf macro_map ps bodies ps_nonempty WF n b B) as (Hn & Hs & _). unfold glob in X. cbn [g_vars g_blanks g_mlu] in X. rewrite <- (start_proj macro_map bodies us bs st HC L) in X.
  destruct (proj2 (complete_all attr_match attr_replace copy_case case_from get_case lower lists dict_case macros macro_map N (HN macro_map ps bodies WF) (HM macro_map ps bodies WF)) _ _ _ _ X _ (tload_inv macro_map bodies us _ bs st HC) eq_refl (conj Hn Hs)) as (f0 & [z1 st1] & K & Z1 & P1 & I1).
  cbn [fst snd] in *. subst z1 s. exists f0, z, (tclear st1). split; [apply tclear_clean, I1|]. split; [reflexivity|]. split; [reflexivity|]. intros f Hf. unfold TransferAct.tact. rewrite B, (twords_units us HU), (K f Hf). reflexivity.
Qed.

(** ** texts *)
Variable M : nat -> list lunit -> Prop.
Hypothesis M_nonempty : forall n us, M n us -> us <> [].
Variable default : lunit -> str.
Definition app_r (f n : nat) (g : option rst) (us : list lunit) (bs : list str) (rj : bool) (o : str) (lf : list str) (g1 : option rst) : Prop := exists z, rj = (z =? 0)%Z /\ tact f bodies n g (map token us) bs = (o, lf, z, g1).
Lemma none_stuck_r f bn l final o g' : TransferredR lunit M (option rst) (app_r f) default bn None l final o g' -> g' = None.
Proof.
  intros T. assert (K : forall g, TransferredR lunit M (option rst) (app_r f) default bn g l final o g' -> g = None -> g' = None); [|exact (K _ T eq_refl)].
  clear. induction 1 as [bn g final|bn g b x l final n k o bs g1 o1 g2 BE AP T IH|bn g b x l final n k o bs g1 o1 g2 BE AP T IH|bn g b x l final o g2 NM T IH]; intros E; [exact E| | |exact (IH E)];
    apply IH; destruct AP as (z & _ & AP); subst g; unfold TransferAct.tact in AP; injection AP as _ _ _ <-; reflexivity.
Qed.
Lemma to_spec_r f bn l final o st st' : TransferredR lunit M (option rst) (app_r f) default bn (Some st) l final o (Some st') -> Clean st -> Forall lunit_ok (map snd l) ->
  TransferredR lunit M tglob unit_rule_r default bn (glob st) l final o (glob st').
Proof.
  intros T. remember (Some st) as g eqn:E. remember (Some st') as g' eqn:E'. revert st E E'.
  assert (STEP : forall bn st b x l n k rj o bs g1, Clean st -> Forall lunit_ok (map snd ((b, x) :: l)) -> first_longest lunit M bn (x :: map snd l) n k ->
    app_r f n (Some st) (firstn k (x :: map snd l)) (firstn (k - 1) (map fst l)) rj o bs (Some g1) -> Clean g1 /\ unit_rule_r n (glob st) (firstn k (x :: map snd l)) (firstn (k - 1) (map fst l)) rj o bs (glob g1)).
  { clear T. intros bn0 s0 b x l0 n k rj o0 bs g1 HC HU (K & MM & _) (z & -> & AP). cbn [map snd] in HU. assert (HU1 := sub_ok x l0 k HU). assert (LN := lens M M_nonempty x l0 n k K MM). split.
    - assert (Q := tact_clean attr_match attr_replace copy_case case_from get_case lower lists dict_case macros macro_map ps bodies ps_nonempty WF f n s0 _ (firstn (k - 1) (map fst l0)) HC HU1). rewrite AP in Q. exact Q.
    - exact (tact_sound_r f n s0 _ _ o0 bs z g1 HC HU1 LN AP). }
  induction T as [bn g final|bn g b x l final n k o bs g1 o1 g2 BE AP T IH|bn g b x l final n k o bs g1 o1 g2 BE AP T IH|bn g b x l final o g2 NM T IH]; intros st E E' HC HU.
  - subst g. injection E' as <-. constructor.
  - subst g g2. destruct g1 as [st1|]; [|apply none_stuck_r in T; discriminate]. destruct (STEP bn st b x l n k _ o bs st1 HC HU BE AP) as [C1 AP'].
    apply (rj_rule lunit M tglob unit_rule_r default bn _ b x l final n k o bs (glob st1)); try assumption. apply IH; [reflexivity|reflexivity|exact C1|]. apply rest_ok, HU.
  - subst g g2. destruct g1 as [st1|]; [|apply none_stuck_r in T; discriminate]. destruct (STEP bn st b x l n k _ o bs st1 HC HU BE AP) as [C1 AP'].
    apply (rj_reject lunit M tglob unit_rule_r default bn _ b x l final n k o bs (glob st1)); try assumption. apply IH; [reflexivity|reflexivity|exact C1|exact HU].
  - apply rj_default; [exact NM|]. apply IH; [exact E|exact E'|exact HC|]. cbn [map] in HU. inversion_clear HU. assumption.
Qed.
Lemma of_spec_r bn g l final o g' : TransferredR lunit M tglob unit_rule_r default bn g l final o g' -> forall st, g = (glob st) -> Clean st -> Forall lunit_ok (map snd l) ->
  exists f0 st', g' = (glob st') /\ forall f, f0 <= f -> TransferredR lunit M (option rst) (app_r f) default bn (Some st) l final o (Some st').
Proof.
  assert (STEP : forall bn st b x l n k rj o bs g1, Clean st -> Forall lunit_ok (map snd ((b, x) :: l)) -> first_longest lunit M bn (x :: map snd l) n k ->
    unit_rule_r n (glob st) (firstn k (x :: map snd l)) (firstn (k - 1) (map fst l)) rj o bs g1 ->
    exists f1 st1, Clean st1 /\ g1 = glob st1 /\ forall f, f1 <= f -> app_r f n (Some st) (firstn k (x :: map snd l)) (firstn (k - 1) (map fst l)) rj o bs (Some st1)).
  { intros bn0 s0 b x l0 n k rj o0 bs g1 HC HU (K & MM & _) AP. cbn [map snd] in HU. assert (HU1 := sub_ok x l0 k HU). assert (LN := lens M M_nonempty x l0 n k K MM).
    destruct (tact_complete_r n s0 _ _ rj o0 bs g1 HC HU1 LN AP) as (f1 & z & st1 & C1 & -> & -> & K1). exists f1, st1. split; [exact C1|]. split; [reflexivity|]. intros f Hf. exists z. split; [reflexivity|apply K1, Hf]. }
  induction 1 as [bn g final|bn g b x l final n k o bs g1 o1 g2 BE AP T IH|bn g b x l final n k o bs g1 o1 g2 BE AP T IH|bn g b x l final o g2 NM T IH]; intros st E HC HU.
  - exists 0, st. split; [exact E|]. intros. constructor.
  - subst g. destruct (STEP bn st b x l n k _ o bs g1 HC HU BE AP) as (f1 & st1 & C1 & -> & K1). destruct (IH st1 eq_refl C1 (rest_ok b x l k HU)) as (f2 & st' & E2 & K2).
    exists (Nat.max f1 f2), st'. split; [exact E2|]. intros f Hf. apply (rj_rule lunit M (option rst) (app_r f) default bn _ b x l final n k o bs (Some st1) o1 (Some st') BE); [apply K1; lia|apply K2; lia].
  - subst g. destruct (STEP bn st b x l n k _ o bs g1 HC HU BE AP) as (f1 & st1 & C1 & -> & K1). destruct (IH st1 eq_refl C1 HU) as (f2 & st' & E2 & K2).
    exists (Nat.max f1 f2), st'. split; [exact E2|]. intros f Hf. apply (rj_reject lunit M (option rst) (app_r f) default bn _ b x l final n k o bs (Some st1) o1 (Some st') BE); [apply K1; lia|apply K2; lia].
  - cbn [map] in HU. inversion_clear HU. destruct (IH st E HC) as (f0 & st' & E2 & K2); [assumption|]. exists f0, st'. split; [exact E2|]. intros f Hf. apply rj_default; [exact NM|apply K2, Hf].
Qed.
End Rules.

(** ** There is a result *)
Section Total.
Variable U : Type.
Variable ok : U -> Prop.
Variable cand : nat -> list U -> Prop.
Variable G : Type.
Variable apply : nat -> G -> list U -> list str -> bool -> str -> list str -> G -> Prop.
Variable default : U -> str.
Variable N : nat.
Hypothesis cand_fin : forall us, Forall ok us -> exists L, forall n, cand n us <-> In n L.
Hypothesis cand_bound : forall n us, cand n us -> n < N /\ us <> [].
Hypothesis apply_tot : forall n g us bs, cand n us -> length us = S (length bs) -> exists rj o lf g1, apply n g us bs rj o lf g1.
Lemma least (L : list nat) : L <> [] -> exists n, In n L /\ forall m, In m L -> n <= m.
Proof.
  induction L as [|a L IH]; [congruence|]. intros _. destruct L as [|b L]; [exists a; split; [left; reflexivity|intros m [<-|[]]; lia]|]. destruct IH as (n & H1 & H2); [discriminate|].
  destruct (Nat.le_gt_cases a n) as [L1|L1]; [exists a; split; [left; reflexivity|]|exists n; split; [right; exact H1|]]; intros m [<-|Hm]; try (specialize (H2 m Hm)); lia.
Qed.
Lemma find_best bn us : Forall ok us -> (exists n k, first_longest U cand bn us n k) \/ (forall n k, k <= length us -> cand n (firstn k us) -> In n bn).
Proof.
  intros HO. assert (K : forall K, K <= length us -> (exists n k, k <= K /\ cand n (firstn k us) /\ ~ In n bn /\ (forall n' k', k' <= K -> cand n' (firstn k' us) -> ~ In n' bn -> k' <= k) /\ (forall n', cand n' (firstn k us) -> ~ In n' bn -> n <= n')) \/
    (forall n k, k <= K -> cand n (firstn k us) -> In n bn)).
  { assert (STEP : forall K, K <= length us -> (exists n, cand n (firstn K us) /\ ~ In n bn /\ forall n', cand n' (firstn K us) -> ~ In n' bn -> n <= n') \/ (forall n, cand n (firstn K us) -> In n bn)).
    { intros K HK. destruct (cand_fin (firstn K us)) as [L HL]; [rewrite <- (firstn_skipn K us) in HO; apply Forall_app in HO; apply HO|].
      set (D := List.filter (fun n => negb (existsb (Nat.eqb n) bn)) L).
      assert (HD : forall n, In n D <-> cand n (firstn K us) /\ ~ In n bn).
      { intros n. unfold D. rewrite filter_In, HL, negb_true_iff. split; intros [A B]; (split; [exact A|]).
        - intros I. assert (existsb (Nat.eqb n) bn = true) by (apply existsb_exists; exists n; split; [exact I|apply Nat.eqb_refl]). congruence.
        - destruct (existsb (Nat.eqb n) bn) eqn:E; [|reflexivity]. apply existsb_exists in E as (m & I & E). apply Nat.eqb_eq in E as <-. contradiction. }
      destruct D as [|a D'] eqn:ED.
      - right. intros n C. destruct (in_dec Nat.eq_dec n bn) as [I|I]; [exact I|]. destruct (proj2 (HD n) (conj C I)).
      - left. destruct (least (a :: D')) as (n & H1 & H2); [discriminate|]. exists n. destruct (proj1 (HD n) H1) as [A B]. split; [exact A|]. split; [exact B|]. intros n' C I. apply H2, HD. auto. }
    induction K as [|K IH]; intros HK.
    - right. intros n k Hk C. destruct (cand_bound _ _ C) as [_ NE]. assert (k = 0) as -> by lia. destruct (NE eq_refl).
    - destruct (STEP (S K) HK) as [(n & A & B & C)|NO].
      + left. exists n, (S K). split; [lia|]. split; [exact A|]. split; [exact B|]. split; [intros; lia|exact C].
      + assert (OLD : forall n k, k <= S K -> cand n (firstn k us) -> ~ In n bn -> k <= K). { intros n k Hk C I. destruct (Nat.eq_dec k (S K)) as [->|]; [destruct (I (NO n C))|lia]. }
        destruct IH as [(n & k & A1 & A2 & A3 & A4 & A5)|NO'];[lia|left|right].
        * exists n, k. split; [lia|]. split; [exact A2|]. split; [exact A3|]. split; [|exact A5]. intros n' k' Hk C I. exact (A4 n' k' (OLD n' k' Hk C I) C I).
        * intros n k Hk C. destruct (Nat.eq_dec k (S K)) as [->|]; [exact (NO n C)|apply (NO' n k); [lia|exact C]]. }
  destruct (K (length us) (le_n _)) as [(n & k & A)|A]; [left; exists n, k; exact A|right; exact A].
Qed.
Lemma banned_len bn : NoDup bn -> Forall (fun n => n < N) bn -> length bn <= N.
Proof. intros ND F. rewrite <- (seq_length N 0). apply NoDup_incl_length; [exact ND|]. intros n Hn. apply in_seq. specialize (proj1 (Forall_forall _ _) F n Hn). cbn. lia. Qed.
Lemma transferred_total m : forall j bn g l final, length l <= m -> N - length bn <= j -> NoDup bn -> Forall (fun n => n < N) bn -> Forall ok (map snd l) -> exists o g', TransferredR U cand G apply default bn g l final o g'.
Proof.
  induction m as [|m IHm].
  - intros j bn g [|] final Ln _ _ _ _; [eexists _, _; apply rj_end|cbn in Ln; lia].
  - induction j as [|j IHj]; intros bn g [|[b x] l] final Ln Lj ND FB HO; [eexists _, _; apply rj_end| |eexists _, _; apply rj_end|]; cbn in Ln.
    + cbn [map snd] in HO. destruct (find_best bn (x :: map snd l) HO) as [(n & k & BE)|NM].
      * exfalso. destruct BE as (_ & C & I & _). destruct (cand_bound _ _ C) as [B _]. assert (length (n :: bn) <= N) by (apply banned_len; constructor; assumption). cbn in *. lia.
      * inversion_clear HO as [|? ? _ HO']. destruct (IHm N [] g l final ltac:(lia) ltac:(cbn; lia) ltac:(constructor) ltac:(constructor) HO') as (o & g' & T). eexists _, _. apply rj_default; [|exact T].
        cbn [length] in NM. rewrite map_length in NM. exact NM.
    + cbn [map snd] in HO. destruct (find_best bn (x :: map snd l) HO) as [(n & k & BE)|NM].
      * assert (BE' := BE). destruct BE' as (Hk & C & I & _). destruct (cand_bound _ _ C) as [B NE]. assert (k <> 0) by (intros ->; exact (NE eq_refl)).
        destruct (apply_tot n g (firstn k (x :: map snd l)) (firstn (k - 1) (map fst l)) C) as (rj & o & lf & g1 & AP); [rewrite !firstn_length; cbn [length] in *; rewrite !map_length in *; lia|]. destruct rj.
        -- assert (LB := banned_len (n :: bn) ltac:(constructor; assumption) ltac:(constructor; assumption)). cbn [length] in LB.
           destruct (IHj (n :: bn) g1 (([], x) :: l) final) as (o2 & g2 & T); [cbn; lia|cbn [length]; lia|constructor; assumption|constructor; assumption|exact HO|]. eexists _, _. eapply rj_reject; eassumption.
        -- destruct (IHm N [] g1 (skipn k ((b, x) :: l)) final) as (o2 & g2 & T); [rewrite skipn_length; cbn [length]; lia|cbn; lia|constructor|constructor| |].
           { rewrite <- skipn_map. cbn [map snd]. rewrite <- (firstn_skipn k (x :: map snd l)) in HO. apply Forall_app in HO. apply HO. }
           eexists _, _. eapply rj_rule; eassumption.
      * inversion_clear HO as [|? ? _ HO']. destruct (IHm N [] g l final ltac:(lia) ltac:(cbn; lia) ltac:(constructor) ltac:(constructor) HO') as (o & g' & T). eexists _, _. apply rj_default; [|exact T].
        cbn [length] in NM. rewrite map_length in NM. exact NM.
Qed.
End Total.
