From Coq Require Import ZArith.
From Verif Require Import Model.Base Proofs.Base Model.ChunkLoop Model.ChunkTokens Model.TransferUnit Model.TrxPatterns Model.TrxMachine Spec.ChunkLoop Spec.ChunkTokens Spec.TransferUnit Spec.TrxPatterns Spec.TransferRun
  Proofs.TransferMult Proofs.ChunkLoop Proofs.ChunkTokens Proofs.Patterns Proofs.TransferUnit Proofs.TrxPatterns Proofs.TrxRules Proofs.TrxMatch Proofs.TrxMachine.

(** ** A matcher that stops at unknown words and at two words without a blank between them *)
Section Guard.
Variable clear : bool.
Variable MS : Type.
Variables (ms_init : MS) (ms_word : MS -> str -> MS) (ms_blank : MS -> MS) (ms_empty : MS -> bool) (ms_rules : MS -> list nat).
Variable G : Type.
Variable act : nat -> G -> list str -> list str -> str * list str * Z * G.
Variable default : str -> str.
Variable V : str -> bool.
(* the second component: what was read last, a word or a blank *)
Definition gst := (MS * option bool * bool)%type.
Definition is_k (k : bool) (o : option bool) : bool := match o with Some j => eqb j k | None => false end.
Definition g_init : gst := (ms_init, None, true).
Definition g_word (m : gst) (w : str) : gst := let '(x, k, ok) := m in (ms_word x w, Some true, ok && negb (is_k true k) && V w).
Definition g_blank (m : gst) : gst := let '(x, k, ok) := m in (ms_blank x, Some false, ok && negb (is_k false k)).
Definition g_empty (m : gst) : bool := let '(x, k, ok) := m in ms_empty x || negb ok.
Definition g_rules (m : gst) : list nat := let '(x, k, ok) := m in if ok then ms_rules x else [].
Definition erase (st : lst gst G) : lst MS G :=
  mkl MS G (l_pos gst G st) (l_hi gst G st) (l_last gst G st) (l_prev gst G st) (l_rule gst G st) (l_nw gst G st) (l_banned gst G st)
    (option_map (fun m => fst (fst m)) (l_ms gst G st)) (l_tw gst G st) (l_tb gst G st) (l_g gst G st).
Variable toks : list tkn.
Hypothesis T_valid : forall p w, nth_error toks p = Some (KWord w) -> V w = true.
Hypothesis T_sep : forall p w v, nth_error toks p = Some (KWord w) -> nth_error toks (S p) <> Some (KWord v).
Hypothesis T_bl : forall p w v, nth_error toks p = Some (KBlank w) -> nth_error toks (S p) <> Some (KBlank v).
Definition okst (st : lst gst G) : Prop :=
  match l_ms gst G st with
  | Some (_, k, ok) => ok = true /\ match k with
      | None => True
      | Some true => exists p w, l_pos gst G st = S p /\ nth_error toks p = Some (KWord w)
      | Some false => exists p w, l_pos gst G st = S p /\ nth_error toks p = Some (KBlank w) end
  | None => True end.
Lemma settle_sim st : okst st -> let (o, st') := lsettle gst g_init g_empty G act default toks st in
  lsettle MS ms_init ms_empty G act default toks (erase st) = (o, erase st') /\ okst st'.
Proof.
  intros K. assert (D : ldead MS ms_empty G (erase st) = ldead gst g_empty G st).
  { unfold ldead, erase, okst in *. cbn [l_ms]. destruct (l_ms gst G st) as [[[x lw] ok]|]; [|reflexivity]. cbn. destruct K as [-> _]. rewrite orb_false_r. reflexivity. }
  assert (A : forall r, apply_rule MS G act r (erase st) = apply_rule gst G act r st) by reflexivity.
  assert (I : forall a b c d e f h i j k, okst (mkl gst G a b c d e f h (Some g_init) i j k)) by (intros; split; [reflexivity|exact I]).
  unfold lsettle. rewrite D. destruct (ldead gst g_empty G st); [|split; [reflexivity|exact K]].
  change (l_rule MS G (erase st)) with (l_rule gst G st). destruct (l_rule gst G st) as [r|].
  - rewrite A. destruct (apply_rule gst G act r st) as [[o z] g]. destruct (z <? 0)%Z; [split; [reflexivity|apply I]|]. destruct (0 <? z)%Z; (split; [reflexivity|apply I]).
  - change (l_tw MS G (erase st)) with (l_tw gst G st). change (l_tb MS G (erase st)) with (l_tb gst G st). destruct (l_tw gst G st) as [|w ?]; [destruct (l_tb gst G st) as [|b ?]|]; (split; [reflexivity|first [exact K|apply I]]).
Qed.
Lemma mark_sim st : okst st -> lmark MS ms_rules G (erase st) = erase (lmark gst g_rules G st) /\ okst (lmark gst g_rules G st).
Proof.
  intros K. unfold lmark. change (l_ms MS G (erase st)) with (option_map (fun m : gst => fst (fst m)) (l_ms gst G st)). assert (K' := K). unfold okst in K'.
  destruct (l_ms gst G st) as [[[x lw] ok]|] eqn:E; cbn [option_map]; [|auto]. destruct K' as [-> K']. change (l_banned MS G (erase st)) with (l_banned gst G st).
  change (classify MS ms_rules (fst (fst (x, lw, true))) (l_banned gst G st)) with (classify gst g_rules (x, lw, true) (l_banned gst G st)).
  destruct (classify gst g_rules (x, lw, true) (l_banned gst G st)) as [r|]; [|auto]. rewrite ?E. split.
  - unfold erase. cbn. rewrite ?E. reflexivity.
  - unfold okst. cbn. auto.
Qed.
Lemma consume_sim st : okst st -> match lconsume clear gst g_word g_blank G toks st with
  | None => lconsume clear MS ms_word ms_blank G toks (erase st) = None
  | Some (inl (c, s)) => lconsume clear MS ms_word ms_blank G toks (erase st) = Some (inl (c, erase s))
  | Some (inr s) => lconsume clear MS ms_word ms_blank G toks (erase st) = Some (inr (erase s)) /\ okst s
  end.
Proof.
  intros K. unfold lconsume. change (l_pos MS G (erase st)) with (l_pos gst G st). destruct (nth_error toks (l_pos gst G st)) as [[w|b|c]|] eqn:N; [| | |reflexivity].
  - unfold erase, okst in *. cbn. destruct (l_ms gst G st) as [[[x lw] ok]|]; cbn; [|auto]. split; [reflexivity|]. destruct K as [-> K]. rewrite (T_valid _ _ N).
    destruct lw as [[|]|]; [destruct K as (p & v & E1 & E2); rewrite E1 in N; destruct (T_sep p v w E2 N)|..]; (split; [reflexivity|eauto]).
  - unfold erase, okst in *. cbn. destruct (l_ms gst G st) as [[[x lw] ok]|]; cbn; [|auto]. split; [reflexivity|]. destruct K as [-> K].
    destruct lw as [[|]|]; [|destruct K as (p & v & E1 & E2); rewrite E1 in N; destruct (T_bl p v b E2 N)|]; (split; [reflexivity|eauto]).
  - change (l_tw MS G (erase st)) with (l_tw gst G st). destruct (l_tw gst G st); [reflexivity|]. split; [reflexivity|exact I].
Qed.
Lemma loop_sim f : forall st, okst st -> lloop clear MS ms_init ms_word ms_blank ms_empty ms_rules G act default f toks (erase st) =
  option_map (fun os => (fst os, erase (snd os))) (lloop clear gst g_init g_word g_blank g_empty g_rules G act default f toks st).
Proof.
  induction f as [|f IH]; intros st K; [reflexivity|]. cbn [lloop]. assert (S1 := settle_sim st K). destruct (lsettle gst g_init g_empty G act default toks st) as [o st1]. destruct S1 as [-> K1].
  destruct (mark_sim st1 K1) as [-> K2]. assert (C := consume_sim _ K2). destruct (lconsume clear gst g_word g_blank G toks (lmark gst g_rules G st1)) as [[[c s]|s]|].
  - rewrite C. reflexivity.
  - destruct C as [-> K3]. rewrite (IH s K3). destruct (lloop clear gst g_init g_word g_blank g_empty g_rules G act default f toks s) as [[o2 s3]|]; reflexivity.
  - rewrite C. reflexivity.
Qed.
Lemma start_sim tb g f : lloop clear MS ms_init ms_word ms_blank ms_empty ms_rules G act default f toks (lstart MS ms_init G tb g) =
  option_map (fun os => (fst os, erase (snd os))) (lloop clear gst g_init g_word g_blank g_empty g_rules G act default f toks (lstart gst g_init G tb g)).
Proof. apply (loop_sim f (lstart gst g_init G tb g)). split; [reflexivity|exact I]. Qed.
(** what has been read *)
Definition kd (i : item) : bool := match i with W _ => true | B _ => false end.
Fixpoint lastk (k : option bool) (l : list item) : option bool := match l with [] => k | i :: r => lastk (Some (kd i)) r end.
Fixpoint norep (k : option bool) (l : list item) : Prop := match l with [] => True | i :: r => is_k (kd i) k = false /\ norep (Some (kd i)) r end.
Lemma g_steps l : forall x k ok, exists ok', lsteps gst g_word g_blank (x, k, ok) l = (lsteps MS ms_word ms_blank x l, lastk k l, ok') /\
  (ok' = true <-> ok = true /\ norep k l /\ forall w, In (W w) l -> V w = true).
Proof.
  induction l as [|i l IH]; intros x k ok; [exists ok; cbn; split; [reflexivity|]; intuition|].
  destruct i as [w|b]; cbn [lsteps fold_left lstep g_word g_blank lastk norep kd].
  - destruct (IH (ms_word x w) (Some true) (ok && negb (is_k true k) && V w)) as (ok' & E & H). exists ok'. unfold lsteps in E. rewrite E. split; [reflexivity|].
    rewrite H, !andb_true_iff, negb_true_iff. split.
    + intros [[[A1 A2] A3] [A4 A5]]. repeat split; auto. intros v [[= <-]|Hv]; auto.
    + intros (A1 & [A2 A3] & A4). repeat split; auto; [apply A4; left; reflexivity|intros v Hv; apply A4; right; exact Hv].
  - destruct (IH (ms_blank x) (Some false) (ok && negb (is_k false k))) as (ok' & E & H). exists ok'. unfold lsteps in E. rewrite E. split; [reflexivity|].
    rewrite H, !andb_true_iff, negb_true_iff. split.
    + intros [[A1 A2] [A3 A4]]. repeat split; auto. intros v [[=]|Hv]; auto.
    + intros (A1 & [A2 A3] & A4). repeat split; auto. intros v Hv; apply A4; right; exact Hv.
Qed.
Lemma norep_alt l : forall k, norep k l -> match k with Some false => Alt l | _ => match l with W _ :: _ => Alt l | B _ :: r => Alt r | [] => True end end.
Proof.
  induction l as [|i l IH]; intros k H; [destruct k as [[|]|]; constructor|]. destruct H as [H1 H2]. specialize (IH _ H2). destruct i as [w|b]; cbn [kd] in *.
  - assert (A : Alt (W w :: l)). { destruct l as [|[v|v] l]; [constructor|destruct H2; discriminate|]. apply alt_wb, IH. }
    destruct k as [[|]|]; [discriminate|exact A|exact A].
  - destruct k as [[|]|]; [exact IH|discriminate|exact IH].
Qed.
Hypothesis M_init : ms_empty ms_init = false.
Hypothesis M_fin : forall m r, In r (ms_rules m) -> ms_empty m = false.
Hypothesis M_dead : forall m i, ms_empty m = true -> ms_empty (lstep MS ms_word ms_blank m i) = true.
Hypothesis M_blank : ms_empty (ms_blank ms_init) = true.
Lemma m_dead l : forall m, ms_empty m = true -> ms_empty (lsteps MS ms_word ms_blank m l) = true.
Proof. induction l as [|i l IH]; intros m H; [exact H|]. apply IH, M_dead, H. Qed.
Lemma g_live l : g_empty (lsteps gst g_word g_blank g_init l) = false <->
  ms_empty (lsteps MS ms_word ms_blank ms_init l) = false /\ Alt l /\ forall w, In (W w) l -> V w = true.
Proof.
  destruct (g_steps l ms_init None true) as (ok' & E & H). unfold g_init. rewrite E. cbn [g_empty]. rewrite orb_false_iff, negb_false_iff, H. split.
  - intros (L & _ & N & HV). split; [exact L|]. split; [|exact HV]. apply norep_alt in N. destruct l as [|[w|b] l]; [constructor|exact N|].
    cbn [lsteps fold_left lstep] in L. fold (lsteps MS ms_word ms_blank (ms_blank ms_init) l) in L. rewrite m_dead in L by exact M_blank. discriminate.
  - intros (L & A & HV). split; [exact L|]. split; [reflexivity|]. split; [|exact HV]. clear -A.
    assert (Q : Alt l -> norep (Some false) l /\ norep None l). { clear A. induction 1 as [|w|w b l _ [I1 I2]]; cbn; auto. } apply Q, A.
Qed.
Lemma g_accepts r l : laccepts gst g_init g_word g_blank g_rules r l <-> laccepts MS ms_init ms_word ms_blank ms_rules r l /\ Alt l /\ forall w, In (W w) l -> V w = true.
Proof.
  unfold laccepts. assert (L := g_live l). destruct (g_steps l ms_init None true) as (ok' & E & H). unfold g_init in *. rewrite E in *. cbn [g_empty g_rules] in *. split.
  - destruct ok'; [|intros []]. intros A. assert (F := M_fin _ _ A). rewrite F in L. cbn in L. split; [exact A|]. apply L. reflexivity.
  - intros (A & B & C). assert (F := M_fin _ _ A). destruct ok'; [exact A|]. rewrite F in L. cbn in L. assert (X : true = false) by (apply L; auto). discriminate.
Qed.
Lemma g_good plen nrules :
  (forall r l, laccepts MS ms_init ms_word ms_blank ms_rules r l -> Alt l -> (forall w, In (W w) l -> V w = true) -> (exists l' w, l = l' ++ [W w]) /\ length (words l) = plen r /\ r < nrules) ->
  (forall r g ws bs, act r g ws bs = act r g (firstn (plen r) ws) bs) ->
  good gst g_init g_word g_blank g_empty g_rules G act plen nrules.
Proof.
  intros HA HL. constructor.
  - cbn. rewrite M_init. reflexivity.
  - intros [[x k] ok] r. cbn. destruct ok; [|intros []]. intros H. rewrite (M_fin _ _ H). reflexivity.
  - intros [[x k] ok] i. cbn. rewrite orb_true_iff, negb_true_iff. intros [H| ->].
    + apply (M_dead _ i) in H. destruct i; cbn in *; rewrite H; reflexivity.
    + destruct i; cbn; apply orb_true_r.
  - intros l H. apply g_live in H. apply H.
  - intros r l H. apply g_accepts in H as (A & B & C). apply (HA r l A B C).
  - intros r l H. apply g_accepts in H as (A & B & C). apply (HA r l A B C).
  - exact HL.
  - intros r l H. apply g_accepts in H as (A & B & C). apply (HA r l A B C).
Qed.
End Guard.

(** ** Units with blanks between them *)
Section Units.
Variable U : Type.
Variable tok : U -> str.
Definition tokl (l : list (str * U)) : list (str * str) := map (fun bx => (fst bx, tok (snd bx))) l.
Definition core (x : U) (l : list (str * U)) : list item := W (tok x) :: stream_items (tokl l).
Lemma stream_cons b x l : stream_items (tokl ((b, x) :: l)) = B b :: core x l.
Proof. reflexivity. Qed.
Lemma core_words x l : words (core x l) = map tok (x :: map snd l).
Proof. revert x. induction l as [|[b y] l IH]; intros x; [reflexivity|]. unfold core in *. rewrite stream_cons. cbn in *. f_equal. apply IH. Qed.
Lemma core_blanks x l : blanks (core x l) = map fst l.
Proof. revert x. induction l as [|[b y] l IH]; intros x; [reflexivity|]. unfold core in *. rewrite stream_cons. cbn in *. f_equal. apply (IH y). Qed.
Lemma core_length x l : length (core x l) = S (2 * length l).
Proof. revert x. induction l as [|[b y] l IH]; intros x; [reflexivity|]. change (S (S (length (core y l))) = S (2 * S (length l))). rewrite IH. lia. Qed.
Lemma core_split x l j : core x l = core x (firstn j l) ++ stream_items (tokl (skipn j l)).
Proof.
  revert x l. induction j as [|j IH]; intros x l; [reflexivity|]. destruct l as [|[b y] l]; [reflexivity|]. cbn [firstn skipn]. unfold core. rewrite !stream_cons.
  change (W (tok x) :: B b :: core y l = W (tok x) :: B b :: (core y (firstn j l) ++ stream_items (tokl (skipn j l)))). rewrite <- IH. reflexivity.
Qed.
(** a prefix that ends in a word *)
Lemma core_prefix x l m rest : core x l = m ++ rest -> (exists l' w, m = l' ++ [W w]) ->
  exists j, j <= length l /\ m = core x (firstn j l) /\ rest = stream_items (tokl (skipn j l)).
Proof.
  revert x m. induction l as [|[b y] l IH]; intros x m E (l' & w & Em).
  - destruct m as [|a m]; [destruct l'; discriminate|]. injection E as <- E. destruct m; [|discriminate]. exists 0. auto.
  - unfold core in E. rewrite stream_cons in E. destruct m as [|a [|c m]]; [destruct l'; discriminate|..].
    + injection E as <- E. exists 0. split; [lia|]. split; [reflexivity|]. symmetry. exact E.
    + injection E as <- <- E. destruct l' as [|p [|q l']]; [discriminate|injection Em as _ Em; discriminate|]. injection Em as _ _ Em.
      destruct (IH y m E) as (j & J1 & J2 & J3); [eauto|]. exists (S j). cbn [length firstn skipn]. split; [lia|]. split; [|exact J3]. rewrite J2. reflexivity.
Qed.
(** the tokens: blank, word, blank, word, ..., end *)
Definition utoks (l : list (str * U)) (final : str) : list tkn := map ktok (stream_items (tokl l)) ++ [KEof final].
Lemma utoks_cons b x l final : utoks ((b, x) :: l) final = KBlank b :: KWord (tok x) :: utoks l final.
Proof. reflexivity. Qed.
Lemma utoks_word l final : forall p w, nth_error (utoks l final) p = Some (KWord w) -> exists x, In x (map snd l) /\ tok x = w.
Proof.
  induction l as [|[b x] l IH]; intros p w; [destruct p as [|[|p]]; discriminate|]. rewrite utoks_cons. destruct p as [|[|p]]; [discriminate| |]; cbn [nth_error].
  - intros [= <-]. exists x. split; [left; reflexivity|reflexivity].
  - intros H. destruct (IH _ _ H) as (y & Hy & E). exists y. split; [right; exact Hy|exact E].
Qed.
Lemma utoks_alt l final : forall p, (forall w v, nth_error (utoks l final) p = Some (KWord w) -> nth_error (utoks l final) (S p) <> Some (KWord v)) /\
  (forall w v, nth_error (utoks l final) p = Some (KBlank w) -> nth_error (utoks l final) (S p) <> Some (KBlank v)).
Proof.
  induction l as [|[b x] l IH]; intros p; [destruct p as [|[|p]]; split; discriminate|]. rewrite utoks_cons. destruct p as [|[|p]]; cbn [nth_error].
  - split; [discriminate|]. intros w v _. discriminate.
  - split; [|discriminate]. intros w v _. destruct l as [|[b2 y] l]; [discriminate|]. rewrite utoks_cons. discriminate.
  - exact (IH p).
Qed.
(** ** The compiled machine on them *)
Section Machine.
Variable lower : char -> char.
Variable defs : list (str * list cat_item).
Variable ps : list (list str).
Variable t : trans.
Hypothesis wf : forall c items, lookup_cat defs c = Some items -> Forall item_wf items.
Hypothesis comp : compile defs ps = Some t.
Hypothesis nonempty : Forall (fun cs => cs <> []) ps.
Variable rd : U -> reading.                    (* what the patterns see of a unit *)
Variable uok : U -> Prop.
Variable Wd : list (list nat) -> str -> list (list nat).      (* applyWord *)
Hypothesis word_run0 : forall x M, uok x -> Wd M (tok x) = fold_left (em_step t) (symbols lower (rd x)) M.
Hypothesis word_dead : forall w, Wd [] w = [].
Definition unit_fine (x : U) : Prop := uok x /\ no_dollar lower (rd x).
Let I := em_init t.
Let Bl := em_blank t.
Let steps := lsteps (list (list nat)) Wd Bl.
Lemma steps_dead l : steps [] l = [].
Proof.
  induction l as [|i l IH]; [reflexivity|]. unfold steps, lsteps in *. cbn [fold_left]. assert (E : lstep (list (list nat)) Wd Bl [] i = []); [|rewrite E; exact IH].
  destruct i as [w|b]; cbn [lstep]; [apply word_dead|reflexivity].
Qed.
Lemma init_blank : em_blank t (em_init t) = [].
Proof.
  destruct (compile_einv defs ps (defs_key_ok defs wf) t comp) as [ok E].
  assert (L := em_live t [MMark cSP]). change (em_run t [MMark cSP]) with (em_blank t (em_init t)) in L.
  destruct (em_blank t (em_init t)); [reflexivity|]. exfalso. destruct (proj1 L eq_refl) as [q P].
  apply (einv_sound defs ps (defs_key_ok defs wf) ok t E) in P; [|intros [H|[]]; discriminate].
  assert (SM : forall cs, ~ (cs <> [] /\ seqm defs cs [])). { intros cs [N S]. apply N. exact (seqm_nil defs cs S). }
  destruct (ok q) as [cs|cs|cs|cs c a|]; cbn [osem] in P.
  - inversion P as [|cs' c x v m1 w m2 S V T1 C T2 E1 E2]. assert (Q := f_equal (@length _) E2). rewrite !app_length in Q. cbn [length] in Q. rewrite app_length in Q. cbn [length] in Q. lia.
  - destruct P as (x1 & v & m & E1 & _ & _ & T). rewrite app_assoc in E1. apply (app_inj_tail [] (x1 ++ v)) in E1 as [_ <-]. discriminate.
  - destruct P as (N & x1 & m & E1 & S & _). apply (app_inj_tail [] x1) in E1 as [<- _]. apply (SM cs). auto.
  - destruct P as (x1 & x2 & cm & f & _ & E1 & _ & x0 & v & m & -> & _ & _ & T). assert (H : In m [MMark cSP]) by (rewrite E1; apply in_or_app; left; apply in_or_app; right; apply in_or_app; right; left; reflexivity).
    destruct H as [<-|[]]. discriminate.
  - destruct P.
Qed.
Lemma word_run x M : unit_fine x -> Wd M (tok x) = fold_left (em_step t) (symbols lower (rd x)) M.
Proof. intros [H _]. apply word_run0, H. Qed.
Lemma core_run x l : Forall unit_fine (x :: map snd l) -> steps I (core x l) = em_run t (fed lower (map rd (x :: map snd l))).
Proof.
  revert x. induction l as [|[b y] l IH] using rev_ind; intros x H.
  - inversion_clear H as [|? ? Hx _]. unfold steps, lsteps. cbn [core tokl map stream_items flat_map fold_left lstep]. rewrite word_run by exact Hx. reflexivity.
  - rewrite map_app, app_comm_cons in H. apply Forall_app in H as [H1 H2]. inversion_clear H2 as [|? ? Hy _]. cbn [snd] in Hy.
    assert (E : core x (l ++ [(b, y)]) = core x l ++ [B b; W (tok y)]). { rewrite (core_split x (l ++ [(b, y)]) (length l)), firstn_app, firstn_all, Nat.sub_diag, skipn_app, skipn_all, Nat.sub_diag. cbn [firstn skipn app]. rewrite app_nil_r. reflexivity. }
    rewrite E. unfold steps, lsteps in *. rewrite fold_left_app, (IH x H1). cbn [fold_left lstep]. rewrite word_run by exact Hy.
    rewrite map_app, app_comm_cons, map_app. change (map rd (map snd [(b, y)])) with [rd y]. rewrite fed_snoc. change (map rd (x :: map snd l)) with (rd x :: map rd (map snd l)).
    cbn match. unfold em_run. rewrite !fold_left_app. unfold symbols. cbn [fold_left]. unfold Bl, em_blank. rewrite !fold_left_app. reflexivity.
Qed.
Lemma core_visible r x l : Forall unit_fine (x :: map snd l) ->
  (laccepts (list (list nat)) I Wd Bl (em_rules t) r (core x l) <-> visible t (fed lower (map rd (x :: map snd l))) r).
Proof. intros H. unfold laccepts. fold steps. rewrite core_run by exact H. apply em_rules_spec. Qed.
Variable us : list U.
Hypothesis us_fine : Forall unit_fine us.
Definition known (w : str) : bool := existsb (str_eqb w) (map tok us).
Lemma known_spec w : known w = true <-> exists x, In x us /\ tok x = w.
Proof.
  unfold known. rewrite existsb_exists. split.
  - intros (v & H & E). apply str_eqb_eq in E as <-. apply in_map_iff in H as (x & E & H). eauto.
  - intros (x & H & <-). exists (tok x). split; [apply in_map, H|apply str_eqb_refl].
Qed.
Lemma known_core l : Alt l -> (forall w, In (W w) l -> known w = true) -> l = [] \/
  exists x l' e, Forall unit_fine (x :: map snd l') /\ (forall y, In y (x :: map snd l') -> In y us) /\ l = core x l' ++ e /\ (e = [] \/ exists b, e = [B b]).
Proof.
  intros A. induction A as [|w|w b l A IH]; intros H; [left; reflexivity|..]; right.
  - destruct (proj1 (known_spec w)) as (x & Hx & <-); [apply H; left; reflexivity|]. exists x, [], []. split; [constructor; [exact (proj1 (Forall_forall _ _) us_fine x Hx)|constructor]|].
    split; [intros y [<-|[]]; exact Hx|]. split; [reflexivity|left; reflexivity].
  - destruct (proj1 (known_spec w)) as (x & Hx & <-); [apply H; left; reflexivity|]. destruct IH as [->|(y & l' & e & F & K & -> & E)].
    + intros v Hv. apply H. right. right. exact Hv.
    + exists x, [], [B b]. split; [constructor; [exact (proj1 (Forall_forall _ _) us_fine x Hx)|constructor]|]. split; [intros y [<-|[]]; exact Hx|]. split; [reflexivity|right; eauto].
    + exists x, ((b, y) :: l'), e. split; [constructor; [exact (proj1 (Forall_forall _ _) us_fine x Hx)|exact F]|]. split; [intros z [<-|Hz]; [exact Hx|apply K, Hz]|]. split; [reflexivity|exact E].
Qed.
Lemma steps_app' M a b : steps M (a ++ b) = steps (steps M a) b. Proof. unfold steps, lsteps. apply fold_left_app. Qed.
Lemma fine_nd x (l : list (str * U)) : Forall unit_fine (x :: map snd l) -> Forall (no_dollar lower) (map rd (x :: map snd l)).
Proof. intros H. apply Forall_map. eapply Forall_impl; [|exact H]. intros y [_ Y]. exact Y. Qed.
Lemma accepts_core r l : laccepts (list (list nat)) I Wd Bl (em_rules t) r l -> Alt l -> (forall w, In (W w) l -> known w = true) ->
  exists x l', Forall unit_fine (x :: map snd l') /\ l = core x l' /\ rule_matches lower defs ps r (map rd (x :: map snd l')).
Proof.
  intros HA A H. destruct (known_core l A H) as [->|(x & l' & e & F & K & -> & [->|(b & ->)])].
  - exfalso. assert (Vs : visible t (fed lower []) r) by (apply em_rules_spec; exact HA). apply visible_matched in Vs. apply (matched_sound lower defs ps t wf comp [] (Forall_nil _)) in Vs as (cs & N & _ & F).
    inversion F. subst cs. apply nth_error_In in N. exact (proj1 (Forall_forall _ _) nonempty _ N eq_refl).
  - exists x, l'. rewrite app_nil_r in *. split; [exact F|]. split; [reflexivity|]. apply core_visible in HA; [|exact F]. apply visible_matched in HA. apply (matched_sound lower defs ps t wf comp _ (fine_nd _ _ F)), HA.
  - exfalso. unfold laccepts in HA. fold steps in HA. rewrite steps_app', core_run in HA by exact F. set (X := fed lower (map rd (x :: map snd l'))) in *.
    change (In r (em_rules t (em_blank t (em_run t X)))) in HA. unfold em_blank in HA. rewrite <- run_snoc in HA. apply em_rules_spec in HA. destruct HA as (y & Fy & Hy & _).
    assert (M : matched t (X ++ [MMark cSP]) r) by (apply has_rule_matched; eauto).
    destruct (compile_correct defs ps (defs_key_ok defs wf) t comp (X ++ [MMark cSP])) as [S _].
    { intros B. apply in_app_or in B as [B|[B|[]]]; [exact (fed_no_bs _ _ B)|discriminate]. }
    destruct (S r M) as (_ & cs & _ & Q). destruct (seqm_last defs cs _ Q) as [[_ E]|(x' & m & E & T)]; [destruct X; discriminate|]. apply app_inj_tail in E as [_ <-]. discriminate.
Qed.
(** ** The run *)
Variable G : Type.
Variable act : nat -> G -> list str -> list str -> str * list str * Z * G.
Variable apply : nat -> G -> list U -> list str -> str -> list str -> G -> Prop.
Variable dflt : str -> str.
Variable default : U -> str.
Definition plen (r : nat) : nat := length (nth (r - 1) ps []).
Hypothesis act_local : forall r g ws bs, act r g ws bs = act r g (firstn (plen r) ws) bs.
Hypothesis act_neg : forall r g ws bs, (snd (fst (act r g ws bs)) < 0)%Z.
Hypothesis act_apply : forall r g l bs, Forall uok l -> rule_matches lower defs ps r (map rd l) -> length l = S (length bs) -> let '(o, lf, z, g1) := act r g (map tok l) bs in apply r g l bs o lf g1.
Hypothesis dflt_default : forall x, uok x -> dflt (tok x) = default x.
Let GM := gst (list (list nat)).
Let gi := g_init (list (list nat)) I.
Let gw := g_word (list (list nat)) Wd known.
Let gb := g_blank (list (list nat)) Bl.
Let ge := g_empty (list (list nat)) em_empty.
Let gr := g_rules (list (list nat)) (em_rules t).
Let acc := laccepts GM gi gw gb gr.
Let rm := fun n (l : list U) => rule_matches lower defs ps n (map rd l).
Lemma em_fin m r : In r (em_rules t m) -> em_empty m = false.
Proof. destruct m; [intros []|reflexivity]. Qed.
Lemma em_dead' m i : em_empty m = true -> em_empty (lstep (list (list nat)) Wd Bl m i) = true.
Proof. destruct m; [|discriminate]. intros _. assert (E := steps_dead [i]). unfold steps, lsteps in E. cbn [fold_left] in E. rewrite E. reflexivity. Qed.
Lemma em_blank0 : em_empty (Bl I) = true.
Proof. unfold Bl, I. rewrite init_blank. reflexivity. Qed.
Lemma acc_spec r l : acc r l <-> laccepts (list (list nat)) I Wd Bl (em_rules t) r l /\ Alt l /\ forall w, In (W w) l -> known w = true.
Proof. apply (g_accepts (list (list nat)) I Wd Bl em_empty (em_rules t) dflt known em_fin em_dead' em_blank0). Qed.
Lemma run_good : good GM gi gw gb ge gr G act plen (S (length ps)).
Proof.
  refine (g_good (list (list nat)) I Wd Bl em_empty (em_rules t) G act dflt known eq_refl em_fin em_dead' em_blank0 plen (S (length ps)) _ act_local).
  intros r l A1 A2 A3. destruct (accepts_core r l A1 A2 A3) as (x & l' & F & -> & (cs & N & L & M)). split; [|split].
  - destruct l' as [|[b y] l' _] using rev_ind; [exists [], (tok x); reflexivity|]. rewrite (core_split x (l' ++ [(b, y)]) (length l')), firstn_app, firstn_all, Nat.sub_diag, skipn_app, skipn_all, Nat.sub_diag. cbn [firstn skipn app]. rewrite app_nil_r.
    exists (core x l' ++ [B b]), (tok y). rewrite <- app_assoc. reflexivity.
  - rewrite core_words, map_length. assert (ML : length cs = length (map rd (x :: map snd l'))) by (clear -M; induction M; cbn; congruence). rewrite map_length in ML. unfold plen. rewrite (nth_error_nth _ _ [] N). symmetry. exact ML.
  - assert (r - 1 < length ps) by (apply nth_error_Some; rewrite N; discriminate). lia.
Qed.
Lemma core_alt x l : Alt (core x l).
Proof. revert x. induction l as [|[b y] l IH]; intros x; [constructor|]. unfold core. rewrite stream_cons. constructor. apply IH. Qed.
Lemma core_known x l : (forall y, In y (x :: map snd l) -> In y us) -> forall w, In (W w) (core x l) -> known w = true.
Proof.
  intros H w Hw. apply known_spec. assert (K : In w (words (core x l))). { clear -Hw. induction (core x l) as [|[v|v] r IH]; [destruct Hw|..]; (destruct Hw as [E|Hw]; [first [injection E as ->; left; reflexivity|discriminate]|]); [right|]; apply IH, Hw. }
  rewrite core_words in K. apply in_map_iff in K as (y & <- & Hy). exists y. split; [apply H, Hy|reflexivity].
Qed.
Lemma fine_sub (l : list U) : (forall y, In y l -> In y us) -> Forall unit_fine l.
Proof. intros H. apply Forall_forall. intros y Hy. exact (proj1 (Forall_forall _ _) us_fine y (H y Hy)). Qed.
Lemma acc_sound r x l : (forall y, In y (x :: map snd l) -> In y us) -> acc r (core x l) -> rm r (x :: map snd l).
Proof.
  intros H A. assert (F := fine_sub _ H). apply acc_spec in A as [A _]. apply core_visible in A; [|exact F]. apply visible_matched in A. apply (matched_sound lower defs ps t wf comp _ (fine_nd _ _ F)), A.
Qed.
Lemma acc_complete n x l : (forall y, In y (x :: map snd l) -> In y us) -> rm n (x :: map snd l) -> exists m, m <= n /\ acc m (core x l).
Proof.
  intros H R. assert (F := fine_sub _ H). apply (matched_complete lower defs ps t wf comp _ (fine_nd _ _ F)) in R as (m & Lm & M). set (X := fed lower (map rd (x :: map snd l))) in *.
  destruct (existsb (fun k => k <=? m) (em_rules t (em_run t X))) eqn:E.
  - apply existsb_exists in E as (k & Hk & Lk). apply Nat.leb_le in Lk. exists k. split; [lia|]. apply acc_spec. split; [|split; [apply core_alt|apply core_known, H]]. apply core_visible; [exact F|]. apply em_rules_spec, Hk.
  - exfalso. assert (Q : S m <= m); [|lia]. apply (visible_below lower t _ (S m)) in M; [exact M|]. intros k Vk. apply em_rules_spec in Vk.
    destruct (le_lt_dec (S m) k) as [|Lk]; [assumption|]. assert (existsb (fun k => k <=? m) (em_rules t (em_run t X)) = true) by (apply existsb_exists; exists k; split; [exact Vk|apply Nat.leb_le; lia]). congruence.
Qed.
Lemma no_units n : ~ rm n [].
Proof. intros (cs & N & _ & F). inversion F. subst cs. apply nth_error_In in N. exact (proj1 (Forall_forall _ _) nonempty _ N eq_refl). Qed.
Lemma in_firstn {A} (y : A) j l : In y (firstn j l) -> In y l.
Proof. intros H. rewrite <- (firstn_skipn j l). apply in_or_app. auto. Qed.
Lemma in_skipn {A} (y : A) j l : In y (skipn j l) -> In y l.
Proof. intros H. rewrite <- (firstn_skipn j l). apply in_or_app. auto. Qed.
Lemma sub_firstn x (l : list (str * U)) j : (forall y, In y (x :: map snd l) -> In y us) -> forall y, In y (x :: map snd (firstn j l)) -> In y us.
Proof. intros H y [<-|Hy]; apply H; [left; reflexivity|right]. rewrite firstn_map in Hy || rewrite <- firstn_map in Hy. apply in_firstn in Hy. exact Hy. Qed.
Lemma run_transferred n : forall l g final o g', length l <= n -> (forall y, In y (map snd l) -> In y us) ->
  Run acc G act dflt [] g (stream_items (tokl l)) final o g' -> Transferred U rm G apply default g l final o g'.
Proof.
  assert (START : forall r m, acc r m -> exists v s, m = W v :: s) by (intros r m H; exact (good_start _ _ _ _ _ _ _ _ _ _ r m run_good H)).
  induction n as [|n IH]; intros l g final o g' Ln Hsub R; (destruct l as [|[b x] l]; [inversion R; subst; [constructor|..]|]).
  1,2,4,5: match goal with L : Longest _ _ _ _ _ _ |- _ => destruct L as (E & A & _); destruct (START _ _ A) as (v & s & ->); discriminate end.
  - cbn in Ln. lia.
  - rewrite stream_cons in R. inversion R as [|? ? ? ? o1 ? R1|? ? ? ? ? ? ? ? ? ? ? ? ? L|? ? ? ? ? ? ? ? ? ? ? ? L|]; subst.
    2,3: destruct L as (E & A & _); destruct (START _ _ A) as (v & s & ->); discriminate.
    clear R. rename R1 into R. assert (SubL : forall y, In y (x :: map snd l) -> In y us) by exact Hsub. assert (SubT : forall y, In y (map snd l) -> In y us) by (intros y Hy; apply Hsub; right; exact Hy).
    assert (COMP : forall n' j, j <= length l -> rm n' (firstn (S j) (x :: map snd l)) -> exists m, m <= n' /\ acc m (core x (firstn j l))).
    { intros n' j Hj M. apply acc_complete; [apply sub_firstn, SubL|]. cbn [firstn] in M. rewrite firstn_map in M || rewrite <- firstn_map in M. exact M. }
    inversion R as [|? b' l0 ? o2 ? R1 E1|bn g0 l0 m rest r o2 lf z g1 ? o3 g2 L Hact Hz R1|bn g0 l0 m rest r o2 lf g1 ? o3 g2 L Hact R1|bn g0 w l0 ? o2 ? NM R1]; subst.
    + destruct L as (E & A & _ & Lmax & Lmin). assert (Aw := good_word _ _ _ _ _ _ _ _ _ _ run_good r m A). destruct (core_prefix x l m rest E Aw) as (j & Hj & -> & ->).
      rewrite core_words, core_blanks in Hact. assert (Fs := fine_sub _ (sub_firstn x l j SubL)).
      assert (Ap := act_apply r g (x :: map snd (firstn j l)) (map fst (firstn j l))). rewrite Hact in Ap.
      assert (FM : x :: map snd (firstn j l) = firstn (S j) (x :: map snd l)) by (cbn [firstn]; rewrite firstn_map; reflexivity).
      apply (tr_rule U rm G apply default g b x l final r (S j) o2 lf g1 o3).
      * cbn. rewrite map_length. lia.
      * rewrite <- FM. apply acc_sound; [apply sub_firstn, SubL|exact A].
      * intros n' [|j'] Hk M; [lia|]. cbn in Hk. rewrite map_length in Hk. destruct (COMP n' j' ltac:(lia) M) as (m' & _ & A'). specialize (Lmax (core x (firstn j' l)) (stream_items (tokl (skipn j' l))) m').
        rewrite !core_length, !firstn_length in Lmax. specialize (Lmax (core_split x l j') A' (fun H => H)). lia.
      * intros n' M. destruct (COMP n' j Hj M) as (m' & Lm & A'). specialize (Lmin m' A' (fun H => H)). lia.
      * cbn [Nat.sub]. rewrite Nat.sub_0_r, <- FM. rewrite firstn_map. apply Ap.
        -- eapply Forall_impl; [|exact Fs]. intros y [Y _]. exact Y.
        -- apply acc_sound; [apply sub_firstn, SubL|exact A].
        -- cbn [length]. rewrite !map_length. reflexivity.
      * cbn [skipn]. apply IH; [rewrite skipn_length; cbn in Ln; lia| |exact R1]. intros y Hy. apply SubT. rewrite <- skipn_map in Hy. apply in_skipn in Hy. exact Hy.
    + assert (Z := act_neg r g (words m) (blanks m)). rewrite Hact in Z. cbn in Z. lia.
    + rewrite dflt_default by (apply (proj1 (Forall_forall _ _) us_fine x), SubL; left; reflexivity). apply tr_default.
      * intros n' [|j'] Hk M; [exact (no_units n' M)|]. destruct (COMP n' j' ltac:(lia) M) as (m' & _ & A'). exact (NM (core x (firstn j' l)) (stream_items (tokl (skipn j' l))) m' (core_split x l j') A').
      * apply IH; [cbn in Ln; lia|exact SubT|exact R1].
Qed.
End Machine.
End Units.

(** ** One result *)
Section Det.
Variable U : Type.
Variable matches : nat -> list U -> Prop.
Variable G : Type.
Variable apply : nat -> G -> list U -> list str -> str -> list str -> G -> Prop.
Hypothesis apply_fun : forall n g us bs o1 l1 g1 o2 l2 g2, apply n g us bs o1 l1 g1 -> apply n g us bs o2 l2 g2 -> o1 = o2 /\ l1 = l2 /\ g1 = g2.
Variable default : U -> str.
Lemma transferred_det g l final o g' : Transferred U matches G apply default g l final o g' -> forall o2 g2, Transferred U matches G apply default g l final o2 g2 -> o = o2 /\ g' = g2.
Proof.
  induction 1 as [g final|g b x l final n k o bs g1 o1 g2 us K M MX MN AP T IH|g b x l final o g2 NM T IH]; intros o' g' T'.
  - inversion T'; auto.
  - inversion T' as [|g0 b0 x0 l0 f0 n' k' oo bs' g1' o1' g2' us' K' M' MX' MN' AP' T1|? ? ? ? ? ? ? NM]; subst.
    + fold us in us'. subst us'. assert (k = k') as <- by (specialize (MX _ _ K' M'); specialize (MX' _ _ K M); lia). assert (n = n') as <- by (specialize (MN _ M'); specialize (MN' _ M); lia).
      destruct (apply_fun _ _ _ _ _ _ _ _ _ _ AP AP') as (<- & <- & <-). destruct (IH _ _ T1) as [<- <-]. auto.
    + exfalso. apply (NM n k); [|exact M]. subst us. cbn in K. rewrite map_length in K. exact K.
  - inversion T' as [|? ? ? ? ? n k ? ? ? ? ? us K M|? ? ? ? ? ? ? NM' T1]; subst.
    + exfalso. apply (NM n k); [|exact M]. subst us. cbn in K. rewrite map_length in K. exact K.
    + destruct (IH _ _ T1) as [<- <-]. auto.
Qed.
End Det.

(** ** Two loops whose rules do the same *)
Section StateSim.
Variable clear : bool.
Variable MS : Type.
Variables (ms_init : MS) (ms_word : MS -> str -> MS) (ms_blank : MS -> MS) (ms_empty : MS -> bool) (ms_rules : MS -> list nat).
Variables G1 G2 : Type.
Variable R : G1 -> G2 -> Prop.
Variable act1 : nat -> G1 -> list str -> list str -> str * list str * Z * G1.
Variable act2 : nat -> G2 -> list str -> list str -> str * list str * Z * G2.
Variable default : str -> str.
Variable P : str -> Prop.                       (* the words of the text *)
Hypothesis act_R : forall r g1 g2 ws bs, R g1 g2 -> Forall P ws ->
  let '(o, lf, z, g1') := act1 r g1 ws bs in exists g2', act2 r g2 ws bs = (o, lf, z, g2') /\ R g1' g2'.
Definition Rl (a : lst MS G1) (b : lst MS G2) : Prop :=
  (R (l_g MS G1 a) (l_g MS G2 b) /\ Forall P (l_tw MS G1 a)) /\
  mkl MS unit (l_pos MS G1 a) (l_hi MS G1 a) (l_last MS G1 a) (l_prev MS G1 a) (l_rule MS G1 a) (l_nw MS G1 a) (l_banned MS G1 a) (l_ms MS G1 a) (l_tw MS G1 a) (l_tb MS G1 a) tt =
  mkl MS unit (l_pos MS G2 b) (l_hi MS G2 b) (l_last MS G2 b) (l_prev MS G2 b) (l_rule MS G2 b) (l_nw MS G2 b) (l_banned MS G2 b) (l_ms MS G2 b) (l_tw MS G2 b) (l_tb MS G2 b) tt.
Lemma Rl_intro p h la pr ru nw ba m tw tb g1 g2 : R g1 g2 -> Forall P tw -> Rl (mkl MS G1 p h la pr ru nw ba m tw tb g1) (mkl MS G2 p h la pr ru nw ba m tw tb g2).
Proof. intros H K. split; [split; [exact H|exact K]|reflexivity]. Qed.
Lemma settle_R toks a b : Rl a b -> let '(o, a') := lsettle MS ms_init ms_empty G1 act1 default toks a in
  exists b', lsettle MS ms_init ms_empty G2 act2 default toks b = (o, b') /\ Rl a' b'.
Proof.
  destruct a as [p h la pr ru nw ba m tw tb g1]; destruct b as [p' h' la' pr' ru' nw' ba' m' tw' tb' g2]. intros [[HR HP] E]. cbn in HR, HP, E. injection E as <- <- <- <- <- <- <- <- <- <-.
  unfold lsettle, ldead, apply_rule. cbn [l_ms l_rule l_tw l_tb l_g l_nw l_last l_prev l_hi l_pos l_banned].
  destruct (match m with Some m0 => ms_empty m0 | None => true end); [|eexists; split; [reflexivity|apply Rl_intro; [exact HR|auto]]]. destruct ru as [r|].
  - assert (A := act_R r g1 g2 tw (firstn (nw - 1) tb) HR HP). destruct (act1 r g1 tw (firstn (nw - 1) tb)) as [[[o lf] z] g1']. destruct A as (g2' & -> & HR').
    destruct (z <? 0)%Z; [eexists; split; [reflexivity|apply Rl_intro; [exact HR'|auto]]|]. destruct (0 <? z)%Z; (eexists; split; [reflexivity|apply Rl_intro; [exact HR'|auto]]).
  - destruct tw as [|w tw]; [destruct tb as [|x tb]|]; (eexists; split; [reflexivity|apply Rl_intro; [exact HR|auto]]).
Qed.
Lemma mark_R a b : Rl a b -> Rl (lmark MS ms_rules G1 a) (lmark MS ms_rules G2 b).
Proof.
  destruct a as [p h la pr ru nw ba m tw tb g1]; destruct b as [p' h' la' pr' ru' nw' ba' m' tw' tb' g2]. intros [[HR HP] E]. cbn in HR, HP, E. injection E as <- <- <- <- <- <- <- <- <- <-.
  unfold lmark. cbn. destruct m as [m|]; [|apply Rl_intro; [exact HR|auto]]. destruct (classify MS ms_rules m ba); apply Rl_intro; auto.
Qed.
Lemma consume_R toks a b : (forall p w, nth_error toks p = Some (KWord w) -> P w) -> Rl a b -> match lconsume clear MS ms_word ms_blank G1 toks a with
  | None => lconsume clear MS ms_word ms_blank G2 toks b = None
  | Some (inl (c, s)) => exists s', lconsume clear MS ms_word ms_blank G2 toks b = Some (inl (c, s')) /\ Rl s s'
  | Some (inr s) => exists s', lconsume clear MS ms_word ms_blank G2 toks b = Some (inr s') /\ Rl s s'
  end.
Proof.
  intros HT. destruct a as [p h la pr ru nw ba m tw tb g1]; destruct b as [p' h' la' pr' ru' nw' ba' m' tw' tb' g2]. intros [[HR HP] E]. cbn in HR, HP, E. injection E as <- <- <- <- <- <- <- <- <- <-.
  unfold lconsume. cbn [l_ms l_rule l_tw l_tb l_g l_nw l_last l_prev l_hi l_pos l_banned]. destruct (nth_error toks p) as [[w|x|c]|] eqn:TK; [| | |reflexivity].
  1,2: eexists; split; [reflexivity|apply Rl_intro; [exact HR|auto]]. apply Forall_app; split; [exact HP|]. constructor; [exact (HT _ _ TK)|constructor]. destruct tw; (eexists; split; [reflexivity|apply Rl_intro; [exact HR|auto]]).
Qed.
Lemma loop_R toks f : (forall p w, nth_error toks p = Some (KWord w) -> P w) -> forall a b, Rl a b -> match lloop clear MS ms_init ms_word ms_blank ms_empty ms_rules G1 act1 default f toks a with
  | None => lloop clear MS ms_init ms_word ms_blank ms_empty ms_rules G2 act2 default f toks b = None
  | Some (o, a') => exists b', lloop clear MS ms_init ms_word ms_blank ms_empty ms_rules G2 act2 default f toks b = Some (o, b') /\ Rl a' b'
  end.
Proof.
  intros HT. induction f as [|f IH]; intros a b HR; [reflexivity|]. cbn [lloop]. assert (S1 := settle_R toks a b HR). destruct (lsettle MS ms_init ms_empty G1 act1 default toks a) as [o a1]. destruct S1 as (b1 & -> & H1).
  assert (C := consume_R toks _ _ HT (mark_R _ _ H1)). destruct (lconsume clear MS ms_word ms_blank G1 toks (lmark MS ms_rules G1 a1)) as [[[c s]|s]|].
  - destruct C as (s' & -> & HC). eauto.
  - destruct C as (s' & -> & HC). specialize (IH s s' HC). destruct (lloop clear MS ms_init ms_word ms_blank ms_empty ms_rules G1 act1 default f toks s) as [[o2 s3]|].
    + destruct IH as (b' & -> & HB). eauto.
    + rewrite IH. reflexivity.
  - rewrite C. reflexivity.
Qed.
End StateSim.

(** ** Tokens to text *)
Section Text.
Variable U : Type.
Variable tok : U -> str.
Variable lower : char -> char.
Variable defs : list (str * list cat_item).
Variable ps : list (list str).
Variable t : trans.
Hypothesis wf : forall c items, lookup_cat defs c = Some items -> Forall item_wf items.
Hypothesis comp : compile defs ps = Some t.
Hypothesis nonempty : Forall (fun cs => cs <> []) ps.
Variable rd : U -> reading.
Variable uok : U -> Prop.
Variable Wd : list (list nat) -> str -> list (list nat).
Hypothesis word_run0 : forall x M, uok x -> Wd M (tok x) = fold_left (em_step t) (symbols lower (rd x)) M.
Hypothesis word_dead : forall w, Wd [] w = [].
Variable clear : bool.
Variables G1 G2 : Type.
Variable R : G1 -> G2 -> Prop.
Variable act1 : nat -> G1 -> list str -> list str -> str * list str * Z * G1.
Variable act2 : nat -> G2 -> list str -> list str -> str * list str * Z * G2.
Variable apply : nat -> G2 -> list U -> list str -> str -> list str -> G2 -> Prop.
Variable dflt : str -> str.
Variable default : U -> str.
Hypothesis act_R : forall r g1 g2 ws bs, R g1 g2 -> Forall (fun w => exists x, uok x /\ tok x = w) ws -> let '(o, lf, z, g1') := act1 r g1 ws bs in exists g2', act2 r g2 ws bs = (o, lf, z, g2') /\ R g1' g2'.
Hypothesis act_local : forall r g ws bs, act2 r g ws bs = act2 r g (firstn (plen ps r) ws) bs.
Hypothesis act_neg : forall r g ws bs, (snd (fst (act2 r g ws bs)) < 0)%Z.
Hypothesis act_apply : forall r g l bs, Forall uok l -> rule_matches lower defs ps r (map rd l) -> length l = S (length bs) ->
  let '(o, lf, z, g1) := act2 r g (map tok l) bs in apply r g l bs o lf g1.
Hypothesis apply_fun : forall n g us bs o1 l1 g1 o2 l2 g2, apply n g us bs o1 l1 g1 -> apply n g us bs o2 l2 g2 -> o1 = o2 /\ l1 = l2 /\ g1 = g2.
Hypothesis dflt_default : forall x, uok x -> dflt (tok x) = default x.
Lemma run_text l final g1 g2 : Forall (fun bx => uok (snd bx) /\ no_dollar lower (rd (snd bx))) l -> R g1 g2 ->
  exists out g2', (exists f0 st, R (l_g _ _ st) g2' /\ forall fuel, f0 <= fuel ->
      lloop clear (list (list nat)) (em_init t) Wd (em_blank t) em_empty (em_rules t) G1 act1 dflt fuel (utoks U tok l final) (lstart _ (em_init t) G1 [] g1) = Some (out, st)) /\
    forall o h, Transferred U (fun n us => rule_matches lower defs ps n (map rd us)) G2 apply default g2 l final o h <-> o = out /\ h = g2'.
Proof.
  intros HL HR. assert (US : Forall (unit_fine U lower rd uok) (map snd l)) by (apply Forall_map; exact HL).
  assert (GD := run_good U tok lower defs ps t wf comp nonempty rd uok Wd word_run0 word_dead (map snd l) US G2 act2 dflt act_local).
  assert (SW : shifts_whole act2 (plen ps)). { intros r g0 ws bs o lf z g' E Hz. assert (Z := act_neg r g0 ws bs). rewrite E in Z. cbn in Z. lia. }
  destruct (loop_correct clear _ _ _ _ _ _ G2 act2 dflt _ _ (stream_items (tokl U tok l)) final g2 GD SW (sep_stream _)) as (f0 & out & st & H1 & H2 & _).
  assert (SIM := fun f => start_sim clear (list (list nat)) (em_init t) Wd (em_blank t) em_empty (em_rules t) G2 act2 dflt (known U tok (map snd l)) (utoks U tok l final)
    (fun p w H => proj2 (known_spec U tok (map snd l) w) (utoks_word U tok l final p w H)) (fun p => proj1 (utoks_alt U tok l final p)) (fun p => proj2 (utoks_alt U tok l final p)) [] g2 f).
  assert (TR := run_transferred U tok lower defs ps t wf comp nonempty rd uok Wd word_run0 word_dead (map snd l) US G2 act2 apply dflt default act_local act_neg act_apply dflt_default (List.length l) l g2 final out _ (le_n _) (fun y H => H) H2).
  exists out, (l_g _ _ st). split.
  - assert (OUT : forall f, f0 <= f -> lloop clear (list (list nat)) (em_init t) Wd (em_blank t) em_empty (em_rules t) G2 act2 dflt f (utoks U tok l final) (lstart _ (em_init t) G2 [] g2) = Some (out, erase _ G2 st)).
    { intros f Hf. rewrite SIM. unfold utoks. rewrite (H1 f Hf). reflexivity. }
    assert (START : Rl (list (list nat)) G1 G2 R (fun w => exists x, uok x /\ tok x = w) (lstart _ (em_init t) G1 [] g1) (lstart _ (em_init t) G2 [] g2)) by (apply Rl_intro; [exact HR|constructor]).
    assert (WORDS : forall p w, nth_error (utoks U tok l final) p = Some (KWord w) -> exists x, uok x /\ tok x = w).
    { intros p w E. destruct (utoks_word U tok l final p w E) as (x & I & EX). exists x. split; [|exact EX]. apply in_map_iff in I as (bx & <- & I). exact (proj1 (proj1 (Forall_forall _ _) HL bx I)). }
    assert (Q := fun f => loop_R clear (list (list nat)) (em_init t) Wd (em_blank t) em_empty (em_rules t) G1 G2 R act1 act2 dflt _ act_R (utoks U tok l final) f WORDS _ _ START).
    assert (Q0 := Q f0). rewrite (OUT f0 (le_n _)) in Q0.
    destruct (lloop clear (list (list nat)) (em_init t) Wd (em_blank t) em_empty (em_rules t) G1 act1 dflt f0 (utoks U tok l final) (lstart _ (em_init t) G1 [] g1)) as [[o a]|] eqn:E; [|discriminate].
    destruct Q0 as (b & [= <- <-] & RB). exists f0, a. split; [exact (proj1 (proj1 RB))|]. intros f Hf. exact (lloop_mono_le _ _ _ _ _ _ _ _ _ _ _ _ _ _ _ Hf E).
  - intros o2 h2. split.
    + intros T. destruct (transferred_det _ _ _ _ apply_fun _ _ _ _ _ _ TR _ _ T) as [<- <-]. auto.
    + intros [-> ->]. exact TR.
Qed.
End Text.

(** transfer.cc's applyWord on a lexical unit *)
Lemma em_word_unit lower t x M : lunit_ok x -> em_word lower t M (token x) = fold_left (em_step t) (symbols lower (u_sl x)) M.
Proof. intros H. unfold em_word. rewrite (apply_word_unit lower x H). reflexivity. Qed.
Lemma em_dead_run t x : fold_left (em_step t) x [] = [].
Proof. induction x as [|m x IH]; [reflexivity|exact IH]. Qed.
Lemma em_word_dead lower t w : em_word lower t [] w = [].
Proof. unfold em_word. destruct (apply_word lower w) as [x|]; [apply em_dead_run|reflexivity]. Qed.
