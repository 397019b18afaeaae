From Coq Require Import ZArith.
From Verif Require Import Model.Base Proofs.Base Model.ChunkLoop Spec.ChunkLoop Proofs.TransferMult.

Definition ktok (i : item) : tkn := match i with W w => KWord w | B b => KBlank b end.

Section Loop.
Variable clear_at_eof : bool.
Variable MS : Type.
Variables (ms_init : MS) (ms_word : MS -> str -> MS) (ms_blank : MS -> MS) (ms_empty : MS -> bool) (ms_rules : MS -> list nat).
Variable G : Type.
Variable act : nat -> G -> list str -> list str -> str * list str * Z * G.
Variable default : str -> str.
Definition lstep (m : MS) (i : item) : MS := match i with W w => ms_word m w | B _ => ms_blank m end.
Definition lsteps (m : MS) (l : list item) : MS := fold_left lstep l m.
Definition laccepts (r : nat) (l : list item) : Prop := In r (ms_rules (lsteps ms_init l)).
Variable plen : nat -> nat.
Variable nrules : nat.
Hypothesis H_init : ms_empty ms_init = false.
Hypothesis H_fin : forall m r, In r (ms_rules m) -> ms_empty m = false.
Hypothesis H_dead : forall m i, ms_empty m = true -> ms_empty (lstep m i) = true.
Hypothesis H_alt : forall l, ms_empty (lsteps ms_init l) = false -> Alt l.
Hypothesis H_finw : forall r l, laccepts r l -> exists l' w, l = l' ++ [W w].
Hypothesis H_len : forall r l, laccepts r l -> length (words l) = plen r.
Hypothesis H_local : forall r g ws bs, act r g ws bs = act r g (firstn (plen r) ws) bs.
Hypothesis H_skip : forall r g ws bs o lf z g', act r g ws bs = (o, lf, z, g') -> (0 < z)%Z -> Z.to_nat z = plen r.
Hypothesis H_nr : forall r l, laccepts r l -> r < nrules.

Lemma lsteps_app m a b : lsteps m (a ++ b) = lsteps (lsteps m a) b.
Proof. apply fold_left_app. Qed.
Lemma ldead_ext l m : ms_empty m = true -> ms_empty (lsteps m l) = true.
Proof. revert m. induction l as [|i l IH]; intros m H; [exact H|]. cbn. apply IH, H_dead, H. Qed.
Lemma ldead_no_accept a b r : ms_empty (lsteps ms_init a) = true -> ~ laccepts r (a ++ b).
Proof. unfold laccepts. rewrite lsteps_app. intros H K. apply H_fin in K. rewrite ldead_ext in K by exact H. discriminate. Qed.
Lemma laccepts_blanks r l : laccepts r l -> length (blanks l) = plen r - 1.
Proof.
  intros H. rewrite <- (H_len r l H). destruct (H_finw r l H) as [l' [w ->]].
  rewrite (alt_words l' w); [lia|]. apply H_alt. eapply H_fin, H.
Qed.
Lemma classify_spec m bn : match classify MS ms_rules m bn with
  | Some r => In r (ms_rules m) /\ ~ In r bn /\ forall r', In r' (ms_rules m) -> ~ In r' bn -> r <= r'
  | None => forall r', In r' (ms_rules m) -> In r' bn end.
Proof.
  unfold classify. induction (ms_rules m) as [|x l IH]; cbn [fold_right]; [intros r' []|].
  set (o := fold_right _ None l) in *. destruct (existsb (Nat.eqb x) bn) eqn:E.
  - apply existsb_exists in E as [y [E1 E2]]. apply Nat.eqb_eq in E2. subst y. destruct o as [r|].
    + destruct IH as [I1 [I2 I3]]. split; [right; exact I1|]. split; [exact I2|]. intros r' [->|K] Hn; [contradiction|]. apply I3; assumption.
    + intros r' [->|K]; [exact E1|apply IH, K].
  - assert (NE : ~ In x bn).
    { intros K. assert (existsb (Nat.eqb x) bn = true) by (apply existsb_exists; exists x; split; [exact K|apply Nat.eqb_refl]). congruence. }
    destruct o as [r|].
    + destruct IH as [I1 [I2 I3]]. split; [destruct (Nat.min_spec x r) as [[_ ->]|[_ ->]]; [left; reflexivity|right; exact I1]|].
      split; [destruct (Nat.min_spec x r) as [[_ ->]|[_ ->]]; assumption|].
      intros r' [->|K] Hn; [lia|]. assert (Q := I3 r' K Hn). lia.
    + split; [left; reflexivity|]. split; [exact NE|]. intros r' [->|K] Hn; [lia|]. exfalso. apply Hn, IH, K.
Qed.

Variable items : list item.
Variable last : str.
Let toks := map ktok items ++ [KEof last].
Let LOOP := lloop clear_at_eof MS ms_init ms_word ms_blank ms_empty ms_rules G act default.
Let SETTLE := lsettle MS ms_init ms_empty G act default toks.
Let MARK := lmark MS ms_rules G.
Let CONSUME := lconsume clear_at_eof MS ms_word ms_blank G toks.
Let mk := mkl MS G.
Let dead := ldead MS ms_empty G.
Let RUN := Run laccepts G act default.

Lemma ltok_at pre i rest : items = pre ++ i :: rest -> nth_error toks (length pre) = Some (ktok i).
Proof.
  intros E. unfold toks. rewrite E, map_app, <- app_assoc. rewrite nth_error_app2; rewrite map_length; [|lia]. rewrite Nat.sub_diag. reflexivity.
Qed.
Lemma ltok_end : nth_error toks (length items) = Some (KEof last).
Proof. unfold toks. rewrite nth_error_app2; rewrite map_length; [|lia]. rewrite Nat.sub_diag. reflexivity. Qed.

Definition Ends (st : lst MS G) (o : str) (st' : lst MS G) : Prop := exists f0, forall f, f0 <= f -> LOOP f toks st = Some (o, st').
Lemma alive_settle st : dead st = false -> SETTLE st = ([], st).
Proof. intros H. unfold SETTLE, lsettle. unfold dead in H. rewrite H. reflexivity. Qed.
Lemma ends_settle st o1 st1 o st' : SETTLE st = (o1, st1) -> dead st1 = false -> Ends st1 o st' -> Ends st (o1 ++ o) st'.
Proof.
  intros H1 H2 [f0 H]. exists (S f0). intros [|f] Hf; [lia|]. specialize (H (S f) ltac:(lia)). apply alive_settle in H2.
  unfold LOOP in *. cbn [lloop] in *. unfold SETTLE in *. rewrite H1. rewrite H2 in H.
  destruct (lconsume _ _ _ _ _ toks _) as [[[c s2]|s2]|]; [| |discriminate].
  - injection H as <- <-. reflexivity.
  - destruct (lloop _ _ _ _ _ _ _ _ _ _ f toks s2) as [[o2 s3]|]; [|discriminate]. injection H as <- <-. reflexivity.
Qed.
Lemma ends_step st st2 o st' : dead st = false -> CONSUME (MARK st) = Some (inr st2) -> Ends st2 o st' -> Ends st o st'.
Proof.
  intros H1 H2 [f0 H]. exists (S f0). intros [|f] Hf; [lia|]. specialize (H f ltac:(lia)). apply alive_settle in H1.
  unfold LOOP in *. cbn [lloop]. unfold SETTLE, CONSUME, MARK in *. rewrite H1, H2, H. reflexivity.
Qed.

(* the best rule so far, among the prefixes of ts of length at most n *)
Definition lbest (bn : list nat) (p : nat) (ts : list item) (n : nat) (ro : option nat) (la nw : nat) : Prop :=
  (exists r k, ro = Some r /\ 0 < k <= n /\ la = p + k /\ laccepts r (firstn k ts) /\ ~ In r bn /\ nw = length (words (firstn k ts)) /\
     (forall r', laccepts r' (firstn k ts) -> ~ In r' bn -> r <= r') /\
     forall j r', k < j <= n -> laccepts r' (firstn j ts) -> In r' bn) \/
  (ro = None /\ la = p /\ forall j r', 0 < j <= n -> laccepts r' (firstn j ts) -> In r' bn).
Definition SepW (l : list item) : Prop := Sep l \/ exists w r, l = W w :: r /\ Sep r.
Definition bn_ok (bn : list nat) : Prop := NoDup bn /\ Forall (fun r => r < nrules) bn.
Definition LFresh (bn : list nat) (g : G) (rest : list item) (st : lst MS G) : Prop :=
  exists pre stale nw prev hi, items = pre ++ rest /\ SepW rest /\ length pre <= hi /\ bn_ok bn /\
    match rest with
    | W _ :: _ => S prev = length pre /\ stale = []
    | B b :: _ => bn = [] /\ (stale = [] \/ exists r, stale = b :: r)
    | [] => True
    end /\ st = mk (length pre) hi (length pre) prev None nw bn (Some ms_init) [] stale g.
Definition LScan (bn : list nat) (g : G) (rest : list item) (st : lst MS G) : Prop :=
  exists pre w t rest' ro la nw prev hi, rest = (W w :: t) ++ rest' /\ items = pre ++ rest /\ SepW rest /\ bn_ok bn /\
    S prev = length pre /\ length pre + S (length t) <= hi /\
    lbest bn (length pre) (W w :: t) (length t) ro la nw /\
    st = mk (length pre + S (length t)) hi la prev ro nw bn (Some (lsteps ms_init (W w :: t))) (words (W w :: t)) (blanks (W w :: t)) g.

Lemma init_no_rule r : ~ In r (ms_rules ms_init).
Proof. intros K. destruct (H_finw r [] K) as [l [w E]]. destruct l; discriminate. Qed.
Lemma mark_init bn a b c d e f h i j : MARK (mk a b c d e f bn (Some ms_init) h i j) = mk a b c d e f bn (Some ms_init) h i j.
Proof.
  unfold MARK, lmark, mk. cbn [l_ms l_banned]. assert (Q := classify_spec ms_init bn). destruct (classify MS ms_rules ms_init bn) as [r|]; [|reflexivity].
  destruct Q as [Q _]. destruct (init_no_rule r Q).
Qed.
Lemma lfresh_alive bn g rest st : LFresh bn g rest st -> dead st = false.
Proof. intros (pre & stale & nw & prev & hi & _ & _ & _ & _ & _ & ->). exact H_init. Qed.

Lemma sepw_tail i l : SepW (i :: l) -> match i with W _ => Sep l | B _ => SepW l end.
Proof.
  intros [H|[w [r [E H]]]].
  - inversion H; subst; [left; assumption|right; eauto].
  - injection E as -> ->. exact H.
Qed.
Lemma sep_no_word w l : ~ Sep (W w :: l).
Proof. intros H. inversion H. Qed.
Lemma sep_suffix a : forall b, SepW (a ++ b) -> SepW b.
Proof. induction a as [|i a IH]; intros b H; [exact H|]. apply IH. apply sepw_tail in H. destruct i; [left; exact H|exact H]. Qed.
Lemma sep_after_word a w b : SepW (a ++ W w :: b) -> Sep b.
Proof. intros H. apply sep_suffix in H. exact (sepw_tail _ _ H). Qed.

Lemma flush_printed o lf : o ++ flush_blanks lf = printed o lf.
Proof.
  unfold printed, flush_blanks. f_equal. induction lf as [|b l IH]; [reflexivity|]. cbn [flat_map filter]. destruct (str_eqb b [cSP]); cbn [negb concat]; [exact IH|]. rewrite IH. reflexivity.
Qed.
Lemma skip_words_spec hi m : forall fuel pre rest n, items = pre ++ m ++ rest -> length (words m) = n -> (exists l' w, m = l' ++ [W w]) ->
  length pre + length m <= hi -> length m <= fuel -> skip_words fuel toks hi (length pre) n = length pre + length m.
Proof.
  induction m as [|i m IH]; intros fuel pre rest n Hi Hn Hw Hh Hf; [destruct Hw as [l' [w E]]; destruct l'; discriminate|].
  destruct fuel as [|fuel]; [cbn in Hf; lia|]. cbn [length] in *.
  assert (P : exists n', n = S n').
  { destruct n; [|eauto]. destruct Hw as [l' [w E]]. rewrite E, words_app, app_length in Hn. cbn in Hn. lia. }
  destruct P as [n' ->]. cbn [skip_words]. destruct (Nat.leb_spec hi (length pre)); [lia|].
  rewrite (ltok_at pre i (m ++ rest)) by exact Hi.
  assert (Hi' : items = (pre ++ [i]) ++ m ++ rest) by (rewrite Hi, <- app_assoc; reflexivity).
  assert (LP : length (pre ++ [i]) = S (length pre)) by (rewrite app_length; cbn; lia).
  assert (Hw' : m <> [] -> exists l' w, m = l' ++ [W w]).
  { intros Hm. destruct Hw as [l' [w E]]. destruct l' as [|x l']; [injection E as -> E; congruence|]. injection E as -> E. eauto. }
  destruct i as [v|b]; cbn [ktok].
  - cbn in Hn. injection Hn as Hn. destruct m as [|x m].
    + cbn in Hn. subst n'. destruct fuel; cbn; lia.
    + rewrite <- LP. rewrite (IH fuel (pre ++ [W v]) rest n' Hi' Hn (Hw' ltac:(discriminate))); [rewrite LP; cbn; lia| |]; rewrite ?LP; cbn in *; lia.
  - cbn in Hn. destruct m as [|x m]; [discriminate|].
    rewrite <- LP. rewrite (IH fuel (pre ++ [B b]) rest (S n') Hi' Hn (Hw' ltac:(discriminate))); [rewrite LP; cbn; lia| |]; rewrite ?LP; cbn in *; lia.
Qed.

(* resolution of a scan that cannot be continued *)
Lemma lresolve bn g rest pre ts rest' w t ro la nw prev hi n ms pos x :
  ts = W w :: t -> rest = ts ++ rest' -> items = pre ++ rest -> SepW rest -> bn_ok bn -> n <= length ts ->
  S prev = length pre -> length pre + length ts <= hi ->
  lbest bn (length pre) ts n ro la nw ->
  (forall m r rr, rest = m ++ r -> laccepts rr m -> length m <= n) ->
  (x = [] \/ rest' = []) ->
  dead (mk pos hi la prev ro nw bn ms (words ts) (blanks ts ++ x) g) = true ->
  exists o st1, SETTLE (mk pos hi la prev ro nw bn ms (words ts) (blanks ts ++ x) g) = (o, st1) /\
   ((exists m r g1, rest = m ++ r /\ m <> [] /\ LFresh [] g1 r st1 /\ (forall o2 g2, RUN [] g1 r last o2 g2 -> RUN bn g rest last (o ++ o2) g2)) \/
    (exists rr g1, ~ In rr bn /\ rr < nrules /\ LFresh (rr :: bn) g1 rest st1 /\ (forall o2 g2, RUN (rr :: bn) g1 rest last o2 g2 -> RUN bn g rest last (o ++ o2) g2))).
Proof.
  intros Ets Er Ei Hsep Hbn Hn Hprev Hhi Hb Hmax Hx HD. unfold SETTLE, lsettle. unfold dead in HD. rewrite HD. unfold mk. cbn [l_rule l_tw l_tb l_nw l_g l_last l_hi l_prev l_banned].
  assert (BN0 : bn_ok []) by (split; constructor).
  assert (PRE : forall m r, rest = m ++ r -> length m <= length ts -> m = firstn (length m) ts).
  { intros m r E L. assert (Em : firstn (length m) rest = m) by (rewrite E, firstn_app, Nat.sub_diag, firstn_all; cbn; apply app_nil_r).
    rewrite <- Em at 1. rewrite Er, firstn_app. replace (length m - length ts) with 0 by lia. cbn. apply app_nil_r. }
  destruct Hb as [(r & k & -> & K1 & K2 & K3 & K4 & K5 & K6 & K7)|(-> & K2 & K3)].
  - set (m := firstn k ts) in *. set (rm := skipn k ts ++ rest').
    assert (Lk : length m = k) by (subst m; rewrite firstn_length; lia).
    assert (Erm : rest = m ++ rm) by (subst m rm; rewrite app_assoc, firstn_skipn; exact Er).
    assert (Hm0 : m <> []) by (intros K; rewrite K in Lk; cbn in Lk; lia).
    assert (LG : Longest laccepts bn rest m rm r).
    { split; [exact Erm|]. split; [exact K3|]. split; [exact K4|]. split; [|exact K6]. intros m' rest2 r' E' A' N'. rewrite Lk.
      assert (Q := Hmax _ _ _ E' A'). destruct (le_lt_dec (length m') k) as [|Hk]; [assumption|]. exfalso. apply N'. apply (K7 (length m')); [lia|].
      rewrite <- (PRE m' rest2 E' ltac:(lia)). exact A'. }
    assert (AR : apply_rule MS G act r (mk pos hi la prev (Some r) nw bn ms (words ts) (blanks ts ++ x) g) =
      let '(o, lf, z, g1) := act r g (words m) (blanks m) in (printed o lf, z, g1)).
    { unfold apply_rule, mk. cbn [l_g l_tw l_nw l_tb].
      assert (E1 : firstn (nw - 1) (blanks ts ++ x) = blanks m).
      { replace (nw - 1) with (length (blanks m)) by (rewrite K5, (laccepts_blanks r m K3), (H_len r m K3); reflexivity). apply firstn_blanks. }
      rewrite E1. rewrite H_local. replace (firstn (plen r) (words ts)) with (words m).
      - destruct (act r g (words m) (blanks m)) as [[[o lf] z] g1]. rewrite flush_printed. reflexivity.
      - rewrite <- (H_len r m K3). symmetry. apply firstn_words. }
    unfold mk in AR. rewrite AR. clear AR. destruct (act r g (words m) (blanks m)) as [[[o lf] z] g1] eqn:EA.
    cbn [l_hi l_last l_prev l_nw l_banned]. destruct (H_finw r m K3) as [m' [v Ev]].
    assert (Sr : Sep rm) by (rewrite Erm, Ev, <- app_assoc in Hsep; cbn [app] in Hsep; exact (sep_after_word _ _ _ Hsep)).
    assert (FR : forall nw0 prev0, LFresh [] g1 rm (mkl MS G (length pre + k) hi (length pre + k) prev0 None nw0 [] (Some ms_init) [] [] g1)).
    { intros nw0 prev0. exists (pre ++ m), [], nw0, prev0, hi. split; [rewrite Ei, Erm, app_assoc; reflexivity|]. split; [left; exact Sr|].
      split; [rewrite app_length, Lk; assert (length ts >= k) by lia; lia|]. split; [exact BN0|]. split.
      - destruct rm as [|[y|y] rm']; [exact I|destruct (sep_no_word _ _ Sr)|]. split; [reflexivity|left; reflexivity].
      - unfold mk. rewrite app_length, Lk. reflexivity. }
    destruct (Z.ltb_spec z 0) as [Hz|Hz].
    + eexists. eexists. split; [reflexivity|]. left. exists m, rm, g1. split; [exact Erm|]. split; [exact Hm0|]. split.
      * rewrite K2. apply FR.
      * intros o2 g2 H2. eapply run_applied; [exact LG|exact EA|lia|exact H2].
    + destruct (Z.ltb_spec 0 z) as [Hp|Hp].
      * eexists. eexists. split; [reflexivity|]. left. exists m, rm, g1. split; [exact Erm|]. split; [exact Hm0|]. split.
        -- rewrite (H_skip _ _ _ _ _ _ _ _ EA Hp). rewrite Hprev. rewrite <- (H_len r m K3).
           rewrite (skip_words_spec hi m (S hi) pre rm); [|rewrite Ei, Erm; reflexivity|reflexivity|eauto|rewrite Lk; lia|rewrite Lk; lia].
           rewrite K2, Lk. apply FR.
        -- intros o2 g2 H2. eapply run_applied; [exact LG|exact EA|lia|exact H2].
      * assert (z = 0%Z) by lia. subst z. eexists. eexists. split; [reflexivity|]. right. exists r, g1. split; [exact K4|]. split; [exact (H_nr r m K3)|]. split.
        -- exists pre, [], nw, prev, hi. split; [exact Ei|]. split; [exact Hsep|]. split; [lia|]. split; [split; [constructor; [exact K4|apply Hbn]|constructor; [exact (H_nr r m K3)|apply Hbn]]|].
           split; [rewrite Er, Ets; cbn; auto|]. unfold mk. rewrite Hprev. reflexivity.
        -- intros o2 g2 H2. eapply run_rejected; [exact LG|exact EA|exact H2].
  - assert (Ew : words ts = w :: words t) by (rewrite Ets; reflexivity). rewrite Ew. cbv beta iota.
    eexists. eexists. split; [reflexivity|]. left. exists [W w], (t ++ rest'), g. split; [rewrite Er, Ets; reflexivity|]. split; [discriminate|].
    assert (Sr : Sep (t ++ rest')) by (rewrite Er, Ets in Hsep; exact (sepw_tail _ _ Hsep)). split.
    + exists (pre ++ [W w]), (blanks ts ++ x), nw, la, hi. split; [rewrite Ei, Er, Ets, <- app_assoc; reflexivity|]. split; [left; exact Sr|].
      split; [rewrite app_length; rewrite Ets in Hhi; cbn in *; lia|]. split; [exact BN0|]. split.
      * rewrite Ets. destruct t as [|[v|b] t']; cbn [app].
        -- cbn [app] in Sr. destruct rest' as [|[v|b] r']; [exact I|destruct (sep_no_word _ _ Sr)|]. split; [reflexivity|]. left. destruct Hx as [->|K]; [reflexivity|discriminate].
        -- cbn [app] in Sr. destruct (sep_no_word _ _ Sr).
        -- split; [reflexivity|]. right. cbn. eexists. reflexivity.
      * unfold mk. rewrite app_length. cbn [length]. rewrite Nat.add_1_r, K2. reflexivity.
    + intros o2 g2 H2. assert (E3 : rest = W w :: t ++ rest') by (rewrite Er, Ets; reflexivity).
      assert (NM : NoMatch laccepts bn (W w :: t ++ rest')).
      { intros m' r' rr E' A'. rewrite <- E3 in E'. assert (Q := Hmax _ _ _ E' A'). apply (K3 (length m') rr).
        - split; [|exact Q]. destruct m'; [|cbn; lia]. destruct (H_finw rr [] A') as [l' [? K]]. destruct l'; discriminate.
        - rewrite <- (PRE m' r' E' ltac:(lia)). exact A'. }
      rewrite E3. apply run_default; assumption.
Qed.

Lemma lbest_mark bn p ts n ro la nw : S n <= length ts -> lbest bn p ts n ro la nw ->
  lbest bn p ts (S n) (match classify MS ms_rules (lsteps ms_init (firstn (S n) ts)) bn with Some r => Some r | None => ro end)
    (match classify MS ms_rules (lsteps ms_init (firstn (S n) ts)) bn with Some _ => p + S n | None => la end)
    (match classify MS ms_rules (lsteps ms_init (firstn (S n) ts)) bn with Some _ => length (words (firstn (S n) ts)) | None => nw end).
Proof.
  intros HL H. assert (Q := classify_spec (lsteps ms_init (firstn (S n) ts)) bn). destruct (classify MS ms_rules (lsteps ms_init (firstn (S n) ts)) bn) as [r|].
  - destruct Q as [Q1 [Q2 Q3]]. left. exists r, (S n). repeat (split; [first [reflexivity|lia|assumption]|]). intros j r' Hj. lia.
  - destruct H as [(r & k & -> & K1 & K2 & K3 & K4 & K5 & K6 & K7)|(-> & K2 & K3)].
    + left. exists r, k. split; [reflexivity|]. split; [lia|]. repeat (split; [assumption|]). intros j r' Hj A.
      destruct (Nat.eq_dec j (S n)) as [->|]; [apply Q, A|apply (K7 j); [lia|exact A]].
    + right. split; [reflexivity|]. split; [exact K2|]. intros j r' Hj A.
      destruct (Nat.eq_dec j (S n)) as [->|]; [apply Q, A|apply (K3 j); [lia|exact A]].
Qed.
Lemma lbest_ext bn p ts i n ro la nw : n <= length ts -> lbest bn p ts n ro la nw -> lbest bn p (ts ++ [i]) n ro la nw.
Proof.
  intros Hn H. assert (E : forall j, j <= n -> firstn j (ts ++ [i]) = firstn j ts).
  { intros j Hj. rewrite firstn_app. replace (j - length ts) with 0 by lia. cbn. apply app_nil_r. }
  destruct H as [(r & k & -> & K1 & K2 & K3 & K4 & K5 & K6 & K7)|(-> & K2 & K3)].
  - left. exists r, k. rewrite (E k) by lia. split; [reflexivity|]. split; [lia|]. repeat (split; [assumption|]). intros j r' Hj. rewrite E by lia. apply K7, Hj.
  - right. split; [reflexivity|]. split; [exact K2|]. intros j r' Hj. rewrite E by lia. apply K3, Hj.
Qed.

Definition Done (bn : list nat) (g : G) (rest : list item) (st : lst MS G) : Prop :=
  exists o st', Ends st o st' /\ RUN bn g rest last o (l_g MS G st') /\ (clear_at_eof = true -> l_tb MS G st' = []).
Lemma done_settle bn g rest st o st1 bn1 g1 r1 : SETTLE st = (o, st1) -> LFresh bn1 g1 r1 st1 ->
  (forall o2 g2, RUN bn1 g1 r1 last o2 g2 -> RUN bn g rest last (o ++ o2) g2) -> Done bn1 g1 r1 st1 -> Done bn g rest st.
Proof.
  intros H1 H2 H3 (o2 & st' & D1 & D2 & D3). exists (o ++ o2), st'. split; [|split; [apply H3, D2|exact D3]].
  eapply ends_settle; [exact H1|exact (lfresh_alive _ _ _ _ H2)|exact D1].
Qed.

Lemma scan_done bn g rest : (forall bn1 g1 r1 st1, LFresh bn1 g1 r1 st1 ->
     (length r1 < length rest \/ (r1 = rest /\ length bn1 = S (length bn))) -> Done bn1 g1 r1 st1) ->
  forall n st, LScan bn g rest st -> length items - l_pos MS G st <= n -> Done bn g rest st.
Proof.
  intros IH. induction n as [n IHn] using lt_wf_ind. intros st HS Hn.
  destruct HS as (pre & w & t & rest' & ro & la & nw & prev & hi & Er & Ei & Hsep & Hbn & Hprev & Hhi & Hb & Est).
  assert (RES : forall o st1, 
   ((exists m r g1, rest = m ++ r /\ m <> [] /\ LFresh [] g1 r st1 /\ (forall o2 g2, RUN [] g1 r last o2 g2 -> RUN bn g rest last (o ++ o2) g2)) \/
    (exists rr g1, ~ In rr bn /\ rr < nrules /\ LFresh (rr :: bn) g1 rest st1 /\ (forall o2 g2, RUN (rr :: bn) g1 rest last o2 g2 -> RUN bn g rest last (o ++ o2) g2))) ->
   forall st0, SETTLE st0 = (o, st1) -> Done bn g rest st0).
  { intros o st1 [(m & r & g1 & R1 & R2 & R3 & R4)|(rr & g1 & R1 & R2 & R3 & R4)] st0 E0.
    - eapply done_settle; [exact E0|exact R3|exact R4|]. apply IH; [exact R3|]. left. rewrite R1, app_length. destruct m; [congruence|cbn; lia].
    - eapply done_settle; [exact E0|exact R3|exact R4|]. apply IH; [exact R3|]. right. split; reflexivity. }
  set (ts := W w :: t) in *. assert (Lts : length ts = S (length t)) by reflexivity.
  destruct (dead st) eqn:HD.
  - assert (HD' : ms_empty (lsteps ms_init ts) = true) by (rewrite Est in HD; exact HD).
    destruct (lresolve bn g rest pre ts rest' w t ro la nw prev hi (length t) (Some (lsteps ms_init ts)) (length pre + S (length t)) []) as (o & st1 & E0 & R); try assumption; try reflexivity.
    + lia.
    + intros m r rr E A. destruct (prefix_cases ts rest' m r) as [L|[y ->]]; [rewrite <- Er; exact E| |].
      * rewrite Lts in L. destruct (Nat.eq_dec (length m) (S (length t))) as [EL|]; [|lia]. exfalso.
        assert (m = ts). { assert (Q : firstn (length m) rest = m) by (rewrite E, firstn_app, Nat.sub_diag, firstn_all; cbn; apply app_nil_r).
          rewrite Er, EL, <- Lts, firstn_app, Nat.sub_diag, firstn_all in Q. cbn in Q. rewrite app_nil_r in Q. symmetry. exact Q. }
        subst m. apply (ldead_no_accept ts [] rr HD'). rewrite app_nil_r. exact A.
      * exfalso. exact (ldead_no_accept ts y rr HD' A).
    + left. reflexivity.
    + rewrite app_nil_r in *. eapply RES; [exact R|]. rewrite Est. exact E0.
  - (* one more token *)
    assert (HD' : ms_empty (lsteps ms_init ts) = false) by (rewrite Est in HD; exact HD).
    assert (HM := lbest_mark bn (length pre) ts (length t) ro la nw (le_n _) Hb).
    assert (FN : firstn (S (length t)) ts = ts) by (change (S (length t)) with (length ts); apply firstn_all). rewrite FN in HM.
    set (ro' := match classify MS ms_rules (lsteps ms_init ts) bn with Some r => Some r | None => ro end) in *.
    set (la' := match classify MS ms_rules (lsteps ms_init ts) bn with Some _ => _ | None => la end) in *.
    set (nw' := match classify MS ms_rules (lsteps ms_init ts) bn with Some _ => _ | None => nw end) in *.
    assert (MK : MARK st = mk (length pre + S (length t)) hi la' prev ro' nw' bn (Some (lsteps ms_init ts)) (words ts) (blanks ts) g).
    { rewrite Est. unfold MARK, lmark, mk. cbn [l_ms l_banned l_pos l_hi l_prev l_tw l_tb l_g]. subst ro' la' nw'.
      destruct (classify MS ms_rules (lsteps ms_init ts) bn); reflexivity. }
    assert (Ei' : items = (pre ++ ts) ++ rest') by (rewrite Ei, Er, <- app_assoc; reflexivity).
    assert (LP : length (pre ++ ts) = length pre + S (length t)) by (rewrite app_length; reflexivity).
    destruct rest' as [|i rest'].
    + rewrite app_nil_r in Ei', Er.
      assert (C : CONSUME (MARK st) = Some (inr (mk (S (length items)) (Nat.max hi (S (length items))) la' prev ro' nw' bn None (words ts) (blanks ts ++ [last]) g))).
      { rewrite MK. unfold CONSUME, lconsume, mk. cbn [l_pos]. rewrite <- LP, <- Ei', ltok_end. reflexivity. }
      enough (D : Done bn g rest (mk (S (length items)) (Nat.max hi (S (length items))) la' prev ro' nw' bn None (words ts) (blanks ts ++ [last]) g)).
      { destruct D as (o & st' & D1 & D2). exists o, st'. split; [|exact D2]. eapply ends_step; [exact HD|exact C|exact D1]. }
      destruct (lresolve bn g rest pre ts [] w t ro' la' nw' prev (Nat.max hi (S (length items))) (S (length t)) None (S (length items)) [last]) as (o & st1 & E0 & R); try assumption; try reflexivity.
      * rewrite app_nil_r. exact Er.
      * lia.
      * intros m r rr E A. rewrite <- Lts, <- Er, E, app_length. lia.
      * right. reflexivity.
      * eapply RES; [exact R|exact E0].
    + set (hi' := Nat.max hi (S (length pre + S (length t)))).
      assert (C : CONSUME (MARK st) = Some (inr (mk (S (length pre + S (length t))) hi' la' prev ro' nw' bn (Some (lsteps ms_init (ts ++ [i]))) (words (ts ++ [i])) (blanks (ts ++ [i])) g))).
      { rewrite MK. unfold CONSUME, lconsume, mk. cbn [l_pos]. rewrite <- LP at 1. rewrite (ltok_at (pre ++ ts) i rest' Ei').
        rewrite lsteps_app, words_app, blanks_app. destruct i as [v|b]; cbn [ktok l_pos l_hi l_last l_prev l_rule l_nw l_banned l_ms l_tw l_tb l_g option_map words blanks flat_map app]; rewrite ?app_nil_r; reflexivity. }
      enough (D : Done bn g rest (mk (S (length pre + S (length t))) hi' la' prev ro' nw' bn (Some (lsteps ms_init (ts ++ [i]))) (words (ts ++ [i])) (blanks (ts ++ [i])) g)).
      { destruct D as (o & st' & D1 & D2). exists o, st'. split; [|exact D2]. eapply ends_step; [exact HD|exact C|exact D1]. }
      assert (LI : length items = length pre + S (length t) + S (length rest')) by (rewrite Ei', app_length, LP; reflexivity).
      eapply (IHn (length items - S (length pre + S (length t)))).
      * rewrite Est in Hn. unfold mk in Hn. cbn [l_pos] in Hn. lia.
      * exists pre, w, (t ++ [i]), rest', ro', la', nw', prev, hi'. split; [rewrite Er; subst ts; cbn; rewrite <- app_assoc; reflexivity|].
        split; [exact Ei|]. split; [exact Hsep|]. split; [exact Hbn|]. split; [exact Hprev|]. split; [rewrite app_length; cbn; subst hi'; lia|].
        split; [rewrite app_length; cbn [length]; rewrite Nat.add_1_r; apply (lbest_ext bn (length pre) ts i); [lia|exact HM]|].
        unfold mk. f_equal. rewrite app_length. cbn. lia.
      * unfold mk. cbn [l_pos]. lia.
Qed.

Lemma blank_dead' b : ms_empty (lstep ms_init (B b)) = true.
Proof. destruct (ms_empty (lstep ms_init (B b))) eqn:E; [reflexivity|]. assert (A := H_alt [B b] E). inversion A. Qed.

Lemma bn_length bn : bn_ok bn -> length bn <= nrules.
Proof.
  intros [H1 H2]. rewrite <- (seq_length nrules 0). apply NoDup_incl_length; [exact H1|]. intros r Hr. apply in_seq.
  rewrite Forall_forall in H2. specialize (H2 r Hr). lia.
Qed.
Lemma fresh_done : forall N bn g rest st, length rest * S nrules + (nrules - length bn) <= N -> LFresh bn g rest st -> Done bn g rest st.
Proof.
  induction N as [N IH] using lt_wf_ind. intros bn g rest st HN HF. assert (HA := lfresh_alive _ _ _ _ HF).
  assert (HF' := HF). destruct HF as (pre & stale & nw & prev & hi & Ei & Hsep & Hhi & Hbn & Hc & Est).
  assert (IH' : forall bn1 g1 r1 st1, LFresh bn1 g1 r1 st1 -> (length r1 < length rest \/ (r1 = rest /\ length bn1 = S (length bn))) -> Done bn1 g1 r1 st1).
  { intros bn1 g1 r1 st1 F1 HL. eapply IH; [|exact (le_n _)|exact F1].
    assert (B1 : bn_ok bn1) by (destruct F1 as (? & ? & ? & ? & ? & _ & _ & _ & B & _); exact B). apply bn_length in B1.
    destruct HL as [HL|[-> HL]]; [|lia]. assert (length r1 * S nrules + S nrules <= length rest * S nrules) by nia. lia. }
  destruct rest as [|[w|b] r].
  - exists last. eexists. split; [|split].
    + exists 1. intros [|f] Hf; [lia|]. unfold LOOP. cbn [lloop]. apply alive_settle in HA. unfold SETTLE in HA. rewrite HA. clear HA.
      assert (M := mark_init). unfold MARK in M. rewrite Est, M. unfold lconsume, mk. cbn [l_pos l_tw]. rewrite app_nil_r in Ei. rewrite <- Ei. rewrite ltok_end. cbn [app]. reflexivity.
    + rewrite ?Est. unfold mk. cbn [l_g]. apply run_end.
    + cbn [l_tb]. intros K. rewrite K. reflexivity.
  - destruct Hc as [Hprev ->].
    assert (C : CONSUME (MARK st) = Some (inr (mk (S (length pre)) (Nat.max hi (S (length pre))) (length pre) prev None nw bn (Some (lsteps ms_init [W w])) [w] [] g))).
    { rewrite Est, mark_init. unfold CONSUME, lconsume, mk. cbn [l_pos]. rewrite (ltok_at pre (W w) r Ei). reflexivity. }
    enough (D : Done bn g (W w :: r) (mk (S (length pre)) (Nat.max hi (S (length pre))) (length pre) prev None nw bn (Some (lsteps ms_init [W w])) [w] [] g)).
    { destruct D as (o & st' & D1 & D2). exists o, st'. split; [|exact D2]. eapply ends_step; [exact HA|exact C|exact D1]. }
    eapply (scan_done bn g (W w :: r) IH'); [|exact (le_n _)].
    exists pre, w, [], r, None, (length pre), nw, prev, (Nat.max hi (S (length pre))). split; [reflexivity|]. split; [exact Ei|]. split; [exact Hsep|]. split; [exact Hbn|]. split; [exact Hprev|].
    split; [cbn; lia|]. split; [right; split; [reflexivity|]; split; [reflexivity|]; intros j r' Hj; cbn in Hj; lia|]. unfold mk. cbn. f_equal. lia.
  - destruct Hc as [-> Hst].
    assert (exists r', stale ++ [b] = b :: r') as [r' Er'] by (destruct Hst as [->|[x ->]]; [exists []; reflexivity|exists (x ++ [b]); reflexivity]).
    assert (C : CONSUME (MARK st) = Some (inr (mk (S (length pre)) (Nat.max hi (S (length pre))) (length pre) prev None nw [] (Some (lstep ms_init (B b))) [] (b :: r') g))).
    { rewrite Est, mark_init. unfold CONSUME, lconsume, mk. cbn [l_pos]. rewrite (ltok_at pre (B b) r Ei). cbn [ktok l_tb]. rewrite <- Er'. reflexivity. }
    enough (D : Done [] g (B b :: r) (mk (S (length pre)) (Nat.max hi (S (length pre))) (length pre) prev None nw [] (Some (lstep ms_init (B b))) [] (b :: r') g)).
    { destruct D as (o & st' & D1 & D2). exists o, st'. split; [|exact D2]. eapply ends_step; [exact HA|exact C|exact D1]. }
    assert (F : LFresh [] g r (mk (S (length pre)) (Nat.max hi (S (length pre))) (S (length pre)) (length pre) None nw [] (Some ms_init) [] [] g)).
    { exists (pre ++ [B b]), [], nw, (length pre), (Nat.max hi (S (length pre))). split; [rewrite Ei, <- app_assoc; reflexivity|].
      assert (L : length (pre ++ [B b]) = S (length pre)) by (rewrite app_length; cbn; lia).
      split; [exact (sepw_tail _ _ Hsep)|]. split; [lia|]. split; [split; constructor|]. rewrite L. split; [|reflexivity].
      destruct r as [|[?|?] ?]; [exact I|split; reflexivity|split; [reflexivity|left; reflexivity]]. }
    eapply done_settle; [|exact F| |].
    + unfold SETTLE, lsettle, ldead, mk. cbn [l_ms]. rewrite blank_dead'. reflexivity.
    + intros o2 g2 H2. apply run_blank, H2.
    + apply IH'; [exact F|]. left. cbn. lia.
Qed.
End Loop.

(** ** the specification determines the result *)
Section Det.
Variable accepts : nat -> list item -> Prop.
Variable G : Type.
Variable act : nat -> G -> list str -> list str -> str * list str * Z * G.
Variable default : str -> str.
Hypothesis H_w : forall r m, accepts r m -> exists w t, m = W w :: t.
Lemma app_same_length {A} (a b c d : list A) : a ++ b = c ++ d -> length a = length c -> a = c /\ b = d.
Proof.
  revert c. induction a as [|x a IH]; intros [|y c] E L; cbn in *; try lia; [split; [reflexivity|exact E]|].
  injection E as -> E. apply IH in E as [-> ->]; [split; reflexivity|lia].
Qed.
Lemma longest_det bn l m rest r m' rest' r' : Longest accepts bn l m rest r -> Longest accepts bn l m' rest' r' -> m = m' /\ rest = rest' /\ r = r'.
Proof.
  intros (A1 & A2 & A3 & A4 & A5) (B1 & B2 & B3 & B4 & B5).
  assert (L1 := A4 _ _ _ B1 B2 B3). assert (L2 := B4 _ _ _ A1 A2 A3).
  destruct (app_same_length m rest m' rest') as [-> ->]; [congruence|lia|]. split; [reflexivity|]. split; [reflexivity|].
  assert (Q1 := A5 _ B2 B3). assert (Q2 := B5 _ A2 A3). lia.
Qed.
Lemma run_det bn g l last o g' : Run accepts G act default bn g l last o g' -> forall o2 g2, Run accepts G act default bn g l last o2 g2 -> o = o2 /\ g' = g2.
Proof.
  assert (NE : forall bn l m rest r, Longest accepts bn l m rest r -> exists w t, l = W w :: t).
  { intros bn0 l0 m rest r (A1 & A2 & _). destruct (H_w _ _ A2) as [w [t ->]]. exists w, (t ++ rest). exact A1. }
  induction 1 as [bn g last|g b l last o g' H IH|bn g l m rest r o lf z g1 last o2 g2 HL HA Hz H IH|bn g l m rest r o lf g1 last o2 g2 HL HA H IH|bn g w l last o g' HN H IH]; intros o' g'' K.
  - inversion K; subst; try (match goal with Q : Longest _ _ _ _ _ _ |- _ => apply NE in Q as [? [? Q]]; discriminate end). split; reflexivity.
  - inversion K; subst; try (match goal with Q : Longest _ _ _ _ _ _ |- _ => apply NE in Q as [? [? Q]]; discriminate end).
    match goal with Q : Run _ _ _ _ [] g l last _ _ |- _ => apply IH in Q as [-> ->] end. split; reflexivity.
  - inversion K; subst; try (apply NE in HL as [? [? HL]]; discriminate).
    + match goal with Q : Longest _ _ _ _ _ _ |- _ => destruct (longest_det _ _ _ _ _ _ _ _ HL Q) as [<- [<- <-]] end.
      match goal with Q : act r g _ _ = _ |- _ => rewrite HA in Q; injection Q; intros; subst end.
      match goal with Q : Run _ _ _ _ [] _ _ last _ _ |- _ => apply IH in Q as [-> ->] end. split; reflexivity.
    + match goal with Q : Longest _ _ _ _ _ _ |- _ => destruct (longest_det _ _ _ _ _ _ _ _ HL Q) as [<- [<- <-]] end.
      match goal with Q : act r g _ _ = _ |- _ => rewrite HA in Q; injection Q; intros; subst end. congruence.
    + exfalso. destruct HL as (A1 & A2 & A3 & _). apply A3. match goal with Q : NoMatch _ _ _ |- _ => exact (Q _ _ _ A1 A2) end.
  - inversion K; subst; try (apply NE in HL as [? [? HL]]; discriminate).
    + match goal with Q : Longest _ _ _ _ _ _ |- _ => destruct (longest_det _ _ _ _ _ _ _ _ HL Q) as [<- [<- <-]] end.
      match goal with Q : act r g _ _ = _ |- _ => rewrite HA in Q; injection Q; intros; subst end. congruence.
    + match goal with Q : Longest _ _ _ _ _ _ |- _ => destruct (longest_det _ _ _ _ _ _ _ _ HL Q) as [<- [<- <-]] end.
      match goal with Q : act r g _ _ = _ |- _ => rewrite HA in Q; injection Q; intros; subst end.
      match goal with Q : Run _ _ _ _ (r :: bn) _ _ last _ _ |- _ => apply IH in Q as [-> ->] end. split; reflexivity.
    + exfalso. destruct HL as (A1 & A2 & A3 & _). apply A3. match goal with Q : NoMatch _ _ _ |- _ => exact (Q _ _ _ A1 A2) end.
  - inversion K; subst.
    + exfalso. match goal with Q : Longest _ _ _ _ _ _ |- _ => destruct Q as (A1 & A2 & A3 & _); apply A3; exact (HN _ _ _ A1 A2) end.
    + exfalso. match goal with Q : Longest _ _ _ _ _ _ |- _ => destruct Q as (A1 & A2 & A3 & _); apply A3; exact (HN _ _ _ A1 A2) end.
    + match goal with Q : Run _ _ _ _ [] g l last _ _ |- _ => apply IH in Q as [-> ->] end. split; reflexivity.
Qed.
End Det.

(** the machine needs only "more fuel" *)
Lemma lloop_mono cl MS i w b e r G act d toks : forall f st x, lloop cl MS i w b e r G act d f toks st = Some x -> lloop cl MS i w b e r G act d (S f) toks st = Some x.
Proof.
  induction f as [|f IH]; intros st x H; [discriminate|]. remember (S f) as f1. cbn [lloop]. subst f1. cbn [lloop] in H.
  destruct (lsettle MS i e G act d toks st) as [o st1]. destruct (lconsume cl MS w b G toks (lmark MS r G st1)) as [[[c s2]|s2]|]; [exact H| |discriminate].
  destruct (lloop cl MS i w b e r G act d f toks s2) as [[o2 s3]|] eqn:E; [|discriminate]. rewrite (IH _ _ E). exact H.
Qed.
Lemma lloop_mono_le cl MS i w b e r G act d toks f f' st x : f <= f' -> lloop cl MS i w b e r G act d f toks st = Some x -> lloop cl MS i w b e r G act d f' toks st = Some x.
Proof. induction 1 as [|f' H IH]; intros K; [exact K|]. apply lloop_mono, IH, K. Qed.

(** a machine that matches word patterns, and rules that look only at the words of their match *)
Record good (MS : Type) (ms_init : MS) (ms_word : MS -> str -> MS) (ms_blank : MS -> MS) (ms_empty : MS -> bool) (ms_rules : MS -> list nat)
  (G : Type) (act : nat -> G -> list str -> list str -> str * list str * Z * G) (plen : nat -> nat) (nrules : nat) : Prop := {
  good_init : ms_empty ms_init = false;
  good_fin : forall m r, In r (ms_rules m) -> ms_empty m = false;
  good_dead : forall m i, ms_empty m = true -> ms_empty (lstep MS ms_word ms_blank m i) = true;
  good_alt : forall l, ms_empty (lsteps MS ms_word ms_blank ms_init l) = false -> Alt l;
  good_word : forall r l, laccepts MS ms_init ms_word ms_blank ms_rules r l -> exists l' w, l = l' ++ [W w];
  good_len : forall r l, laccepts MS ms_init ms_word ms_blank ms_rules r l -> length (words l) = plen r;
  good_local : forall r g ws bs, act r g ws bs = act r g (firstn (plen r) ws) bs;
  good_nr : forall r l, laccepts MS ms_init ms_word ms_blank ms_rules r l -> r < nrules }.
(** a rule that rejects itself but uses up words uses up the words it matched *)
Definition shifts_whole {G} (act : nat -> G -> list str -> list str -> str * list str * Z * G) (plen : nat -> nat) : Prop :=
  forall r g ws bs o lf z g', act r g ws bs = (o, lf, z, g') -> (0 < z)%Z -> Z.to_nat z = plen r.

Theorem loop_correct cl MS i w b e rs G act default plen nrules items last g :
  good MS i w b e rs G act plen nrules -> shifts_whole act plen -> Sep items ->
  exists f0 o st, (forall f, f0 <= f -> lloop cl MS i w b e rs G act default f (map ktok items ++ [KEof last]) (lstart MS i G [] g) = Some (o, st)) /\
    Run (laccepts MS i w b rs) G act default [] g items last o (l_g MS G st) /\ (cl = true -> l_tb MS G st = []).
Proof.
  intros [A1 A2 A3 A4 A5 A6 A7 A8] HS Hsep.
  destruct (fresh_done cl MS i w b e rs G act default plen nrules A1 A2 A3 A4 A5 A6 A7 HS A8 items last _ [] g items (lstart MS i G [] g) (le_n _)) as (o & st & [f0 H1] & H2 & H3).
  - exists [], [], 0, 0, 0. split; [reflexivity|]. split; [left; exact Hsep|]. split; [apply le_n|]. split; [split; constructor|]. split; [|reflexivity].
    destruct items as [|[x|x] l]; [exact I|exfalso; inversion Hsep|split; [reflexivity|left; reflexivity]].
  - exists f0, o, st. split; [exact H1|]. split; [exact H2|exact H3].
Qed.
Lemma good_start MS i w b e rs G act plen nrules r m : good MS i w b e rs G act plen nrules -> laccepts MS i w b rs r m -> exists v t, m = W v :: t.
Proof.
  intros [A1 A2 A3 A4 A5 A6 A7 A8] H. assert (A := A4 m (A2 _ _ H)). inversion A; subst; eauto. destruct (A5 _ _ H) as [l' [v K]]. destruct l'; discriminate.
Qed.
(** ** rules that are never called do not matter *)
Section Unused.
Variable cl : bool.
Variable MS : Type.
Variables (i : MS) (w : MS -> str -> MS) (b : MS -> MS) (e : MS -> bool) (rs : MS -> list nat).
Variable G : Type.
Variable act : nat -> G -> list str -> list str -> str * list str * Z * G.
Variable d : str -> str.
(* the rules replaced by one that notes that it was called *)
Definition act_flag (r : nat) (g : G * bool) (ws bs : list str) : str * list str * Z * (G * bool) := ([], [], (-1)%Z, (fst g, true)).
Definition unflag (st : lst MS (G * bool)) : lst MS G :=
  mkl MS G (l_pos _ _ st) (l_hi _ _ st) (l_last _ _ st) (l_prev _ _ st) (l_rule _ _ st) (l_nw _ _ st) (l_banned _ _ st) (l_ms _ _ st) (l_tw _ _ st) (l_tb _ _ st) (fst (l_g _ _ st)).
Definition flagged (st : lst MS (G * bool)) : bool := snd (l_g _ _ st).
Lemma flag_settle toks st : flagged (snd (lsettle MS i e (G * bool) act_flag d toks st)) = false ->
  lsettle MS i e G act d toks (unflag st) = (fst (lsettle MS i e (G * bool) act_flag d toks st), unflag (snd (lsettle MS i e (G * bool) act_flag d toks st))).
Proof.
  unfold lsettle. change (ldead MS e G (unflag st)) with (ldead MS e (G * bool) st). destruct (ldead MS e (G * bool) st); [|reflexivity].
  change (l_rule MS G (unflag st)) with (l_rule MS (G * bool) st). destruct (l_rule MS (G * bool) st) as [r|]; [cbn; discriminate|].
  intros _. change (l_tw MS G (unflag st)) with (l_tw MS (G * bool) st). destruct (l_tw MS (G * bool) st); [|reflexivity].
  change (l_tb MS G (unflag st)) with (l_tb MS (G * bool) st). destruct (l_tb MS (G * bool) st); reflexivity.
Qed.
Lemma flag_mark st : lmark MS rs G (unflag st) = unflag (lmark MS rs (G * bool) st).
Proof. unfold lmark. cbn [unflag l_ms l_banned]. destruct (l_ms MS (G * bool) st) as [m|] eqn:E; [|reflexivity]. destruct (classify MS rs m (l_banned MS (G * bool) st)); [|reflexivity]. unfold unflag; cbn. reflexivity. Qed.
Lemma flag_consume toks st : lconsume cl MS w b G toks (unflag st) =
  match lconsume cl MS w b (G * bool) toks st with None => None | Some (inl (c, s)) => Some (inl (c, unflag s)) | Some (inr s) => Some (inr (unflag s)) end.
Proof. unfold lconsume. cbn [unflag l_pos l_hi l_last l_prev l_rule l_nw l_banned l_ms l_tw l_tb l_g]. destruct (nth_error toks (l_pos MS (G * bool) st)) as [[x|x|x]|]; try reflexivity. destruct (l_tw MS (G * bool) st); reflexivity. Qed.
Lemma mark_flagged st : flagged (lmark MS rs (G * bool) st) = flagged st.
Proof. unfold lmark. destruct (l_ms MS (G * bool) st) as [m|]; [|reflexivity]. destruct (classify MS rs m (l_banned MS (G * bool) st)); reflexivity. Qed.
Lemma consume_flagged toks st : match lconsume cl MS w b (G * bool) toks st with None => True | Some (inl (c, s)) => flagged s = flagged st | Some (inr s) => flagged s = flagged st end.
Proof. unfold lconsume. destruct (nth_error toks (l_pos MS (G * bool) st)) as [[x|x|x]|]; try reflexivity; try exact I. destruct (l_tw MS (G * bool) st); reflexivity. Qed.
Lemma settle_flagged toks st : flagged st = true -> flagged (snd (lsettle MS i e (G * bool) act_flag d toks st)) = true.
Proof.
  intros H. unfold lsettle. destruct (ldead MS e (G * bool) st); [|exact H]. destruct (l_rule MS (G * bool) st); [reflexivity|].
  destruct (l_tw MS (G * bool) st); [|exact H]. destruct (l_tb MS (G * bool) st); exact H.
Qed.
Lemma loop_flagged toks : forall f st o st2, lloop cl MS i w b e rs (G * bool) act_flag d f toks st = Some (o, st2) -> flagged st = true -> flagged st2 = true.
Proof.
  induction f as [|f IH]; intros st o st2 E H; [discriminate|]. cbn [lloop] in E. assert (S1 := settle_flagged toks st H).
  destruct (lsettle MS i e (G * bool) act_flag d toks st) as [o1 s1]. cbn [snd] in S1. rewrite <- mark_flagged in S1. assert (S2 := consume_flagged toks (lmark MS rs (G * bool) s1)).
  destruct (lconsume cl MS w b (G * bool) toks (lmark MS rs (G * bool) s1)) as [[[c s2]|s2]|]; [injection E as <- <-; congruence| |discriminate].
  destruct (lloop cl MS i w b e rs (G * bool) act_flag d f toks s2) as [[o2 s3]|] eqn:E2; [|discriminate]. injection E as <- <-. apply (IH _ _ _ E2). congruence.
Qed.
Lemma loop_unused toks : forall f st o st2, lloop cl MS i w b e rs (G * bool) act_flag d f toks st = Some (o, st2) -> flagged st2 = false ->
  lloop cl MS i w b e rs G act d f toks (unflag st) = Some (o, unflag st2).
Proof.
  induction f as [|f IH]; intros st o st2 E H; [discriminate|]. cbn [lloop] in *. assert (K := flag_settle toks st).
  destruct (lsettle MS i e (G * bool) act_flag d toks st) as [o1 s1]. cbn [fst snd] in K.
  assert (S2 := consume_flagged toks (lmark MS rs (G * bool) s1)). rewrite mark_flagged in S2.
  destruct (flagged s1) eqn:F1.
  - destruct (lconsume cl MS w b (G * bool) toks (lmark MS rs (G * bool) s1)) as [[[c s2]|s2]|]; [injection E as <- <-; congruence| |discriminate].
    destruct (lloop cl MS i w b e rs (G * bool) act_flag d f toks s2) as [[o2 s3]|] eqn:E2; [|discriminate]. injection E as <- <-.
    apply loop_flagged in E2; congruence.
  - rewrite K, flag_mark, flag_consume by reflexivity. destruct (lconsume cl MS w b (G * bool) toks (lmark MS rs (G * bool) s1)) as [[[c s2]|s2]|]; [injection E as <- <-; reflexivity| |discriminate].
    destruct (lloop cl MS i w b e rs (G * bool) act_flag d f toks s2) as [[o2 s3]|] eqn:E2; [|discriminate]. injection E as <- <-. rewrite (IH _ _ _ E2 H). reflexivity.
Qed.
End Unused.
