From Coq Require Import String.
From Verif Require Import Model.Base Model.Serialiser Model.Stream Model.FeatureVec Model.PerceptronVM Model.Mtx Spec.Mtx Proofs.Base Proofs.Mtx Proofs.MtxVals Proofs.MtxParse.
Open Scope nat_scope.
Notation find := Spec.Mtx.find.

Section Doc.
Variables (u8 : str -> str) (show : Z -> str) (co : option (morpheme -> str)) (cof : morpheme -> str) (ltr coarse : bool).
Variables (tagged : list (option (list morpheme))) (untagged : list lexunit) (ti wi : Z).
Variable names : list (str * str).
Hypothesis Hco : coarse = true -> co = Some cof.
Variables (STRS : list str) (SETS : list (list str)).
Hypothesis Hstrs : List.length STRS <= 255.
Notation runs := (runs u8 show co ltr STRS SETS [] tagged untagged ti wi).
Notation stepm := (PerceptronVM.step u8 show co ltr STRS SETS [] tagged untagged ti wi).
Notation starm := (star u8 show co ltr STRS SETS [] tagged untagged ti wi).
Notation eval := (@eval u8 cof ltr names tagged untagged ti wi _).
Notation safe := (@safe u8 cof ltr names tagged untagged ti wi _).
Notation safe_pred := (safe_pred u8 cof ltr names tagged untagged ti wi).
Notation safe_stmt := (safe_stmt u8 cof ltr names tagged untagged ti wi).
Notation safe_feat := (safe_feat u8 cof ltr names tagged untagged ti wi).
Notation features := (features u8 show cof ltr names tagged untagged ti wi).

Lemma chg_code used p p' c c' : chg used p p' c -> chg used p p' c' -> c = c'.
Proof. intros G G'. pose proof (g_code _ _ _ _ G) as E. rewrite (g_code _ _ _ _ G') in E. apply app_inv_head in E. congruence. Qed.
Lemma agree_nil v p g : agree [] [] v p g.
Proof. intros x b Hx. discriminate Hx. Qed.
(* an expression outside loops *)
Lemma expr_ok {t} (e : ex t) n af p r b p' :
  proc n (kind_of t) af p = Some (b, p') -> toks p = print e ++ r -> follow r -> names_ok names p -> wf coarse names [] [] e ->
  b = true /\ toks p' = r /\ exists c, chg [] p p' c /\
    forall PRG feature g s, ext (cstrs p') STRS -> ext (csets p') SETS -> safe [] e -> runs PRG feature c s (push (eval [] e) s) 0 g.
Proof.
  intros H T F N W.
  assert (forall PRG feature, Q u8 show co cof ltr coarse STRS SETS [] tagged untagged ti wi PRG feature names e) as HQ by (intros; apply proc_ok; assumption).
  destruct (HQ [] false n af p r [] [] b p' H T F N W) as (-> & T' & c & G & _). split; [reflexivity|]. split; [exact T'|]. exists c. split; [exact G|].
  intros PRG feature g s HS HT S. destruct (HQ PRG feature n af p r [] [] true p' H T F N W) as (_ & _ & c' & G' & D).
  rewrite (chg_code _ _ _ _ _ G G'). eapply runs_less; [|apply D; auto using agree_nil]. lia.
Qed.
Lemma bool_cases (e : ex TBool) : (exists a es, e = ENary All a es) \/ safe_pred e = safe [] e.
Proof.
  assert (forall t (e : ex t), match t return ex t -> Prop with TBool => fun e => (exists a es, e = ENary All a es) \/ safe_pred e = safe [] e | _ => fun _ => True end e) as G.
  { intros t x. destruct x; try exact I; try (right; reflexivity). destruct o; [left; eauto|right; reflexivity]. }
  exact (G TBool e).
Qed.
(* the condition of a <pred>: values may be left under a result that is false *)
Lemma pred_ok (e : ex TBool) n af p r b p' :
  proc n KBool af p = Some (b, p') -> toks p = print e ++ r -> follow r -> names_ok names p -> wf coarse names [] [] e ->
  b = true /\ toks p' = r /\ exists c, chg [] p p' c /\
    (ext (cstrs p') STRS -> ext (csets p') SETS -> safe_pred e ->
      exists jk, (eval [] e = true -> jk = []) /\ forall PRG feature g s, runs PRG feature c s (VBool (eval [] e) :: jk ++ s) 0 g).
Proof.
  intros H T F N W. destruct (bool_cases e) as [(a & es & ->)|E].
  - assert (forall PRG feature, Qs u8 show co cof ltr coarse STRS SETS [] tagged untagged ti wi PRG feature names (ECons a es)) as HQ by (intros; apply proc_ok; assumption).
    cbn [print wf nary_el] in *. unfold elem in T. cbn [app] in T. rewrite <- !app_assoc in T. cbn [app] in T.
    destruct n as [|n]; [discriminate H|]. change (proc_kind (proc n) KBool af p = Some (b, p')) in H. cbn [proc_kind] in H. unfold proc_bool in H. go H T.
    apply p_one in H as (b1 & s1 & Hp & H); cbv beta in H.
    assert (names_ok names s) as N1 by (subst s; exact N).
    edestruct (fun r => HQ [] false All _ _ Xand [] r [] [] _ _ Hp) as (-> & T1 & c & G & _); [cbn [print_all]; rewrite <- app_assoc; exact T|cbn; intuition discriminate|exact N1|exact W|].
    go H T1. injection H as <- <-. split; [reflexivity|]. split; [exact T1|]. exists c. split.
    + subst. apply chg_toks. eapply chg_toks_l. exact G.
    + intros HS HT [S1 S2]. subst s0. cbn [cstrs csets upd_toks] in HS, HT. exists (junk u8 cof ltr tagged untagged ti wi names All [] (ECons a es)). split.
      { intros Ht. apply junk_unit. cbn [Spec.Mtx.eval] in Ht. apply andb_prop in Ht as [_ Ht]. exact Ht. }
      intros PRG feature g st. edestruct (fun r => HQ PRG feature All _ _ Xand [] r [] [] _ _ Hp) as (_ & _ & c' & G' & D); [cbn [print_all]; rewrite <- app_assoc; exact T|cbn; intuition discriminate|exact N1|exact W|].
      rewrite (chg_code _ _ _ _ _ G G'). assert (forall x, runs PRG feature c' st x (ctr s) g -> runs PRG feature c' st x 0 g) as Hl by (intros x; apply runs_less; lia). apply Hl.
      apply D; auto using agree_nil. split; assumption.
  - destruct (expr_ok e n af p r b p' H T F N W) as (-> & T' & c & G & D). split; [reflexivity|]. split; [exact T'|]. exists c. split; [exact G|].
    intros HS HT S. exists []. split; [reflexivity|]. intros PRG feature g s. apply D; [exact HS|exact HT|]. rewrite <- E. exact S.
Qed.

(** ** Statements *)
Definition after (s : stmt) (f : ufvec) : option ufvec :=
  match s with
  | SPred e => if eval [] e then Some f else None
  | SOutS e => Some (add_part f (eval [] e))
  | SOutB e => Some (add_part f (if eval [] e then u "t" else u "f"))
  | SOutI e => Some (add_part f (show (eval [] e)))
  | SMany e => match eval [] e with [] => None | l => Some (flat_map (add_part f) l) end
  end.
Definition stmt_run (c : code) (f : ufvec) (o : option ufvec) : Prop :=
  forall PRG pre post, PRG = pre ++ c ++ post -> forall L g,
  match o with
  | Some f' => exists g', starm PRG true (mkmach (List.length pre) [] L g f) (mkmach (List.length pre + List.length c) [] L g' f')
  | None => exists m, starm PRG true (mkmach (List.length pre) [] L g f) m /\ stepm PRG true m = Dead
  end.
Lemma fin_stmt c o x jk f out : (forall PRG g, runs PRG true c [] (x :: jk) 0 g) ->
  (forall PRG m, nth_error PRG (pc m) = Some (byte_of o) -> stk m = x :: jk -> fv m = f ->
     match out with Some f' => stepm PRG true m = Next (mkmach (pc m + 1) [] (loops m) (slots m) f') | None => stepm PRG true m = Dead end) ->
  stmt_run (c ++ [byte_of o]) f out.
Proof.
  intros R Hs PRG pre post E L g. destruct (R PRG g pre ([byte_of o] ++ post)) with (L := L) (f := f) as (g' & R1 & _); [rewrite E, <- app_assoc; reflexivity|].
  assert (nth_error PRG (List.length pre + List.length c) = Some (byte_of o)) as Hn.
  { rewrite E, <- app_assoc, nth_error_app2, nth_error_app2 by lia. replace (_ - _ - _) with 0 by lia. reflexivity. }
  specialize (Hs PRG (mkmach (List.length pre + List.length c) (x :: jk) L g' f) Hn eq_refl eq_refl). destruct out as [f'|].
  - exists g'. eapply star_trans; [exact R1|]. eapply star_step; [exact Hs|]. cbn [pc loops slots]. rewrite app_length. cbn [List.length]. rewrite Nat.add_assoc. apply star_refl.
  - eexists. split; [exact R1|exact Hs].
Qed.
Lemma no_str n p t r b p' : toks p = t :: r -> ~ In (nm t) [Xvar; Xmacro; Xslice; Xsubscript; Xex_surf; Xex_lemma; Xex_coarse; Xjoin] -> proc n KStr true p = Some (b, p') -> b = false /\ p' = p.
Proof.
  intros T Ht H. cbn in Ht. destruct n as [|n]; [discriminate H|]. change (proc_kind (proc n) KStr true p = Some (b, p')) in H. cbn [proc_kind] in H. unfold proc_str in H.
  eapply p_novar in H; [|exact T|intuition congruence|intuition congruence]. cbv beta iota in H. eapply p_noslice in H; [|exact T|intuition congruence]. cbv beta iota in H.
  eapply p_nosub in H; [|exact T|intuition congruence]. cbv beta iota in H. eapply p_cur in H; [|exact T]. cbv beta in H.
  destruct (nm t); try (injection H; auto); exfalso; intuition congruence.
Qed.
Lemma no_bool n p t r b p' : toks p = t :: r -> In (nm t) [Xsentlen; Xtokaddr; Xwrdidx; Xint; Xadd] -> proc n KBool true p = Some (b, p') -> b = false /\ p' = p.
Proof.
  intros T Ht H. cbn in Ht. destruct n as [|n]; [discriminate H|]. change (proc_kind (proc n) KBool true p = Some (b, p')) in H. cbn [proc_kind] in H. unfold proc_bool in H.
  eapply p_novar in H; [|exact T|intuition congruence|intuition congruence]. cbv beta iota in H. eapply p_cur in H; [|exact T]. cbv beta in H.
  destruct (nm t); try (injection H; auto); exfalso; intuition congruence.
Qed.
Lemma bool_tag (e : ex TBool) : exists t r, print e = t :: r /\ ~ In (nm t) [Xvar; Xmacro; Xslice; Xsubscript; Xex_surf; Xex_lemma; Xex_coarse; Xjoin].
Proof.
  assert (forall t (e : ex t), match t return ex t -> Prop with TBool => fun e => exists t r, print e = t :: r /\ ~ In (nm t) [Xvar; Xmacro; Xslice; Xsubscript; Xex_surf; Xex_lemma; Xex_coarse; Xjoin] | _ => fun _ => True end e) as G.
  { intros t x. destruct x; try exact I; eexists _, _; (split; [reflexivity|]); cbn; try (intuition discriminate); [destruct o|destruct r]; cbn; intuition discriminate. }
  exact (G TBool e).
Qed.
Lemma int_tag (e : ex TInt) : exists t r, print e = t :: r /\ In (nm t) [Xsentlen; Xtokaddr; Xwrdidx; Xint; Xadd].
Proof.
  assert (forall t (e : ex t), match t return ex t -> Prop with TInt => fun e => exists t r, print e = t :: r /\ In (nm t) [Xsentlen; Xtokaddr; Xwrdidx; Xint; Xadd] | _ => fun _ => True end e) as G.
  { intros t x. destruct x; try exact I; eexists _, _; (split; [reflexivity|]); cbn; tauto. }
  exact (G TInt e).
Qed.
Lemma p_expr {A} fuel kd (k : unit -> P A) s res : bnd (expr fuel kd) k s = Some res -> exists b s1, proc fuel kd false s = Some (b, s1) /\ k tt s1 = Some res.
Proof. intros H. apply bnd_inv in H as (a & s1 & H1 & H2). unfold expr in H1. apply bnd_inv in H1 as (b & s2 & H3 & H4). injection H4 as <- <-. eauto. Qed.
Lemma last_step s t r res : toks s = t :: r -> step s = Some (tt, res) -> res = upd_toks r s.
Proof. intros T H. unfold step in H. rewrite T in H. destruct r; [discriminate|]. injection H. auto. Qed.
Ltac fol := cbn; intuition discriminate.
Lemma stmt_ok (s : stmt) fuel p r p' :
  proc_void fuel p = Some (tt, p') -> toks p = print_stmt s ++ r -> names_ok names p -> wf_stmt coarse names s ->
  toks p' = r /\ exists c, chg [] p p' c /\
    (ext (cstrs p') STRS -> ext (csets p') SETS -> safe_stmt s -> forall f, stmt_run c f (after s f)).
Proof.
  intros H T N W. unfold proc_void in H. destruct s as [e|e|e|e|e]; cbn [print_stmt wf_stmt] in *; unfold elem in T; cbn [app] in T; rewrite <- app_assoc in T; cbn [app] in T; go H T;
    assert (names_ok names s) as N1 by (subst s; exact N).
  - apply p_expr in H as (b & s1 & Hp & H). eapply (pred_ok e) in Hp as (-> & T1 & c & G & D); [|exact T|fol|exact N1|exact W]. clear T. rename T1 into T. go H T.
    eapply last_step in H; [|exact T]. split; [subst; reflexivity|]. exists (c ++ [byte_of DIEIFFALSE]). split.
    { subst. apply chg_toks, chg_emit. eapply chg_toks_l. exact G. }
    intros HS HT S f. assert (ext (cstrs s1) STRS /\ ext (csets s1) SETS) as [HS1 HT1] by (subst; auto).
    destruct (D HS1 HT1 S) as (jk & Hj & R). apply (fin_stmt c DIEIFFALSE (VBool (eval [] e)) jk).
    { intros PRG g. pose proof (R PRG true g []) as R1. rewrite app_nil_r in R1. exact R1. }
    intros PRG m Hm Hs Hf. rewrite (stepm_op _ _ _ _ _ _ _ _ _ _ _ _ _ m DIEIFFALSE Hm). cbn [exec_op after]. rewrite Hs. cbn [popb pop PerceptronVM.bind bvl].
    destruct (eval [] e); [|reflexivity]. rewrite Hj by reflexivity. subst f. reflexivity.
  - apply bnd_inv in H as (b & s1 & Hp & H). eapply (expr_ok e) in Hp as (-> & T1 & c & G & D); [|exact T|fol|exact N1|exact W]. clear T. rename T1 into T. go H T.
    eapply last_step in H; [|exact T]. split; [subst; reflexivity|]. exists (c ++ [byte_of FCATSTR]). split.
    { subst. apply chg_toks, chg_emit. eapply chg_toks_l. exact G. }
    intros HS HT S f. assert (ext (cstrs s1) STRS /\ ext (csets s1) SETS) as [HS1 HT1] by (subst; auto).
    apply (fin_stmt c FCATSTR (VStr (eval [] e)) []).
    { intros PRG g. apply D; assumption. }
    intros PRG m Hm Hs Hf. rewrite (stepm_op _ _ _ _ _ _ _ _ _ _ _ _ _ m FCATSTR Hm). cbn [exec_op after]. rewrite Hs, Hf. reflexivity.
  - apply bnd_inv in H as (b & s1 & Hp & H). destruct (bool_tag e) as (t0 & r0 & Et & Ht). eapply no_str in Hp as [-> ->]; [|rewrite T, Et; reflexivity|exact Ht].
    apply bnd_inv in H as ([] & s1 & Hq & H). apply bnd_inv in Hq as (b & s2 & Hp & Hq). eapply (expr_ok e) in Hp as (-> & T1 & c & G & D); [|exact T|fol|exact N1|exact W]. clear T. rename T1 into T.
    assert (s1 = add_code [byte_of FCATBOOL] s2) as E1 by (injection Hq; auto). clear Hq. assert (toks s1 = Cl Xout [] :: r) as T1 by (subst; exact T). clear T. rename T1 into T. go H T.
    eapply last_step in H; [|exact T]. split; [subst; reflexivity|]. exists (c ++ [byte_of FCATBOOL]). split.
    { subst. apply chg_toks, chg_emit. eapply chg_toks_l. exact G. }
    intros HS HT S f. assert (ext (cstrs s2) STRS /\ ext (csets s2) SETS) as [HS1 HT1] by (subst; auto).
    apply (fin_stmt c FCATBOOL (VBool (eval [] e)) []).
    { intros PRG g. apply D; assumption. }
    intros PRG m Hm Hs Hf. rewrite (stepm_op _ _ _ _ _ _ _ _ _ _ _ _ _ m FCATBOOL Hm). cbn [exec_op after]. rewrite Hs, Hf. reflexivity.
  - apply bnd_inv in H as (b & s1 & Hp & H). destruct (int_tag e) as (t0 & r0 & Et & Ht). eapply no_str in Hp as [-> ->]; [|rewrite T, Et; reflexivity|clear -Ht; cbn in *; intuition congruence].
    apply bnd_inv in H as ([] & s1 & Hq & H). apply bnd_inv in Hq as (b & s2 & Hp & Hq). eapply no_bool in Hp as [-> ->]; [|rewrite T, Et; reflexivity|exact Ht].
    apply bnd_inv in Hq as (b & s2 & Hp & Hq). eapply (expr_ok e) in Hp as (-> & T1 & c & G & D); [|exact T|fol|exact N1|exact W]. clear T. rename T1 into T.
    assert (s1 = add_code [byte_of FCATINT] s2) as E1 by (injection Hq; auto). clear Hq. assert (toks s1 = Cl Xout [] :: r) as T1 by (subst; exact T). clear T. rename T1 into T. go H T.
    eapply last_step in H; [|exact T]. split; [subst; reflexivity|]. exists (c ++ [byte_of FCATINT]). split.
    { subst. apply chg_toks, chg_emit. eapply chg_toks_l. exact G. }
    intros HS HT S f. assert (ext (cstrs s2) STRS /\ ext (csets s2) SETS) as [HS1 HT1] by (subst; auto).
    apply (fin_stmt c FCATINT (VInt (eval [] e)) []).
    { intros PRG g. apply D; assumption. }
    intros PRG m Hm Hs Hf. rewrite (stepm_op _ _ _ _ _ _ _ _ _ _ _ _ _ m FCATINT Hm). cbn [exec_op after]. rewrite Hs, Hf. reflexivity.
  - apply p_expr in H as (b & s1 & Hp & H). eapply (expr_ok e) in Hp as (-> & T1 & c & G & D); [|exact T|fol|exact N1|exact W]. clear T. rename T1 into T. go H T.
    eapply last_step in H; [|exact T]. split; [subst; reflexivity|]. exists (c ++ [byte_of FCATSTRARR]). split.
    { subst. apply chg_toks, chg_emit. eapply chg_toks_l. exact G. }
    intros HS HT S f. assert (ext (cstrs s1) STRS /\ ext (csets s1) SETS) as [HS1 HT1] by (subst; auto).
    apply (fin_stmt c FCATSTRARR (VStrA (eval [] e)) []).
    { intros PRG g. apply D; assumption. }
    intros PRG m Hm Hs Hf. rewrite (stepm_op _ _ _ _ _ _ _ _ _ _ _ _ _ m FCATSTRARR Hm). cbn [exec_op after]. rewrite Hs, Hf. cbn [popsa pop PerceptronVM.bind sal].
    destruct (eval [] e); reflexivity.
Qed.

(** ** One <feat> *)
Lemma features_nil l : features [] l = [].
Proof.
  induction l as [|s l IH]; [reflexivity|]. destruct s; cbn [Spec.Mtx.features add_part map]; try exact IH; [destruct (eval [] e); [exact IH|reflexivity]|].
  replace (flat_map (add_part []) (eval [] e)) with ([] : ufvec); [exact IH|]. induction (eval [] e) as [|x r IHr]; [reflexivity|]. cbn. exact IHr.
Qed.
Lemma features_after f s l : features f (s :: l) = match after s f with Some f' => features f' l | None => [] end.
Proof.
  destruct s; cbn [Spec.Mtx.features after]; try reflexivity; [destruct (eval [] e); reflexivity|]. destruct (eval [] e) eqn:E; [|reflexivity]. cbn [flat_map]. apply features_nil.
Qed.
Definition feat_run (c : code) (f : ufvec) (res : ufvec) : Prop :=
  forall PRG pre, PRG = pre ++ c -> forall L g,
  (exists g', starm PRG true (mkmach (List.length pre) [] L g f) (mkmach (List.length PRG) [] L g' res)) \/
  (exists m, starm PRG true (mkmach (List.length pre) [] L g f) m /\ stepm PRG true m = Dead /\ res = []).
Lemma print_stmt_op s : exists n a r, print_stmt s = Op n a :: r.
Proof. destruct s; cbn; unfold elem; eauto. Qed.
Lemma stmts_ok fuel l : forall n p m a r p',
  until_close n (proc_void fuel) p = Some (tt, p') -> toks p = flat_map print_stmt l ++ Cl m a :: r -> names_ok names p -> Forall (wf_stmt coarse names) l ->
  toks p' = Cl m a :: r /\ exists c, chg [] p p' c /\
    (ext (cstrs p') STRS -> ext (csets p') SETS -> safe_feat l -> forall f, feat_run c f (features f l)).
Proof.
  induction l as [|s l IH]; intros n p m a r p' H T N W.
  - cbn [flat_map app] in T. assert (p' = p) as ->.
    { destruct n; cbn [until_close] in H; go H T; cbn [closes] in H; injection H; auto. }
    split; [exact T|]. exists []. split; [apply chg_refl|]. intros HS HT _ f PRG pre E L g. left. exists g. rewrite E, app_nil_r. apply star_refl.
  - cbn [flat_map] in T. rewrite <- app_assoc in T. apply Forall_cons_iff in W as [W1 W2]. destruct (print_stmt_op s) as (hn & ha & hr & Eh).
    destruct n as [|n]; cbn [until_close] in H; (eapply p_cur in H; [|rewrite T, Eh; reflexivity]); cbv beta in H; cbn [closes] in H; [discriminate|].
    apply bnd_inv in H as ([] & s1 & H1 & H). eapply stmt_ok in H1 as (T1 & c1 & G1 & D1); [|exact T|exact N|exact W1].
    eapply IH in H as (T2 & c2 & G2 & D2); [|exact T1|eapply names_chg; [exact G1|exact N]|exact W2].
    split; [exact T2|]. exists (c1 ++ c2). split; [eapply chg_trans; eassumption|].
    intros HS HT [S1 S2] f PRG pre E L g. rewrite features_after.
    assert (ext (cstrs s1) STRS /\ ext (csets s1) SETS) as [HS1 HT1] by (split; [eapply ext_trans; [apply (g_strs _ _ _ _ G2)|exact HS]|eapply ext_trans; [apply (g_sets _ _ _ _ G2)|exact HT]]).
    specialize (D1 HS1 HT1 S1 f PRG pre c2 E L g).
    assert (match after s f with Some _ => match s with SPred e => eval [] e = true | SMany e => eval [] e <> [] | _ => True end | None => True end) as Hgo.
    { destruct s; cbn [after]; auto; destruct (eval [] e); auto; discriminate. }
    destruct (after s f) as [f'|].
    + destruct D1 as (g' & R1). destruct (D2 HS HT (S2 Hgo) f' PRG (pre ++ c1)) with (L := L) (g := g') as [(g2 & R2)|(mm & R2 & R3 & R4)]; [rewrite E, app_assoc; reflexivity| |].
      * left. exists g2. eapply star_trans; [exact R1|]. rewrite app_length in R2. exact R2.
      * right. exists mm. split; [|auto]. eapply star_trans; [exact R1|]. rewrite app_length in R2. exact R2.
    + destruct D1 as (mm & R1 & R2). right. eauto.
Qed.
Notation get_feature c f r := (PerceptronVM.get_feature u8 show co ltr STRS SETS [] tagged untagged ti wi c f r).
Lemma feat_get c f res : feat_run c f res -> get_feature c f (Some res).
Proof.
  intros H. destruct (H c [] eq_refl [] (fun _ => None)) as [(g & R)|(m & R & D & ->)].
  - apply (gf_end u8 show co ltr STRS SETS [] tagged untagged ti wi c f _ (mkmach (List.length c) [] [] g res) R); [|reflexivity].
    unfold PerceptronVM.step. cbn [pc]. rewrite (proj2 (nth_error_None _ _)) by lia. rewrite Nat.eqb_refl. reflexivity.
  - eapply gf_dead; eassumption.
Qed.
(** ** The <feats> *)
Record same (p p' : pst) : Prop := mksame { m_strs : ext (cstrs p) (cstrs p'); m_sets : ext (csets p) (csets p'); m_strn : strn p' = strn p }.
Lemma same_trans p q r : same p q -> same q r -> same p r.
Proof. intros [A B C] [D E F]. constructor; [eapply ext_trans; eassumption|eapply ext_trans; eassumption|congruence]. Qed.
Lemma same_chg used p p' c : chg used p p' c -> same p p'.
Proof. intros G. constructor; apply G. Qed.
Lemma same_names p p' : same p p' -> names_ok names p -> names_ok names p'.
Proof. intros G N n Hn. destruct (N n Hn) as (i & s & A & B & C). exists i, s. rewrite (m_strn _ _ G). repeat split; auto. eapply ext_nth; [apply G|exact C]. Qed.
Lemma feat_ok fuel l p r c p' :
  proc_feat fuel p = Some (c, p') -> toks p = print_feat l ++ r -> names_ok names p -> Forall (wf_stmt coarse names) l ->
  toks p' = r /\ same p p' /\ (ext (cstrs p') STRS -> ext (csets p') SETS -> safe_feat l -> forall f, get_feature c f (Some (features f l))).
Proof.
  intros H T N W. unfold proc_feat in H. unfold print_feat, elem in T. cbn [app] in T. rewrite <- app_assoc in T. cbn [app] in T.
  apply bnd_inv in H as ([] & s0 & H0 & H). assert (toks s0 = toks p /\ cde s0 = [] /\ same p s0) as (T0 & C0 & G0).
  { injection H0 as <-. repeat split; cbn; try apply ext_refl. }
  clear H0. rewrite T in T0. clear T. rename T0 into T. go H T. apply bnd_inv in H as ([] & s1 & H1 & H). eapply stmts_ok in H1 as (T1 & c' & G & D); [|exact T|subst; exact (same_names p s0 G0 N)|exact W].
  clear T. rename T1 into T. go H T. unfold get_code in H. injection H as <- <-. split; [exact T|].
  assert (same s s1) as G1 by (eapply same_chg; exact G). split.
  - eapply same_trans; [exact G0|]. subst. destruct G1 as [A B C]. constructor; assumption.
  - subst. cbn [cstrs csets upd_toks cde]. intros HS HT S f. assert (cde s1 = c') as -> by (rewrite (g_code _ _ _ _ G); cbn [cde upd_toks]; rewrite C0; reflexivity). apply feat_get, D; assumption.
Qed.
Lemma feats_ok fuel fs : forall n p r m a l p',
  proc_feats_loop fuel n p = Some (l, p') -> toks p = flat_map print_feat fs ++ Cl m a :: r -> names_ok names p -> Forall (Forall (wf_stmt coarse names)) fs ->
  toks p' = Cl m a :: r /\ same p p' /\ (ext (cstrs p') STRS -> ext (csets p') SETS -> Forall safe_feat fs ->
    Forall2 (fun c l => forall f, get_feature c f (Some (features f l))) l fs).
Proof.
  induction fs as [|l0 fs IH]; intros n p r m a l p' H T N W.
  - cbn [flat_map app] in T. assert (p' = p /\ l = []) as [-> ->].
    { destruct n; cbn [proc_feats_loop] in H; go H T; cbn [closes] in H; injection H; auto. }
    split; [exact T|]. split; [repeat split; try apply ext_refl|]. constructor.
  - cbn [flat_map] in T. rewrite <- app_assoc in T. apply Forall_cons_iff in W as [W1 W2].
    assert (exists q, toks p = Op Xfeat [] :: q) as (q & Tq) by (rewrite T; cbn; eauto).
    destruct n as [|n]; cbn [proc_feats_loop] in H; (eapply p_cur in H; [|exact Tq]); cbv beta in H; cbn [closes] in H; [discriminate|]. cbn [nm] in H. destruct (el_dec Xfeat Xfeat); [|congruence].
    apply bnd_inv in H as (c & s1 & H1 & H). apply bnd_inv in H as (l1 & s2 & H2 & H). injection H as <- <-.
    eapply feat_ok in H1 as (T1 & G1 & D1); [|exact T|exact N|exact W1].
    eapply IH in H2 as (T2 & G2 & D2); [|exact T1|eapply same_names; eassumption|exact W2].
    split; [exact T2|]. split; [eapply same_trans; eassumption|]. intros HS HT S. apply Forall_cons_iff in S as [S1 S2]. constructor; [|apply D2; assumption].
    apply D1; [eapply ext_trans; [apply G2|exact HS]|eapply ext_trans; [apply G2|exact HT]|exact S1].
Qed.
(** ** The condition *)
Lemma gpred_ok (e : ex TBool) fuel p r c p' :
  proc_global_pred fuel p = Some (c, p') -> toks p = elem Xglobal_pred [] (print e) ++ r -> names_ok names p -> wf coarse names [] [] e ->
  toks p' = r /\ same p p' /\ (ext (cstrs p') STRS -> ext (csets p') SETS -> safe [] e -> c <> [] /\
    get_value u8 show co ltr STRS SETS [] tagged untagged ti wi c (Ok (VBool (eval [] e)))).
Proof.
  intros H T N W. unfold proc_global_pred in H. unfold elem in T. cbn [app] in T. rewrite <- app_assoc in T. cbn [app] in T.
  apply bnd_inv in H as (c0 & s00 & Hc & H). injection Hc as _ <-. apply bnd_inv in H as ([] & s0 & H0 & H). assert (toks s0 = toks p /\ cde s0 = [] /\ same p s0) as (T0 & C0 & G0).
  { injection H0 as <-. repeat split; cbn; try apply ext_refl. }
  clear H0. rewrite T in T0. clear T. rename T0 into T. go H T. apply p_expr in H as (b & s1 & H1 & H). eapply (expr_ok e) in H1 as (-> & T1 & c' & G & D); [|exact T|fol|subst; exact (same_names p s0 G0 N)|exact W].
  clear T. rename T1 into T. go H T. unfold get_code in H. injection H as <- <-. split; [exact T|].
  assert (same s s1) as G1 by (eapply same_chg; exact G). split.
  - eapply same_trans; [exact G0|]. subst. destruct G1 as [A B C]. constructor; assumption.
  - subst. cbn [cstrs csets upd_toks cde]. intros HS HT S. assert (cde s1 = c') as -> by (rewrite (g_code _ _ _ _ G); cbn [cde upd_toks]; rewrite C0; reflexivity).
    destruct (D c' false (fun _ => None) [] HS HT S [] []) with (L := @nil PerceptronVM.loop) (f := @nil FeatureVec.key) as (g' & R & _); [rewrite app_nil_r; reflexivity|]. cbn [List.length Nat.add] in R. split.
    + intros E. rewrite E in R. cbn in R. inversion R as [|? ? ? H2 H3]; subst. cbn in H2. discriminate.
    + apply (gv_end u8 show co ltr STRS SETS [] tagged untagged ti wi c' _ (mkmach (List.length c') [VBool (eval [] e)] [] g' []) _ R); [|reflexivity]. unfold PerceptronVM.step. cbn [pc]. rewrite (proj2 (nth_error_None _ _)) by lia. rewrite Nat.eqb_refl. reflexivity.
Qed.
End Doc.

(** ** <defns> *)
Definition defs_ok (done : list (str * str)) (p : pst) : Prop :=
  cstrs p = map snd done /\ strn p = rev (combine (map fst done) (seq 0 (List.length done))).
Lemma assoc_app {V} x (a b : list (str * V)) : assoc x (a ++ b) = match assoc x a with Some v => Some v | None => assoc x b end.
Proof. induction a as [|[y v] a IH]; [reflexivity|]. cbn. destruct (str_eqb x y); [reflexivity|exact IH]. Qed.
Lemma defs_names done p : NoDup (map fst done) -> defs_ok done p -> names_ok done p.
Proof.
  intros ND [E1 E2] n Hn. rewrite E1, E2. clear E1 E2. revert ND Hn. induction done as [|d l IH] using rev_ind; intros ND Hn; [contradiction|].
  rewrite map_app in *. cbn [map] in *. apply NoDup_remove in ND as [ND1 ND2]. rewrite app_nil_r in *.
  assert (combine (map fst l ++ [fst d]) (seq 0 (List.length (l ++ [d]))) = combine (map fst l) (seq 0 (List.length l)) ++ [(fst d, List.length l)]) as Ec.
  { rewrite app_length. cbn [List.length]. rewrite Nat.add_1_r, seq_S. cbn [Nat.add]. generalize 0 as k. clear. intros k.
    assert (forall (q : list str) (m : list nat) a b, List.length q = List.length m -> combine (q ++ [a]) (m ++ [b]) = combine q m ++ [(a, b)]) as G.
    { induction q as [|x q IH]; intros [|y m] a b; cbn; intros; try discriminate; [reflexivity|]. rewrite IH by lia. reflexivity. }
    apply G. rewrite map_length, seq_length. reflexivity. }
  rewrite Ec, rev_app_distr. cbn [rev app assoc]. destruct (str_eqb n (fst d)) eqn:Ed.
  - apply str_eqb_eq in Ed as ->. exists (List.length l), (snd d). split; [reflexivity|]. split.
    + clear -ND2. induction l as [|[y v] l IH]; cbn [app Spec.Mtx.find map] in *; [destruct d as [a b]; cbn [fst snd]; destruct (list_eq_dec N.eq_dec a a); [reflexivity|congruence]|].
      destruct (list_eq_dec N.eq_dec (fst d) y) as [Ey|]; [exfalso; apply ND2; left; symmetry; exact Ey|]. apply IH. intros Hin. apply ND2. right. exact Hin.
    + rewrite map_app, nth_error_app2; rewrite map_length; [|lia]. rewrite Nat.sub_diag. reflexivity.
  - apply str_eqb_neq in Ed. apply in_app_iff in Hn as [Hn|[Hn|[]]]; [|congruence]. destruct (IH ND1 Hn) as (i & s & A & B & C). exists i, s. split; [exact A|]. split.
    + clear -B. induction l as [|[y v] l IH]; cbn [app Spec.Mtx.find] in *; [discriminate|]. destruct (list_eq_dec N.eq_dec n y); [exact B|]. exact (IH B).
    + rewrite map_app, nth_error_app1; [exact C|]. apply nth_error_Some. rewrite C. discriminate.
Qed.
Lemma defn_ok fuel d p r done p' :
  proc_defn fuel p = Some (tt, p') -> toks p = print_def d ++ r -> follow r -> defs_ok done p -> toks p' = r /\ defs_ok (done ++ [d]) p'.
Proof.
  intros H T F [E1 E2]. unfold print_def, single in T. cbn [app] in T. unfold proc_defn in H. go H T. unfold proc_def_str in H. go H T.
  change (nonempty []) with false in H. cbv iota in H. apply bnd_inv in H as (i & s1 & H1 & H). apply bnd_inv in H as ([] & s2 & H2 & H).
  assert (i = List.length (cstrs p) /\ toks s2 = toks p /\ cstrs s2 = cstrs p ++ [snd d] /\ strn s2 = (fst d, i) :: strn p) as (Ei & T2 & E3 & E4) by (injection H1 as <- <-; injection H2 as <-; auto). clear H1 H2.
  assert ((past Xdef_str ;;; ret tt) s2 = Some (tt, p')) as H' by (unfold bnd; rewrite H; reflexivity). clear H. rename H' into H. rewrite T in T2. go H T2. injection H as <-. split; [exact T2|].
  subst s. split; cbn [cstrs strn upd_toks].
  - rewrite E3, E1, map_app. reflexivity.
  - rewrite E4, E2, Ei, E1, map_app, app_length, map_length. cbn [List.length map]. rewrite Nat.add_1_r, seq_S. cbn [Nat.add].
    assert (forall (q : list str) (m : list nat) a b, List.length q = List.length m -> combine (q ++ [a]) (m ++ [b]) = combine q m ++ [(a, b)]) as G.
    { induction q as [|x q IH]; intros [|y m] a b; cbn; intros; try discriminate; [reflexivity|]. rewrite IH by lia. reflexivity. }
    rewrite G by (rewrite map_length, seq_length; reflexivity). rewrite rev_app_distr. reflexivity.
Qed.
Lemma follow_defs l r : follow r -> follow (flat_map print_def l ++ r).
Proof. intros H. destruct l; [exact H|]. exact I. Qed.
Lemma defns_ok fuel l : forall n p m a r done p', ~ In m singles ->
  until_close n (proc_defn fuel) p = Some (tt, p') -> toks p = flat_map print_def l ++ Cl m a :: r -> defs_ok done p -> toks p' = Cl m a :: r /\ defs_ok (done ++ l) p'.
Proof.
  induction l as [|d l IH]; intros n p m a r done p' Hm H T E.
  - cbn [flat_map app] in T. assert (p' = p) as ->. { destruct n; cbn [until_close] in H; go H T; cbn [closes] in H; injection H; auto. } rewrite app_nil_r. auto.
  - cbn [flat_map] in T. rewrite <- app_assoc in T. assert (exists q, toks p = Op Xdef_str [(Aname, fst d); (Astr, snd d)] :: q) as (q & Tq) by (rewrite T; cbn; eauto).
    destruct n as [|n]; cbn [until_close] in H; (eapply p_cur in H; [|exact Tq]); cbv beta in H; cbn [closes] in H; [discriminate|].
    apply bnd_inv in H as ([] & s1 & H1 & H). eapply defn_ok in H1 as [T1 E1]; [|exact T|apply follow_defs; exact Hm|exact E].
    eapply IH in H as [T2 E2]; [|exact Hm|exact T1|exact E1]. split; [exact T2|]. rewrite <- app_assoc in E2. exact E2.
Qed.

(** ** The document *)
Lemma p_opt_yes {A B} n (d : A) m (k : A -> P B) s t r res : toks s = t :: r -> nm t = n -> bnd (opt n d m) k s = Some res -> bnd m k s = Some res.
Proof. intros T E H. unfold opt, bnd at 1 2, cur in H. rewrite T in H. rewrite E in H. destruct (el_dec n n); [exact H|congruence]. Qed.
Lemma p_opt_no {A B} n (d : A) m (k : A -> P B) s t r res : toks s = t :: r -> nm t <> n -> bnd (opt n d m) k s = Some res -> k d s = Some res.
Proof. intros T E H. unfold opt, bnd at 1 2, cur in H. rewrite T in H. destruct (el_dec (nm t) n); [congruence|exact H]. Qed.
Theorem compile_ok u8 show cof ltr d tagged untagged ti wi ctr0 fuel sp :
  compile ctr0 fuel (print_doc d) = Some sp -> wf_doc d -> List.length (sp_strs sp) <= 255 ->
  safe_doc u8 cof ltr (d_strs d) tagged untagged ti wi d ->
  get_features u8 show (if d_coarse d then Some cof else None) ltr sp tagged untagged ti wi
    (Some (meaning u8 show cof ltr (d_strs d) tagged untagged ti wi d)).
Proof.
  intros H (W1 & W2 & W3 & W4) HL S. unfold compile in H. destruct (parse_doc fuel _) as [[sp' p9]|] eqn:E; [|discriminate]. injection H as ->.
  set (co := if d_coarse d then Some cof else None). assert (d_coarse d = true -> co = Some cof) as Hco by (unfold co; intros ->; reflexivity).
  rename E into H. unfold parse_doc in H. set (p0 := mkpst _ _ _ _ _ _ _ _ _) in H.
  assert (toks p0 = print_doc d) as T by reflexivity. unfold print_doc, elem in T. cbn [app] in T. rewrite <- !app_assoc in T. cbn [app] in T.
  assert (defs_ok [] p0) as E0 by (split; reflexivity).
  go H T. apply p_guard in H as [_ H]. go H T.
  set (rest := Op Xdefns [] :: _) in T.
  assert (exists s1, toks s1 = rest /\ defs_ok [] s1 /\ (opt Xdefns tt (proc_defns fuel);;; ! g <-- opt Xglobal_pred [] (proc_global_pred fuel) ;;; ! f <-- opt Xfeats [] (proc_feats fuel) ;;;
    at_end Xmetatag ;;; (fun p => Some (mkspec (cstrs p) (csets p) g [] f, p))) s1 = Some (sp, p9)) as (s1 & T1 & E1 & H1).
  { destruct (d_coarse d).
    - cbn [single app] in T. eapply p_opt_yes in H; [|exact T|reflexivity]. assert (follow rest) as F by exact I. go H T. exists s0. subst. auto.
    - cbn [app] in T. eapply p_opt_no in H; [|exact T|discriminate]. exists s. subst. auto. }
  clear H T. rename H1 into H, T1 into T. unfold rest in T. clear rest.
  eapply p_opt_yes in H; [|exact T|reflexivity]. apply bnd_inv in H as ([] & s2 & H1 & H).
  assert (toks s2 = (match d_pred d with Some e => elem Xglobal_pred [] (print e) | None => [] end) ++ Op Xfeats [] :: flat_map print_feat (d_feats d) ++ [Cl Xfeats []; Cl Xmetatag []] /\ defs_ok (d_strs d) s2) as [T2 E2].
  { unfold proc_defns in H1. go H1 T. apply bnd_inv in H1 as ([] & s3 & H3 & H1). eapply (defns_ok _ (d_strs d) _ _ Xdefns [] _ []) in H3 as [T3 E3]; [|cbn; intuition discriminate|rewrite T, <- app_assoc; cbn [app]; reflexivity|subst; exact E1].
    eapply p_end in H1; [|exact T3]. eapply last_step in H1; [|exact T3]. subst s2. split; [|exact E3]. cbn [toks upd_toks]. rewrite <- ?app_assoc. cbn [app]. rewrite <- ?app_assoc. reflexivity. }
  clear H1 T. rename T2 into T. assert (names_ok (d_strs d) s2) as N2 by (apply defs_names; assumption).
  apply bnd_inv in H as (gp & s3 & Hg & H). apply bnd_inv in H as (fs & s4 & Hf & H).
  assert (exists g0 : (forall STRS SETS, ext (cstrs s3) STRS -> ext (csets s3) SETS -> List.length STRS <= 255 ->
     match d_pred d with Some e => Spec.Mtx.safe u8 cof ltr (d_strs d) tagged untagged ti wi [] e -> gp <> [] /\
        get_value u8 show co ltr STRS SETS [] tagged untagged ti wi gp (Ok (VBool (Spec.Mtx.eval u8 cof ltr (d_strs d) tagged untagged ti wi [] e))) | None => gp = [] end),
     toks s3 = Op Xfeats [] :: flat_map print_feat (d_feats d) ++ [Cl Xfeats []; Cl Xmetatag []] /\ same s2 s3) as (Hgp & T3 & G3).
  { destruct (d_pred d) as [e|].
    - assert ((proc_global_pred fuel;;; ret tt) s2 = Some (tt, s3) /\ proc_global_pred fuel s2 = Some (gp, s3)) as [_ Hg'].
      { unfold opt, bnd at 1, cur in Hg. rewrite T in Hg. cbn [elem app nm] in Hg. destruct (el_dec Xglobal_pred Xglobal_pred); [|congruence]. unfold bnd. rewrite Hg. auto. }
      clear Hg. assert (forall STRS SETS, List.length STRS <= 255 -> _) as G by (intros STRS SETS HL'; exact (gpred_ok u8 show co cof ltr (d_coarse d) tagged untagged ti wi (d_strs d) Hco STRS SETS HL' e fuel s2 _ gp s3 Hg' T N2 W3)).
      destruct (G [] []) as (T3 & G3 & _); [cbn; lia|]. unshelve eexists; [|auto]. intros STRS SETS HS HT HL' Se. apply (G STRS SETS HL'); assumption.
    - cbn [app] in T. unfold opt, bnd, cur in Hg. rewrite T in Hg. cbn [nm] in Hg. destruct (el_dec Xfeats Xglobal_pred); [congruence|]. injection Hg as <- <-. unshelve eexists; [reflexivity|]. split; [exact T|]. constructor; [apply ext_refl|apply ext_refl|reflexivity]. }
  clear T. rename T3 into T.
  assert (proc_feats fuel s3 = Some (fs, s4)) as Hf'.
  { unfold opt, bnd, cur in Hf. rewrite T in Hf. cbn [nm] in Hf. destruct (el_dec Xfeats Xfeats); [exact Hf|congruence]. }
  clear Hf. unfold proc_feats in Hf'. go Hf' T. apply bnd_inv in Hf' as (l & s6 & Hl & Hf).
  assert (names_ok (d_strs d) s3) as N3 by (eapply same_names; eassumption).
  assert (forall STRS SETS, List.length STRS <= 255 -> _) as G by (intros STRS SETS HL'; exact (feats_ok u8 show co cof ltr (d_coarse d) tagged untagged ti wi (d_strs d) Hco STRS SETS HL' fuel (d_feats d) fuel s0 _ Xfeats [] l s6 Hl T ltac:(subst s0; exact N3) W4)).
  destruct (G [] []) as (T6 & G6 & _); [cbn; lia|]. go Hf T6. apply ret_inv in Hf as [<- ->]. go H T6. injection H as <- <-. subst s0 s5. cbn [sp_strs cstrs upd_toks] in HL.
  set (SP := mkspec _ _ _ _ _).
  assert (forall b, match d_pred d with Some e => Spec.Mtx.safe u8 cof ltr (d_strs d) tagged untagged ti wi [] e /\ b = Spec.Mtx.eval u8 cof ltr (d_strs d) tagged untagged ti wi [] e | None => b = true end ->
    pred_holds u8 show co ltr SP tagged untagged ti wi (Some b)) as HP.
  { intros b Hb. specialize (Hgp (cstrs s6) (csets s6) (m_strs _ _ G6) (m_sets _ _ G6) HL). destruct (d_pred d) as [e|].
    - destruct Hb as [Hs ->]. destruct (Hgp Hs) as [Hn Hv]. apply ph_val; assumption.
    - subst b. apply ph_none. exact Hgp. }
  unfold meaning. unfold safe_doc in S.
  assert (Forall (safe_feat u8 cof ltr (d_strs d) tagged untagged ti wi) (d_feats d) -> pred_holds u8 show co ltr SP tagged untagged ti wi (Some true) ->
    get_features u8 show co ltr SP tagged untagged ti wi (Some (all_features u8 show cof ltr (d_strs d) tagged untagged ti wi 0 (d_feats d)))) as Hyes.
  { intros Sf Hp. apply (gfs_yes _ _ _ _ _ _ _ _ _ [] _ Hp); [apply gr_nil|]. cbn [sp_feats SP].
    destruct (G (cstrs s6) (csets s6) HL) as (_ & _ & F2). specialize (F2 (ext_refl _) (ext_refl _) Sf).
    assert (sp_strs SP = cstrs s6 /\ sp_sets SP = csets s6) as [ES1 ES2] by (split; reflexivity). rewrite <- ES1, <- ES2 in F2. clearbody SP. clear -F2. generalize 0 as i. induction F2 as [|c l0 l fs Hc F2 IH]; intros i; [apply fr_nil|].
    cbn [all_features]. apply fr_cons; [apply Hc|apply IH]. }
  destruct (d_pred d) as [e|].
  - destruct S as [S1 S2]. destruct (Spec.Mtx.eval u8 cof ltr (d_strs d) tagged untagged ti wi [] e) eqn:Ev.
    + apply Hyes; [apply S2; reflexivity|]. apply HP. auto.
    + apply gfs_no. apply HP. auto.
  - apply Hyes; [exact S|]. apply HP. reflexivity.
Qed.
