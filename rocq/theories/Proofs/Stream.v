From Verif Require Import Model.Base Model.Serialiser Model.Stream Spec.Stream Proofs.Base.

(** ** reading what was printed *)
Lemma stops_spec q c : stops q c = true <-> lemma_stop c \/ (q = true /\ c = cPLUS).
Proof.
  unfold stops, lemma_stop. rewrite !orb_true_iff, andb_true_iff, !ceq_eq. tauto.
Qed.
Lemma lemma_part s : plain lemma_stop (fun c => c = cNUL) s -> forall acc rest, read_lemma false (s ++ rest) acc = read_lemma false rest (acc ++ s).
Proof.
  induction 1 as [|c s Hc Hs H IH|d s Hd H IH]; intros acc rest.
  - rewrite app_nil_r. reflexivity.
  - cbn [app read_lemma]. destruct (stops false c) eqn:E; [apply stops_spec in E as [E|[E _]]; [contradiction|discriminate]|].
    destruct (ceq_spec c cBS); [contradiction|]. rewrite IH, <- app_assoc. reflexivity.
  - cbn [app read_lemma]. change (stops false cBS) with false. rewrite ceq_refl. destruct (ceq_spec d cNUL); [contradiction|]. rewrite IH, <- app_assoc. reflexivity.
Qed.
Lemma tag_part t : plain (fun c => c = cGT) (fun _ => False) t -> forall cur acc rest, read_tags (t ++ rest) (Some cur) acc = read_tags rest (Some (cur ++ t)) acc.
Proof.
  induction 1 as [|c s Hc Hs H IH|d s Hd H IH]; intros cur acc rest.
  - rewrite app_nil_r. reflexivity.
  - cbn [app read_tags]. destruct (ceq_spec c cBS); [contradiction|]. destruct (ceq_spec c cGT); [contradiction|]. rewrite IH, <- app_assoc. reflexivity.
  - cbn [app read_tags]. rewrite ceq_refl, IH, <- app_assoc. reflexivity.
Qed.
Lemma tags_part ts : Forall wf_tag ts -> forall acc c rest, c <> cLT -> read_tags (flat_map (fun t => cLT :: t ++ [cGT]) ts ++ c :: rest) None acc = Ok (acc ++ ts, c, rest).
Proof.
  induction 1 as [|t ts [Hn Hp] H IH]; intros acc c rest Hc.
  - cbn. destruct (ceq_spec c cLT); [contradiction|]. rewrite app_nil_r. reflexivity.
  - cbn [flat_map app read_tags]. rewrite ceq_refl, <- !app_assoc. rewrite (tag_part t Hp). cbn [app read_tags].
    change (cGT =?c cBS) with false. cbn [app]. rewrite ceq_refl. destruct t as [|x t]; [congruence|]. rewrite (IH _ _ _ Hc), <- app_assoc. reflexivity.
Qed.
Lemma read_morpheme_text m c rest : wf_morpheme m -> c <> cLT -> c <> cHASH -> read_morpheme (morpheme_text m ++ c :: rest) = Ok (m, c :: rest).
Proof.
  intros (H1 & H2 & H3 & H4) Hc Hh. unfold read_morpheme, morpheme_text. destruct m as [lem ts]. cbn [m_lemma m_tags] in *.
  rewrite <- app_assoc, (lemma_part lem H2). cbn [app]. destruct ts as [|t ts]; [congruence|]. cbn [flat_map app read_lemma].
  change (stops false cLT) with true. cbn [bind]. destruct lem as [|l0 lem]; [congruence|]. cbn [negb]. rewrite ceq_refl. cbn [negb].
  inversion H4 as [|? ? [Hn Hp] H5]; subst. rewrite <- !app_assoc, (tag_part t Hp). cbn [app read_tags]. change (cGT =?c cBS) with false.
  cbn [app]. rewrite ceq_refl. destruct t as [|x t]; [congruence|]. rewrite (tags_part ts H5 _ _ _ Hc). cbn [bind app].
  destruct (ceq_spec c cHASH); [contradiction|]. reflexivity.
Qed.
Definition after (c : char) : Prop := c = cSLASH \/ c = cDOL.
Lemma read_analysis_text ms : ms <> [] -> Forall wf_morpheme ms -> forall fuel c rest, after c -> length ms <= fuel ->
  read_analysis fuel (sep cPLUS (map morpheme_text ms) ++ c :: rest) = Ok (ms, c :: rest).
Proof.
  intros Hne. induction 1 as [|m ms Hm H IH]; [congruence|]. intros [|fuel] c rest Hc Hf; [cbn in Hf; lia|]. cbn [read_analysis].
  assert (K : c <> cLT /\ c <> cHASH /\ c <> cPLUS /\ c <> cNUL) by (destruct Hc; subst; repeat split; discriminate). destruct K as (K1 & K2 & K3 & K4).
  destruct ms as [|m2 ms].
  - cbn [map sep]. rewrite (read_morpheme_text m c rest Hm K1 K2). cbn [bind]. destruct (ceq_spec c cPLUS); [contradiction|].
    destruct (ceq_spec c cNUL); [contradiction|]. reflexivity.
  - change (sep cPLUS (map morpheme_text (m :: m2 :: ms))) with (morpheme_text m ++ cPLUS :: sep cPLUS (map morpheme_text (m2 :: ms))).
    rewrite <- app_assoc. cbn [app]. rewrite (read_morpheme_text m _ _ Hm) by discriminate. cbn [bind]. rewrite ceq_refl.
    rewrite IH; [reflexivity|discriminate|exact Hc|cbn in Hf |- *; lia].
Qed.
Lemma morpheme_text_len m : wf_morpheme m -> 1 <= length (morpheme_text m).
Proof. intros (H & _). unfold morpheme_text. rewrite app_length. destruct (m_lemma m); [congruence|cbn; lia]. Qed.
Lemma sep_len (c : char) l : Forall (fun x : str => 1 <= length x) l -> length l <= length (sep c l).
Proof.
  induction 1 as [|x l Hx H IH]; [cbn; lia|]. destruct l as [|y l]; [cbn; lia|]. change (sep c (x :: y :: l)) with (x ++ c :: sep c (y :: l)).
  rewrite app_length. cbn [length] in *. lia.
Qed.
Lemma analysis_len a : wf_analysis a -> length (an_morphemes a) <= length (analysis_text a) /\ 1 <= length (analysis_text a).
Proof.
  intros [H1 H2]. assert (L : length (an_morphemes a) <= length (analysis_text a)).
  { unfold analysis_text. rewrite <- (map_length morpheme_text). apply sep_len. apply Forall_map. eapply Forall_impl; [|exact H2]. apply morpheme_text_len. }
  split; [exact L|]. destruct (an_morphemes a); [congruence|cbn in L; lia].
Qed.
Lemma ra_text a c rest : wf_analysis a -> after c ->
  read_analysis (length (analysis_text a ++ c :: rest)) (analysis_text a ++ c :: rest) = Ok (an_morphemes a, c :: rest).
Proof.
  intros Ha Hc. pose proof (analysis_len a Ha) as [L _]. destruct Ha as [A1 A2]. unfold analysis_text at 2. apply read_analysis_text; [exact A1|exact A2|exact Hc|].
  rewrite app_length. lia.
Qed.
Lemma read_analyses_text l : l <> [] -> Forall wf_analysis l -> forall fuel rest, length l <= fuel ->
  read_analyses fuel (sep cSLASH (map analysis_text l) ++ cDOL :: rest) = Ok (l, rest).
Proof.
  intros Hne. induction 1 as [|a l Ha H IH]; [congruence|]. intros [|fuel] rest Hf; [cbn in Hf; lia|]. cbn [read_analyses].
  destruct l as [|a2 l].
  - cbn [map sep]. rewrite (ra_text a _ _ Ha) by (right; reflexivity).
    cbn [bind]. change (cDOL =?c cSLASH) with false. rewrite ceq_refl. destruct a. reflexivity.
  - change (sep cSLASH (map analysis_text (a :: a2 :: l))) with (analysis_text a ++ cSLASH :: sep cSLASH (map analysis_text (a2 :: l))).
    rewrite <- !app_assoc. cbn [app].
    rewrite (ra_text a _ _ Ha) by (left; reflexivity).
    cbn [bind]. rewrite ceq_refl, IH; [destruct a; reflexivity|discriminate|cbn in Hf |- *; lia].
Qed.
Lemma sf_part s : plain (fun c => c = cSLASH \/ c = cDOL) (fun _ => False) s -> forall acc rest, read_sf (s ++ rest) acc = read_sf rest (acc ++ s).
Proof.
  induction 1 as [|c s Hc Hs H IH|d s Hd H IH]; intros acc rest.
  - rewrite app_nil_r. reflexivity.
  - cbn [app read_sf]. destruct (ceq_spec c cSLASH); [tauto|]. destruct (ceq_spec c cDOL); [tauto|]. cbn [orb].
    destruct (ceq_spec c cBS); [contradiction|]. rewrite IH, <- app_assoc. reflexivity.
  - cbn [app read_sf]. change ((cBS =?c cSLASH) || (cBS =?c cDOL)) with false. rewrite ceq_refl, IH, <- app_assoc. reflexivity.
Qed.
Lemma block_part s : plain (fun c => c = cSLASH \/ c = cDOL) (fun _ => False) s -> forall rest, skip_block (s ++ cDOL :: rest) = Ok rest.
Proof.
  induction 1 as [|c s Hc Hs H IH|d s Hd H IH]; intros rest.
  - reflexivity.
  - cbn [app skip_block]. destruct (ceq_spec c cBS); [contradiction|]. destruct (ceq_spec c cDOL); [tauto|]. apply IH.
  - cbn [app skip_block]. rewrite ceq_refl. apply IH.
Qed.
Lemma read_lu_text l rest : wf_lu l -> read_lu (tl (lex_text l) ++ rest) = Ok (l, rest).
Proof.
  intros (H1 & H2 & H3 & H4). destruct l as [sf an]. cbn [lx_sf lx_an] in *. unfold lex_text. cbn [lx_sf lx_an tl].
  unfold read_lu. rewrite <- app_assoc, (sf_part sf H2). cbn [app read_sf]. rewrite ceq_refl. cbn [orb bind]. change (cSLASH =?c cDOL) with false. cbn [app].
  destruct sf as [|s0 sf]; [congruence|]. rewrite <- !app_assoc.
  destruct an as [|a an].
  - cbn [app]. change (cSTAR =?c cDOL) with false. rewrite ceq_refl. change (s0 :: sf ++ cDOL :: rest) with ((s0 :: sf) ++ cDOL :: rest). rewrite (block_part _ H2). reflexivity.
  - set (txt := sep cSLASH (map analysis_text (a :: an))). cbn [app].
    assert (L : length (a :: an) <= length txt).
    { unfold txt. rewrite <- (map_length analysis_text). apply sep_len, Forall_map. eapply Forall_impl; [|exact H3]. intros x Hx. apply (analysis_len x Hx). }
    assert (F : exists c r, txt = c :: r /\ c <> cDOL /\ c <> cSTAR).
    { inversion H3 as [|? ? [A1 A2] _]; subst. destruct (an_morphemes a) as [|m ms] eqn:Em; [congruence|]. inversion A2 as [|? ? (M1 & M2 & _) _]; subst.
      destruct (m_lemma m) as [|c lem] eqn:El; [congruence|].
      assert (P : exists r, txt = c :: r).
      { unfold txt. destruct an as [|a2 an]; cbn [map sep]; unfold analysis_text at 1; rewrite Em; (destruct ms as [|m2 ms]; cbn [map sep]; unfold morpheme_text at 1; rewrite El; eexists; reflexivity). }
      destruct P as [r P]. exists c, r. split; [exact P|]. split.
      - inversion M2 as [|? ? ? K|]; subst; [intros ->; apply K; right; left; reflexivity|discriminate].
      - intros ->. apply (H4 a an eq_refl). exists m, ms, lem. auto. }
    destruct F as (c & r & E & F1 & F2).
    assert (RA := read_analyses_text (a :: an) ltac:(discriminate) H3 (S (length (txt ++ cDOL :: rest))) rest). fold txt in RA.
    rewrite E in RA |- *. cbn [app] in RA |- *. destruct (ceq_spec c cDOL); [contradiction|]. destruct (ceq_spec c cSTAR); [contradiction|].
    rewrite RA; [reflexivity|]. rewrite E in L. cbn [length] in *. rewrite app_length. lia.
Qed.
Lemma blank_inside p : plain (fun c => c = cRB) (fun _ => False) p -> forall acc rest, read_blank (p ++ cRB :: rest) true acc = read_blank rest false (acc ++ p ++ [cRB]).
Proof.
  induction 1 as [|c s Hc Hs H IH|d s Hd H IH]; intros acc rest.
  - cbn [app read_blank]. change (cRB =?c cBS) with false. cbn. reflexivity.
  - cbn [app read_blank]. destruct (ceq_spec c cBS); [contradiction|]. destruct (ceq_spec c cRB); [contradiction|]. cbn [negb]. rewrite IH, <- app_assoc. reflexivity.
  - cbn [app read_blank]. rewrite ceq_refl, IH, <- app_assoc. reflexivity.
Qed.
Lemma blank_part b : wf_blank b -> forall acc rest, read_blank (b ++ rest) false acc = read_blank rest false (acc ++ b).
Proof.
  induction 1 as [|c s H1 H2 H3 H4 H IH|d s H IH|p s Hp H IH]; intros acc rest.
  - rewrite app_nil_r. reflexivity.
  - cbn [app read_blank]. destruct (ceq_spec c cBS); [contradiction|]. destruct (ceq_spec c cCARET); [contradiction|]. destruct (ceq_spec c cNUL); [contradiction|]. cbn [orb].
    destruct (ceq_spec c cLB); [contradiction|]. rewrite IH, <- app_assoc. reflexivity.
  - cbn [app read_blank]. rewrite ceq_refl, IH, <- app_assoc. reflexivity.
  - cbn [app read_blank]. change (cLB =?c cBS) with false. change ((cLB =?c cCARET) || (cLB =?c cNUL)) with false. rewrite ceq_refl. rewrite <- app_assoc. cbn [app].
    rewrite (blank_inside p Hp), IH, <- !app_assoc. reflexivity.
Qed.
Lemma get_lu b l rest : wf_blank b -> wf_lu l -> get (b ++ lex_text l ++ rest) = let '(f, r) := take_flush rest in Ok (mktok b (Some l), f, r).
Proof.
  intros Hb Hl. unfold get. rewrite (blank_part b Hb). cbn [app].
  change (lex_text l ++ rest) with (cCARET :: tl (lex_text l) ++ rest). cbn [read_blank]. change (cCARET =?c cBS) with false. rewrite ceq_refl. cbn [orb].
  rewrite ceq_refl, (read_lu_text l rest Hl). cbn [bind]. destruct (take_flush rest). reflexivity.
Qed.
Lemma get_end b : wf_blank b -> get b = Ok (mktok b None, false, []).
Proof. intros Hb. unfold get. pose proof (blank_part b Hb [] []) as E. rewrite app_nil_r in E. rewrite E. reflexivity. Qed.
Lemma get_nul b rest : wf_blank b -> get (b ++ cNUL :: rest) = Ok (mktok b None, true, rest).
Proof. intros Hb. unfold get. rewrite (blank_part b Hb). reflexivity. Qed.

(** printing gives the text *)
Lemma print_morpheme_text m : wf_morpheme m -> print_morpheme m = Some (morpheme_text m).
Proof. intros (H1 & _ & H3 & _). unfold print_morpheme, morpheme_text. destruct (m_tags m); [congruence|]. destruct (m_lemma m); [congruence|reflexivity]. Qed.
Lemma print_rest_text ms : Forall wf_morpheme ms -> print_rest ms = Some (flat_map (fun m => cPLUS :: morpheme_text m) ms).
Proof. induction 1 as [|m ms Hm H IH]; [reflexivity|]. cbn [print_rest]. rewrite (print_morpheme_text m Hm), IH. reflexivity. Qed.
Lemma sep_flat (c : char) (x : str) l : sep c (x :: l) = x ++ flat_map (fun y => c :: y) l.
Proof. revert x. induction l as [|y l IH]; intros x; [cbn; rewrite app_nil_r; reflexivity|]. change (sep c (x :: y :: l)) with (x ++ c :: sep c (y :: l)). rewrite IH. reflexivity. Qed.
Lemma print_analysis_text a : wf_analysis a -> print_analysis a = Some (analysis_text a).
Proof.
  intros [H1 H2]. unfold print_analysis, analysis_text. destruct (an_morphemes a) as [|m ms]; [congruence|]. inversion H2 as [|? ? Hm H3]; subst.
  rewrite (print_morpheme_text m Hm), (print_rest_text ms H3). cbn [map]. rewrite sep_flat. do 2 f_equal. clear. induction ms as [|m ms IH]; [reflexivity|]. cbn. rewrite IH. reflexivity.
Qed.

(** ** whatever is read is well-formed *)
Lemma plain_app stop bad a b : plain stop bad a -> plain stop bad b -> plain stop bad (a ++ b).
Proof. induction 1 as [|c s Hc Hs H IH|d s Hd H IH]; intros Hb; [exact Hb|cbn; apply P_char; auto|cbn; apply P_esc; auto]. Qed.
Lemma ind2 {X} (P : list X -> Prop) : P [] -> (forall x, P [x]) -> (forall x y l, P l -> P (y :: l) -> P (x :: y :: l)) -> forall l, P l.
Proof. intros H0 H1 H2. assert (G : forall l, P l /\ forall x, P (x :: l)). { induction l as [|y l [I1 I2]]; [split; auto|]. split; [apply I2|]. intros x. apply H2; auto. } intros l. apply G. Qed.
Lemma read_lemma_wf q : forall inp acc lem c r, plain lemma_stop (fun c => c = cNUL) acc -> read_lemma q inp acc = Ok (lem, c, r) ->
  plain lemma_stop (fun c => c = cNUL) lem /\ stops q c = true /\ exists x, lem = acc ++ x /\ length (x ++ c :: r) = length inp.
Proof.
  intros inp. induction inp as [|x|x y l IH1 IH2] using ind2; intros acc lem c r Ha E.
  - discriminate.
  - cbn in E. destruct (stops q x) eqn:Es; [inversion E; subst; split; [exact Ha|split; [exact Es|exists []; rewrite app_nil_r; auto]]|]. destruct (x =?c cBS); discriminate.
  - cbn [read_lemma] in E. destruct (stops q x) eqn:Es; [inversion E; subst; split; [exact Ha|split; [exact Es|exists []; rewrite app_nil_r; auto]]|].
    destruct (ceq_spec x cBS) as [->|Nx].
    + destruct (ceq_spec y cNUL) as [->|Ny]; [discriminate|]. apply IH1 in E.
      * destruct E as (P & S & z & -> & L). split; [exact P|]. split; [exact S|]. exists ([cBS; y] ++ z). rewrite app_assoc. split; [reflexivity|]. cbn. f_equal. f_equal. exact L.
      * apply plain_app; [exact Ha|]. apply P_esc; [exact Ny|constructor].
    + apply IH2 in E.
      * destruct E as (P & S & z & -> & L). split; [exact P|]. split; [exact S|]. exists ([x] ++ z). rewrite app_assoc. split; [reflexivity|]. cbn. f_equal. exact L.
      * apply plain_app; [exact Ha|]. apply P_char; [exact Nx| |constructor]. intros K. assert (stops q x = true) by (apply stops_spec; left; exact K). congruence.
Qed.
Lemma read_tags_cons c r cur acc : read_tags (c :: r) cur acc =
    match cur with
    | Some t => if c =?c cBS then match r with [] => Throw | d :: r' => read_tags r' (Some (t ++ [c; d])) acc end
                else if c =?c cGT then match t with [] => Throw | _ => read_tags r None (acc ++ [t]) end
                else read_tags r (Some (t ++ [c])) acc
    | None => if c =?c cLT then read_tags r (Some []) acc else Ok (acc, c, r)
    end.
Proof. reflexivity. Qed.
Lemma read_tags_wf : forall inp cur acc ts c r, (forall t, cur = Some t -> plain (fun c => c = cGT) (fun _ => False) t) -> Forall wf_tag acc ->
  read_tags inp cur acc = Ok (ts, c, r) -> Forall wf_tag ts /\ c <> cLT /\ (exists x, ts = acc ++ x) /\ (cur <> None -> exists t x, ts = acc ++ t :: x) /\ length (c :: r) <= length inp.
Proof.
  intros inp. induction inp as [|x|x y l IH1 IH2] using ind2; intros cur acc ts c r Hc Ha E.
  - discriminate.
  - rewrite read_tags_cons in E. destruct cur as [t|].
    + destruct (x =?c cBS); [discriminate|]. destruct (x =?c cGT); [destruct t; discriminate|discriminate].
    + destruct (ceq_spec x cLT) as [->|N]; [discriminate|]. inversion E; subst. split; [exact Ha|]. split; [exact N|]. split; [exists []; rewrite app_nil_r; reflexivity|]. split; [congruence|cbn; lia].
  - rewrite read_tags_cons in E. destruct cur as [t|].
    + destruct (ceq_spec x cBS) as [->|N].
      * apply IH1 in E; [|intros t' Et; inversion Et; subst; apply plain_app; [apply Hc; reflexivity|apply P_esc; [tauto|constructor]]|exact Ha].
        destruct E as (E1 & E2 & E3 & E4 & E5). split; [exact E1|]. split; [exact E2|]. split; [exact E3|]. split; [intros _; apply E4; discriminate|cbn in *; lia].
      * destruct (ceq_spec x cGT) as [->|N2].
        -- destruct t as [|t0 t]; [discriminate|]. apply IH2 in E; [|discriminate|apply Forall_app; split; [exact Ha|constructor; [split; [discriminate|apply Hc; reflexivity]|constructor]]].
           destruct E as (E1 & E2 & (z & Ez) & _ & E5). split; [exact E1|]. split; [exact E2|].
           split; [exists ((t0 :: t) :: z); rewrite Ez, <- app_assoc; reflexivity|]. split; [intros _; exists (t0 :: t), z; rewrite Ez, <- app_assoc; reflexivity|cbn in *; lia].
        -- apply IH2 in E; [|intros t' Et; inversion Et; subst; apply plain_app; [apply Hc; reflexivity|apply P_char; [exact N|exact N2|constructor]]|exact Ha].
           destruct E as (E1 & E2 & E3 & E4 & E5). split; [exact E1|]. split; [exact E2|]. split; [exact E3|]. split; [intros _; apply E4; discriminate|cbn in *; lia].
    + destruct (ceq_spec x cLT) as [->|N].
      * apply IH2 in E; [|intros t' Et; inversion Et; subst; constructor|exact Ha]. destruct E as (E1 & E2 & E3 & E4 & E5). split; [exact E1|]. split; [exact E2|]. split; [exact E3|]. split; [congruence|cbn in *; lia].
      * inversion E; subst. split; [exact Ha|]. split; [exact N|]. split; [exists []; rewrite app_nil_r; reflexivity|]. split; [congruence|cbn; lia].
Qed.
Lemma read_morpheme_wf inp m rest : read_morpheme inp = Ok (m, rest) -> wf_morpheme m /\ length rest < length inp /\
  exists c r, rest = c :: r /\ c <> cLT /\ c <> cHASH /\ (forall x s, m_lemma m = x :: s -> exists s', inp = x :: s').
Proof.
  unfold read_morpheme. destruct (read_lemma false inp []) as [[[lem c] r]| | |] eqn:E1; cbn [bind]; try discriminate.
  assert (HD : forall x s, lem = x :: s -> exists s', inp = x :: s').
  { clear - E1. destruct inp as [|y inp]; [discriminate|]. cbn [read_lemma] in E1. destruct (stops false y); [inversion E1; subst; discriminate|].
    assert (G : forall q i acc l c r, read_lemma q i acc = Ok (l, c, r) -> exists z, l = acc ++ z).
    { intros q i. induction i as [|x|x y' l IH1 IH2] using ind2; intros acc l0 c0 r0 E; cbn [read_lemma] in E; try discriminate.
      - destruct (stops q x); [inversion E; exists []; rewrite app_nil_r; reflexivity|]. destruct (x =?c cBS); discriminate.
      - destruct (stops q x); [inversion E; exists []; rewrite app_nil_r; reflexivity|]. destruct (x =?c cBS).
        + destruct (y' =?c cNUL); [discriminate|]. apply IH1 in E as [z ->]. rewrite <- app_assoc. eauto.
        + apply IH2 in E as [z ->]. rewrite <- app_assoc. eauto. }
    destruct (y =?c cBS).
    - destruct inp as [|d inp]; [discriminate|]. destruct (d =?c cNUL); [discriminate|]. apply G in E1 as [z ->]. intros x s Ex. inversion Ex; subst. eauto.
    - apply G in E1 as [z ->]. intros x s Ex. inversion Ex; subst. eauto. }
  apply read_lemma_wf in E1; [|constructor]. destruct E1 as (P1 & S1 & z & Ez & L1). cbn [app] in Ez. subst z.
  destruct lem as [|l0 lem]; [discriminate|]. destruct (ceq_spec c cLT) as [->|N]; cbn [negb]; [|discriminate].
  destruct (read_tags r (Some []) []) as [[[ts c2] r2]| | |] eqn:E2; cbn [bind]; try discriminate.
  apply read_tags_wf in E2; [|intros t Et; inversion Et; constructor|constructor]. destruct E2 as (T1 & T2 & _ & T3 & L2). destruct (T3 ltac:(discriminate)) as (t & x & Ets). cbn [app] in Ets.
  rewrite app_length in L1. cbn [length] in L1, L2.
  destruct (ceq_spec c2 cHASH) as [->|Nh].
  - destruct (read_lemma true (cHASH :: r2) (l0 :: lem)) as [[[lem3 c3] r3]| | |] eqn:E3; cbn [bind]; try discriminate.
    apply read_lemma_wf in E3; [|exact P1]. destruct E3 as (P3 & S3 & z & Ez & L3). destruct (ceq_spec c3 cLT) as [->|N3]; [discriminate|].
    intros E. inversion E; subst m rest. split; [|split].
    + split; [rewrite Ez; discriminate|]. split; [exact P3|]. cbn. split; [rewrite Ets; discriminate|exact T1].
    + rewrite app_length in L3. cbn [length] in *. lia.
    + exists c3, r3. split; [reflexivity|]. split; [exact N3|]. split.
      * intros ->. apply stops_spec in S3 as [[K|[K|[K|K]]]|[_ K]]; discriminate.
      * intros x0 s0 Hx. cbn in Hx. rewrite Ez in Hx. inversion Hx; subst. eapply HD; reflexivity.
  - intros E. inversion E; subst m rest. split; [|split].
    + split; [discriminate|]. split; [exact P1|]. cbn. split; [rewrite Ets; discriminate|exact T1].
    + cbn [length]. lia.
    + exists c2, r2. split; [reflexivity|]. split; [exact T2|]. split; [exact Nh|]. exact HD.
Qed.
Lemma read_analysis_wf fuel : forall inp ms rest, read_analysis fuel inp = Ok (ms, rest) -> ms <> [] /\ Forall wf_morpheme ms /\ length rest < length inp /\
  (forall m r x s, ms = m :: r -> m_lemma m = x :: s -> exists s', inp = x :: s').
Proof.
  induction fuel as [|fuel IH]; intros inp ms rest E; [discriminate|]. cbn [read_analysis] in E.
  destruct (read_morpheme inp) as [[m r1]| | |] eqn:E1; cbn [bind] in E; try discriminate. apply read_morpheme_wf in E1 as (W & L & c & r & -> & _ & _ & H).
  destruct (c =?c cPLUS).
  - destruct (read_analysis fuel r) as [[ms2 r2]| | |] eqn:E2; cbn [bind] in E; try discriminate. inversion E; subst. apply IH in E2 as (_ & F & L2 & _).
    split; [discriminate|]. split; [constructor; assumption|]. split; [cbn in *; lia|]. intros m0 r0 x s Em. inversion Em; subst. apply H.
  - destruct (c =?c cNUL); [discriminate|]. inversion E; subst. split; [discriminate|]. split; [constructor; [exact W|constructor]|]. split; [exact L|].
    intros m0 r0 x s Em. inversion Em; subst. apply H.
Qed.
Lemma read_analyses_wf fuel : forall inp l rest, read_analyses fuel inp = Ok (l, rest) -> l <> [] /\ Forall wf_analysis l /\
  (forall a r, l = a :: r -> star_first a -> exists s, inp = cSTAR :: s).
Proof.
  induction fuel as [|fuel IH]; intros inp l rest E; [discriminate|]. cbn [read_analyses] in E.
  destruct (read_analysis (length inp) inp) as [[ms r1]| | |] eqn:E1; cbn [bind] in E; try discriminate. apply read_analysis_wf in E1 as (W1 & W2 & L & H).
  assert (SF : forall a r, mkan ms :: r = a :: r -> star_first a -> exists s, inp = cSTAR :: s).
  { intros a r Ea (m & q & s & K1 & K2). inversion Ea; subst a. cbn in K1. eapply H; eassumption. }
  destruct r1 as [|c r]; [discriminate|]. destruct (c =?c cSLASH).
  - destruct (read_analyses fuel r) as [[l2 r2]| | |] eqn:E2; cbn [bind] in E; try discriminate. inversion E; subst. apply IH in E2 as (_ & F & _).
    split; [discriminate|]. split; [constructor; [split; assumption|exact F]|]. intros a q Ea. inversion Ea; subst. apply SF with (r := q). reflexivity.
  - destruct (c =?c cDOL); [|discriminate]. inversion E; subst. split; [discriminate|]. split; [constructor; [split; assumption|constructor]|].
    intros a q Ea. inversion Ea; subst. apply SF with (r := []). reflexivity.
Qed.
Lemma read_sf_wf : forall inp acc sf c r, plain (fun c => c = cSLASH \/ c = cDOL) (fun _ => False) acc -> read_sf inp acc = Ok (sf, c, r) ->
  plain (fun c => c = cSLASH \/ c = cDOL) (fun _ => False) sf.
Proof.
  intros inp. induction inp as [|x|x y l IH1 IH2] using ind2; intros acc sf c r Ha E; cbn [read_sf] in E; [discriminate| |].
  - destruct (_ || _); [inversion E; subst; exact Ha|]. destruct (x =?c cBS); discriminate.
  - destruct ((x =?c cSLASH) || (x =?c cDOL)) eqn:Es; [inversion E; subst; exact Ha|]. destruct (ceq_spec x cBS) as [->|N].
    + apply IH1 in E; [exact E|]. apply plain_app; [exact Ha|]. apply P_esc; [tauto|constructor].
    + apply IH2 in E; [exact E|]. apply plain_app; [exact Ha|]. apply P_char; [exact N| |constructor].
      intros K. apply orb_false_iff in Es as [E1 E2]. destruct K; subst; rewrite ceq_refl in *; discriminate.
Qed.
Lemma read_lu_wf inp l rest : read_lu inp = Ok (l, rest) -> wf_lu l.
Proof.
  unfold read_lu. destruct (read_sf inp []) as [[[sf c] r]| | |] eqn:E1; cbn [bind]; try discriminate. apply read_sf_wf in E1; [|constructor].
  destruct (c =?c cDOL); [discriminate|]. destruct sf as [|s0 sf]; [discriminate|]. destruct r as [|c1 r]; [discriminate|]. destruct (c1 =?c cDOL); [discriminate|].
  destruct (ceq_spec c1 cSTAR) as [->|N].
  - destruct (skip_block r); cbn [bind]; try discriminate. intros E. inversion E; subst. split; [discriminate|]. split; [exact E1|]. split; [constructor|]. discriminate.
  - destruct (read_analyses _ _) as [[l2 r2]| | |] eqn:E2; cbn [bind]; try discriminate. intros E. inversion E; subst. apply read_analyses_wf in E2 as (_ & F & S).
    split; [discriminate|]. split; [exact E1|]. split; [exact F|]. cbn. intros a q Ea K. destruct (S a q Ea K) as [s Es]. inversion Es; subst. congruence.
Qed.
Lemma get_wf inp t f rest : get inp = Ok (t, f, rest) -> forall l, tk_lu t = Some l -> wf_lu l.
Proof.
  unfold get. destruct (read_blank inp false []) as [b r]. destruct r as [|c r]; [intros E; inversion E; subst; discriminate|].
  destruct (c =?c cCARET).
  - destruct (read_lu r) as [[l0 r2]| | |] eqn:E; cbn [bind]; try discriminate. apply read_lu_wf in E. destruct (take_flush r2). intros K. inversion K; subst. cbn. intros l El. inversion El; subst. exact E.
  - destruct (take_flush (c :: r)). intros K. inversion K; subst. discriminate.
Qed.

(** ** the sentence taggers *)
Section ST.
Variables (ssf mark first sent_seg : bool).
Variable tagSentence : list lexunit -> list (option analysis).
Hypothesis Htag : forall s, Forall2 (fun l a => forall x, a = Some x -> In x (lx_an l)) s (tagSentence s).
Notation out := (outputLexicalUnit ssf mark first).
Notation units_out := (units_out ssf mark first).
Notation put := (put ssf mark first).
Notation tag_loop := (tag_loop ssf mark first sent_seg tagSentence).
Notation sentences := (sentences sent_seg).

Lemma others_ok a l : Forall wf_analysis l -> print_others a l = Some (flat_map (fun y => cSLASH :: analysis_text y) (remove analysis_dec a l)).
Proof.
  induction 1 as [|x l Hx H IH]; [reflexivity|]. cbn [print_others remove]. destruct (analysis_dec x a) as [->|N].
  - destruct (analysis_dec a a); [exact IH|congruence].
  - destruct (analysis_dec a x) as [->|_]; [congruence|]. rewrite (print_analysis_text x Hx), IH. reflexivity.
Qed.
Lemma out_ok l a : wf_lu l -> (forall x, a = Some x -> In x (lx_an l)) -> exists t, out l a = Some t /\ unit_text ssf mark first l a t.
Proof.
  intros (_ & _ & W & _) Ha. unfold outputLexicalUnit. destruct (lx_an l) as [|a0 an] eqn:E; [eexists; split; [reflexivity|apply UT_unknown; auto]|].
  destruct a as [x|]; [|eexists; split; [reflexivity|apply UT_unknown; auto]].
  assert (Hx : wf_analysis x) by (rewrite Forall_forall in W; apply W, Ha; reflexivity). rewrite (print_analysis_text x Hx).
  assert (Eo : (if first then print_others x (a0 :: an) else Some []) = Some (if first then flat_map (fun y => cSLASH :: analysis_text y) (remove analysis_dec x (a0 :: an)) else [])).
  { destruct first; [apply others_ok, W|reflexivity]. }
  rewrite Eo. eexists. split; [reflexivity|]. apply UT_known; rewrite ?E; [discriminate| |reflexivity].
  destruct mark; [|reflexivity]. destruct an; reflexivity.
Qed.
Definition toks (cur : list (str * lexunit)) : list token := map (fun x => mktok (fst x) (Some (snd x))) cur.
Lemma put_units cur : Forall (fun x => wf_blank (fst x) /\ wf_lu (snd x)) cur -> forall ts, Forall2 (fun l a => forall x, a = Some x -> In x (lx_an l)) (map snd cur) ts ->
  exists s, units_out cur ts s /\ forall full2 ts2, put (toks cur ++ full2) (ts ++ ts2) = bind (put full2 ts2) (fun b => Ok (s ++ b)).
Proof.
  induction 1 as [|[b l] cur [_ Hl] H IH]; intros ts HF.
  - inversion HF; subst. exists []. split; [constructor|]. intros full2 ts2. cbn. destruct (put full2 ts2); reflexivity.
  - cbn [map snd] in HF. inversion HF as [|? a ? ts' H1 H2]; subst. cbn [snd] in Hl. destruct (out_ok l a Hl H1) as (x & Ex & Ux). destruct (IH ts' H2) as (s & U & P).
    exists (b ++ x ++ s). split; [constructor; assumption|]. intros full2 ts2. cbn [toks map app fst snd Model.Stream.put tk_lu tk_str]. rewrite Ex. fold (toks cur). rewrite P.
    destruct (put full2 ts2); cbn [bind]; try reflexivity. rewrite <- !app_assoc. reflexivity.
Qed.
Lemma units_app a1 : forall t1 s1 a2 t2 s2, units_out a1 t1 s1 -> units_out a2 t2 s2 -> units_out (a1 ++ a2) (t1 ++ t2) (s1 ++ s2).
Proof.
  intros t1 s1 a2 t2 s2 H1 H2. induction H1 as [|b l a r rs x s E H IH]; [exact H2|]. cbn [app]. rewrite <- !app_assoc. constructor; assumption.
Qed.
Lemma ends_eq l inp : sentence_end sent_seg l inp = ends sent_seg l inp.
Proof.
  assert (M : sent_lu l = sentence_mark l).
  { unfold sent_lu, sentence_mark. destruct (lx_an l) as [|a [|]]; try reflexivity; destruct a as [ms]; cbn [an_morphemes]; [destruct ms as [|[? [|? [|]]] [|]]; reflexivity|destruct ms as [|[? [|? [|]]] [|]]; reflexivity]. }
  unfold sentence_end, ends, peekIsBlank. rewrite M. destruct sent_seg; cbn [negb orb]; [reflexivity|rewrite andb_true_r; reflexivity]. Qed.
Lemma lus_head l tail : l <> [] -> Forall (fun x : str * lexunit => wf_blank (fst x) /\ wf_lu (snd x)) l -> take_flush (lus_text l ++ tail) = (false, lus_text l ++ tail).
Proof.
  intros Hn H. destruct l as [|[b x] l]; [congruence|]. inversion H as [|? ? [Hb _] _]; subst. cbn [fst] in Hb. cbn [lus_text flat_map fst snd].
  destruct Hb as [|c s H1 H2 H3 H4 Hb|d s Hb|p s Hp Hb]; cbn [app]; unfold take_flush; cbn [lex_text app]; try reflexivity.
  destruct (ceq_spec c cNUL); [contradiction|reflexivity].
Qed.
Lemma units_loop b f rest tail fuel : get tail = Ok (mktok b None, f, rest) ->
  forall l cur, Forall (fun x => wf_blank (fst x) /\ wf_lu (snd x)) (cur ++ l) -> (l = [] \/ take_flush tail = (false, tail)) ->
  exists s, units_out (cur ++ l) (flat_map tagSentence (sentences (map snd cur) l tail)) s /\
  tag_loop (length l + S fuel) (lus_text l ++ tail) (toks cur) (map snd cur) =
    if f then bind (tag_loop fuel rest [] []) (fun s' => Ok (s ++ b ++ cNUL :: s')) else Ok (s ++ b).
Proof.
  intros Hg. induction l as [|[b1 x] l IH]; intros cur W Ht.
  - rewrite app_nil_r in *. destruct (put_units cur W (tagSentence (map snd cur)) (Htag _)) as (s & U & P). exists s.
    cbn [Spec.Stream.sentences flat_map]. rewrite app_nil_r. split; [exact U|].
    cbn [lus_text flat_map app length Nat.add Model.Stream.tag_loop]. rewrite Hg. cbn [bind tk_lu].
    specialize (P [mktok b None] []). rewrite app_nil_r in P. rewrite P. cbn [Model.Stream.put tk_lu tk_str bind]. rewrite app_nil_r.
    destruct f; [|reflexivity]. destruct (tag_loop fuel rest [] []); cbn [bind]; try reflexivity. rewrite <- !app_assoc. reflexivity.
  - assert (Wx : wf_blank b1 /\ wf_lu x) by (apply Forall_app in W as [_ W]; inversion W; assumption). destruct Wx as [Wb Wx].
    assert (TF : take_flush (lus_text l ++ tail) = (false, lus_text l ++ tail)).
    { destruct l as [|y l]; [cbn; destruct Ht as [Ht|Ht]; [discriminate|exact Ht]|]. apply lus_head; [discriminate|]. apply Forall_app in W as [_ W]. inversion W; assumption. }
    assert (G : get (lus_text ((b1, x) :: l) ++ tail) = Ok (mktok b1 (Some x), false, lus_text l ++ tail)).
    { cbn [lus_text flat_map fst snd]. rewrite <- !app_assoc. fold (lus_text l). rewrite (get_lu b1 x (lus_text l ++ tail) Wb Wx), TF. reflexivity. }
    cbn [length Nat.add Model.Stream.tag_loop]. rewrite G. cbn [bind tk_lu]. rewrite ends_eq.
    assert (Tk : toks cur ++ [mktok b1 (Some x)] = toks (cur ++ [(b1, x)])) by (unfold toks; rewrite map_app; reflexivity).
    assert (Ms : map snd cur ++ [x] = map snd (cur ++ [(b1, x)])) by (rewrite map_app; reflexivity).
    cbn [Spec.Stream.sentences]. destruct (ends sent_seg x (lus_text l ++ tail)).
    + assert (W1 : Forall (fun x => wf_blank (fst x) /\ wf_lu (snd x)) (cur ++ [(b1, x)]) /\ Forall (fun x => wf_blank (fst x) /\ wf_lu (snd x)) l).
      { apply Forall_app. rewrite <- app_assoc. exact W. }
      destruct W1 as [W1 W2]. destruct (put_units _ W1 (tagSentence (map snd (cur ++ [(b1, x)]))) (Htag _)) as (s1 & U1 & P1).
      destruct (IH [] W2) as (s2 & U2 & E2). { destruct Ht as [Ht|Ht]; [discriminate|right; exact Ht]. }
      exists (s1 ++ s2). split.
      * cbn [flat_map]. rewrite Ms. change (cur ++ (b1, x) :: l) with (cur ++ [(b1, x)] ++ l). rewrite app_assoc. apply units_app; [exact U1|exact U2].
      * rewrite Tk, Ms. specialize (P1 [] []). rewrite !app_nil_r in P1. rewrite P1. cbn [Model.Stream.put bind]. cbn [toks map] in E2. rewrite E2, app_nil_r.
        destruct f; [|cbn [bind]; rewrite <- app_assoc; reflexivity]. destruct (tag_loop fuel rest [] []); cbn [bind]; try reflexivity. rewrite <- !app_assoc. reflexivity.
    + rewrite Tk, Ms. destruct (IH (cur ++ [(b1, x)])) as (s & U & E). { rewrite <- app_assoc. exact W. } { destruct Ht as [Ht|Ht]; [discriminate|right; exact Ht]. }
      exists s. rewrite <- app_assoc in U. cbn [app] in U. split; [exact U|exact E].
Qed.
Lemma flush_head (b : str) r : wf_blank b -> b <> [] -> take_flush (b ++ r) = (false, b ++ r).
Proof.
  intros H Hn. destruct H as [|c s H1 H2 H3 H4 Hb|d s Hb|p s Hp Hb]; [congruence| | |]; unfold take_flush; cbn [app]; try reflexivity. destruct (ceq_spec c cNUL); [contradiction|reflexivity].
Qed.
Lemma flush_head_end (b : str) : wf_blank b -> take_flush b = (false, b).
Proof. intros H. destruct b as [|c b]; [reflexivity|]. pose proof (flush_head (c :: b) [] H ltac:(discriminate)) as E. rewrite app_nil_r in E. exact E. Qed.
Lemma docs_loop ds : forall d fuel, Forall wf_doc (d :: ds) -> (forall l1 d' d2 l2, d :: ds = l1 ++ d' :: d2 :: l2 -> sd_end d' <> [] \/ sd_lus d' = []) ->
  fold_right (fun d n => length (sd_lus d) + S n) 0 (d :: ds) <= fuel ->
  exists s, sdocs_out ssf mark first sent_seg tagSentence d ds s /\ tag_loop fuel (sdocs_text d ds) [] [] = Ok s.
Proof.
  induction ds as [|d2 ds IH]; intros d fuel W He Hf; inversion W as [|? ? [W1 W2] W3]; subst.
  - cbn in Hf. destruct (units_loop (sd_end d) false [] (sd_end d) (fuel - S (length (sd_lus d))) (get_end _ W2) (sd_lus d) [] W1) as (s & U & E).
    { right. apply flush_head_end, W2. }
    exists (s ++ sd_end d). split; [constructor; exact U|]. cbn [sdocs_text]. unfold sdoc_text. cbn [toks map] in E. cbv beta iota in E. refine (eq_trans _ E). f_equal. lia.
  - cbn [fold_right] in Hf. assert (HE : sd_end d <> [] \/ sd_lus d = []) by (apply (He [] d d2 ds eq_refl)).
    destruct (IH d2 (fuel - S (length (sd_lus d))) W3) as (s2 & U2 & E2). { intros l1 d' d3 l2 K. apply (He (d :: l1) d' d3 l2). cbn. rewrite K. reflexivity. } { cbn [fold_right]. lia. }
    destruct (units_loop (sd_end d) true (sdocs_text d2 ds) (sd_end d ++ cNUL :: sdocs_text d2 ds) (fuel - S (length (sd_lus d))) (get_nul _ _ W2) (sd_lus d) [] W1) as (s & U & E).
    { destruct HE as [HE|HE]; [right; apply flush_head; assumption|left; exact HE]. }
    exists (s ++ sd_end d ++ cNUL :: s2). split; [constructor; assumption|]. cbn [sdocs_text]. unfold sdoc_text. rewrite <- app_assoc. cbn [toks map] in E. rewrite E2 in E. cbv beta iota in E. cbn [bind] in E. refine (eq_trans _ E). f_equal. lia.
Qed.
Lemma lus_len l : length l <= length (lus_text l).
Proof. induction l as [|[b x] l IH]; [cbn; lia|]. cbn [lus_text flat_map]. fold (lus_text l). rewrite app_length. cbn [fst snd]. rewrite app_length. unfold lex_text at 1. cbn [length]. lia. Qed.
Lemma sfuel_ok ds : forall d, fold_right (fun d n => length (sd_lus d) + S n) 0 (d :: ds) <= S (length (sdocs_text d ds)).
Proof.
  induction ds as [|d2 ds IH]; intros d.
  - cbn. unfold sdoc_text. rewrite app_length. pose proof (lus_len (sd_lus d)). lia.
  - specialize (IH d2). change (sdocs_text d (d2 :: ds)) with (sdoc_text d ++ cNUL :: sdocs_text d2 ds). rewrite app_length. cbn [length]. unfold sdoc_text at 1. rewrite app_length.
    pose proof (lus_len (sd_lus d)). change (fold_right (fun d n => length (sd_lus d) + S n) 0 (d :: d2 :: ds)) with (length (sd_lus d) + S (fold_right (fun d n => length (sd_lus d) + S n) 0 (d2 :: ds))). lia.
Qed.
End ST.
