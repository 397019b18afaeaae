From Verif Require Import Model.Base Proofs.Base Model.TransferRules Spec.WBlank Proofs.TransferRules.
Definition core (b : str) : str := if begins_with b [cLB; cLB] then skipn 2 b else b.
Definition cut (a : str) : option str :=
  if ends_with a [cRB; cRB] then
    if 2 <? length a then match odd_bs (rev (cut2 a)) false with None => None | Some true => Some a | Some false => Some (cut2 a) end
    else Some (cut2 a)
  else Some a.
Definition glue (x y : str) : str := x ++ [cSEMI; cSP] ++ y.
Lemma combine_eq a b : a <> [] -> b <> [] -> combine_wblanks a b = match cut a with Some x => Some (glue x (core b)) | None => None end.
Proof.
  intros Ha Hb. unfold combine_wblanks, cut, glue, core. destruct a as [|a0 a]; [contradiction|]. destruct b as [|b0 b]; [contradiction|].
  destruct (ends_with _ _); [|reflexivity]. destruct (2 <? _); [|reflexivity]. destruct (odd_bs _ _) as [[]|]; reflexivity.
Qed.
Lemma good_cut a : good_wb a -> a <> [] -> exists x, cut a = Some x.
Proof. intros H Ha. specialize (H [cSP]). rewrite combine_eq in H by (assumption || discriminate). destruct (cut a); [eauto|contradiction]. Qed.
Lemma glue_nonnil x y : glue x y <> [].
Proof. unfold glue. destruct x; discriminate. Qed.
Lemma core_glue y z : core (glue y z) = glue (core y) z.
Proof.
  unfold core, glue. destruct y as [|a [|b y]]; [reflexivity| |].
  - cbn. destruct (a =?c cLB); cbn; [reflexivity|reflexivity].
  - cbn. destruct (a =?c cLB); [|reflexivity]. destruct (b =?c cLB); [|reflexivity]. destruct y; reflexivity.
Qed.
Lemma ends_glue x d : ends_with (glue x d) [cRB; cRB] = ends_with d [cRB; cRB].
Proof.
  destruct (ends_with d [cRB; cRB]) eqn:E.
  - apply ends_spec in E as [r ->]. apply ends_spec. exists (glue x r). unfold glue. rewrite <- !app_assoc. reflexivity.
  - destruct (ends_with (glue x d) [cRB; cRB]) eqn:K; [|reflexivity]. exfalso. apply ends_spec in K as [r K].
    destruct (exists_last (l := d)) as (d1 & c1 & ->); [intros ->; unfold glue in K; rewrite app_nil_r in K; replace (x ++ [cSEMI; cSP]) with ((x ++ [cSEMI]) ++ [cSP]) in K by (rewrite <- app_assoc; reflexivity); replace (r ++ [cRB; cRB]) with ((r ++ [cRB]) ++ [cRB]) in K by (rewrite <- app_assoc; reflexivity); apply app_inj_tail in K as [_ K]; discriminate|].
    unfold glue in K. replace (r ++ [cRB; cRB]) with ((r ++ [cRB]) ++ [cRB]) in K by (rewrite <- app_assoc; reflexivity).
    replace (x ++ [cSEMI; cSP] ++ d1 ++ [c1]) with ((x ++ [cSEMI; cSP] ++ d1) ++ [c1]) in K by (rewrite <- !app_assoc; reflexivity). apply app_inj_tail in K as [K ->].
    destruct (exists_last (l := d1)) as (d2 & c2 & ->); [intros ->; replace (x ++ [cSEMI; cSP] ++ []) with ((x ++ [cSEMI]) ++ [cSP]) in K by (rewrite <- app_assoc; reflexivity); apply app_inj_tail in K as [_ K]; discriminate|].
    replace (x ++ [cSEMI; cSP] ++ d2 ++ [c2]) with ((x ++ [cSEMI; cSP] ++ d2) ++ [c2]) in K by (rewrite <- !app_assoc; reflexivity). apply app_inj_tail in K as [_ ->].
    assert (ends_with ((d2 ++ [cRB]) ++ [cRB]) [cRB; cRB] = true) by (apply ends_spec; exists d2; rewrite <- app_assoc; reflexivity). congruence.
Qed.
Lemma odd_app l t e b : odd_bs l e = Some b -> odd_bs (l ++ t) e = Some b.
Proof. revert e. induction l as [|c l IH]; intros e H; [discriminate|]. cbn in *. destruct (c =?c cBS); [apply IH, H|exact H]. Qed.
Lemma odd_stop l c t c' t' e : c <> cBS -> c' <> cBS -> odd_bs (l ++ c :: t) e = odd_bs (l ++ c' :: t') e.
Proof. intros Hc Hc'. revert e. induction l as [|x l IH]; intros e; cbn; [rewrite (proj2 (ceq_neq _ _) Hc), (proj2 (ceq_neq _ _) Hc'); reflexivity|]. destruct (x =?c cBS); [apply IH|reflexivity]. Qed.
Lemma begins2 b : begins_with b [cLB; cLB] = true -> exists d, b = cLB :: cLB :: d.
Proof. intros H. apply begins_spec in H as [d ->]. exists d. reflexivity. Qed.
Lemma core_ll d : core (cLB :: cLB :: d) = d.
Proof. destruct d; reflexivity. Qed.
Lemma glue_app x d t : glue x (d ++ t) = glue x d ++ t.
Proof. unfold glue. rewrite <- !app_assoc. reflexivity. Qed.
Lemma rev_glue x d : rev (glue x d) = rev d ++ cSP :: cSEMI :: rev x.
Proof. unfold glue. rewrite !rev_app_distr. cbn. rewrite <- !app_assoc. reflexivity. Qed.
Lemma cut_glue x b y : cut b = Some y -> cut (glue x (core b)) = Some (glue x (core y)).
Proof.
  intros H. unfold cut in H. destruct (ends_with b [cRB; cRB]) eqn:E.
  - apply ends_spec in E as [r ->]. rewrite cut2_app in H.
    assert (L : (2 <? length (glue x (core (r ++ [cRB; cRB])))) = true).
    { apply Nat.ltb_lt. unfold glue. rewrite !app_length. cbn [length]. assert (core (r ++ [cRB; cRB]) <> []); [|destruct (core _); [contradiction|cbn; lia]].
      unfold core. destruct (begins_with _ _) eqn:B; [|destruct r; discriminate]. apply begins2 in B as [d B]. rewrite B. cbn. intros ->. destruct r as [|a [|c r]]; cbn in B; try discriminate. injection B as _ _ B. destruct r; discriminate. }
    destruct (begins_with (r ++ [cRB; cRB]) [cLB; cLB]) eqn:B.
    + assert (exists r', r = cLB :: cLB :: r') as [r' ->]. { apply begins2 in B as [d B]. destruct r as [|a [|c r]]; cbn in B; try discriminate. injection B as -> -> _. exists r. reflexivity. }
      assert (CE : core ((cLB :: cLB :: r') ++ [cRB; cRB]) = r' ++ [cRB; cRB]) by (unfold core; rewrite B; reflexivity). rewrite CE in *. unfold cut. rewrite ends_glue.
      rewrite (proj2 (ends_spec _ _)) by (exists r'; reflexivity). rewrite L. rewrite glue_app, cut2_app.
      replace (2 <? length ((cLB :: cLB :: r') ++ [cRB; cRB])) with true in H by (symmetry; apply Nat.ltb_lt; rewrite app_length; cbn; lia).
      rewrite rev_glue.
      replace (rev (cLB :: cLB :: r')) with (rev r' ++ cLB :: [cLB]) in H by (cbn; rewrite <- app_assoc; reflexivity).
      rewrite (odd_stop _ cSP _ cLB [cLB]) by discriminate. destruct (odd_bs (rev r' ++ cLB :: [cLB]) false) as [[]|]; try discriminate; injection H as <-; [cbn [app]; rewrite core_ll, glue_app; reflexivity|rewrite core_ll; reflexivity].
    + assert (CE : core (r ++ [cRB; cRB]) = r ++ [cRB; cRB]) by (unfold core; rewrite B; reflexivity). rewrite CE in *. unfold cut. rewrite ends_glue.
      rewrite (proj2 (ends_spec _ _)) by (exists r; reflexivity). rewrite L. rewrite glue_app, cut2_app.
      rewrite rev_glue.
      assert (BR : begins_with r [cLB; cLB] = false). { destruct (begins_with r [cLB; cLB]) eqn:Q; [|reflexivity]. apply begins_spec in Q as [d ->]. rewrite <- app_assoc, begins_app in B. discriminate. }
      assert (CR : core r = r) by (unfold core; rewrite BR; reflexivity).
      destruct r as [|c r].
      * cbn in H. injection H as <-. reflexivity.
      * replace (2 <? length ((c :: r) ++ [cRB; cRB])) with true in H by (symmetry; apply Nat.ltb_lt; rewrite app_length; cbn; lia).
        destruct (odd_bs (rev (c :: r)) false) as [e|] eqn:O; [|discriminate]. rewrite (odd_app _ (cSP :: cSEMI :: rev x) _ _ O).
        destruct e; injection H as <-; [f_equal; rewrite <- glue_app; symmetry; exact (f_equal (glue x) CE)|rewrite CR; reflexivity].
  - injection H as <-. unfold cut. rewrite ends_glue. replace (ends_with (core b) [cRB; cRB]) with false; [reflexivity|]. symmetry. unfold core. destruct (begins_with b [cLB; cLB]) eqn:B; [|exact E].
    apply begins2 in B as [d ->]. cbn [skipn]. destruct (ends_with d [cRB; cRB]) eqn:Q; [|reflexivity]. apply ends_spec in Q as [r ->].
    assert (ends_with (cLB :: cLB :: r ++ [cRB; cRB]) [cRB; cRB] = true) by (apply ends_spec; exists (cLB :: cLB :: r); reflexivity). congruence.
Qed.
Lemma combine_nil_r a : combine_wblanks a [] = Some a.
Proof. destruct a; reflexivity. Qed.
Lemma combine_assoc a b c : good_wb a -> good_wb b ->
  (match combine_wblanks a b with Some x => combine_wblanks x c | None => None end) = (match combine_wblanks b c with Some y => combine_wblanks a y | None => None end) /\
  combine_wblanks a b <> None /\ (match combine_wblanks a b with Some x => combine_wblanks x c | None => None end) <> None.
Proof.
  intros Ha Hb. split; [|split; [apply Ha|destruct (combine_wblanks a b) as [x|] eqn:E; [apply (combine_good a b x Ha Hb E)|exfalso; exact (Ha b E)]]].
  destruct a as [|a0 a]; [cbn; destruct (combine_wblanks b c); reflexivity|].
  destruct b as [|b0 b]; [cbn; reflexivity|].
  destruct c as [|c0 c]; [rewrite combine_nil_r; destruct (combine_wblanks (a0 :: a) (b0 :: b)) as [x|]; [apply combine_nil_r|reflexivity]|].
  set (A := a0 :: a) in *. set (B := b0 :: b) in *. set (C := c0 :: c) in *.
  destruct (good_cut A Ha) as [x Hx]; [discriminate|]. destruct (good_cut B Hb) as [y Hy]; [discriminate|].
  rewrite (combine_eq A B), Hx by discriminate. rewrite (combine_eq B C), Hy by discriminate. rewrite combine_eq by (apply glue_nonnil || discriminate).
  rewrite (combine_eq A) by (apply glue_nonnil || discriminate). rewrite Hx, (cut_glue _ _ _ Hy), core_glue. unfold glue. rewrite <- !app_assoc. reflexivity.
Qed.
Lemma odd_reps k e t : odd_bs (repeat cBS (2 * k) ++ t) e = odd_bs t e.
Proof. revert e. induction k as [|k IH]; intros e; [reflexivity|]. replace (2 * S k) with (S (S (2 * k))) by lia. cbn [repeat app odd_bs]. rewrite ceq_refl. rewrite negb_involutive. apply IH. Qed.
Lemma rev_reps (c : char) n : rev (repeat c n) = repeat c n.
Proof. induction n as [|n IH]; [reflexivity|]. cbn. rewrite IH. clear. induction n as [|n IH]; [reflexivity|]. cbn. rewrite IH. reflexivity. Qed.
Lemma odd_closed c t : closed c -> t <> [] -> (forall t', t <> cBS :: t') -> odd_bs (rev c ++ t) false = Some false.
Proof.
  intros (r & k & -> & Hr) Ht Hb. rewrite rev_app_distr, rev_reps, <- app_assoc, odd_reps. destruct (exists_last (l := r ++ [cSP])) as (q & z & _); [destruct r; discriminate|].
  destruct r as [|r0 r] using rev_ind.
  - cbn. destruct t as [|t0 t]; [contradiction|]. cbn. destruct (ceq_spec t0 cBS) as [->|H]; [destruct (Hb t eq_refl)|reflexivity].
  - rewrite rev_app_distr. cbn. destruct (ceq_spec r0 cBS) as [->|H]; [destruct (Hr r eq_refl)|reflexivity].
Qed.
Lemma joined_app l1 l2 : l1 <> [] -> l2 <> [] -> joined (l1 ++ l2) = joined l1 ++ [cSEMI; cSP] ++ joined l2.
Proof.
  induction l1 as [|c l1 IH]; [contradiction|]. intros _ H2. destruct l1 as [|c' l1].
  - destruct l2 as [|d l2]; [contradiction|reflexivity].
  - assert (E : joined ((c' :: l1) ++ l2) = joined (c' :: l1) ++ [cSEMI; cSP] ++ joined l2) by (apply IH; [discriminate|exact H2]).
    change (joined ((c :: c' :: l1) ++ l2)) with (c ++ [cSEMI; cSP] ++ joined ((c' :: l1) ++ l2)). rewrite E. change (joined (c :: c' :: l1)) with (c ++ [cSEMI; cSP] ++ joined (c' :: l1)). rewrite <- !app_assoc. reflexivity.
Qed.
Lemma combine_wf l1 l2 : l1 <> [] -> l2 <> [] -> closed (joined l1) -> combine_wblanks (wblank l1) (wblank l2) = Some (wblank (l1 ++ l2)).
Proof.
  intros H1 H2 HC. rewrite combine_eq by discriminate. unfold cut.
  assert (E : wblank l1 = ([cLB; cLB] ++ joined l1) ++ [cRB; cRB]) by (unfold wblank; rewrite <- app_assoc; reflexivity).
  rewrite (proj2 (ends_spec _ _)) by (exists ([cLB; cLB] ++ joined l1); exact E). rewrite E, cut2_app.
  replace (2 <? _) with true by (symmetry; apply Nat.ltb_lt; rewrite !app_length; cbn; lia). rewrite rev_app_distr. rewrite odd_closed; [|exact HC|discriminate|discriminate].
  unfold wblank. cbn [app]. rewrite core_ll. unfold glue. rewrite joined_app by assumption. cbn [app]. rewrite <- !app_assoc. reflexivity.
Qed.
Lemma closed_joined l : l <> [] -> Forall closed l -> closed (joined l).
Proof.
  intros H HF. induction HF as [|c l Hc HF IH]; [contradiction|]. destruct l as [|c' l]; [exact Hc|]. destruct IH as (r & k & E & Hr); [discriminate|].
  change (joined (c :: c' :: l)) with (c ++ [cSEMI; cSP] ++ joined (c' :: l)). rewrite E. exists (c ++ [cSEMI; cSP] ++ r), k. split; [rewrite <- !app_assoc; reflexivity|].
  intros r' Q. destruct r as [|z r _] using rev_ind; [replace (c ++ [cSEMI; cSP] ++ []) with ((c ++ [cSEMI]) ++ [cSP]) in Q by (rewrite <- app_assoc; reflexivity); apply app_inj_tail in Q as [_ Q]; discriminate|].
  rewrite !app_assoc in Q. apply app_inj_tail in Q as [_ ->]. destruct (Hr r eq_refl).
Qed.
