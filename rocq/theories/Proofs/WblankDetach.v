From Verif Require Import Model.Base Proofs.Base Model.WblankDetach Spec.WblankDetach.

(** ** all bytes: only markers after dollars are inserted *)

Lemma Marked_app a b c d : Marked a b -> Marked c d -> Marked (a ++ c) (b ++ d).
Proof.
  induction 1 as [|x i o H IH|i o H IH]; intros K; cbn; [assumption|constructor; auto|].
  apply (M_mark (i ++ c) (o ++ d)); auto.
Qed.
Lemma Marked_refl a : Marked a a.
Proof. induction a; constructor; assumption. Qed.

(** invariant: blank is nonempty iff in_blank; in_wblank implies in_blank; in_blank implies not in_token *)
Definition Inv (s : st) : Prop :=
  (in_blank s = false -> blank s = []) /\
  (in_wblank s = true -> in_blank s = true) /\
  (in_blank s = true -> in_token s = false /\ hd_error (blank s) = Some cLB) /\
  ~ In cNUL (blank s).

Lemma Inv0 : Inv st0.
Proof. repeat split; cbn; try discriminate; intros []. Qed.

Lemma step_esc_inv s n : Inv s -> n <> cNUL -> Inv (fst (step_esc s n)).
Proof.
  destruct s as [b t ib iw h]; unfold Inv, step_esc; cbn.
  intros [H1 [H2 [H3 H4]]] Hn. destruct ib; cbn; [|repeat split; auto; discriminate].
  destruct (H3 eq_refl) as [Ht Hb].
  repeat split; try discriminate; auto.
  - destruct b; [discriminate|exact Hb].
  - intros K; apply in_app_or in K; destruct K as [K|[K|[K|[]]]]; [exact (H4 K)|discriminate K|congruence].
Qed.

Lemma hd_app_some {A} (b : list A) x y : hd_error b = Some x -> hd_error (b ++ y) = Some x.
Proof. destruct b; [discriminate|auto]. Qed.

Lemma step_chr_inv s c : Inv s -> c <> cNUL -> Inv (fst (step_chr s c)) /\
  exists p, Marked p (snd (step_chr s c)) /\ blank s ++ [c] = p ++ blank (fst (step_chr s c)).
Proof.
  destruct s as [b t ib iw h]; unfold Inv, step_chr, flags; cbn.
  intros [H1 [H2 [H3 H4]]] Hn.
  assert (Hbc : ~ In cNUL (b ++ [c])).
  { intros K; apply in_app_or in K; destruct K as [K|[K|[]]]; [exact (H4 K)|congruence]. }
  destruct ib.
  - destruct (H3 eq_refl) as [-> Hb]. cbn.
    assert (Hh : hd_error (b ++ [c]) = Some cLB) by (apply hd_app_some; exact Hb).
    destruct (ceq_spec c cLB) as [->|Hc1];
      [|destruct (ceq_spec c cRB) as [->|Hc2]]; destruct h, iw; cbn;
      (split; [repeat split; try discriminate; auto|]);
      try (exists []; split; [constructor|reflexivity]);
      exists (b ++ [cRB]); (split; [apply Marked_refl|symmetry; apply app_nil_r]).
  - specialize (H1 eq_refl); subst b.
    assert (iw = false) by (destruct iw; [specialize (H2 eq_refl); discriminate|reflexivity]); subst iw.
    cbn. destruct (negb t && (c =?c cLB)) eqn:E1; cbn.
    + apply andb_prop in E1; destruct E1 as [Et Ec]; apply ceq_eq in Ec; subst c.
      destruct t; [discriminate|]. destruct h; cbn;
      (split; [repeat split; try discriminate; auto|]);
      exists []; (split; [constructor|reflexivity]).
    + destruct (ceq_spec c cCARET) as [->|Hc1];
        [|destruct (ceq_spec c cDOL) as [->|Hc2]]; destruct h; cbn;
        (split; [repeat split; try discriminate; auto|]).
      1,2: exists [cCARET]; split; [apply Marked_refl|reflexivity].
      2: exists [cDOL]; split; [apply Marked_refl|reflexivity].
      2,3: exists [c]; split; [apply Marked_refl|reflexivity].
      exists [cDOL]; split; [|reflexivity].
      change (Marked [cDOL] (cDOL :: close_marker ++ [])); constructor; constructor.
Qed.

Lemma step_nul_inv s : Inv s -> Inv (fst (step_nul s)).
Proof. intros _; exact Inv0. Qed.

(** The general statement: up to a lost tail *)
Lemma run_marked n : forall s inp, length inp <= n -> Inv s -> ~ ends_in_backslash inp ->
  exists p q, blank s ++ inp = p ++ q /\ Marked p (run s inp) /\ ~ In cNUL q /\
    (q = [] \/ hd_error q = Some cLB).
Proof.
  induction n as [|n IH]; intros s inp Hlen Hi Hbs.
  - destruct inp; [|cbn in Hlen; lia].
    exists [], (blank s). cbn. rewrite app_nil_r. repeat split; [constructor|apply Hi|].
    destruct (in_blank s) eqn:E; [right; apply Hi; exact E|left; apply Hi; exact E].
  - destruct inp as [|c rest].
    + exists [], (blank s). cbn. rewrite app_nil_r. repeat split; [constructor|apply Hi|].
      destruct (in_blank s) eqn:E; [right; apply Hi; exact E|left; apply Hi; exact E].
    + cbn in Hlen.
      assert (Hrest : rest <> [] -> ~ ends_in_backslash rest).
      { intros _ [p Hp]; apply Hbs; exists (c :: p); cbn; congruence. }
      assert (Hgen : (c <> cBS \/ exists r, rest = cNUL :: r) ->
        let (s', o) := step s c in
        exists p q, blank s ++ c :: rest = p ++ q /\ Marked p (o ++ run s' rest) /\ ~ In cNUL q /\
          (q = [] \/ hd_error q = Some cLB)).
      { intros Hcase.
        assert (Hr2 : ~ ends_in_backslash rest).
        { intros [p Hp]; apply Hbs; exists (c :: p); cbn; congruence. }
        unfold step. destruct (ceq_spec c cNUL) as [->|Hn].
        - cbn. destruct (IH st0 rest ltac:(lia) Inv0 Hr2) as [p [q [E [HM [Hq Hq2]]]]].
          exists (blank s ++ [cNUL] ++ p), q; repeat split; auto.
          + cbn in E. rewrite E. rewrite <- !app_assoc. reflexivity.
          + rewrite <- app_assoc. apply Marked_app; [apply Marked_refl|].
            apply Marked_app; [apply Marked_refl|exact HM].
        - destruct (step_chr_inv s c Hi Hn) as [HI2 [p1 [HM1 E1]]].
          destruct (step_chr s c) as [s' o]; cbn [fst snd] in *.
          destruct (IH s' rest ltac:(lia) HI2 Hr2) as [p [q [E [HM [Hq Hq2]]]]].
          exists (p1 ++ p), q; repeat split; auto.
          + change (blank s ++ c :: rest) with (blank s ++ [c] ++ rest).
            rewrite app_assoc, E1, <- !app_assoc, E; reflexivity.
          + apply Marked_app; assumption. }
      cbn [run]. destruct (ceq_spec c cBS) as [->|Hc].
      * destruct rest as [|m rest'].
        { exfalso; apply Hbs; exists []; reflexivity. }
        destruct (ceq_spec m cNUL) as [->|Hm].
        -- assert (H := Hgen ltac:(right; eexists; reflexivity)).
           destruct (step s cBS); exact H.
        -- assert (HI2 := step_esc_inv s m Hi Hm).
           assert (Hr2 : ~ ends_in_backslash rest').
           { intros [p Hp]; apply Hbs; exists (cBS :: m :: p); cbn; congruence. }
           unfold step_esc in *. destruct (in_blank s) eqn:Eb; cbn [fst] in HI2.
           ++ cbn in Hlen.
              destruct (IH _ rest' ltac:(lia) HI2 Hr2) as [p [q [E [HM [Hq Hq2]]]]].
              exists p, q; repeat split; auto. cbn in E. rewrite <- app_assoc in E. exact E.
           ++ cbn in Hlen.
              destruct (IH s rest' ltac:(lia) HI2 Hr2) as [p [q [E [HM [Hq Hq2]]]]].
              assert (Hbl : blank s = []) by (apply Hi; exact Eb).
              rewrite Hbl in *; cbn in E.
              exists (cBS :: m :: p), q; repeat split; auto.
              ** cbn; rewrite E; reflexivity.
              ** cbn; repeat constructor; exact HM.
      * assert (H := Hgen ltac:(left; exact Hc)). destruct (step s c); exact H.
Qed.

Lemma detach_marked_gen i : ~ ends_in_backslash i ->
  exists p q, i = p ++ q /\ Marked p (detach i) /\ ~ In cNUL q /\ (q = [] \/ hd_error q = Some cLB).
Proof. intros H; exact (run_marked (length i) st0 i (le_n _) Inv0 H). Qed.

Lemma last_app_nul (p q i : str) : i ++ [cNUL] = p ++ q -> ~ In cNUL q -> q = [].
Proof.
  intros E Hq. destruct q as [|x q] using rev_ind; [reflexivity|].
  rewrite app_assoc in E. apply app_inj_tail in E as [_ <-].
  exfalso; apply Hq, in_or_app; right; left; reflexivity.
Qed.

Lemma detach_flushed i : Marked (i ++ [cNUL]) (detach (i ++ [cNUL])).
Proof.
  destruct (detach_marked_gen (i ++ [cNUL])) as [p [q [E [HM [Hq _]]]]].
  - intros [p Hp]; apply app_inj_tail in Hp as [_ H]; discriminate.
  - assert (q = []) by (eapply last_app_nul; eauto); subst q.
    rewrite app_nil_r in E; rewrite E at 1; exact HM.
Qed.

(** ** well-formed streams: exact placement *)

Definition idle : st := st0.

Lemma wf_t_plain bad c : wf_t bad (Plain c) = true -> c <> cBS /\ c <> cNUL /\ ~ In c bad.
Proof.
  cbn. intros H. apply negb_true_iff, orb_false_iff in H as [H1 H2].
  apply orb_false_iff in H2 as [H2 H3]. apply N.eqb_neq in H1, H2.
  repeat split; auto. apply mem_nIn; exact H3.
Qed.

Lemma run_esc_out s c rest : in_blank s = false -> c <> cNUL ->
  run s (cBS :: c :: rest) = cBS :: c :: run s rest.
Proof.
  intros Hb Hc; cbn [run]. rewrite ceq_refl.
  rewrite (proj2 (ceq_neq c cNUL) Hc). unfold step_esc; rewrite Hb; reflexivity.
Qed.
Lemma run_esc_in s c rest : in_blank s = true -> c <> cNUL ->
  run s (cBS :: c :: rest) = run (mk (blank s ++ [cBS; c]) (in_token s) true (in_wblank s) (had_wblank s)) rest.
Proof.
  intros Hb Hc; cbn [run]. rewrite ceq_refl.
  rewrite (proj2 (ceq_neq c cNUL) Hc). unfold step_esc; rewrite Hb; reflexivity.
Qed.
Lemma run_chr s c rest : c <> cBS -> c <> cNUL ->
  run s (c :: rest) = snd (step_chr s c) ++ run (fst (step_chr s c)) rest.
Proof.
  intros H1 H2; cbn [run]. rewrite (proj2 (ceq_neq c cBS) H1). unfold step.
  rewrite (proj2 (ceq_neq c cNUL) H2). destruct (step_chr s c); reflexivity.
Qed.

(** inside a blank (of depth 1 or 2), ordinary text is accumulated *)
Lemma run_blank_text w : forall b iw h rest, forallb (wf_t [cLB; cRB]) w = true ->
  run (mk b false true iw h) (render_ts w ++ rest) = run (mk (b ++ render_ts w) false true iw h) rest.
Proof.
  induction w as [|t w IH]; intros b iw h rest H; cbn [render_ts flat_map].
  - rewrite app_nil_r; reflexivity.
  - apply andb_prop in H as [Ht Hw]. destruct t as [c|c].
    + apply wf_t_plain in Ht as [H1 [H2 H3]]. cbn [render_t].
      cbn [app]. rewrite run_chr by assumption.
      assert (E : step_chr (mk b false true iw h) c = (mk (b ++ [c]) false true iw h, [])).
      { unfold step_chr, flags; cbn.
        rewrite (proj2 (ceq_neq c cLB)) by (intros ->; apply H3; left; reflexivity).
        rewrite (proj2 (ceq_neq c cRB)) by (intros ->; apply H3; right; left; reflexivity).
        cbn. rewrite !andb_false_r; cbn; rewrite ?andb_false_r; reflexivity. }
      rewrite E; cbn [fst snd app]. fold (render_ts w). rewrite IH by exact Hw.
      rewrite <- app_assoc; reflexivity.
    + cbn in Ht. apply negb_true_iff, ceq_neq in Ht. cbn [render_t app].
      rewrite run_esc_in by (assumption || reflexivity). cbn [blank in_token in_wblank had_wblank].
      fold (render_ts w). rewrite IH by exact Hw. rewrite <- app_assoc; reflexivity.
Qed.

(** inside a unit *)
Lemma run_unit_text w : forall h rest, forallb (wf_t [cCARET; cDOL]) w = true ->
  run (mk [] true false false h) (render_ts w ++ rest) = render_ts w ++ run (mk [] true false false h) rest.
Proof.
  induction w as [|t w IH]; intros h rest H; [reflexivity|].
  apply andb_prop in H as [Ht Hw]. cbn [render_ts flat_map]; fold (render_ts w). destruct t as [c|c].
  - apply wf_t_plain in Ht as [H1 [H2 H3]]. cbn [render_t app]. rewrite run_chr by assumption.
    assert (E : step_chr (mk [] true false false h) c = (mk [] true false false h, [c])).
    { unfold step_chr, flags; cbn.
      rewrite (proj2 (ceq_neq c cCARET)) by (intros ->; apply H3; left; reflexivity).
      rewrite (proj2 (ceq_neq c cDOL)) by (intros ->; apply H3; right; left; reflexivity).
      cbn. rewrite andb_false_r; reflexivity. }
    rewrite E; cbn [fst snd app]. rewrite IH by exact Hw. reflexivity.
  - cbn in Ht. apply negb_true_iff, ceq_neq in Ht. cbn [render_t app].
    rewrite run_esc_out by (assumption || reflexivity). rewrite IH by exact Hw. reflexivity.
Qed.

Lemma starts_wb_plain w r : forallb (wf_t [cLB; cRB]) w = true ->
  starts_wb ([cLB] ++ render_ts w ++ cRB :: r) = false.
Proof.
  intros H; destruct w as [|t w]; cbn; [reflexivity|].
  apply andb_prop in H as [Ht _]. destruct t as [c|c]; cbn; [|reflexivity].
  apply wf_t_plain in Ht as [_ [_ H3]].
  destruct (ceq_spec c cLB); [exfalso; apply H3; left; auto|reflexivity].
Qed.

Lemma run_item i rest : wf i = true -> run st0 (render i ++ rest) = render_closed i ++ run st0 rest.
Proof.
  destruct i as [t| |b|b|w b]; cbn [wf render render_closed]; intros H.
  - destruct t as [c|c]; cbn [render_t app].
    + apply wf_t_plain in H as [H1 [H2 H3]]. rewrite run_chr by assumption.
      assert (E : step_chr st0 c = (st0, [c])).
      { unfold step_chr, flags; cbn.
        rewrite (proj2 (ceq_neq c cLB)) by (intros ->; apply H3; left; reflexivity).
        rewrite (proj2 (ceq_neq c cCARET)) by (intros ->; apply H3; right; right; left; reflexivity).
        rewrite (proj2 (ceq_neq c cDOL)) by (intros ->; apply H3; right; right; right; left; reflexivity).
        reflexivity. }
      rewrite E; reflexivity.
    + cbn in H; apply negb_true_iff, ceq_neq in H. apply run_esc_out; auto.
  - reflexivity.
  - rewrite <- !app_assoc. cbn [app]. rewrite run_chr by discriminate.
    cbn [step_chr flags st0 fst snd app in_token in_blank in_wblank blank had_wblank negb andb orb].
    replace (fst (step_chr st0 cLB)) with (mk [cLB] false true false false) by reflexivity.
    replace (snd (step_chr st0 cLB)) with (@nil char) by reflexivity. cbn [app].
    rewrite run_blank_text by exact H. rewrite run_chr by discriminate.
    set (bb := [cLB] ++ render_ts b).
    assert (E : step_chr (mk bb false true false false) cRB
                = (mk [] false false false (starts_wb (bb ++ [cRB])), bb ++ [cRB])) by reflexivity.
    assert (E2 : starts_wb (bb ++ [cRB]) = false).
    { subst bb. rewrite <- app_assoc. apply starts_wb_plain; exact H. }
    rewrite E, E2; cbn [fst snd]. subst bb. cbn [app]. rewrite <- app_assoc. reflexivity.
  - rewrite <- !app_assoc. cbn [app]. rewrite run_chr by discriminate.
    replace (step_chr st0 cCARET) with (mk [] true false false false, [cCARET]) by reflexivity.
    cbn [fst snd app]. rewrite run_unit_text by exact H. rewrite run_chr by discriminate.
    reflexivity.
  - apply andb_prop in H as [Hw Hb].
    rewrite <- !app_assoc. cbn [app]. rewrite run_chr by discriminate.
    replace (step_chr st0 cLB) with (mk [cLB] false true false false, @nil char) by reflexivity.
    cbn [fst snd app]. rewrite run_chr by discriminate.
    replace (step_chr (mk [cLB] false true false false) cLB)
      with (mk [cLB; cLB] false true true false, @nil char) by reflexivity.
    cbn [fst snd app]. rewrite run_blank_text by exact Hw.
    rewrite run_chr by discriminate.
    set (bb := [cLB; cLB] ++ render_ts w).
    assert (E : step_chr (mk bb false true true false) cRB
                = (mk (bb ++ [cRB]) false true false false, [])) by reflexivity.
    rewrite E; cbn [fst snd app]. rewrite run_chr by discriminate.
    assert (E2 : step_chr (mk (bb ++ [cRB]) false true false false) cRB
                = (mk [] false false false true, (bb ++ [cRB]) ++ [cRB])) by reflexivity.
    rewrite E2; cbn [fst snd]. rewrite run_chr by discriminate.
    replace (step_chr (mk [] false false false true) cCARET) with (mk [] true false false true, [cCARET]) by reflexivity.
    cbn [fst snd]. rewrite run_unit_text by exact Hb. rewrite run_chr by discriminate.
    replace (step_chr (mk [] true false false true) cDOL) with (st0, cDOL :: marker) by reflexivity.
    cbn [fst snd]. subst bb. cbn [app]. rewrite <- !app_assoc. reflexivity.
Qed.

Lemma detach_wf l : forallb wf l = true ->
  detach (flat_map render l) = flat_map render_closed l.
Proof.
  unfold detach; induction l as [|i l IH]; intros H; [reflexivity|].
  apply andb_prop in H as [Hi Hl]. cbn [flat_map]. rewrite run_item by exact Hi.
  rewrite IH by exact Hl. reflexivity.
Qed.

Lemma Subseq_length i o : Subseq i o -> length i <= length o.
Proof. induction 1; cbn; lia. Qed.

Lemma Marked_subseq i o : Marked i o -> Subseq i o.
Proof. induction 1; repeat constructor; assumption. Qed.

Lemma detach_loses : exists i, ~ Subseq i (detach i).
Proof. exists [cLB; 97%N]. intros H. apply Subseq_length in H. cbn in H. lia. Qed.

Lemma detach_invents : exists i, Forall (fun c => (c < 128)%N) i /\ In 255%N (detach i).
Proof. exists [cBS]. split; [repeat constructor|cbn; auto]. Qed.
