From Verif Require Import Model.Base Proofs.Base Model.WblankAttach Spec.WblankAttach.

Lemma prepend_prepend a b r : prepend a (prepend b r) = prepend (a ++ b) r.
Proof. destruct r; cbn; rewrite app_assoc; reflexivity. Qed.
Lemma prepend_nil r : prepend [] r = r.
Proof. destruct r; reflexivity. Qed.

(** ** elements and deduplication *)

Lemma cut_semi_len s : s <> [] -> length (snd (cut_semi s)) < length s.
Proof.
  induction s as [|c r IH]; [congruence|]. intros _; cbn.
  destruct (c =?c cSEMI); cbn; [lia|].
  destruct r as [|d r]; [cbn; lia|].
  destruct (cut_semi (d :: r)) as [p q]; cbn [snd] in *. specialize (IH ltac:(discriminate)). cbn in IH |- *; lia.
Qed.

Fixpoint pieces (fuel : nat) (s : str) : list str :=
  match fuel, s with
  | S f, _ :: _ => let (p, r) := cut_semi s in trim_wb p :: pieces f r
  | _, _ => []
  end.

Definition nonempty (x : str) : bool := negb (str_eqb x []).

Lemma mem_str_app x a b : mem_str x (a ++ b) = mem_str x a || mem_str x b.
Proof. unfold mem_str; apply existsb_app. Qed.

Lemma add_pieces_uniq fuel : forall s w n,
  add_pieces fuel s w n =
  (w ++ uniq w (filter nonempty (pieces fuel s)), n + length (uniq w (filter nonempty (pieces fuel s)))).
Proof.
  induction fuel as [|f IH]; intros s w n; [cbn; rewrite app_nil_r, Nat.add_0_r; reflexivity|].
  destruct s as [|c s]; [cbn; rewrite app_nil_r, Nat.add_0_r; reflexivity|].
  cbn [add_pieces pieces]. destruct (cut_semi (c :: s)) as [p r].
  cbn [filter]. destruct (trim_wb p) as [|x p'] eqn:Ep.
  - cbn [nonempty str_eqb]. change (nonempty []) with false. cbn iota. apply IH.
  - assert (Hne : nonempty (x :: p') = true).
    { unfold nonempty; rewrite (proj2 (str_eqb_neq _ _)); [reflexivity|discriminate]. }
    rewrite Hne. cbn [uniq]. fold (mem_str (x :: p') w).
    destruct (mem_str (x :: p') w); rewrite IH; [reflexivity|].
    cbn [length]. rewrite <- app_assoc; cbn [app]. f_equal; lia.
Qed.

Lemma split_semi_cur cur s : exists h t, split_semi [] s = h :: t /\ split_semi cur s = (cur ++ h) :: t.
Proof.
  revert cur; induction s as [|c r IH]; intros cur; cbn.
  - exists [], []; rewrite app_nil_r; auto.
  - destruct (c =?c cSEMI).
    + eexists [], _; rewrite app_nil_r; auto.
    + destruct (IH [c]) as [h [t [E1 E2]]]. destruct (IH (cur ++ [c])) as [h' [t' [E1' E2']]].
      rewrite E1 in E1'; injection E1' as <- <-.
      exists (c :: h), t. rewrite E2, E2', <- app_assoc; auto.
Qed.

Lemma split_semi_cut s : exists r, split_semi [] s = fst (cut_semi s) :: r /\
  (r = [] /\ snd (cut_semi s) = [] \/ r = split_semi [] (snd (cut_semi s))) /\ ~ In cSEMI (fst (cut_semi s)).
Proof.
  induction s as [|c s IH]; cbn.
  - exists []; repeat split; auto.
  - destruct (ceq_spec c cSEMI) as [->|Hc]; cbn.
    + eexists; repeat split; [right; reflexivity|intros []].
    + destruct IH as [r [E [H Hn]]]. destruct (cut_semi s) as [p q]; cbn [fst snd] in *.
      destruct (split_semi_cur [c] s) as [h [t [E1 E2]]].
      rewrite E in E1; injection E1 as <- <-. rewrite E2. exists r; repeat split; auto.
      intros [K|K]; [congruence|exact (Hn K)].
Qed.

(** trimming a piece without semicolons is stripping spaces *)
Lemma drop_trim_strip w : ~ In cSEMI w -> drop_trim w = strip_left w.
Proof.
  induction w as [|c w IH]; intros H; [reflexivity|]; cbn.
  unfold is_trim. rewrite (proj2 (ceq_neq c cSEMI)) by (intros ->; apply H; left; reflexivity).
  cbn. rewrite IH by (intros K; apply H; right; exact K). reflexivity.
Qed.
Lemma strip_left_incl w c : In c (strip_left w) -> In c w.
Proof.
  induction w as [|d w IH]; cbn; [auto|]. destruct (d =?c cSP); [right; auto|auto].
Qed.

(** stripping left and right commute *)
Lemma strip_left_sp w : exists n, w = repeat cSP n ++ strip_left w.
Proof.
  induction w as [|c w [n E]]; [exists 0; reflexivity|]. cbn.
  destruct (ceq_spec c cSP) as [->|H]; [exists (S n); cbn; congruence|exists 0; reflexivity].
Qed.
Lemma strip_left_hd w : hd_error (strip_left w) <> Some cSP.
Proof.
  induction w as [|c w IH]; [discriminate|]; cbn.
  destruct (ceq_spec c cSP) as [->|H]; [exact IH|cbn; congruence].
Qed.
Lemma strip_left_fix w : hd_error w <> Some cSP -> strip_left w = w.
Proof. destruct w as [|c w]; [auto|]; cbn. intros H. rewrite (proj2 (ceq_neq c cSP)); congruence. Qed.
Lemma strip_left_app w v : strip_left w <> [] -> strip_left (w ++ v) = strip_left w ++ v.
Proof.
  induction w as [|c w IH]; [cbn; congruence|]; cbn. destruct (c =?c cSP); auto.
Qed.
Lemma strip_left_repeat n : strip_left (repeat cSP n) = [].
Proof. induction n; cbn; auto. Qed.
Lemma strip_left_repeat_app n w : strip_left (repeat cSP n ++ w) = strip_left w.
Proof. induction n; cbn; auto. Qed.
Lemma rev_repeat_sp n : rev (repeat cSP n) = repeat cSP n.
Proof.
  induction n as [|n IH]; [reflexivity|]. cbn [repeat rev]. rewrite IH.
  change [cSP] with (repeat cSP 1). rewrite <- repeat_app. rewrite Nat.add_comm; reflexivity.
Qed.
Lemma strip_left_nil_all w : strip_left w = [] -> exists n, w = repeat cSP n.
Proof. intros H; destruct (strip_left_sp w) as [n E]; rewrite H, app_nil_r in E; exists n; exact E. Qed.

Lemma strip_comm w : strip_left (rev (strip_left (rev w))) = strip w.
Proof.
  unfold strip. destruct (strip_left w) as [|c v] eqn:E.
  - destruct (strip_left_nil_all w E) as [n ->].
    rewrite rev_repeat_sp, strip_left_repeat; reflexivity.
  - destruct (strip_left_sp w) as [n En]. rewrite E in En.
    set (x := c :: v) in *.
    assert (Hx : hd_error x <> Some cSP) by (rewrite <- E; apply strip_left_hd).
    rewrite En, rev_app_distr, rev_repeat_sp.
    destruct (strip_left (rev x)) as [|d y] eqn:Ey.
    + exfalso. destruct (strip_left_nil_all _ Ey) as [k Ek].
      assert (Ex : x = repeat cSP k) by (rewrite <- (rev_involutive x), Ek; apply rev_repeat_sp).
      destruct k; [discriminate Ex|]. rewrite Ex in Hx; cbn in Hx; congruence.
    + rewrite strip_left_app by (rewrite Ey; discriminate). rewrite Ey.
      rewrite rev_app_distr, rev_repeat_sp, strip_left_repeat_app.
      apply strip_left_fix. rewrite <- Ey.
      destruct (strip_left_sp (rev x)) as [k Ek]. rewrite Ey in Ek.
      assert (Ex : x = rev (d :: y) ++ repeat cSP k).
      { rewrite <- (rev_involutive x), Ek, rev_app_distr, rev_repeat_sp; reflexivity. }
      rewrite Ey. intros K. apply Hx. rewrite Ex.
      destruct (rev (d :: y)) as [|z zs] eqn:Ez; [discriminate K|exact K].
Qed.

Lemma trim_strip w : ~ In cSEMI w -> trim_wb w = strip w.
Proof.
  intros H. unfold trim_wb. rewrite <- strip_comm.
  rewrite (drop_trim_strip (rev w)) by (rewrite <- in_rev; exact H).
  apply drop_trim_strip. rewrite <- in_rev. intros K; apply strip_left_incl in K.
  rewrite <- in_rev in K; exact (H K).
Qed.

Lemma pieces_elements n : forall s, length s <= n -> filter nonempty (pieces n s) = elements s.
Proof.
  unfold elements. induction n as [|n IH]; intros s Hl.
  - destruct s; [reflexivity|cbn in Hl; lia].
  - destruct s as [|c s]; [reflexivity|].
    cbn [pieces].
    destruct (split_semi_cut (c :: s)) as [r [E [Hr Hn]]].
    assert (Hlen := cut_semi_len (c :: s) ltac:(discriminate)).
    rewrite E. destruct (cut_semi (c :: s)) as [p q]; cbn [fst snd] in *.
    cbn [map filter]. rewrite (trim_strip p Hn). fold (nonempty (strip p)).
    assert (Hq : filter nonempty (pieces n q) = filter nonempty (map strip r)).
    { rewrite IH by (cbn in Hl, Hlen; lia). destruct Hr as [ [-> ->] | -> ]; reflexivity. }
    rewrite Hq. reflexivity.
Qed.

Lemma join_eq l : join l = join_semi l.
Proof. induction l as [|x [|y l] IH]; cbn in *; congruence. Qed.

Lemma uniq_app seen a b : uniq seen (a ++ b) = uniq seen a ++ uniq (seen ++ uniq seen a) b.
Proof.
  revert seen; induction a as [|x a IH]; intros seen; cbn.
  - rewrite app_nil_r; reflexivity.
  - destruct (existsb (str_eqb x) seen); [apply IH|]. cbn. rewrite IH, <- app_assoc. reflexivity.
Qed.

Lemma pop_n_app a b : pop_n (length b) (a ++ b) = Some a.
Proof.
  revert a; induction b as [|x b IH] using rev_ind; intros a; [cbn; rewrite app_nil_r; reflexivity|].
  rewrite app_length, Nat.add_comm; cbn [length Nat.add pop_n].
  destruct (a ++ b ++ [x]) eqn:E; [destruct a, b; discriminate|].
  rewrite <- E, app_assoc, removelast_last. apply IH.
Qed.

(** ** simulation *)

(** the bookkeeping that corresponds to a list of open blanks (innermost first) *)
Definition bk_wbs (opens : list str) : list str := uniq [] (flat_map elements (rev opens)).
Fixpoint bk_stack (opens : list str) : list nat :=
  match opens with
  | [] => []
  | w :: r => length (uniq (bk_wbs r) (elements w)) :: bk_stack r
  end.
Definition bk (opens : list str) : st := mk (bk_wbs opens) (bk_stack opens) [] [] false false false.

Lemma bk_wbs_cons w r : bk_wbs (w :: r) = bk_wbs r ++ uniq (bk_wbs r) (elements w).
Proof. unfold bk_wbs; cbn [rev]. rewrite flat_map_app, uniq_app; cbn; rewrite app_nil_r; reflexivity. Qed.

Lemma wf_t_plain bad c : wf_t bad (Plain c) = true -> c <> cBS /\ c <> cNUL /\ ~ In c bad.
Proof.
  cbn. intros H. apply negb_true_iff, orb_false_iff in H as [H1 H2].
  apply orb_false_iff in H2 as [H2 H3]. apply N.eqb_neq in H1, H2.
  repeat split; auto. apply mem_nIn; exact H3.
Qed.

Lemma run_esc_out s c rest : in_blank s = false -> c <> cNUL ->
  run s (cBS :: c :: rest) = prepend [cBS; c] (run s rest).
Proof.
  intros Hb Hc; cbn [run]. rewrite ceq_refl.
  rewrite (proj2 (ceq_neq c cNUL) Hc). unfold step_esc; rewrite Hb; reflexivity.
Qed.
Lemma run_esc_in s c rest : in_blank s = true -> c <> cNUL ->
  run s (cBS :: c :: rest) =
  run (mk (wbs s) (wb_stack s) (blank s ++ [cBS; c]) (unesc s ++ [c]) (in_token s) true (in_wblank s)) rest.
Proof.
  intros Hb Hc; cbn [run]. rewrite ceq_refl.
  rewrite (proj2 (ceq_neq c cNUL) Hc). unfold step_esc; rewrite Hb; apply prepend_nil.
Qed.
Lemma run_chr s c rest : c <> cBS -> c <> cNUL ->
  run s (c :: rest) = match step_chr s c with Some (s', o) => prepend o (run s' rest) | None => UB [] end.
Proof.
  intros H1 H2; cbn [run]. rewrite (proj2 (ceq_neq c cBS) H1). unfold step.
  rewrite (proj2 (ceq_neq c cNUL) H2). reflexivity.
Qed.
Lemma run_chr' s c rest s' o : c <> cBS -> c <> cNUL -> step_chr s c = Some (s', o) ->
  run s (c :: rest) = prepend o (run s' rest).
Proof. intros H1 H2 H3; rewrite run_chr, H3 by assumption; reflexivity. Qed.

Definition unescape (l : list tchar) : str := map (fun t => match t with Plain c | Escaped c => c end) l.

Lemma run_blank_text w : forall a k b x iw rest, forallb (wf_t [cLB; cRB]) w = true ->
  run (mk a k b x false true iw) (render_ts w ++ rest)
  = run (mk a k (b ++ render_ts w) (x ++ unescape w) false true iw) rest.
Proof.
  induction w as [|t w IH]; intros a k b x iw rest H; cbn [render_ts flat_map unescape map].
  - rewrite !app_nil_r; reflexivity.
  - apply andb_prop in H as [Ht Hw]. destruct t as [c|c].
    + apply wf_t_plain in Ht as [H1 [H2 H3]]. cbn [render_t app].
      rewrite (run_chr' _ _ _ (mk a k (b ++ [c]) (x ++ [c]) false true iw) []); try assumption.
      * rewrite prepend_nil. fold (render_ts w) (unescape w). rewrite IH by exact Hw.
        rewrite <- !app_assoc; reflexivity.
      * unfold step_chr, flags; cbn.
        rewrite (proj2 (ceq_neq c cLB)) by (intros ->; apply H3; left; reflexivity).
        rewrite (proj2 (ceq_neq c cRB)) by (intros ->; apply H3; right; left; reflexivity).
        cbn. rewrite !andb_false_r; cbn; rewrite ?andb_false_r; reflexivity.
    + cbn in Ht. apply negb_true_iff, ceq_neq in Ht. cbn [render_t app].
      rewrite run_esc_in by (assumption || reflexivity).
      cbn [blank in_token in_wblank wbs wb_stack unesc].
      fold (render_ts w) (unescape w). rewrite IH by exact Hw. rewrite <- !app_assoc; reflexivity.
Qed.

Lemma run_unit_text w : forall a k rest, forallb (wf_t [cCARET; cDOL]) w = true ->
  run (mk a k [] [] true false false) (render_ts w ++ rest)
  = prepend (render_ts w) (run (mk a k [] [] true false false) rest).
Proof.
  induction w as [|t w IH]; intros a k rest H; cbn [render_ts flat_map].
  - rewrite prepend_nil; reflexivity.
  - fold (render_ts w). apply andb_prop in H as [Ht Hw]. destruct t as [c|c].
    + apply wf_t_plain in Ht as [H1 [H2 H3]]. cbn [render_t app].
      rewrite (run_chr' _ _ _ (mk a k [] [] true false false) [c]); try assumption.
      * rewrite IH, prepend_prepend by exact Hw. reflexivity.
      * unfold step_chr, flags; cbn.
        rewrite (proj2 (ceq_neq c cCARET)) by (intros ->; apply H3; left; reflexivity).
        rewrite (proj2 (ceq_neq c cDOL)) by (intros ->; apply H3; right; left; reflexivity).
        reflexivity.
    + cbn in Ht. apply negb_true_iff, ceq_neq in Ht. cbn [render_t app].
      rewrite run_esc_out by (assumption || reflexivity).
      rewrite IH, prepend_prepend by exact Hw. reflexivity.
Qed.

Lemma starts_wb_plain w r : forallb (wf_t [cLB; cRB]) w = true ->
  starts_wb ([cLB] ++ render_ts w ++ cRB :: r) = false.
Proof.
  intros H; destruct w as [|t w]; cbn; [reflexivity|].
  apply andb_prop in H as [Ht _]. destruct t as [c|c]; cbn; [|reflexivity].
  apply wf_t_plain in Ht as [_ [_ H3]].
  destruct (ceq_spec c cLB); [exfalso; apply H3; left; auto|reflexivity].
Qed.
Lemma starts_close_wb b : starts_wb b = false -> starts_close b = false.
Proof.
  destruct b as [|a [|b [|c [|d [|e r]]]]]; cbn; try reflexivity. intros ->; reflexivity.
Qed.
Lemma starts_close_open w : ~ In cRB w -> w <> [cSLASH] -> starts_close ([cLB; cLB] ++ w ++ [cRB; cRB]) = false.
Proof.
  intros Hn Hw. cbn. destruct w as [|a [|b [|c w]]]; cbn; try reflexivity.
  - destruct (ceq_spec a cSLASH) as [->|]; [congruence|reflexivity].
  - rewrite (proj2 (ceq_neq b cRB)) by (intros ->; apply Hn; right; left; reflexivity).
    rewrite andb_false_r; reflexivity.
  - rewrite (proj2 (ceq_neq b cRB)) by (intros ->; apply Hn; right; left; reflexivity).
    rewrite andb_false_r; reflexivity.
Qed.

Lemma render_plain w : render_ts (map Plain w) = w.
Proof. induction w as [|c w IH]; cbn; [reflexivity|]. unfold render_ts in IH; rewrite IH; reflexivity. Qed.
Lemma unescape_plain w : unescape (map Plain w) = w.
Proof. induction w as [|c w IH]; cbn; [reflexivity|]. unfold unescape in IH; rewrite IH; reflexivity. Qed.

Lemma strip2_ok w : strip2 ([cLB; cLB] ++ w ++ [cRB; cRB]) = Some w.
Proof.
  unfold strip2. cbn [app length]. rewrite app_length; cbn [length].
  replace (S (S (length w + 2)) <? 4) with false by (symmetry; apply Nat.ltb_ge; lia).
  cbn [skipn]. replace (S (S (length w + 2)) - 4) with (length w) by lia.
  rewrite firstn_app, Nat.sub_diag, firstn_all; cbn; rewrite app_nil_r; reflexivity.
Qed.

(** walking through [ [[w]] ] up to the closing *)
Lemma run_wb opens w rest : forallb (wf_t [cLB; cRB]) (map Plain w) = true ->
  run (bk opens) ([cLB; cLB] ++ w ++ [cRB; cRB] ++ rest) =
  match close_blank (mk (bk_wbs opens) (bk_stack opens) ([cLB; cLB] ++ w ++ [cRB; cRB])
                        ([cLB; cLB] ++ w ++ [cRB; cRB]) false true false) with
  | Some (s, o) => prepend o (run s rest) | None => UB [] end.
Proof.
  intros Hw. unfold bk. cbn [app].
  rewrite (run_chr' _ cLB _ (mk (bk_wbs opens) (bk_stack opens) [cLB] [cLB] false true false) []);
    try discriminate; [|reflexivity].
  rewrite prepend_nil.
  rewrite (run_chr' _ cLB _ (mk (bk_wbs opens) (bk_stack opens) [cLB; cLB] [cLB; cLB] false true true) []);
    try discriminate; [|reflexivity].
  rewrite prepend_nil.
  rewrite <- (render_plain w) at 1. rewrite run_blank_text by exact Hw.
  rewrite render_plain, unescape_plain.
  rewrite (run_chr' _ cRB _ (mk (bk_wbs opens) (bk_stack opens) ([cLB; cLB] ++ w ++ [cRB]) ([cLB; cLB] ++ w ++ [cRB]) false true false) []);
    try discriminate; [|cbn; reflexivity].
  rewrite prepend_nil.
  rewrite run_chr by discriminate.
  assert (E : forall o, step_chr (mk (bk_wbs opens) (bk_stack opens) ([cLB; cLB] ++ w ++ [cRB]) ([cLB; cLB] ++ w ++ [cRB]) false true false) cRB = o ->
    o = match close_blank (mk (bk_wbs opens) (bk_stack opens) ([cLB; cLB] ++ w ++ [cRB; cRB])
          ([cLB; cLB] ++ w ++ [cRB; cRB]) false true false) with Some (s3, o3) => Some (s3, o3) | None => None end).
  { intros o <-. unfold step_chr, flags.
    cbn [negb in_token andb ceq in_wblank in_blank].
    change (cRB =?c cLB) with false. change (cRB =?c cRB) with true. cbn [andb in_blank in_wblank wbs wb_stack blank unesc in_token].
    rewrite <- !app_assoc. cbn [app]. reflexivity. }
  rewrite (E _ eq_refl). cbn [app]. destruct (close_blank _) as [[s o]|]; reflexivity.
Qed.

Lemma run_item opens i rest : awf i = true -> (i = AFlush -> opens = []) ->
  run (bk opens) (arender i ++ rest) =
  match i with
  | AOpen w => run (bk (w :: opens)) rest
  | AClose => run (bk (tl opens)) rest
  | AUnit b => prepend (carried opens ++ arender i) (run (bk opens) rest)
  | _ => prepend (arender i) (run (bk opens) rest)
  end.
Proof.
  destruct i as [t| |b|b|w|]; cbn [awf arender]; intros H Hf.
  - destruct t as [c|c]; cbn [render_t app].
    + apply wf_t_plain in H as [H1 [H2 H3]]. apply run_chr'; try assumption.
      unfold step_chr, flags; cbn.
      rewrite (proj2 (ceq_neq c cLB)) by (intros ->; apply H3; left; reflexivity).
      rewrite (proj2 (ceq_neq c cCARET)) by (intros ->; apply H3; right; right; left; reflexivity).
      rewrite (proj2 (ceq_neq c cDOL)) by (intros ->; apply H3; right; right; right; left; reflexivity).
      reflexivity.
    + cbn in H; apply negb_true_iff, ceq_neq in H. apply run_esc_out; auto.
  - rewrite (Hf eq_refl). reflexivity.
  - rewrite <- !app_assoc. cbn [app]. unfold bk.
    rewrite (run_chr' _ cLB _ (mk (bk_wbs opens) (bk_stack opens) [cLB] [cLB] false true false) []);
      try discriminate; [|reflexivity].
    rewrite prepend_nil, run_blank_text by exact H.
    rewrite (run_chr' _ cRB _ (bk opens) (cLB :: render_ts b ++ [cRB])); try discriminate.
    + reflexivity.
    + unfold step_chr, flags. cbn [negb in_token andb in_wblank in_blank wbs wb_stack blank unesc].
      change (cRB =?c cLB) with false. change (cRB =?c cRB) with true.
      cbn [andb in_blank in_wblank wbs wb_stack blank unesc in_token].
      unfold close_blank; cbn [blank].
      assert (E : starts_wb (([cLB] ++ render_ts b) ++ [cRB]) = false).
      { rewrite <- app_assoc; apply starts_wb_plain; exact H. }
      rewrite E, (starts_close_wb _ E). reflexivity.
  - rewrite <- !app_assoc. cbn [app]. unfold bk.
    rewrite (run_chr' _ cCARET _ (mk (bk_wbs opens) (bk_stack opens) [] [] true false false) (put_wbs (bk_wbs opens) ++ [cCARET]));
      try discriminate; [|reflexivity].
    rewrite run_unit_text by exact H.
    rewrite (run_chr' _ cDOL _ (bk opens) [cDOL]); try discriminate; [|reflexivity].
    rewrite !prepend_prepend. unfold bk. f_equal. rewrite <- !app_assoc. cbn [app]. f_equal.
    unfold carried, put_wbs. fold (bk_wbs opens). destruct (bk_wbs opens) as [|x l]; [reflexivity|].
    rewrite join_eq; reflexivity.
  - apply andb_prop in H as [Hw Hs]. apply negb_true_iff, str_eqb_neq in Hs.
    assert (Hp : forallb (wf_t [cLB; cRB]) (map Plain w) = true).
    { rewrite forallb_forall in *. intros t Ht. apply in_map_iff in Ht as [c [<- Hc]].
      exact (Hw c Hc). }
    rewrite <- !app_assoc. rewrite run_wb by exact Hp.
    unfold close_blank; cbn [blank unesc wbs wb_stack in_token in_wblank].
    rewrite starts_close_open; [|intros K; apply Hw in K || idtac|exact Hs].
    2:{ rewrite forallb_forall in Hw. specialize (Hw _ K). discriminate Hw. }
    change (starts_wb ([cLB; cLB] ++ w ++ [cRB; cRB])) with true. cbn iota.
    rewrite strip2_ok. rewrite add_pieces_uniq, pieces_elements by lia.
    rewrite prepend_nil. unfold bk. rewrite bk_wbs_cons. cbn [bk_stack]. cbn [Nat.add]. reflexivity.
  - unfold close_marker. change ([cLB; cLB; cSLASH; cRB; cRB] ++ rest) with ([cLB; cLB] ++ [cSLASH] ++ [cRB; cRB] ++ rest).
    rewrite run_wb by reflexivity.
    unfold close_blank; cbn [blank unesc wbs wb_stack in_token in_wblank].
    change (starts_close ([cLB; cLB] ++ [cSLASH] ++ [cRB; cRB])) with true. cbn iota.
    destruct opens as [|w r]; cbn [bk_stack tl]; [rewrite prepend_nil; reflexivity|].
    rewrite bk_wbs_cons, pop_n_app, prepend_nil. reflexivity.
Qed.

Lemma run_expected l : forall opens, forallb awf l = true -> flush_closed (length opens) l = true ->
  run (bk opens) (flat_map arender l) = Done (expected opens l).
Proof.
  induction l as [|i l IH]; intros opens H Hf; [reflexivity|].
  apply andb_prop in H as [Hi Hl]. cbn [flat_map].
  assert (Hop : i = AFlush -> opens = []).
  { intros ->. cbn in Hf. destruct opens; [reflexivity|discriminate]. }
  rewrite run_item by assumption. destruct i as [t| |b|b|w|]; cbn [expected flush_closed] in *.
  - rewrite IH by assumption; reflexivity.
  - apply andb_prop in Hf as [_ Hf]. rewrite IH by assumption; reflexivity.
  - rewrite IH by assumption; reflexivity.
  - rewrite IH by assumption. unfold prepend. rewrite <- app_assoc; reflexivity.
  - apply IH; assumption.
  - apply IH; [assumption|]. destruct opens; cbn in *; exact Hf.
Qed.

Lemma attach_expected l : forallb awf l = true -> flush_closed 0 l = true ->
  attach (flat_map arender l) = Done (expected [] l).
Proof. intros; apply (run_expected l []); assumption. Qed.

(** ** definedness on arbitrary bytes without NUL *)
Definition SInv (s : st) : Prop :=
  fold_right Nat.add 0 (wb_stack s) = length (wbs s) /\
  (in_blank s = true -> in_token s = false /\ blank s <> [] /\ 1 <= length (unesc s)) /\
  (in_wblank s = true -> in_blank s = true /\ 2 <= length (unesc s)) /\
  (in_blank s = false -> unesc s = [] /\ blank s = []) /\
  (starts_wb (blank s) = true -> in_wblank s = true \/ 3 <= length (unesc s)).

Lemma SInv0 : SInv st0.
Proof. repeat split; cbn; try discriminate; auto. Qed.

Lemma add_pieces_count f : forall s w n, length (fst (add_pieces f s w n)) + n = length w + snd (add_pieces f s w n).
Proof.
  intros; rewrite add_pieces_uniq; cbn. rewrite app_length. lia.
Qed.

Lemma pop_n_ok n : forall l, n <= length l -> exists l', pop_n n l = Some l' /\ length l' + n = length l.
Proof.
  induction n as [|n IH]; intros l H; cbn; [exists l; split; [reflexivity|lia]|].
  destruct l as [|x l] using rev_ind; [cbn in H; lia|].
  rewrite app_length in *; cbn in H. destruct (l ++ [x]) eqn:E; [destruct l; discriminate|]. rewrite <- E.
  rewrite removelast_last. destruct (IH l ltac:(lia)) as [l' [E1 E2]].
  exists l'; split; [exact E1|cbn; lia].
Qed.

Lemma starts_wb_app b x : starts_wb (b ++ x) = true -> 2 <= length b -> starts_wb b = true.
Proof. destruct b as [|p [|q b]]; cbn; auto; lia. Qed.

Lemma close_blank_inv s : SInv s -> in_blank s = true -> in_wblank s = false ->
  (starts_wb (blank s) = true -> 4 <= length (unesc s)) ->
  exists s' o, close_blank s = Some (s', o) /\ SInv s'.
Proof.
  intros [Hsum [Hb [Hw [Hnb Hs]]]] Hib Hiw Hlen. unfold close_blank. rewrite Hiw.
  destruct (Hb Hib) as [Ht _].
  assert (Hgo : forall w k, fold_right Nat.add 0 k = length w ->
     SInv (mk w k [] [] (in_token s) false false)).
  { intros w k E; repeat split; cbn; try discriminate; auto. }
  destruct (starts_close (blank s)) eqn:Ec.
  - destruct (wb_stack s) as [|n k] eqn:Ek.
    + do 2 eexists; split; [reflexivity|apply Hgo; exact Hsum].
    + cbn in Hsum. destruct (pop_n_ok n (wbs s) ltac:(lia)) as [w [Ew Hl]]. rewrite Ew.
      do 2 eexists; split; [reflexivity|apply Hgo; lia].
  - destruct (starts_wb (blank s)) eqn:Ew.
    + specialize (Hlen eq_refl). unfold strip2.
      replace (length (unesc s) <? 4) with false by (symmetry; apply Nat.ltb_ge; lia).
      assert (Hc := add_pieces_count (length (firstn (length (unesc s) - 4) (skipn 2 (unesc s))))
        (firstn (length (unesc s) - 4) (skipn 2 (unesc s))) (wbs s) 0).
      destruct (add_pieces _ _ _ _) as [w n]; cbn in Hc.
      do 2 eexists; split; [reflexivity|apply Hgo; cbn; lia].
    + do 2 eexists; split; [reflexivity|apply Hgo; exact Hsum].
Qed.

Lemma step_chr_ok s c : SInv s -> exists s' o, step_chr s c = Some (s', o) /\ SInv s'.
Proof.
  intros HI. assert (HI' := HI). destruct HI' as [Hsum [Hb [Hw [Hnb Hs]]]].
  destruct s as [w k b x t ib iw]; cbn [wbs wb_stack blank unesc in_token in_blank in_wblank] in *.
  unfold step_chr, flags; cbn [wbs wb_stack blank unesc in_token in_blank in_wblank].
  destruct ib.
  - destruct (Hb eq_refl) as [-> [Hne Hx]]. cbn [negb andb].
    assert (Hx1 : length (x ++ [c]) = S (length x)) by (rewrite app_length; cbn; lia).
    assert (Hne1 : b ++ [c] <> []) by (destruct b; discriminate).
    destruct (ceq_spec c cLB) as [->|Hc1].
    + cbn -[length]. do 2 eexists; split; [reflexivity|].
      split; [exact Hsum|]. repeat split; cbn [wbs wb_stack blank unesc in_token in_blank in_wblank];
        try discriminate; auto; lia.
    + destruct (ceq_spec c cRB) as [->|Hc2].
      * cbn [negb andb]. destruct iw.
        -- cbn [andb wbs wb_stack blank unesc in_token in_blank in_wblank].
           destruct (Hw eq_refl) as [_ Hx2].
           do 2 eexists; split; [reflexivity|].
           split; [exact Hsum|]. repeat split; cbn [wbs wb_stack blank unesc in_token in_blank in_wblank];
             try discriminate; auto; try lia.
        -- cbn [andb wbs wb_stack blank unesc in_token in_blank in_wblank].
           assert (Hsw : starts_wb (b ++ [cRB]) = true -> 4 <= length (x ++ [cRB])).
           { intros E. destruct b as [|p [|q b]]; [congruence| |].
             - cbn in E. rewrite andb_false_r in E; discriminate.
             - apply starts_wb_app in E; [|cbn; lia]. destruct (Hs E) as [K|K]; [discriminate|lia]. }
           edestruct (close_blank_inv (mk w k (b ++ [cRB]) (x ++ [cRB]) false true false)) as [s' [o [E1 E2]]];
             try reflexivity; [|exact Hsw|].
           ++ split; [exact Hsum|]. repeat split; cbn [wbs wb_stack blank unesc in_token in_blank in_wblank];
                try discriminate; auto; try lia. intros E; right; specialize (Hsw E); lia.
           ++ rewrite E1. do 2 eexists; split; [reflexivity|exact E2].
      * cbn [negb andb]. rewrite !andb_false_r. cbn [in_blank in_wblank wbs wb_stack blank unesc in_token].
        rewrite ?andb_false_r; cbn [in_blank in_wblank andb]; rewrite ?andb_false_r.
        do 2 eexists; split; [reflexivity|].
        split; [exact Hsum|]. repeat split; cbn [wbs wb_stack blank unesc in_token in_blank in_wblank];
          try discriminate; auto; try lia.
        -- intros E. destruct b as [|p [|q b]]; [congruence| |].
           ++ cbn in E. rewrite (proj2 (ceq_neq c cLB) Hc1), andb_false_r in E; discriminate.
           ++ apply starts_wb_app in E; [|cbn; lia]. destruct (Hs E) as [K|K]; [left; exact K|right; lia].
  - destruct (Hnb eq_refl) as [-> ->].
    assert (iw = false) by (destruct iw; [destruct (Hw eq_refl); discriminate|reflexivity]); subst iw.
    cbn [negb andb]. destruct (negb t && (c =?c cLB)) eqn:E1.
    + apply andb_prop in E1 as [Et Ec]. apply ceq_eq in Ec; subst c. destruct t; [discriminate|].
      cbn. do 2 eexists; split; [reflexivity|]. split; [exact Hsum|]. repeat split; cbn; try discriminate; auto.
    + destruct (c =?c cCARET), (c =?c cDOL); cbn;
        (do 2 eexists; split; [reflexivity|]; split; [exact Hsum|]; repeat split; cbn; try discriminate; auto).
Qed.

Lemma step_esc_ok s n : SInv s -> SInv (fst (step_esc s n)).
Proof.
  intros HI. assert (HI' := HI). destruct HI' as [Hsum [Hb [Hw [Hnb Hs]]]].
  unfold step_esc. destruct (in_blank s) eqn:Eb; [|exact HI]. cbn [fst].
  destruct (Hb eq_refl) as [Ht [Hne Hx]].
  assert (Hx1 : length (unesc s ++ [n]) = S (length (unesc s))) by (rewrite app_length; cbn; lia).
  split; [exact Hsum|].
  repeat split; cbn [wbs wb_stack blank unesc in_token in_blank in_wblank]; try discriminate; auto; try lia.
  - destruct (blank s); discriminate.
  - intros E. destruct (blank s) as [|p [|q b]]; [congruence| |].
    + cbn in E. rewrite andb_false_r in E; discriminate.
    + apply starts_wb_app in E; [|cbn; lia]. destruct (Hs E) as [K|K]; [left; exact K|right; lia].
Qed.

Lemma run_defined n : forall s inp, length inp <= n -> SInv s -> ~ In cNUL inp -> exists o, run s inp = Done o.
Proof.
  induction n as [|n IH]; intros s inp Hl HI Hn.
  - destruct inp; [eexists; reflexivity|cbn in Hl; lia].
  - destruct inp as [|c rest]; [eexists; reflexivity|]. cbn in Hl.
    assert (Hc : c <> cNUL) by (intros ->; apply Hn; left; reflexivity).
    assert (Hr : ~ In cNUL rest) by (intros K; apply Hn; right; exact K).
    cbn [run]. destruct (ceq_spec c cBS) as [->|Hbs].
    + destruct rest as [|m rest'].
      * destruct (step_esc s 255%N); eexists; reflexivity.
      * rewrite (proj2 (ceq_neq m cNUL)) by (intros ->; apply Hr; left; reflexivity).
        assert (H2 := step_esc_ok s m HI). destruct (step_esc s m) as [s' o]; cbn [fst] in H2.
        destruct (IH s' rest') as [o' E]; [cbn in Hl; lia|exact H2|intros K; apply Hr; right; exact K|].
        rewrite E; eexists; reflexivity.
    + unfold step. rewrite (proj2 (ceq_neq c cNUL) Hc).
      destruct (step_chr_ok s c HI) as [s' [o [E1 E2]]]. rewrite E1.
      destruct (IH s' rest ltac:(lia) E2 Hr) as [o' E]. rewrite E; eexists; reflexivity.
Qed.

Lemma attach_defined i : ~ In cNUL i -> exists o, attach i = Done o.
Proof. intros H; exact (run_defined (length i) st0 i (le_n _) SInv0 H). Qed.

Lemma attach_ub : exists i o, attach i = UB o.
Proof. exists ([cLB;cLB;97%N;cRB;cRB] ++ [cNUL] ++ close_marker). eexists. vm_compute. reflexivity. Qed.

Lemma attach_unescapes :
  attach ([cLB; cLB; 97%N; cBS; cRB; 98%N; cRB; cRB] ++ [cCARET; 120%N; cDOL])
  = Done ([cLB; cLB; 97%N; cRB; 98%N; cRB; cRB] ++ [cCARET; 120%N; cDOL]).
Proof. vm_compute. reflexivity. Qed.
