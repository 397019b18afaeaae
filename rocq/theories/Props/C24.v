(** C24: the light sliding-window tagger (exact arithmetic).  Spec/LSW.v: [share], [gain], [live], [mass]. *)
From Coq Require Import String QArith Lqa.
From Verif Require Import Model.Base Model.HMM Model.LSW Spec.HMM Spec.LSW Proofs.HMM Proofs.LSW.
Open Scope nat_scope.

(** which tag triples the rules admit, exactly *)
Theorem C24_valid : forall forbid enforce a b c, is_valid_seq forbid enforce (a, b, c) = true <->
  bigram_ok forbid enforce a b /\ ~ In (b, c) forbid /\ (a <> b -> bigram_ok forbid enforce b c).
Proof. exact valid_spec. Qed.
Print Assumptions C24_valid.
(** they are the triples allowed by the rules when no enforce rule lists its own tag ... *)
Theorem C24_valid_allowed_partial : forall forbid enforce t, (forall a ts, In (a, ts) enforce -> ~ In a ts) ->
  (is_valid_seq forbid enforce t = true <-> allowed forbid enforce t).
Proof.
  intros forbid enforce [[a b] c] H. rewrite valid_spec. unfold allowed. split.
  - intros [H1 [H2 H3]]. split; [exact H1|]. destruct (Nat.eq_dec a b) as [->|n]; [|apply H3, n].
    split; [exact H2|]. intros ts Hts. exfalso. exact (H _ _ Hts (proj2 H1 ts Hts)).
  - intros [H1 H2]. split; [exact H1|]. split; [apply H2|auto].
Qed.
Print Assumptions C24_valid_allowed_partial.
(** ... and otherwise not: with enforce 1 -> {1,2} the sequence 1 1 3 is admitted. *)
Theorem C24_valid_allowed_refuted : exists forbid enforce t, is_valid_seq forbid enforce t = true /\ ~ allowed forbid enforce t.
Proof.
  exists [], [(1, [1; 2])], (1, 1, 3). split; [reflexivity|]. intros [_ [_ H]]. specialize (H _ (or_introl eq_refl)). cbn in H. intuition discriminate.
Qed.
Print Assumptions C24_valid_allowed_refuted.

(** initialisation: every window adds one unit spread equally on its admitted triples *)
Theorem C24_init : forall forbid enforce eos N D0 ws t, 2 <= length ws -> Forall (wset N) (corpus_windows eos ws) ->
  (at3 (init_probabilities forbid enforce eos D0 ws) t ==
   qtotal (fun w => share (is_valid_seq forbid enforce) w t) (corpus_windows eos ws))%Q.
Proof.
  intros forbid enforce eos N D0 [|m [|r rest]] t Hl Hw; cbn in Hl; try lia. unfold init_probabilities. rewrite windows_fold.
  rewrite (init_windows_at forbid enforce N) by exact Hw. rewrite at0. unfold corpus_windows. ring.
Qed.
Print Assumptions C24_init.
(** a training pass: every window adds one unit spread proportionally to the current weights *)
Theorem C24_train : forall eos N D ws t, 2 <= length ws -> Forall (wset N) (corpus_windows eos ws) ->
  (at3 (train1 eos D ws) t == qtotal (fun w => gain D w t) (corpus_windows eos ws))%Q.
Proof.
  intros eos N D [|m [|r rest]] t Hl Hw; cbn in Hl; try lia. unfold train1. rewrite windows_fold.
  rewrite (train_windows_at N) by exact Hw. rewrite at0. unfold corpus_windows. ring.
Qed.
Print Assumptions C24_train.
(** the unit of a window is exactly 1 *)
Theorem C24_window_unit : forall forbid enforce N w, wset N w ->
  (qtotal (share (is_valid_seq forbid enforce) w) (wtri w) == if live (is_valid_seq forbid enforce) w then 1 else 0)%Q.
Proof.
  intros forbid enforce N w Hw. set (sel := is_valid_seq forbid enforce).
  rewrite (qtotal_ext _ (fun t => if sel t then (1 / inject_Z (Z.of_nat (nvalid sel w)))%Q else 0%Q)).
  - rewrite <- (qtotal_filter (fun _ => (1 / inject_Z (Z.of_nat (nvalid sel w)))%Q)), qtotal_const.
    change (length (filter sel (wtri w))) with (nvalid sel w). unfold live. destruct (nvalid sel w =? 0) eqn:E0; cbn [negb].
    + apply Nat.eqb_eq in E0. rewrite E0. reflexivity.
    + apply Nat.eqb_neq in E0. assert (P := Zn_pos (nvalid sel w) ltac:(lia)). field. lra.
  - intros t Ht. unfold share. destruct (in_dec tri_dec t (wtri w)); [reflexivity|contradiction].
Qed.
Print Assumptions C24_window_unit.
(** after initialisation and any number of training passes over the corpus: weights are non-negative, a triple that
    violates the rules has weight 0, and the total mass is the number of windows with an admitted triple *)
Theorem C24_mass : forall forbid enforce eos N D0 ws n, 2 <= length ws -> Forall (wset N) (corpus_windows eos ws) ->
  let D := train eos n (init_probabilities forbid enforce eos D0 ws) ws in
  (forall t, (0 <= at3 D t)%Q) /\ (forall t, is_valid_seq forbid enforce t = false -> (at3 D t == 0)%Q) /\
  (mass N D == Qn (nlive (is_valid_seq forbid enforce) (corpus_windows eos ws)))%Q.
Proof.
  intros forbid enforce eos N D0 ws n Hl Hw. set (W := corpus_windows eos ws) in *.
  assert (G : forall n D, TI forbid enforce N W D -> TI forbid enforce N W (train eos n D ws)).
  { induction n0 as [|n0 IH]; intros D H; cbn [train]; [exact H|]. apply IH.
    replace (train1 eos D ws) with (tD W D); [exact (TI_train forbid enforce N W Hw D H)|].
    unfold W, train1, tD, corpus_windows. destruct ws as [|m [|r rest]]; cbn in Hl; try lia. rewrite windows_fold. reflexivity. }
  assert (I0 : TI forbid enforce N W (init_probabilities forbid enforce eos D0 ws)).
  { replace (init_probabilities forbid enforce eos D0 ws) with (iD forbid enforce W); [exact (TI_init forbid enforce N W Hw)|].
    unfold W, init_probabilities, iD, corpus_windows. destruct ws as [|m [|r rest]]; cbn in Hl; try lia. rewrite windows_fold. reflexivity. }
  destruct (G n _ I0) as [H1 H2 _ H4]. cbn zeta. split; [exact H1|]. split; [exact H2|]. rewrite mass_umass. exact H4.
Qed.
Print Assumptions C24_mass.

(** tagging: the first tag of the word with maximal context weight *)
Theorem C24_choice : forall D l m r, (forall a b c, (0 <= D a b c)%Q) -> m <> [] ->
  exists b m1 m2, best_mid D l m r = Some b /\ m = m1 ++ b :: m2 /\
    (forall b', In b' m1 -> (context_mass D l r b' < context_mass D l r b)%Q) /\
    (forall b', In b' m2 -> (context_mass D l r b' <= context_mass D l r b)%Q).
Proof. exact best_mid_spec. Qed.
Print Assumptions C24_choice.
(** every word but the last (the end-of-file mark) is output once and in order *)
Theorem C24_words : forall D eos nf m more w, lw_eof m = false ->
  flat_map lev_word (lsw_tagger eos D nf (m :: more ++ [w])) = m :: more.
Proof. intros D eos nf m more w H. unfold lsw_tagger. rewrite H. apply lsw_words. Qed.
Print Assumptions C24_words.
(** and its tag is the choice in the context of the word before it (the end of sentence before the first) and the word after it *)
Theorem C24_contexts : forall D eos nf m more w i a b c, lw_eof m = false ->
  let W := mklw [eos] false :: m :: more ++ [w] in
  nth_error W i = Some a -> nth_error W (i + 1) = Some b -> nth_error W (i + 2) = Some c ->
  nth_error (flat_map lev_tagged (lsw_tagger eos D nf (m :: more ++ [w]))) i =
    Some (b, best_mid D (lw_tags a) (lw_tags b) (lw_tags c)).
Proof.
  intros D eos nf m more w i a b c He W Ha Hb Hc. unfold lsw_tagger. rewrite He.
  assert (G : forall i more l mid w0 a, lw_tags w0 = l -> nth_error (w0 :: mid :: more) i = Some a -> nth_error (w0 :: mid :: more) (i + 1) = Some b ->
    nth_error (w0 :: mid :: more) (i + 2) = Some c ->
    nth_error (flat_map lev_tagged (lsw_loop D nf l mid more)) i = Some (b, best_mid D (lw_tags a) (lw_tags b) (lw_tags c))).
  { clear. induction i as [|i IH]; intros more l mid w0 a Hl Ha Hb Hc.
    - cbn in Ha, Hb, Hc. injection Ha as <-. injection Hb as <-. destruct more as [|x more]; [discriminate|]. injection Hc as <-.
      cbn [lsw_loop flat_map lev_tagged app nth_error]. rewrite Hl. reflexivity.
    - cbn [nth_error Nat.add] in Ha, Hb, Hc. destruct more as [|x more]; [exfalso; rewrite (proj2 (nth_error_None _ _)) in Hc; [discriminate|cbn; lia]|].
      cbn [lsw_loop flat_map lev_tagged app nth_error].
      replace (flat_map lev_tagged ((if lw_eof x && nf then [LNul] else []) ++ lsw_loop D nf (lw_tags mid) x more))
        with (flat_map lev_tagged (lsw_loop D nf (lw_tags mid) x more)) by (destruct (lw_eof x && nf); reflexivity).
      apply (IH more (lw_tags mid) x mid a eq_refl Ha Hb Hc). }
  exact (G i (more ++ [w]) [eos] m (mklw [eos] false) a eq_refl Ha Hb Hc).
Qed.
Print Assumptions C24_contexts.

(** Boundary: when the first word read is an end mark (an empty first document in null-flush mode) the tagger stops:
    nothing is ever written, whatever follows. *)
Theorem C24_empty_first_document_stops : forall D eos m more, lw_eof m = true -> lsw_tagger eos D true (m :: more) = [].
Proof. intros D eos m more H. unfold lsw_tagger. rewrite H. reflexivity. Qed.
Print Assumptions C24_empty_first_document_stops.
(** the end mark of a flushed document (which carries the blanks before the NUL) is written after the NUL *)
Theorem C24_flush_order : forall D l mid e rest x, lw_eof e = true ->
  exists t1 t2 out, lsw_loop D true l mid (e :: x :: rest) = LWord mid t1 :: LNul :: LWord e t2 :: out.
Proof. intros D l mid e rest x H. cbn [lsw_loop]. rewrite H. cbn [andb app]. eauto. Qed.
Print Assumptions C24_flush_order.
(** next to an unknown word (no tags) the model is not consulted: the first tag is taken *)
Theorem C24_unknown_neighbour : forall D l m0 m, best_mid D l (m0 :: m) [] = Some m0 /\ best_mid D [] (m0 :: m) l = Some m0.
Proof.
  assert (G : forall f (m : list nat) x t0, (forall b, (f b <= x)%Q) ->
    fold_left (fun (mt : Q * nat) b => let n := f b in if Qlt_le_dec (fst mt) n then (n, b) else mt) m (x, t0) = (x, t0)).
  { intros f m x t0 H. induction m as [|b m IH]; cbn [fold_left fst]; [reflexivity|]. cbn zeta.
    destruct (Qlt_le_dec x (f b)) as [P|P]; [|exact IH]. exfalso. specialize (H b). lra. }
  intros D l m0 m. unfold best_mid. split; f_equal.
  - assert (Z : forall b, wscore D l [] b = 0%Q) by (intros b; unfold wscore; cbn [fold_left]; induction l as [|a l IH]; [reflexivity|exact IH]).
    cbn [fold_left fst snd]. rewrite Z. destruct (Qlt_le_dec (-(1)) 0) as [P|P]; [|exfalso; lra].
    rewrite (G (wscore D l [])); [reflexivity|]. intros b. rewrite Z. lra.
  - assert (Z : forall b, wscore D [] l b = 0%Q) by reflexivity.
    cbn [fold_left fst snd]. rewrite Z. destruct (Qlt_le_dec (-(1)) 0) as [P|P]; [|exfalso; lra].
    rewrite (G (wscore D [] l)); [reflexivity|]. intros b. rewrite Z. lra.
Qed.
Print Assumptions C24_unknown_neighbour.

(** Case: 4 tags, 0 = end of sentence, corpus  {1,2} {2,3} {1} {0};  1 may not precede 3. *)
Definition exws := [[1; 2]; [2; 3]; [1]; [0]].
Example C24_case_windows : Forall (wset 4) (corpus_windows 0 exws) /\ length (corpus_windows 0 exws) = 3.
Proof. split; [|reflexivity]. repeat constructor; cbn; intuition (try discriminate; lia). Qed.
Example C24_case_init : let D := init_probabilities [(1, 3)] [] 0 (fun _ _ _ => 0%Q) exws in
  Qred (D 0 1 2) = (1 # 3)%Q /\ Qred (D 0 1 3) = 0%Q /\ Qred (D 2 3 1) = (1 # 3)%Q /\ Qred (D 2 1 0) = (1 # 2)%Q.
Proof. vm_compute. auto. Qed.
Example C24_case_train : let D := train 0 2 (init_probabilities [(1, 3)] [] 0 (fun _ _ _ => 0%Q) exws) exws in
  Qred (mass 4 D) = 3%Q.
Proof. vm_compute. reflexivity. Qed.
Example C24_case_tag : let D := init_probabilities [(1, 3)] [] 0 (fun _ _ _ => 0%Q) exws in
  lsw_tagger 0 D false [mklw [1; 2] false; mklw [2; 3] false; mklw [1] false; mklw [0] true] =
  [LWord (mklw [1; 2] false) (Some 2); LWord (mklw [2; 3] false) (Some 2); LWord (mklw [1] false) (Some 1)].
Proof. vm_compute. reflexivity. Qed.
