(** Every list of word patterns is a matcher satisfying the hypotheses of the loop theorems. *)
From Verif Require Import Model.Base Proofs.Base Spec.ChunkLoop Proofs.TransferMult Proofs.ChunkLoop.

Definition wpat := list (str -> bool).
(* rule, whether a blank is expected next, rest of the pattern *)
Definition PM := list (nat * bool * wpat).
Definition pm_word (m : PM) (w : str) : PM := flat_map (fun x => match x with (r, false, f :: p) => if (f w : bool) then [(r, true, p)] else [] | _ => [] end) m.
Definition pm_blank (m : PM) : PM := flat_map (fun x => match x with (r, true, f :: p) => [(r, false, f :: p)] | _ => [] end) m.
Definition pm_empty (m : PM) : bool := match m with [] => true | _ => false end.
Definition pm_rules (m : PM) : list nat := flat_map (fun x => match x with (r, true, []) => [r] | _ => [] end) m.
Definition pm_init (ps : list wpat) : PM := map (fun rp => (fst rp, false, snd rp)) (combine (seq 0 (length ps)) ps).

Definition A0 (l : list item) : Prop := exists ps, l = flat_map (fun wb => [W (fst wb); B (snd wb)]) ps.
Lemma A0_alt l : A0 l -> Alt l.
Proof. intros [ps ->]. induction ps as [|[w b] ps IH]; [constructor|]. cbn. constructor. exact IH. Qed.
Lemma A1_alt l w : A0 l -> Alt (l ++ [W w]).
Proof. intros [ps ->]. induction ps as [|[v b] ps IH]; [constructor|]. cbn. constructor. exact IH. Qed.
Lemma A0_snoc l w b : A0 l -> A0 (l ++ [W w] ++ [B b]).
Proof. intros [ps ->]. exists (ps ++ [(w, b)]). rewrite flat_map_app. reflexivity. Qed.
Lemma init_in ps r b p : In (r, b, p) (pm_init ps) -> b = false /\ nth_error ps r = Some p.
Proof.
  unfold pm_init. intros H. apply in_map_iff in H as [[r' p'] [E H]]. cbn in E. injection E as -> <- ->. split; [reflexivity|].
  assert (G : forall ps k, In (r, p) (combine (seq k (length ps)) ps) -> k <= r /\ nth_error ps (r - k) = Some p).
  { clear. induction ps as [|q ps IH]; intros k H; [destruct H|]. cbn in H. destruct H as [E|H].
    - injection E as -> ->. rewrite Nat.sub_diag. split; [lia|reflexivity].
    - apply IH in H as [H1 H2]. split; [lia|]. replace (r - k) with (S (r - S k)) by lia. exact H2. }
  apply G in H as [_ H]. rewrite Nat.sub_0_r in H. exact H.
Qed.
Section P.
Variable ps : list wpat.
Let st := lsteps PM pm_word pm_blank (pm_init ps).
Lemma pm_inv : forall l r b p, In (r, b, p) (st l) -> exists p1, nth_error ps r = Some (p1 ++ p) /\ length (words l) = length p1 /\
  (if b then exists l' w, l = l' ++ [W w] /\ A0 l' else A0 l).
Proof.
  unfold st. induction l as [|i l IH] using rev_ind; intros r b p H.
  - apply init_in in H as [-> H]. exists []. split; [exact H|]. split; [reflexivity|exists []; reflexivity].
  - unfold lsteps in H. rewrite fold_left_app in H. cbn in H. fold (lsteps PM pm_word pm_blank (pm_init ps) l) in H. destruct i as [w|x]; cbn [lstep] in H.
    + unfold pm_word in H. apply in_flat_map in H as [[[r' b'] p'] [H1 H2]]. destruct b'; [destruct H2|]. destruct p' as [|f p']; [destruct H2|].
      destruct (f w); [|destruct H2]. destruct H2 as [E|[]]. injection E as -> <- ->. apply IH in H1 as [p1 [I1 [I2 I3]]].
      exists (p1 ++ [f]). split; [rewrite <- app_assoc; exact I1|]. split; [rewrite words_app, !app_length; cbn; lia|]. exists l, w. split; [reflexivity|exact I3].
    + unfold pm_blank in H. apply in_flat_map in H as [[[r' b'] p'] [H1 H2]]. destruct b'; [|destruct H2]. destruct p' as [|f p']; [destruct H2|].
      destruct H2 as [E|[]]. injection E as -> <- <-. apply IH in H1 as [p1 [I1 [I2 I3]]].
      exists p1. split; [exact I1|]. split; [rewrite words_app, app_length; cbn; lia|]. destruct I3 as [l' [w [-> HA]]]. rewrite <- app_assoc. apply A0_snoc, HA.
Qed.
Lemma pm_rules_in m r : In r (pm_rules m) <-> In (r, true, []) m.
Proof.
  unfold pm_rules. rewrite in_flat_map. split.
  - intros [[[r' b] p] [H1 H2]]. destruct b; [|destruct H2]. destruct p; [|destruct H2]. destruct H2 as [->|[]]. exact H1.
  - intros H. exists (r, true, []). split; [exact H|left; reflexivity].
Qed.
Lemma pm_init_live : ps <> [] -> pm_empty (pm_init ps) = false.
Proof. destruct ps as [|p q]; [congruence|reflexivity]. Qed.
Lemma pm_fin m r : In r (pm_rules m) -> pm_empty m = false.
Proof. intros H. destruct m; [destruct H|reflexivity]. Qed.
Lemma pm_dead m i : pm_empty m = true -> pm_empty (lstep PM pm_word pm_blank m i) = true.
Proof. destruct m; [|discriminate]. destruct i; reflexivity. Qed.
Lemma pm_alt l : pm_empty (st l) = false -> Alt l.
Proof.
  intros H. destruct (st l) as [|[[r b] p] m] eqn:E; [discriminate|]. destruct (pm_inv l r b p) as [p1 [_ [_ I3]]]; [rewrite E; left; reflexivity|].
  destruct b; [destruct I3 as [l' [w [-> HA]]]; apply A1_alt, HA|apply A0_alt, I3].
Qed.
Lemma pm_accepts r l : In r (pm_rules (st l)) -> (exists l' w, l = l' ++ [W w]) /\ length (words l) = length (nth r ps []) /\ r < length ps.
Proof.
  intros H. apply pm_rules_in in H. apply pm_inv in H as [p1 [I1 [I2 [l' [w [I3 _]]]]]]. rewrite app_nil_r in I1. split; [eauto|]. split.
  - rewrite (nth_error_nth _ _ _ I1). exact I2.
  - apply nth_error_Some. congruence.
Qed.
End P.
