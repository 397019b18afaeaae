From Verif Require Import Model.Base Proofs.Base Model.Posttransfer Spec.Posttransfer.

Lemma loop_nospace b w rest : ~ In cSP w ->
  loop b (w ++ rest) = w ++ loop (match w with [] => b | _ => false end) rest.
Proof.
  revert b; induction w as [|c w IH]; intros b H; [reflexivity|].
  cbn [app loop]. assert (Hc : (c =?c cSP) = false).
  { apply ceq_neq; intro E; apply H; left; exact E. }
  rewrite Hc; cbn [negb]; rewrite orb_true_r; cbn [app]; f_equal.
  rewrite IH; [|intro K; apply H; right; exact K].
  destruct w; reflexivity.
Qed.

Lemma loop_spaces_true n rest : loop true (repeat cSP n ++ rest) = loop true rest.
Proof. induction n as [|n IH]; [reflexivity|]. cbn -[loop]. cbn. exact IH. Qed.

Lemma loop_run n rest : loop false (repeat cSP (S n) ++ rest) = [cSP] ++ loop true rest.
Proof. cbn. f_equal. apply loop_spaces_true. Qed.

Lemma loop_start i : hd_error i <> Some cSP -> loop true i = loop false i.
Proof.
  destruct i as [|c i]; [reflexivity|]; cbn; intros H.
  assert (Hc : (c =?c cSP) = false) by (apply ceq_neq; congruence).
  rewrite Hc; reflexivity.
Qed.

Lemma Collapsed_det_loop i o : Collapsed i o -> processStream i = o.
Proof.
  unfold processStream; intros H; induction H as [w Hw|w n i o Hw Hi Hc IH].
  - rewrite <- (app_nil_r w) at 1; rewrite loop_nospace by exact Hw; cbn; apply app_nil_r.
  - rewrite loop_nospace by exact Hw. f_equal.
    replace (match w with [] => false | _ => false end) with false by (destruct w; reflexivity).
    rewrite loop_run; f_equal. rewrite loop_start by exact Hi; exact IH.
Qed.

(** every text decomposes *)
Lemma split_run (i : str) : exists n r, i = repeat cSP n ++ r /\ hd_error r <> Some cSP.
Proof.
  induction i as [|c i [n [r [E H]]]].
  - exists 0, []; split; [reflexivity|discriminate].
  - destruct (ceq_spec c cSP) as [->|Hc].
    + exists (S n), r; split; [cbn; congruence|exact H].
    + exists 0, (c :: i); split; [reflexivity|cbn; congruence].
Qed.

Lemma split_word (i : str) : exists w r, i = w ++ r /\ ~ In cSP w /\ (r = [] \/ hd_error r = Some cSP).
Proof.
  induction i as [|c i [w [r [E [H K]]]]].
  - exists [], []; repeat split; [intros []|left; reflexivity].
  - destruct (ceq_spec c cSP) as [->|Hc].
    + exists [], (cSP :: i); repeat split; [intros []|right; reflexivity].
    + exists (c :: w), r; repeat split; [cbn; congruence| |exact K].
      intros [K1|K1]; [congruence|exact (H K1)].
Qed.

Lemma Collapsed_total i : exists o, Collapsed i o.
Proof.
  remember (length i) as n eqn:Hn; assert (Hle : length i <= n) by lia; clear Hn.
  revert i Hle; induction n as [|n IH]; intros i Hle.
  - destruct i; [|cbn in Hle; lia]. exists []; constructor; intros [].
  - destruct (split_word i) as [w [r [E [Hw Hr]]]].
    destruct Hr as [->|Hr].
    + exists w; rewrite E, app_nil_r; constructor; exact Hw.
    + destruct r as [|c r]; [discriminate|]; cbn in Hr; injection Hr as ->.
      destruct (split_run r) as [k [r' [E2 Hr']]].
      assert (Hlen : length r' <= n).
      { subst; rewrite !app_length in Hle; cbn in Hle; rewrite app_length in Hle; lia. }
      destruct (IH r' Hlen) as [o Ho].
      exists (w ++ [cSP] ++ o). rewrite E, E2.
      change (cSP :: repeat cSP k ++ r') with (repeat cSP (S k) ++ r').
      constructor; assumption.
Qed.

Lemma processStream_collapsed i : Collapsed i (processStream i).
Proof. destruct (Collapsed_total i) as [o Ho]; rewrite (Collapsed_det_loop _ _ Ho); exact Ho. Qed.

Lemma loop_nodouble b i a c :
  loop b i <> a ++ [cSP; cSP] ++ c /\ (b = true -> hd_error (loop b i) <> Some cSP).
Proof.
  revert b a; induction i as [|x i IH]; intros b a; cbn.
  - split; [destruct a; discriminate|discriminate].
  - destruct (ceq_spec x cSP) as [->|Hx].
    + destruct b; cbn.
      * split; [apply (IH true a)|intros _; apply (IH true a); reflexivity].
      * split; [|discriminate].
        intros H; destruct a as [|y a]; cbn in H.
        -- injection H as H. apply (proj2 (IH true [])); [reflexivity|]. rewrite H; reflexivity.
        -- injection H as _ H. exact (proj1 (IH true a) H).
    + rewrite orb_true_r; cbn; split.
      * intros H; destruct a as [|y a]; cbn in H; injection H as H1 H2; [congruence|].
        exact (proj1 (IH false a) H2).
      * intros _ H; congruence.
Qed.

Lemma processStream_nodouble i : NoDoubleSpace (processStream i).
Proof. intros a b; apply (proj1 (loop_nodouble false i a b)). Qed.

Lemma nodouble_fix b i : (b = true -> hd_error i <> Some cSP) -> NoDoubleSpace i -> loop b i = i.
Proof.
  revert b; induction i as [|x i IH]; intros b Hb H; [reflexivity|]; cbn.
  assert (Hk : negb b || negb (x =?c cSP) = true).
  { destruct b; cbn; [|reflexivity]. specialize (Hb eq_refl). cbn in Hb.
    destruct (ceq_spec x cSP); [congruence|reflexivity]. }
  rewrite Hk; cbn; f_equal; apply IH.
  - intros Hx; apply ceq_eq in Hx; subst x; intros Hi. destruct i as [|y i]; [discriminate|].
    cbn in Hi; injection Hi as ->. exact (H [] i eq_refl).
  - intros p q E; apply (H (x :: p) q); cbn; rewrite E; reflexivity.
Qed.

Lemma processStream_idem i : processStream (processStream i) = processStream i.
Proof. apply nodouble_fix; [discriminate|apply processStream_nodouble]. Qed.
