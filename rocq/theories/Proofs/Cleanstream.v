From Verif Require Import Model.Base Proofs.Base Model.Cleanstream Spec.Cleanstream.

Lemma cwf_plain bad c : cwf_t bad (Plain c) = true -> c <> cBS /\ ~ In c bad.
Proof.
  cbn. intros H. apply negb_true_iff, orb_false_iff in H as [H1 H2]. apply N.eqb_neq in H1.
  split; [exact H1|apply mem_nIn; exact H2].
Qed.

Lemma readBlock_ok b : forall rest, forallb (cwf_t [cRB]) b = true ->
  readBlock (render_ts b ++ cRB :: rest) = (render_ts b ++ [cRB], rest).
Proof.
  induction b as [|t b IH]; intros rest H; [reflexivity|].
  apply andb_prop in H as [Ht Hb]. cbn [render_ts flat_map]. fold (render_ts b).
  destruct t as [c|c]; cbn [render_t app readBlock].
  - apply cwf_plain in Ht as [H1 H2].
    rewrite (proj2 (ceq_neq c cRB)) by (intros ->; apply H2; left; reflexivity).
    rewrite (proj2 (ceq_neq c cBS) H1), IH by exact Hb. reflexivity.
  - change (cBS =?c cRB) with false. rewrite ceq_refl, IH by exact Hb. reflexivity.
Qed.

Lemma loop_unit b : forall f sp kb buf rest, forallb (cwf_t [cDOL]) b = true ->
  length (render_ts b ++ rest) < f -> exists f', length rest < f' /\
  loop f sp kb buf true (render_ts b ++ rest) = loop f' sp kb (buf ++ flat_map esc_caret b) true rest.
Proof.
  induction b as [|t b IH]; intros f sp kb buf rest H Hf.
  - exists f; cbn in *; rewrite app_nil_r; auto.
  - apply andb_prop in H as [Ht Hb]. cbn [render_ts flat_map] in *. fold (render_ts b) in *.
    destruct f as [|f]; [lia|]. destruct t as [c|c]; cbn [render_t app] in *.
    + apply cwf_plain in Ht as [H1 H2]. cbn in Hf. cbn [esc_caret].
      destruct (c =?c cCARET) eqn:EC.
      * destruct (IH f sp kb (buf ++ [cBS; cCARET]) rest Hb ltac:(lia)) as [f' [Hf' E]].
        exists f'; split; [exact Hf'|]. cbn [loop]. rewrite EC, E. appeq.
      * destruct (IH f sp kb (buf ++ [c]) rest Hb ltac:(lia)) as [f' [Hf' E]].
        exists f'; split; [exact Hf'|]. cbn [loop]. rewrite EC.
        rewrite (proj2 (ceq_neq c cDOL)) by (intros ->; apply H2; left; reflexivity).
        rewrite (proj2 (ceq_neq c cBS) H1). cbn [negb andb]. rewrite E. appeq.
    + cbn in Hf. cbn [esc_caret].
      destruct (IH f sp kb (buf ++ [cBS; c]) rest Hb ltac:(lia)) as [f' [Hf' E]].
      exists f'; split; [exact Hf'|]. cbn [loop].
      change (cBS =?c cCARET) with false. change (cBS =?c cDOL) with false. rewrite ceq_refl, E. appeq.
Qed.

Definition nonemp (b : str) : bool := negb (match b with [] => true | _ => false end).
Lemma nonemp_app b x : x <> [] -> nonemp (b ++ x) = true.
Proof. destruct b, x; cbn; congruence. Qed.

Lemma loop_items l : forall f sp kb buf, forallb cwf l = true -> length (flat_map crender l) < f ->
  loop f sp kb buf false (flat_map crender l)
  = Some (clean (if sp then cSP else cNL) (negb sp) kb (nonemp buf) l ++ (if sp then [] else [cNL])).
Proof.
  induction l as [|i l IH]; intros f sp kb buf H Hf; (destruct f as [|f]; [lia|]); [reflexivity|].
  apply andb_prop in H as [Hi Hl]. cbn [flat_map] in *. set (rest := flat_map crender l) in *.
  destruct i as [t|b|b|]; cbn [crender cwf clean] in *; unfold emitted.
  - destruct t as [c|c]; cbn [render_t app] in *; cbn in Hf; cbn [loop].
    + apply cwf_plain in Hi as [H1 H2].
      rewrite (proj2 (ceq_neq c cCARET)) by (intros ->; apply H2; right; left; reflexivity).
      rewrite (proj2 (ceq_neq c cDOL)) by (intros ->; apply H2; right; right; left; reflexivity).
      rewrite (proj2 (ceq_neq c cBS) H1).
      rewrite (proj2 (ceq_neq c cLB)) by (intros ->; apply H2; left; reflexivity). cbn [negb andb].
      rewrite IH by (assumption || lia). rewrite nonemp_app by discriminate. reflexivity.
    + change (cBS =?c cCARET) with false. change (cBS =?c cDOL) with false. rewrite ceq_refl.
      rewrite IH by (assumption || lia). rewrite nonemp_app by discriminate. reflexivity.
  - rewrite <- !app_assoc in *. cbn [app loop] in *. rewrite (ceq_refl cLB).
    change (cLB =?c cCARET) with false. change (cLB =?c cDOL) with false. change (cLB =?c cBS) with false.
    cbn [negb andb]. rewrite readBlock_ok by exact Hi.
    rewrite IH by (assumption || (cbn in Hf; rewrite app_length in Hf; cbn in Hf; lia)).
    cbn [option_map]. f_equal; destruct kb; appeq.
  - rewrite <- !app_assoc in *. cbn [app loop] in *. rewrite ceq_refl. cbn [app] in *. cbn in Hf.
    destruct (loop_unit b f sp kb [cCARET] (cDOL :: rest) Hi ltac:(lia)) as [f' [Hf' E]].
    rewrite E. destruct f' as [|f']; [lia|]. cbn [loop].
    change (cDOL =?c cCARET) with false. rewrite ceq_refl.
    rewrite IH by (assumption || (cbn in Hf'; lia)). cbn [option_map]. f_equal.
    fold (nonemp buf). cbn [nonemp negb].
    destruct (nonemp buf || negb sp); appeq.
  - cbn [app loop] in *. change (cDOL =?c cCARET) with false. rewrite ceq_refl.
    apply IH; [exact Hl|cbn in Hf; lia].
Qed.

Lemma cleanstream_items sp kb l : forallb cwf l = true ->
  cleanstream sp kb (flat_map crender l)
  = Some (clean (if sp then cSP else cNL) (negb sp) kb false l ++ (if sp then [] else [cNL])).
Proof. intros H; apply (loop_items l _ sp kb []); [exact H|lia]. Qed.

Lemma clean_default l loose : clean cSP false false loose l = clean_spaced loose l.
Proof. revert loose; induction l as [|[t|b|b|] l IH]; intros loose; cbn; rewrite ?IH, ?orb_false_r; reflexivity. Qed.

Lemma cleanstream_default l : forallb cwf l = true ->
  cleanstream true false (flat_map crender l) = Some (clean_spaced false l).
Proof. intros H; rewrite cleanstream_items by exact H. cbn [negb]. rewrite clean_default, app_nil_r; reflexivity. Qed.

(** one unit per line with -n, when there are no superblanks *)
Lemma cleanstream_lines l : forallb cwf l = true ->
  forallb (fun i => match i with CSuper _ => false | _ => true end) l = true ->
  cleanstream false false (flat_map crender l) = Some (flat_map (fun x => cNL :: x) (units l) ++ [cNL]).
Proof.
  intros H H2. rewrite cleanstream_items by exact H. cbn [negb]. f_equal. f_equal.
  generalize false at 2; clear H. induction l as [|[t|b|b|] l IH]; intros loose; cbn in *; try discriminate; auto.
  rewrite orb_true_r. unfold emitted. cbn. rewrite <- !app_assoc. cbn. rewrite IH by exact H2. appeq.
Qed.

(** totality *)
Lemma readBlock_len n : forall i, length i <= n -> length (snd (readBlock i)) <= length i.
Proof.
  induction n as [|n IH]; intros i Hl; (destruct i as [|c i]; [cbn; lia|]); cbn in Hl; [lia|].
  cbn. destruct (c =?c cRB); [cbn; lia|]. destruct (c =?c cBS).
  - destruct i as [|d i]; [cbn; lia|]. assert (H := IH i ltac:(cbn in *; lia)).
    destruct (readBlock i); cbn in *; lia.
  - assert (H := IH i ltac:(lia)). destruct (readBlock i); cbn in *; lia.
Qed.

Lemma loop_total f : forall sp kb buf it inp, length inp < f -> loop f sp kb buf it inp <> None.
Proof.
  assert (Ho : forall A B (g : A -> B) x, x <> None -> option_map g x <> None) by (intros A B g [a|]; cbn; congruence).
  induction f as [|f IH]; intros sp kb buf it inp Hl; [lia|].
  destruct inp as [|c r]; cbn [loop]; [discriminate|]. cbn in Hl.
  destruct (c =?c cCARET); [destruct it; [|apply Ho]; apply IH; lia|].
  destruct (c =?c cDOL); [destruct it; [apply Ho|]; apply IH; lia|].
  destruct (c =?c cBS); [destruct r; apply IH; cbn in *; lia|].
  destruct (negb it && (c =?c cLB)).
  - assert (H := readBlock_len (length r) r (le_n _)). destruct (readBlock r) as [b r']. cbn in H.
    apply Ho, IH; lia.
  - apply IH; lia.
Qed.

Lemma cleanstream_total sp kb inp : cleanstream sp kb inp <> None.
Proof. apply loop_total; lia. Qed.
