From Verif Require Import Model.Base Proofs.Base Model.ChunkLoop Model.ChunkTokens Spec.ChunkTokens Spec.ChunkLoop Proofs.ChunkLoop.

Lemma k_sup nf iw b : SupInside b -> forall r c, klex nf iw KBl (b ++ cRB :: r) c = klex nf iw KTop r (c ++ b ++ [cRB]).
Proof.
  induction 1 as [|x s H1 H2 H3 H4 H IH|x s H IH]; intros r c; cbn [app klex].
  - change (cRB =?c cBS) with false. rewrite ceq_refl. reflexivity.
  - destruct (ceq_spec x cBS); [contradiction|]. destruct (ceq_spec x cRB); [contradiction|]. rewrite IH. f_equal. appeq.
  - rewrite ceq_refl. rewrite IH. f_equal. appeq.
Qed.
Lemma k_btext nf s : BText s -> forall r c, klex nf false KTop (s ++ r) c = klex nf false KTop r (c ++ s).
Proof.
  induction 1 as [|x s H1 H2 H3 H4 H5 H IH|x s H IH|b s Hb H IH]; intros r c.
  - rewrite app_nil_r. reflexivity.
  - cbn [app klex]. destruct (ceq_spec x cNUL); [contradiction|]. rewrite andb_false_r. destruct (ceq_spec x cBS); [contradiction|]. destruct (ceq_spec x cLB); [contradiction|].
    destruct (ceq_spec x cCARET); [contradiction|]. cbn [andb]. rewrite IH. f_equal. appeq.
  - cbn [app klex]. change (cBS =?c cNUL) with false. rewrite andb_false_r, ceq_refl. rewrite IH. f_equal. appeq.
  - cbn [app klex]. change (cLB =?c cNUL) with false. rewrite andb_false_r. change (cLB =?c cBS) with false. rewrite ceq_refl. cbv beta iota.
    rewrite <- app_assoc. cbn [app]. rewrite k_sup by exact Hb. rewrite IH. f_equal. appeq.
Qed.
Lemma k_wtext nf s : WText s -> forall r c, klex nf true KTop (s ++ r) c = klex nf true KTop r (c ++ s).
Proof.
  induction 1 as [|x s H1 H2 H3 H4 H5 H6 H IH|x s H IH]; intros r c.
  - rewrite app_nil_r. reflexivity.
  - cbn [app klex]. destruct (ceq_spec x cNUL); [contradiction|]. rewrite andb_false_r. destruct (ceq_spec x cBS); [contradiction|]. destruct (ceq_spec x cLB); [contradiction|].
    destruct (ceq_spec x cLC); [contradiction|]. destruct (ceq_spec x cDOL); [contradiction|]. destruct (ceq_spec x cCARET); [contradiction|]. cbn [andb]. rewrite IH. f_equal. appeq.
  - cbn [app klex]. change (cBS =?c cNUL) with false. rewrite andb_false_r, ceq_refl. rewrite IH. f_equal. appeq.
Qed.
Lemma k_inner nf s : Inner s -> forall r c, klex nf true KCh (s ++ cDOL :: r) c = klex nf true KTop (cDOL :: r) (c ++ s).
Proof.
  induction 1 as [|x s H IH|x s H1 H2 H IH|s H IH Hs]; intros r c.
  - cbn [app klex]. change (cRC =?c cBS) with false. rewrite !ceq_refl. reflexivity.
  - change ((cBS :: x :: s) ++ cDOL :: r) with (cBS :: x :: (s ++ cDOL :: r)).
    transitivity (klex nf true KCh (s ++ cDOL :: r) ((c ++ [cBS]) ++ [x])); [cbn [klex]; rewrite ceq_refl; reflexivity|]. rewrite IH. f_equal. appeq.
  - change ((x :: s) ++ cDOL :: r) with (x :: (s ++ cDOL :: r)).
    transitivity (klex nf true KCh (s ++ cDOL :: r) (c ++ [x])); [cbn [klex]; destruct (ceq_spec x cBS); [contradiction|]; destruct (ceq_spec x cRC); [contradiction|]; reflexivity|]. rewrite IH. f_equal. appeq.
  - change ((cRC :: s) ++ cDOL :: r) with (cRC :: (s ++ cDOL :: r)).
    transitivity (klex nf true KCh (s ++ cDOL :: r) (c ++ [cRC])); [|rewrite IH; f_equal; appeq].
    cbn [klex]. change (cRC =?c cBS) with false. rewrite ceq_refl. destruct s as [|d s]; [inversion H|]. cbn [app].
    destruct (ceq_spec d cDOL) as [->|]; [destruct (Hs s eq_refl)|reflexivity].
Qed.
Lemma k_word nf w : ChunkText w -> forall r, klex nf true KTop (w ++ cDOL :: r) [] = kcons (KWord w) (klex nf false KTop r []).
Proof.
  assert (D : forall r c, klex nf true KTop (cDOL :: r) c = kcons (KWord c) (klex nf false KTop r [])).
  { intros r c. cbn [klex]. change (cDOL =?c cNUL) with false. rewrite andb_false_r. reflexivity. }
  intros [w' H|w' i H Hi] r.
  - rewrite k_wtext by exact H. apply D.
  - rewrite <- app_assoc. cbn [app]. rewrite k_wtext by exact H. cbn [app].
    transitivity (klex nf true KCh (i ++ cDOL :: r) (w' ++ [cLC])); [cbn [klex]; change (cLC =?c cNUL) with false; rewrite andb_false_r; reflexivity|].
    rewrite k_inner by exact Hi. rewrite D. f_equal. f_equal. appeq.
Qed.
Lemma k_stream nf l last r : Forall (fun bw => BText (fst bw) /\ ChunkText (snd bw)) l -> BText last ->
  klex nf false KTop (stream l last ++ r) [] =
  match klex nf false KTop r last with Some (t, x) => Some (map ktok (stream_items l) ++ t, x) | None => None end.
Proof.
  intros H HL. induction H as [|[b w] l [Hb Hw] H IH]; cbn [stream stream_items flat_map map app fst snd].
  - rewrite k_btext by exact HL. cbn [app]. destruct (klex nf false KTop r last) as [[t x]|]; reflexivity.
  - cbn [fst snd] in *. rewrite <- app_assoc. rewrite k_btext by exact Hb. cbn [app].
    transitivity (kcons (KBlank b) (klex nf true KTop ((w ++ cDOL :: stream l last) ++ r) [])).
    { cbn [klex]. change (cCARET =?c cNUL) with false. rewrite andb_false_r. reflexivity. }
    rewrite <- app_assoc. cbn [app]. rewrite k_word by exact Hw. rewrite IH. cbn [kcons]. destruct (klex nf false KTop r last) as [[t x]|]; reflexivity.
Qed.

(** transfer *)
Lemma t_sup nf b : SupInside b -> forall r c, tlex nf TBl (b ++ cRB :: r) c = tlex nf TTop r (c ++ b ++ [cRB]).
Proof.
  induction 1 as [|x s H1 H2 H3 H4 H IH|x s H IH]; intros r c; cbn [app tlex].
  - change (cRB =?c cBS) with false. change (cRB =?c cLB) with false. rewrite ceq_refl. reflexivity.
  - destruct (ceq_spec x cBS); [contradiction|]. destruct (ceq_spec x cLB); [contradiction|]. destruct (ceq_spec x cRB); [contradiction|]. destruct (ceq_spec x cNUL); [contradiction|]. rewrite IH. f_equal. appeq.
  - rewrite ceq_refl. rewrite IH. f_equal. appeq.
Qed.
Lemma t_btext nf s : BText s -> forall r c, tlex nf TTop (s ++ r) c = tlex nf TTop r (c ++ s).
Proof.
  induction 1 as [|x s H1 H2 H3 H4 H5 H IH|x s H IH|b s Hb H IH]; intros r c.
  - rewrite app_nil_r. reflexivity.
  - cbn [app tlex]. destruct (ceq_spec x cNUL); [contradiction|]. rewrite andb_false_r. destruct (ceq_spec x cBS); [contradiction|]. destruct (ceq_spec x cLB); [contradiction|].
    destruct (ceq_spec x cDOL); [contradiction|]. destruct (ceq_spec x cCARET); [contradiction|]. rewrite IH. f_equal. appeq.
  - cbn [app tlex]. change (cBS =?c cNUL) with false. rewrite andb_false_r, ceq_refl. rewrite IH. f_equal. appeq.
  - cbn [app tlex]. change (cLB =?c cNUL) with false. rewrite andb_false_r. change (cLB =?c cBS) with false. rewrite ceq_refl. cbv beta iota.
    rewrite <- app_assoc. cbn [app]. rewrite t_sup by exact Hb. rewrite IH. f_equal. appeq.
Qed.
(* lexical units of transfer: plain, or preceded by a word-bound blank *)
Lemma t_stream nf l last r : Forall (fun bw => BText (fst bw) /\ BText (snd bw)) l -> BText last ->
  tlex nf TTop (stream l last ++ r) [] =
  match tlex nf TTop r last with Some (t, x) => Some (map ktok (stream_items l) ++ t, x) | None => None end.
Proof.
  intros H HL. induction H as [|[b w] l [Hb Hw] H IH]; cbn [stream stream_items flat_map map app fst snd].
  - rewrite t_btext by exact HL. cbn [app]. destruct (tlex nf TTop r last) as [[t x]|]; reflexivity.
  - cbn [fst snd] in *. rewrite <- app_assoc. rewrite t_btext by exact Hb. cbn [app].
    transitivity (kcons (KBlank b) (tlex nf TTop ((w ++ cDOL :: stream l last) ++ r) [])).
    { cbn [tlex]. change (cCARET =?c cNUL) with false. rewrite andb_false_r. reflexivity. }
    rewrite <- app_assoc. cbn [app]. rewrite t_btext by exact Hw. cbn [app].
    transitivity (kcons (KBlank b) (kcons (KWord w) (tlex nf TTop (stream l last ++ r) []))).
    { f_equal. cbn [tlex]. change (cDOL =?c cNUL) with false. rewrite andb_false_r. reflexivity. }
    rewrite IH. cbn [kcons]. destruct (tlex nf TTop r last) as [[t x]|]; reflexivity.
Qed.
Inductive NoDol : str -> Prop :=          (* no unescaped dollar *)
| nd_nil : NoDol []
| nd_char c s : c <> cDOL -> c <> cBS -> NoDol s -> NoDol (c :: s)
| nd_esc c s : NoDol s -> NoDol (cBS :: c :: s).
Lemma t_wb nf s : NoDol s -> forall r c, tlex nf TWb (s ++ cDOL :: r) c = kcons (KWord (c ++ s)) (tlex nf TTop r []).
Proof.
  induction 1 as [|x s H1 H2 H IH|x s H IH]; intros r c; cbn [app tlex].
  - rewrite app_nil_r. reflexivity.
  - destruct (ceq_spec x cBS); [contradiction|]. destruct (ceq_spec x cDOL); [contradiction|]. rewrite IH. f_equal. f_equal. appeq.
  - rewrite ceq_refl. rewrite IH. f_equal. f_equal. appeq.
Qed.
Lemma sep_stream l : Sep (stream_items l).
Proof. induction l as [|[b w] l IH]; [constructor|]. cbn. apply sep_bw. exact IH. Qed.
Definition doc_toks (d : doc) : list tkn := map ktok (stream_items (fst d)) ++ [KEof (snd d)].
Lemma k_docs l : forall d fuel, doc_ok ChunkText d -> Forall (doc_ok ChunkText) l -> length l < fuel ->
  kdocs (fun iw s => klex true iw KTop s []) fuel false (docs_text d l) = Some (map doc_toks (d :: l)).
Proof.
  induction l as [|d' l IH]; intros d fuel Hd Hl Hf; (destruct fuel as [|fuel]; [cbn in Hf; lia|]); destruct d as [ws last]; destruct Hd as [H1 H2]; cbn [docs_text kdocs map fst snd] in *; unfold doc_text; cbn [fst snd].
  - rewrite <- (app_nil_r (stream ws last)). rewrite k_stream by assumption. cbn [klex]. reflexivity.
  - rewrite k_stream by assumption. cbn [klex]. rewrite ceq_refl. cbn [andb]. inversion_clear Hl. rewrite IH; [reflexivity|assumption|assumption|cbn in Hf; lia].
Qed.
Lemma t_docs l : forall d fuel, doc_ok BText d -> Forall (doc_ok BText) l -> length l < fuel ->
  kdocs (fun _ s => tlex true TTop s []) fuel false (docs_text d l) = Some (map doc_toks (d :: l)).
Proof.
  induction l as [|d' l IH]; intros d fuel Hd Hl Hf; (destruct fuel as [|fuel]; [cbn in Hf; lia|]); destruct d as [ws last]; destruct Hd as [H1 H2]; cbn [docs_text kdocs map fst snd] in *; unfold doc_text; cbn [fst snd].
  - rewrite <- (app_nil_r (stream ws last)). rewrite t_stream by assumption. cbn [tlex]. reflexivity.
  - rewrite t_stream by assumption. cbn [tlex]. rewrite ceq_refl. cbn [andb]. inversion_clear Hl. rewrite IH; [reflexivity|assumption|assumption|cbn in Hf; lia].
Qed.
