From Verif Require Import Model.Base Proofs.Base Model.Pretransfer Spec.Pretransfer.

Lemma prepend_prepend a b r : prepend a (prepend b r) = prepend (a ++ b) r.
Proof. destruct r; cbn; rewrite ?app_assoc; reflexivity. Qed.

(** ** word bodies as a pure function *)
Fixpoint w_body (cs : bool) (wb : str) (s : wst) (b : str) : str :=
  match b with
  | [] => buffer s
  | c :: r => let (s', o) := w_step cs wb s c in o ++ w_body cs wb s' r
  end.

Lemma w_loop_body cs wb b : forall s rest, ~ In cDOL b ->
  w_loop cs wb s (b ++ cDOL :: rest) = (w_body cs wb s b, Some rest).
Proof.
  induction b as [|c b IH]; intros s rest H; cbn [app w_loop w_body].
  - rewrite ceq_refl; reflexivity.
  - rewrite (proj2 (ceq_neq c cDOL)) by (intros ->; apply H; left; reflexivity).
    destruct (w_step cs wb s c) as [s' o]. rewrite IH by (intros K; apply H; right; exact K). reflexivity.
Qed.

Lemma w_body_app cs wb a : forall b s, exists s' o,
  w_body cs wb s (a ++ b) = o ++ w_body cs wb s' b /\ (forall b', w_body cs wb s (a ++ b') = o ++ w_body cs wb s' b').
Proof.
  induction a as [|c a IH]; intros b s; cbn.
  - exists s, []; auto.
  - destruct (w_step cs wb s c) as [s1 o1]. destruct (IH b s1) as [s' [o [E1 E2]]].
    exists s', (o1 ++ o). split; [|intros b']; rewrite ?E2, ?E1, <- ?app_assoc; reflexivity.
Qed.

(** ** the stream around the units *)
Lemma pwf_plain bad c : pwf_t bad (Plain c) = true -> c <> cBS /\ ~ In c bad.
Proof.
  cbn. intros H. apply negb_true_iff, orb_false_iff in H as [H1 H2]. apply N.eqb_neq in H1.
  split; [exact H1|apply mem_nIn; exact H2].
Qed.

Lemma store_ok w : forall rest, forallb (pwf_t [cRB]) w = true ->
  storeAndWriteWblank (render_ts w ++ cRB :: cRB :: rest) = (render_ts w ++ [cRB; cRB], Some rest).
Proof.
  induction w as [|t w IH]; intros rest H; [reflexivity|].
  apply andb_prop in H as [Ht Hw]. cbn [render_ts flat_map]. fold (render_ts w).
  destruct t as [c|c]; cbn [render_t app storeAndWriteWblank].
  - apply pwf_plain in Ht as [H1 H2].
    rewrite (proj2 (ceq_neq c cBS) H1), (proj2 (ceq_neq c cRB)) by (intros ->; apply H2; left; reflexivity).
    rewrite IH by exact Hw. reflexivity.
  - rewrite ceq_refl, IH by exact Hw. reflexivity.
Qed.

Lemma until_ok w : forall rest, forallb (pwf_t [cRB]) w = true ->
  readAndWriteUntil cRB (render_ts w ++ cRB :: rest) = (render_ts w, Some rest).
Proof.
  induction w as [|t w IH]; intros rest H; [reflexivity|].
  apply andb_prop in H as [Ht Hw]. cbn [render_ts flat_map]. fold (render_ts w).
  destruct t as [c|c]; cbn [render_t app readAndWriteUntil].
  - apply pwf_plain in Ht as [H1 H2].
    rewrite (proj2 (ceq_neq c cBS) H1), (proj2 (ceq_neq c cRB)) by (intros ->; apply H2; left; reflexivity).
    rewrite IH by exact Hw. reflexivity.
  - change (cBS =?c cRB) with false. rewrite ceq_refl, IH by exact Hw. reflexivity.
Qed.

(** what replaces an item *)
Definition preplace (g : str -> str -> str) (i : pitem) : str :=
  match i with
  | PUnit b => g [] b
  | PWUnit w b => wb_text w ++ g (wb_text w) b
  | _ => prender i
  end.

Definition gword (cs : bool) (wb b : str) : str := [cCARET] ++ w_body cs wb wst0 b ++ [cDOL].

(** surface forms: with [surface_forms] the text up to and including the first unescaped slash is skipped *)
Fixpoint after_slash (b : str) : option str :=
  match b with
  | [] => None
  | c :: r => if c =?c cSLASH then Some r
              else if c =?c cBS then match r with [] => None | _ :: r' => after_slash r' end
              else after_slash r
  end.

Lemma negb_mem_nIn c b : negb (mem c b) = true -> ~ In c b.
Proof. intros H; apply negb_true_iff in H; apply mem_nIn; exact H. Qed.

Lemma processStream_items l : forall fuel cs, forallb pwf l = true -> length l < fuel ->
  processStream fuel false cs (flat_map prender l) = Done (flat_map (preplace (gword cs)) l).
Proof.
  induction l as [|i l IH]; intros fuel cs H Hf; (destruct fuel as [|f]; [cbn in Hf; lia|]); [reflexivity|].
  apply andb_prop in H as [Hi Hl]. cbn in Hf.
  assert (HI := IH f cs Hl ltac:(lia)). clear IH.
  cbn [flat_map]. set (rest := flat_map prender l) in *.
  destruct i as [t|b|b|w b]; cbn [prender preplace pwf] in *.
  - destruct t as [c|c]; cbn [render_t app processStream].
    + apply pwf_plain in Hi as [H1 H2].
      rewrite (proj2 (ceq_neq c cLB)) by (intros ->; apply H2; left; reflexivity).
      rewrite (proj2 (ceq_neq c cBS) H1).
      rewrite (proj2 (ceq_neq c cCARET)) by (intros ->; apply H2; right; left; reflexivity).
      rewrite HI; reflexivity.
    + change (cBS =?c cLB) with false. rewrite ceq_refl, HI. reflexivity.
  - apply andb_prop in Hi as [Hb Hfst]. rewrite <- !app_assoc. cbn [app processStream].
    rewrite ceq_refl.
    assert (HU := until_ok b rest Hb).
    destruct (render_ts b ++ cRB :: rest) as [|d r1] eqn:E; [destruct (render_ts b); discriminate|].
    assert (Hd : (d =?c cLB) = false).
    { destruct b as [|[c|c] b']; cbn in E.
      - injection E as <- _; reflexivity.
      - injection E as <- _. apply negb_true_iff; exact Hfst.
      - injection E as <- _; reflexivity. }
    rewrite Hd, HU, HI. cbn [prepend]. appeq.
  - rewrite <- !app_assoc. cbn [app processStream].
    change (cCARET =?c cLB) with false. change (cCARET =?c cBS) with false. rewrite ceq_refl.
    unfold procWord. rewrite w_loop_body by (apply negb_mem_nIn; exact Hi).
    rewrite HI. cbn [prepend app]. unfold gword. appeq.
  - apply andb_prop in Hi as [Hw Hb]. unfold wb_text. rewrite <- !app_assoc. cbn [app processStream].
    rewrite !ceq_refl. rewrite store_ok by exact Hw. rewrite ceq_refl.
    unfold procWord. rewrite w_loop_body by (apply negb_mem_nIn; exact Hb).
    rewrite HI. cbn [prepend app]. unfold gword, wb_text. rewrite <- !app_assoc. cbn [app].
    appeq.
Qed.

(** ** a unit becomes a sequence of units *)
(** [Pieces wb d b]: d ++ b, where the buffer b is pieces separated by separators *)
Inductive Buf (wb : str) : str -> Prop :=
| B_one p : ~ In cDOL p -> Buf wb p
| B_more p sp o : ~ In cDOL p -> (sp = [] \/ sp = [cSP]) -> Buf wb o ->
    Buf wb (p ++ [cDOL] ++ sp ++ wb ++ [cCARET] ++ o).

Lemma Buf_snoc wb b c : c <> cDOL -> Buf wb b -> Buf wb (b ++ [c]).
Proof.
  intros Hc H; induction H as [p Hp|p sp o Hp Hsp Ho IH].
  - constructor. intros K; apply in_app_or in K as [K|[K|[]]]; [exact (Hp K)|congruence].
  - rewrite <- !app_assoc. apply B_more; auto.
Qed.
Lemma Buf_sep wb b sp : (sp = [] \/ sp = [cSP]) -> Buf wb b -> Buf wb (b ++ [cDOL] ++ sp ++ wb ++ [cCARET]).
Proof.
  intros Hs H; induction H as [p Hp|p sp' o Hp Hsp Ho IH].
  - replace (p ++ [cDOL] ++ sp ++ wb ++ [cCARET]) with (p ++ [cDOL] ++ sp ++ wb ++ [cCARET] ++ []) by
      (rewrite app_nil_r; reflexivity).
    apply B_more; auto. apply B_one; intros [].
  - rewrite <- !app_assoc. apply B_more; auto.
Qed.
Lemma Buf_pre wb d b : ~ In cDOL d -> Buf wb b -> Buf wb (d ++ b).
Proof.
  intros Hd H; inversion H as [p Hp|p sp o Hp Hsp Ho]; subst.
  - constructor. intros K; apply in_app_or in K as [K|K]; auto.
  - rewrite (app_assoc d). apply B_more; auto. intros K; apply in_app_or in K as [K|K]; auto.
Qed.

Lemma w_switch_buffer s c : buffer (w_switch s c) = buffer s.
Proof.
  unfold w_switch. destruct (c =?c cLT), (c =?c cGT), (c =?c cHASH); cbn; try reflexivity.
  destruct (buffer_mode s); reflexivity.
Qed.

Lemma w_step_buf cs wb s c : c <> cDOL -> Buf wb (buffer s) ->
  Buf wb (buffer (fst (w_step cs wb s c))) /\ ~ In cDOL (snd (w_step cs wb s c)).
Proof.
  intros Hc HB. unfold w_step.
  assert (E := w_switch_buffer s c). set (s1 := w_switch s c) in *. clearbody s1.
  destruct (buffer_mode s1).
  - destruct (_ && _); [cbn; rewrite E; split; [apply Buf_snoc; assumption|intros []]|].
    destruct (_ && _).
    + cbn [fst snd buffer]; rewrite E. split; [|intros []].
      apply (Buf_sep wb (buffer s) [cSP]); [right; reflexivity|exact HB].
    + destruct (_ && _); cbn [fst snd buffer]; rewrite E; (split; [|intros []]); [|exact HB].
      apply (Buf_sep wb (buffer s) []); [left; reflexivity|exact HB].
  - destruct (_ && _); cbn [fst snd buffer]; rewrite E.
    + split; [|intros []]. apply (Buf_sep wb (buffer s) [cSP]); [right; reflexivity|exact HB].
    + split; [exact HB|intros [K|[]]; congruence].
Qed.

Lemma w_body_buf cs wb b : forall s, ~ In cDOL b -> Buf wb (buffer s) -> Buf wb (w_body cs wb s b).
Proof.
  induction b as [|c b IH]; intros s H HB; [exact HB|]. cbn.
  assert (Hc : c <> cDOL) by (intros ->; apply H; left; reflexivity).
  destruct (w_step_buf cs wb s c Hc HB) as [H1 H2].
  destruct (w_step cs wb s c) as [s' o]; cbn [fst snd] in *.
  apply Buf_pre; [exact H2|]. apply IH; [intros K; apply H; right; exact K|exact H1].
Qed.

Lemma Buf_UnitSeq wb o : Buf wb o -> UnitSeq wb ([cCARET] ++ o ++ [cDOL]).
Proof.
  induction 1 as [p Hp|p sp o Hp Hsp Ho IH]; [constructor; exact Hp|].
  rewrite <- !app_assoc. apply (US_more wb p sp ([cCARET] ++ o ++ [cDOL])); auto.
Qed.

Lemma gword_UnitSeq cs wb b : ~ In cDOL b -> UnitSeq wb (gword cs wb b).
Proof.
  intros H. apply Buf_UnitSeq, w_body_buf; [exact H|]. constructor; intros [].
Qed.

Lemma pretransfer_outside cs : exists g, (forall wb b, ~ In cDOL b -> UnitSeq wb (g wb b)) /\
  forall l, forallb pwf l = true -> exists fuel0, forall fuel, fuel0 <= fuel ->
    processStream fuel false cs (flat_map prender l) =
    Done (flat_map (fun i => match i with
                             | PUnit b => g [] b
                             | PWUnit w b => wb_text w ++ g (wb_text w) b
                             | _ => prender i end) l).
Proof.
  exists (gword cs). split; [intros; apply gword_UnitSeq; assumption|].
  intros l Hl. exists (S (length l)). intros fuel Hf. apply processStream_items; [exact Hl|lia].
Qed.

(** ** splitting and queue moving *)
Lemma none_of_cons bad c s : none_of bad (c :: s) = true -> ~ In c bad /\ none_of bad s = true.
Proof.
  cbn. intros H; apply andb_prop in H as [H1 H2]. split; [|exact H2].
  apply negb_mem_nIn; exact H1.
Qed.

Ltac nochar H c k := rewrite (proj2 (ceq_neq c k)) by (intros ->; apply H; cbn; auto 10).

(** before the first tag everything is written directly *)
Lemma body_lemma1 cs wb l : forall b, none_of [cLT; cDOL] l = true ->
  w_body cs wb wst0 (l ++ b) = l ++ w_body cs wb wst0 b.
Proof.
  induction l as [|c l IH]; intros b H; [reflexivity|]. apply none_of_cons in H as [Hc Hl].
  cbn [app w_body].
  assert (E : w_step cs wb wst0 c = (wst0, [c])).
  { unfold w_step, w_switch. nochar Hc c cLT.
    destruct (c =?c cGT), (c =?c cHASH); cbn; rewrite andb_false_r; reflexivity. }
  rewrite E, IH by exact Hl. reflexivity.
Qed.

(** a tag in any mode other than "buffering off with text pending" *)
Lemma body_tag cs wb t : forall x b bm tg q, tag_ok t = true ->
  w_body cs wb (mkw x bm tg q) (([cLT] ++ t ++ [cGT]) ++ b)
  = w_body cs wb (mkw (x ++ [cLT] ++ t ++ [cGT]) true false q) b.
Proof.
  intros x b bm tg q H. rewrite <- !app_assoc. cbn [app w_body].
  assert (E : w_step cs wb (mkw x bm tg q) cLT = (mkw (x ++ [cLT]) true true q, [])) by reflexivity.
  rewrite E. cbn [app]. clear E.
  assert (G : forall t x, tag_ok t = true ->
    w_body cs wb (mkw x true true q) (t ++ cGT :: b) = w_body cs wb (mkw (x ++ t ++ [cGT]) true false q) b).
  { clear. induction t as [|c t IH]; intros x H; cbn [app w_body].
    - assert (E : w_step cs wb (mkw x true true q) cGT = (mkw (x ++ [cGT]) true false q, [])) by reflexivity.
      rewrite E; reflexivity.
    - unfold tag_ok in *. apply none_of_cons in H as [Hc Ht].
      assert (E : w_step cs wb (mkw x true true q) c = (mkw (x ++ [c]) true true q, [])).
      { unfold w_step, w_switch. nochar Hc c cGT. nochar Hc c cHASH.
        destruct (c =?c cLT); cbn; destruct (c =?c cPLUS), (c =?c cTILDE); reflexivity. }
      rewrite E, IH by exact Ht. cbn [app]. appeq. }
  rewrite G by exact H. appeq.
Qed.

Lemma body_tags cs wb ts : forall x b tg q, forallb tag_ok ts = true -> (tg = false) ->
  w_body cs wb (mkw x true tg q) (render_tags ts ++ b)
  = w_body cs wb (mkw (x ++ render_tags ts) true false q) b.
Proof.
  induction ts as [|t ts IH]; intros x b tg q H ->; cbn [render_tags flat_map].
  - rewrite app_nil_r; reflexivity.
  - apply andb_prop in H as [Ht Hts]. rewrite <- (app_assoc ([cLT] ++ t ++ [cGT])).
    rewrite body_tag by exact Ht. fold (render_tags ts). rewrite IH by auto.
    f_equal. f_equal. appeq.
Qed.

Lemma body_lemma2 cs wb l : forall x b q, none_of [cLT; cDOL; cHASH; cPLUS; cTILDE] l = true ->
  w_body cs wb (mkw x true false q) (l ++ b) = w_body cs wb (mkw (x ++ l) true false q) b.
Proof.
  induction l as [|c l IH]; intros x b q H; [rewrite app_nil_r; reflexivity|].
  apply none_of_cons in H as [Hc Hl]. cbn [app w_body].
  assert (E : w_step cs wb (mkw x true false q) c = (mkw (x ++ [c]) true false q, [])).
  { unfold w_step, w_switch. nochar Hc c cLT. nochar Hc c cHASH. nochar Hc c cPLUS. nochar Hc c cTILDE.
    destruct (c =?c cGT); reflexivity. }
  rewrite E. cbn [app]. rewrite IH by exact Hl. appeq.
Qed.

Lemma body_part cs wb j p x b q : later_ok (j, p) = true ->
  w_body cs wb (mkw x true false q) (render_joiner j ++ render_part p ++ b)
  = w_body cs wb (mkw (x ++ sep cs wb j ++ render_part p) true false q) b.
Proof.
  unfold later_ok; cbn [snd]. intros H; apply andb_prop in H as [Hl Ht].
  assert (E : w_body cs wb (mkw x true false q) (render_joiner j ++ render_part p ++ b)
            = w_body cs wb (mkw (x ++ sep cs wb j) true false q) (render_part p ++ b)).
  { destruct j; cbn [render_joiner app w_body].
    - reflexivity.
    - unfold w_step, w_switch. destruct cs; cbn; [reflexivity|rewrite app_nil_r; reflexivity]. }
  rewrite E. unfold render_part. rewrite <- app_assoc. rewrite body_lemma2 by exact Hl.
  rewrite body_tags by auto. appeq.
Qed.

Lemma body_rest cs wb l : forall x b q, forallb later_ok l = true ->
  w_body cs wb (mkw x true false q) (render_rest l ++ b)
  = w_body cs wb (mkw (x ++ split_rest cs wb l) true false q) b.
Proof.
  induction l as [|[j p] l IH]; intros x b q H; cbn [render_rest split_rest flat_map].
  - rewrite app_nil_r; reflexivity.
  - apply andb_prop in H as [Hp Hl]. cbn [fst snd]. rewrite <- !app_assoc.
    rewrite body_part by exact Hp. fold (render_rest l) (split_rest cs wb l). rewrite IH by exact Hl.
    appeq.
Qed.

Lemma body_queue cs wb s : forall x b, none_of [cLT; cDOL; cPLUS] s = true ->
  w_body cs wb (mkw x false false true) (s ++ b) = s ++ w_body cs wb (mkw x false false true) b.
Proof.
  induction s as [|c s IH]; intros x b H; [reflexivity|].
  apply none_of_cons in H as [Hc Hl]. cbn [app w_body].
  assert (E : w_step cs wb (mkw x false false true) c = (mkw x false false true, [c])).
  { unfold w_step, w_switch. nochar Hc c cLT. nochar Hc c cPLUS.
    destruct (c =?c cGT), (c =?c cHASH); reflexivity. }
  rewrite E, IH by exact Hl. reflexivity.
Qed.

Lemma body_split cs wb p l1 q l2 :
  first_ok p = true -> forallb later_ok l1 = true -> queue_ok q = true -> forallb later_ok l2 = true ->
  after_ok q l2 = true ->
  w_body cs wb wst0 (body p l1 q l2) = split_body cs wb p l1 q l2.
Proof.
  unfold first_ok, body, split_body. intros Hp H1 Hq H2 Ha.
  apply andb_prop in Hp as [Hp Ht]. apply andb_prop in Hp as [Hl Hne].
  unfold render_part at 1. rewrite <- !app_assoc. rewrite body_lemma1 by exact Hl. f_equal.
  destruct (tags p) as [|t ts]; [discriminate|]. apply andb_prop in Ht as [Ht Hts].
  cbn [render_tags flat_map]. rewrite <- (app_assoc ([cLT] ++ t ++ [cGT])).
  unfold wst0. rewrite body_tag by exact Ht. fold (render_tags ts). rewrite body_tags by auto.
  rewrite body_rest by exact H1.
  set (x := (([] ++ [cLT] ++ t ++ [cGT]) ++ render_tags ts) ++ split_rest cs wb l1).
  destruct q as [q|]; cbn [render_queue].
  - cbn [app w_body].
    assert (E : w_step cs wb (mkw x true false false) cHASH = (mkw x false false true, [cHASH])) by reflexivity.
    rewrite E. cbn [app]. f_equal. rewrite body_queue by exact Hq. f_equal.
    destruct l2 as [|[j p2] l2].
    + cbn. subst x. rewrite app_nil_r. rewrite <- !app_assoc. cbn [app]. appeq.
    + destruct j; [|discriminate]. cbn [render_rest split_rest flat_map fst snd].
      apply andb_prop in H2 as [Hp2 H2]. cbn [render_joiner app w_body].
      assert (E2 : w_step cs wb (mkw x false false true) cPLUS = (mkw (x ++ sep_plus wb) true false true, [])) by reflexivity.
      rewrite E2. cbn [app]. fold (render_rest l2) (split_rest cs wb l2).
      unfold later_ok in Hp2; cbn [snd] in Hp2. apply andb_prop in Hp2 as [Ha2 Hb2].
      unfold render_part at 1. rewrite <- app_assoc.
      rewrite body_lemma2 by exact Ha2. rewrite body_tags by auto.
      rewrite <- (app_nil_r (render_rest l2)). rewrite body_rest by exact H2.
      cbn [w_body buffer]. subst x. unfold render_part, sep_plus, sep. rewrite <- !app_assoc. appeq.
  - cbn [app]. rewrite <- (app_nil_r (render_rest l2)), body_rest by exact H2.
    cbn [w_body buffer]. subst x. rewrite <- !app_assoc. cbn [app]. appeq.
Qed.

Lemma none_of_nIn bad s c : none_of bad s = true -> In c bad -> ~ In c s.
Proof.
  intros H Hc K. unfold none_of in H. rewrite forallb_forall in H. specialize (H c K).
  apply negb_mem_nIn in H. exact (H Hc).
Qed.

Lemma nIn_app (c : char) a b : ~ In c a -> ~ In c b -> ~ In c (a ++ b).
Proof. intros H1 H2 K; apply in_app_or in K as [K|K]; auto. Qed.

Lemma tags_nodol ts : forallb tag_ok ts = true -> ~ In cDOL (render_tags ts).
Proof.
  induction ts as [|t ts IH]; cbn [render_tags flat_map]; intros H; [intros []|].
  apply andb_prop in H as [Ht Hts]. apply nIn_app; [|apply IH; exact Hts].
  apply nIn_app; [intros [K|[]]; discriminate|].
  apply nIn_app; [|intros [K|[]]; discriminate].
  apply (none_of_nIn _ _ _ Ht). right; left; reflexivity.
Qed.
Lemma rest_nodol l : forallb later_ok l = true -> ~ In cDOL (render_rest l).
Proof.
  induction l as [|[j p] l IH]; cbn [render_rest flat_map fst snd]; intros H; [intros []|].
  apply andb_prop in H as [Hp Hl]. apply andb_prop in Hp as [Ha Hb]. cbn [snd] in *.
  apply nIn_app; [|apply IH; exact Hl]. apply nIn_app; [destruct j; intros [K|[]]; discriminate|].
  unfold render_part. apply nIn_app; [|apply tags_nodol; exact Hb].
  apply (none_of_nIn _ _ _ Ha). right; left; reflexivity.
Qed.
Lemma body_nodol p l1 q l2 :
  first_ok p = true -> forallb later_ok l1 = true -> queue_ok q = true -> forallb later_ok l2 = true ->
  ~ In cDOL (body p l1 q l2).
Proof.
  unfold first_ok. intros Hp H1 Hq H2.
  apply andb_prop in Hp as [Hp Ht]. apply andb_prop in Hp as [Hl _].
  unfold body, render_part. apply nIn_app; [apply nIn_app; [|apply tags_nodol; exact Ht]|].
  - apply (none_of_nIn _ _ _ Hl). right; left; reflexivity.
  - apply nIn_app; [apply rest_nodol; exact H1|]. apply nIn_app; [|apply rest_nodol; exact H2].
    destruct q as [q|]; cbn; [|intros []]. intros [K|K]; [discriminate|].
    revert K. apply (none_of_nIn _ _ _ Hq). right; left; reflexivity.
Qed.

Lemma pretransfer_unit cs p l1 q l2 :
  first_ok p = true -> forallb later_ok l1 = true -> queue_ok q = true -> forallb later_ok l2 = true ->
  after_ok q l2 = true -> exists fuel0, forall fuel, fuel0 <= fuel ->
  processStream fuel false cs ([cCARET] ++ body p l1 q l2 ++ [cDOL])
  = Done ([cCARET] ++ split_body cs [] p l1 q l2 ++ [cDOL]).
Proof.
  intros Hp H1 Hq H2 Ha. exists 2. intros fuel Hf.
  assert (Hn := body_nodol p l1 q l2 Hp H1 Hq H2).
  assert (E := processStream_items [PUnit (body p l1 q l2)] fuel cs).
  cbn [flat_map prender preplace forallb pwf length] in E. rewrite !app_nil_r in E.
  rewrite E; [|apply andb_true_intro; split; [apply negb_true_iff, mem_nIn; exact Hn|reflexivity]|lia].
  unfold gword. rewrite body_split by assumption. reflexivity.
Qed.

Lemma pretransfer_wunit cs w p l1 q l2 : forallb (pwf_t [cRB]) w = true ->
  first_ok p = true -> forallb later_ok l1 = true -> queue_ok q = true -> forallb later_ok l2 = true ->
  after_ok q l2 = true -> exists fuel0, forall fuel, fuel0 <= fuel ->
  processStream fuel false cs (wb_text w ++ [cCARET] ++ body p l1 q l2 ++ [cDOL])
  = Done (wb_text w ++ [cCARET] ++ split_body cs (wb_text w) p l1 q l2 ++ [cDOL]).
Proof.
  intros Hw Hp H1 Hq H2 Ha. exists 2. intros fuel Hf.
  assert (Hn := body_nodol p l1 q l2 Hp H1 Hq H2).
  assert (E := processStream_items [PWUnit w (body p l1 q l2)] fuel cs).
  cbn [flat_map prender preplace forallb pwf length] in E. rewrite !app_nil_r in E.
  rewrite E; [|rewrite Hw; apply andb_true_intro; split; [apply negb_true_iff, mem_nIn; exact Hn|reflexivity]|lia].
  unfold gword. rewrite body_split by assumption. reflexivity.
Qed.

(** ** termination *)
Lemma store_len n : forall inp o r, length inp <= n -> storeAndWriteWblank inp = (o, Some r) -> length r < length inp.
Proof.
  induction n as [|n IH]; intros inp o r Hl H; (destruct inp as [|c inp]; [discriminate|]); cbn in Hl; [lia|].
  cbn [storeAndWriteWblank] in H.
  destruct (c =?c cBS).
  - destruct inp as [|d inp]; [discriminate|]. destruct (storeAndWriteWblank inp) as [o' x] eqn:E.
    injection H as _ ->. apply IH in E; cbn in *; lia.
  - destruct (c =?c cRB).
    + destruct inp as [|d inp]; [discriminate|]. destruct (d =?c cRB).
      * injection H as _ <-. cbn; lia.
      * destruct (storeAndWriteWblank inp) as [o' x] eqn:E. injection H as _ ->. apply IH in E; cbn in *; lia.
    + destruct (storeAndWriteWblank inp) as [o' x] eqn:E. injection H as _ ->. apply IH in E; cbn in *; lia.
Qed.
Lemma until_len cc n : forall inp o r, length inp <= n -> readAndWriteUntil cc inp = (o, Some r) -> length r < length inp.
Proof.
  induction n as [|n IH]; intros inp o r Hl H; (destruct inp as [|c inp]; [discriminate|]); cbn in Hl; [lia|].
  cbn [readAndWriteUntil] in H. destruct (c =?c cc); [injection H as _ <-; cbn; lia|].
  destruct (c =?c cBS).
  - destruct inp as [|d inp]; [discriminate|]. destruct (readAndWriteUntil cc inp) as [o' x] eqn:E.
    injection H as _ ->. apply IH in E; cbn in *; lia.
  - destruct (readAndWriteUntil cc inp) as [o' x] eqn:E. injection H as _ ->. apply IH in E; cbn in *; lia.
Qed.
Lemma w_loop_len cs wb inp : forall s o r, w_loop cs wb s inp = (o, Some r) -> length r < length inp.
Proof.
  induction inp as [|c inp IH]; intros s o r H; [discriminate|]. cbn in H.
  destruct (c =?c cDOL); [injection H as _ <-; cbn; lia|].
  destruct (w_step cs wb s c) as [s' o1]. destruct (w_loop cs wb s' inp) as [o2 x] eqn:E.
  injection H as _ ->. apply IH in E. cbn; lia.
Qed.

Lemma prepend_nofuel o r : r <> Fuel -> prepend o r <> Fuel.
Proof. destruct r; cbn; congruence. Qed.

Lemma processStream_terminates cs fuel : forall inp, length inp < fuel -> processStream fuel false cs inp <> Fuel.
Proof.
  induction fuel as [|f IH]; intros inp Hl; [lia|].
  destruct inp as [|c r]; cbn [processStream]; [discriminate|]. cbn in Hl.
  assert (Hword : forall pre wb r', length r' < f ->
    (match procWord f false cs wb r' with
     | None => Fuel
     | Some (o, None) => Fail (pre ++ cCARET :: o)
     | Some (o, Some r'') => prepend (pre ++ [cCARET] ++ o ++ [cDOL]) (processStream f false cs r'')
     end) <> Fuel).
  { intros pre wb r' Hr. unfold procWord. destruct (w_loop cs wb wst0 r') as [o [r''|]] eqn:E; [|discriminate].
    apply w_loop_len in E. apply prepend_nofuel, IH; lia. }
  destruct (c =?c cLB).
  - destruct r as [|d r1]; [discriminate|]. destruct (d =?c cLB).
    + destruct (storeAndWriteWblank r1) as [o [r2|]] eqn:E; [|discriminate].
      apply (store_len (length r1)) in E; [|lia].
      destruct r2 as [|e r3]; [discriminate|]. destruct (e =?c cCARET); [|discriminate].
      apply Hword. cbn in *; lia.
    + destruct (readAndWriteUntil cRB (d :: r1)) as [o [r2|]] eqn:E; [|discriminate].
      apply (until_len cRB (length (d :: r1))) in E; [|lia]. apply prepend_nofuel, IH; cbn in *; lia.
  - destruct (c =?c cBS).
    + destruct r as [|d r1]; apply prepend_nofuel, IH; cbn in *; lia.
    + destruct (c =?c cCARET); [apply Hword; lia|apply prepend_nofuel, IH; lia].
Qed.

Lemma skip_surface_hangs n inp : ~ In cSLASH inp -> skip_surface n inp = None.
Proof.
  revert inp; induction n as [|n IH]; intros inp H; [reflexivity|]. cbn.
  destruct inp as [|c r]; [apply IH; exact H|].
  rewrite (proj2 (ceq_neq c cSLASH)) by (intros ->; apply H; left; reflexivity).
  assert (Hr : ~ In cSLASH r) by (intros K; apply H; right; exact K).
  destruct (c =?c cBS); apply IH; [|exact Hr].
  destruct r; cbn; [exact Hr|]. intros K; apply Hr; right; exact K.
Qed.

Lemma processStream_hangs cs inp : ~ In cSLASH inp -> forall fuel,
  processStream fuel true cs (cCARET :: inp) = Fuel.
Proof.
  intros H fuel. destruct fuel as [|f]; [reflexivity|]. cbn [processStream].
  change (cCARET =?c cLB) with false. change (cCARET =?c cBS) with false. rewrite ceq_refl.
  unfold procWord. rewrite skip_surface_hangs by exact H. reflexivity.
Qed.

(** ** surface forms *)
Lemma skip_ok s : forall fuel r, forallb (pwf_t [cSLASH]) s = true -> length s < fuel ->
  skip_surface fuel (render_ts s ++ cSLASH :: r) = Some r.
Proof.
  induction s as [|t s IH]; intros fuel r H Hf; (destruct fuel as [|f]; [cbn in Hf; lia|]); [reflexivity|].
  apply andb_prop in H as [Ht Hs]. cbn in Hf. cbn [render_ts flat_map]. fold (render_ts s).
  destruct t as [c|c]; cbn [render_t app skip_surface].
  - apply pwf_plain in Ht as [H1 H2].
    rewrite (proj2 (ceq_neq c cSLASH)) by (intros ->; apply H2; left; reflexivity).
    rewrite (proj2 (ceq_neq c cBS) H1). apply IH; [exact Hs|lia].
  - change (cBS =?c cSLASH) with false. rewrite ceq_refl. cbn [tl]. apply IH; [exact Hs|lia].
Qed.

Lemma pretransfer_surface cs s b : forallb (pwf_t [cSLASH]) s = true -> ~ In cDOL b ->
  exists fuel0, forall fuel, fuel0 <= fuel ->
  processStream fuel true cs ([cCARET] ++ render_ts s ++ [cSLASH] ++ b ++ [cDOL])
  = processStream fuel false cs ([cCARET] ++ b ++ [cDOL]).
Proof.
  intros Hs Hb. exists (S (S (S (length s)))). intros fuel Hf.
  destruct fuel as [|[|f]]; [lia|lia|]. cbn [app].
  assert (E : forall sf r, processStream (S (S f)) sf cs (cCARET :: r) =
    match procWord (S f) sf cs [] r with
      | None => Fuel
      | Some (o, None) => Fail ([] ++ cCARET :: o)
      | Some (o, Some r') => prepend ([] ++ [cCARET] ++ o ++ [cDOL]) (processStream (S f) sf cs r')
      end) by reflexivity.
  rewrite !E. unfold procWord. rewrite skip_ok by (assumption || lia).
  rewrite w_loop_body by exact Hb. reflexivity.
Qed.
