From Verif Require Import Model.Base Proofs.Base Model.Postchunk Spec.Postchunk.

Lemma isdigit_spec c : isdigit c = true <-> digit c.
Proof. unfold isdigit, digit. rewrite andb_true_iff, !N.leb_le. reflexivity. Qed.
Lemma stoi_value d : Forall digit d -> stoi d = value d.
Proof.
  unfold stoi, value. generalize 0%N. induction d as [|c d IH]; intros a H; [reflexivity|]. inversion_clear H.
  cbn. apply isdigit_spec in H0. rewrite H0. rewrite IH by assumption. rewrite (N.mul_comm a 10). reflexivity.
Qed.

(** ** header *)
Lemma vectags_tag t : forall r cur, Forall (fun c => c <> cGT) t -> getVecTags (t ++ cGT :: r) (Some cur) =
  match getVecTags r None with Some l => Some ((cur ++ t ++ [cGT]) :: l) | None => None end.
Proof.
  induction t as [|c t IH]; intros r cur H.
  - cbn [app getVecTags]. rewrite ceq_refl. reflexivity.
  - inversion_clear H. cbn [app getVecTags]. destruct (ceq_spec c cGT); [contradiction|]. rewrite IH by assumption.
    destruct (getVecTags r None); [|reflexivity]. rewrite <- !app_assoc. reflexivity.
Qed.
Lemma vectags_header h : Header h -> forall r, getVecTags (h ++ r) None = getVecTags r None.
Proof.
  induction 1 as [|c s H1 H2 H3 H IH|c s H IH]; intros r; [reflexivity| |].
  - cbn [app getVecTags]. destruct (ceq_spec c cBS); [contradiction|]. destruct (ceq_spec c cLT); [contradiction|]. destruct (ceq_spec c cLC); [contradiction|]. apply IH.
  - cbn [app getVecTags]. rewrite ceq_refl. apply IH.
Qed.
Definition tt (t : str) : str := cLT :: t ++ [cGT].
Lemma vectags_tags tags : Forall tag_ok tags -> forall r, getVecTags (flat_map tt tags ++ cLC :: r) None = Some (map tt tags).
Proof.
  induction 1 as [|t tags Ht HT IH]; intros r; [reflexivity|]. unfold tt at 1. cbn [flat_map app]. cbn [getVecTags].
  change (cLT =?c cBS) with false. rewrite ceq_refl. cbv beta iota. rewrite <- !app_assoc. cbn [app].
  rewrite vectags_tag; [rewrite IH; reflexivity|]. eapply Forall_impl; [|exact Ht]. cbn. tauto.
Qed.
Lemma begin_header h : Header h -> forall r, beginChunk (h ++ r) = beginChunk r.
Proof.
  induction 1 as [|c s H1 H2 H3 H IH|c s H IH]; intros r; [reflexivity| |].
  - cbn [app beginChunk]. destruct (ceq_spec c cBS); [contradiction|]. destruct (ceq_spec c cLC); [contradiction|]. apply IH.
  - cbn [app beginChunk]. rewrite ceq_refl. apply IH.
Qed.
Lemma begin_plain t : Forall (fun c => c <> cBS /\ c <> cLC) t -> forall r, beginChunk (t ++ r) = beginChunk r.
Proof.
  induction 1 as [|c t [H1 H2] H IH]; intros r; [reflexivity|]. cbn [app beginChunk]. destruct (ceq_spec c cBS); [contradiction|]. destruct (ceq_spec c cLC); [contradiction|]. apply IH.
Qed.
Lemma tags_plain tags : Forall tag_ok tags -> Forall (fun c => c <> cBS /\ c <> cLC) (flat_map tt tags).
Proof.
  induction 1 as [|t tags Ht HT IH]; [constructor|]. cbn [flat_map]. apply Forall_app. split; [|exact IH]. unfold tt. constructor; [split; discriminate|].
  apply Forall_app. split; [eapply Forall_impl; [|exact Ht]; cbn; tauto|repeat constructor; discriminate].
Qed.
Lemma upto_header h stop : (forall c, c <> cBS -> c <> cLT -> c <> cLC -> mem c stop = false) -> Header h -> forall r acc, upto stop (h ++ r) acc = upto stop r (acc ++ h).
Proof.
  intros Hs. induction 1 as [|c s H1 H2 H3 H IH|c s H IH]; intros r acc; [rewrite app_nil_r; reflexivity| |].
  - cbn [app upto]. destruct (ceq_spec c cBS); [contradiction|]. rewrite Hs by assumption. rewrite IH. rewrite <- app_assoc. reflexivity.
  - cbn [app upto]. rewrite ceq_refl. rewrite IH. rewrite <- app_assoc. reflexivity.
Qed.
Lemma header_parts lemma tags content : Header lemma -> Forall tag_ok tags ->
  getVecTags (chunk_text lemma tags content) None = Some (map tt tags) /\
  pseudolemma (chunk_text lemma tags content) = Some lemma /\
  beginChunk (chunk_text lemma tags content) = Some (flat_map ctext content ++ [cRC]).
Proof.
  intros Hh Ht. unfold chunk_text. change (fun t => cLT :: t ++ [cGT]) with tt. split; [|split].
  - rewrite vectags_header by exact Hh. apply vectags_tags, Ht.
  - unfold pseudolemma. rewrite upto_header; [| |exact Hh].
    + cbn [app]. destruct tags as [|t tags]; cbn [flat_map app tt upto]; reflexivity.
    + intros c H1 H2 H3. apply mem_nIn. cbn. intuition congruence.
  - rewrite begin_header by exact Hh. rewrite begin_plain by (apply tags_plain, Ht). reflexivity.
Qed.

Section P.
Variables (up : char -> char) (alnum : char -> bool) (tags : list str).
Let vt := map tt tags.
(** case conversion with the flags *)
Fixpoint lsem (ua uf : bool) (l : list lelem) : list lelem * bool :=
  match l with
  | [] => ([], uf)
  | LChar c :: r => let '(o, uf') := put up alnum ua uf c in let '(x, f) := lsem ua uf' r in (map LChar o ++ x, f)
  | e :: r => let '(x, f) := lsem ua uf r in (e :: x, f)
  end.
Lemma ref_resolved d : Forall digit d -> ref vt d = resolved tags (LRef d).
Proof.
  intros H. unfold ref. rewrite (stoi_value d H). unfold resolved. destruct (value d) as [|p]; [reflexivity|].
  change ((N.pos p =? 0)%N) with false. cbv beta iota.
  unfold vt. destruct (nth_error tags (N.to_nat (N.pos p - 1))) as [t|] eqn:E.
  - change (cLT :: t ++ [cGT]) with (tt t). erewrite nth_error_nth; [reflexivity|]. apply map_nth_error, E.
  - apply nth_error_None in E. apply nth_overflow. rewrite map_length. exact E.
Qed.

Fixpoint lu_run (ua uf : bool) (s : str) (m : lmode) : option (str * bool * str) :=      (* output, flag, rest after $ *)
  match s with
  | [] => None
  | c :: r => match lu_step up alnum vt ua uf m c with
              | None => Some ([], uf, r)
              | Some (o, uf', m2) => match lu_run ua uf' r m2 with Some (o2, f, rest) => Some (o ++ o2, f, rest) | None => None end
              end
  end.
Lemma lu_run_tag ua uf t : forall r, Forall (fun c => c <> cGT) t -> lu_run ua uf (t ++ cGT :: r) LT =
  match lu_run ua uf r LN with Some (o, f, rest) => Some (t ++ cGT :: o, f, rest) | None => None end.
Proof.
  induction t as [|c t IH]; intros r H.
  - cbn [app lu_run lu_step]. rewrite ceq_refl. destruct (lu_run ua uf r LN) as [[[o f] rest]|]; reflexivity.
  - inversion_clear H. cbn [app lu_run lu_step]. destruct (ceq_spec c cGT); [contradiction|]. rewrite IH by assumption.
    destruct (lu_run ua uf r LN) as [[[o f] rest]|]; reflexivity.
Qed.
Lemma lu_run_ref ua uf d : forall r d0, Forall digit d -> lu_run ua uf (d ++ cGT :: r) (LR d0) =
  match lu_run ua uf r LN with Some (o, f, rest) => Some (ref vt (d0 ++ d) ++ o, f, rest) | None => None end.
Proof.
  induction d as [|c d IH]; intros r d0 H.
  - cbn [app lu_run lu_step]. rewrite ceq_refl, app_nil_r. reflexivity.
  - inversion_clear H. cbn [app lu_run lu_step]. destruct (ceq_spec c cGT) as [->|]; [exfalso; unfold digit in H0; unfold cGT in H0; lia|]. rewrite IH by assumption. rewrite <- app_assoc. cbn [app].
    destruct (lu_run ua uf r LN) as [[[o f] rest]|]; reflexivity.
Qed.
Lemma lu_run_spec ua l : Forall lelem_ok l -> forall uf r,
  lu_run ua uf (flat_map ltext l ++ cDOL :: r) LN = Some (flat_map (resolved tags) (fst (lsem ua uf l)), snd (lsem ua uf l), r).
Proof.
  induction 1 as [|e l He Hl IH]; intros uf r.
  - cbn [flat_map app lu_run lu_step]. rewrite ceq_refl. reflexivity.
  - destruct e as [c|c|t|d]; cbn [flat_map ltext]; rewrite <- ?app_assoc; cbn [app].
    + destruct He as [H1 [H2 H3]]. cbn [lu_run lu_step]. destruct (ceq_spec c cDOL); [contradiction|]. destruct (ceq_spec c cBS); [contradiction|]. destruct (ceq_spec c cLT); [contradiction|].
      cbn [lsem]. destruct (put up alnum ua uf c) as [o uf'] eqn:EP. rewrite IH. destruct (lsem ua uf' l) as [x f]. cbn [fst snd].
      rewrite flat_map_app. f_equal. f_equal. f_equal. f_equal. clear. induction o as [|y o IH]; [reflexivity|]. cbn. rewrite <- IH. reflexivity.
    + cbn [lu_run lu_step]. change (cBS =?c cDOL) with false. rewrite ceq_refl. cbv beta iota. cbn [lu_run lu_step]. rewrite IH. cbn [lsem]. destruct (lsem ua uf l) as [x f]. reflexivity.
    + destruct He as [H1 H2]. cbn [lu_run lu_step]. change (cLT =?c cDOL) with false. change (cLT =?c cBS) with false. rewrite ceq_refl. cbv beta iota.
      destruct t as [|c t].
      * cbn [app lu_run lu_step]. change (isdigit cGT) with false. rewrite ceq_refl. cbv beta iota. rewrite IH. cbn [lsem]. destruct (lsem ua uf l) as [x f]. reflexivity.
      * cbn [app lu_run lu_step]. destruct (isdigit c) eqn:ED; [apply isdigit_spec in ED; contradiction|]. inversion_clear H1. destruct (ceq_spec c cGT); [contradiction|].
        rewrite <- ?app_assoc. cbn [app]. rewrite lu_run_tag by assumption. rewrite IH. cbn [lsem]. destruct (lsem ua uf l) as [x f]. cbn. rewrite <- ?app_assoc. reflexivity.
    + destruct He as [H1 H2]. destruct d as [|c d]; [congruence|]. cbn [lu_run lu_step]. change (cLT =?c cDOL) with false. change (cLT =?c cBS) with false. rewrite ceq_refl. cbv beta iota.
      inversion H2; subst. cbn [app lu_run lu_step]. assert (ED : isdigit c = true) by (apply isdigit_spec; assumption). rewrite ED. rewrite <- ?app_assoc. cbn [app].
      rewrite lu_run_ref by assumption. rewrite IH. cbn [app]. rewrite ref_resolved by assumption. cbn [lsem]. destruct (lsem ua uf l) as [x f]. reflexivity.
Qed.

(** ** unchunk *)
Lemma opre_app a b o : opre a (opre b o) = opre (a ++ b) o.
Proof. destruct o; cbn; [rewrite app_assoc|]; reflexivity. Qed.
Let UL := unchunk_loop up alnum vt.
Lemma ul_lu ua : forall s uf m o f rest, lu_run ua uf s m = Some (o, f, rest) -> UL ua uf s (ULu m) = opre (o ++ [cDOL]) (UL ua f rest UTop).
Proof.
  induction s as [|c s IH]; intros uf m o f rest H; [discriminate|]. cbn [lu_run] in H. unfold UL. cbn [unchunk_loop].
  destruct (lu_step up alnum vt ua uf m c) as [[[o1 uf'] m2]|].
  - destruct (lu_run ua uf' s m2) as [[[o2 f2] r2]|] eqn:E; [|discriminate]. injection H as <- <- <-.
    fold UL. rewrite (IH _ _ _ _ _ E). rewrite opre_app, app_assoc. reflexivity.
  - injection H as <- <- <-. reflexivity.
Qed.
Lemma ul_blank ua uf s : InBrackets s -> forall r, UL ua uf (s ++ cRB :: r) UBl = opre (s ++ [cRB]) (UL ua uf r UTop).
Proof.
  induction 1 as [|c s H1 H2 H IH|c s H IH]; intros r; unfold UL; cbn [app unchunk_loop]; fold UL.
  - rewrite ceq_refl. reflexivity.
  - destruct (ceq_spec c cRB); [contradiction|]. destruct (ceq_spec c cBS); [contradiction|]. rewrite IH, opre_app. reflexivity.
  - change (cBS =?c cRB) with false. rewrite ceq_refl. cbv beta iota. rewrite IH, !opre_app. reflexivity.
Qed.
Lemma wblank_in s : WBlank s -> InBrackets s.
Proof. induction 1; constructor; assumption. Qed.
Fixpoint csem (ua uf : bool) (c : list celem) : list celem :=
  match c with
  | [] => []
  | CLu l :: r => let '(x, f) := lsem ua uf l in CLu x :: csem ua f r
  | CWLu wb l :: r => let '(x, f) := lsem ua uf l in CWLu wb x :: csem ua f r
  | e :: r => e :: csem ua uf r
  end.
Lemma gt2 (s : str) : 2 < length s -> (length s <=? 2) = false.
Proof. intros H. apply Nat.leb_gt, H. Qed.
Lemma ul_elem ua uf e rest : celem_ok e -> rest <> [] -> (forall c, e = CChar c -> 2 <= length rest) ->
  UL ua uf (ctext e ++ rest) UTop = match e with
    | CLu l => opre (opened tags (CLu (fst (lsem ua uf l)))) (UL ua (snd (lsem ua uf l)) rest UTop)
    | CWLu wb l => opre (opened tags (CWLu wb (fst (lsem ua uf l)))) (UL ua (snd (lsem ua uf l)) rest UTop)
    | _ => opre (ctext e) (UL ua uf rest UTop)
    end.
Proof.
  intros He Hr Hc. assert (LR : 1 <= length rest) by (destruct rest; [congruence|cbn; lia]).
  destruct e as [c|c|s|l|wb l]; cbn [ctext].
  - specialize (Hc c eq_refl). destruct He as [H1 [H2 H3]]. unfold UL. cbn [app unchunk_loop]. rewrite gt2 by (cbn; lia).
    destruct (ceq_spec c cBS); [contradiction|]. destruct (ceq_spec c cCARET); [contradiction|]. destruct (ceq_spec c cLB); [contradiction|]. reflexivity.
  - unfold UL. cbn [app]. cbn [unchunk_loop]. rewrite gt2 by (cbn; lia). rewrite ceq_refl. rewrite opre_app. reflexivity.
  - destruct He as [H1 _]. unfold UL. cbn [app]. cbn [unchunk_loop]. rewrite gt2 by (cbn; rewrite !app_length; cbn; lia).
    change (cLB =?c cBS) with false. change (cLB =?c cCARET) with false. rewrite ceq_refl. cbv beta iota. fold UL. rewrite <- app_assoc. cbn [app].
    rewrite ul_blank by exact H1. rewrite opre_app. reflexivity.
  - unfold UL. cbn [app]. cbn [unchunk_loop]. rewrite gt2 by (cbn; rewrite !app_length; cbn; lia).
    change (cCARET =?c cBS) with false. rewrite ceq_refl. cbv beta iota. fold UL. rewrite <- app_assoc. cbn [app].
    rewrite (ul_lu ua _ _ _ _ _ _ (lu_run_spec ua l He uf rest)). rewrite opre_app. reflexivity.
  - destruct He as [H1 H2]. unfold UL. cbn [app]. cbn [unchunk_loop]. rewrite gt2 by (cbn; rewrite !app_length; cbn; lia).
    change (cLB =?c cBS) with false. change (cLB =?c cCARET) with false. rewrite ceq_refl. cbv beta iota.
    change (cLB =?c cRB) with false. cbv beta iota. fold UL.
    replace ((wb ++ cRB :: cRB :: cCARET :: flat_map ltext l ++ [cDOL]) ++ rest) with (wb ++ cRB :: (cRB :: cCARET :: flat_map ltext l ++ cDOL :: rest)) by appeq.
    rewrite ul_blank by (apply wblank_in, H1).
    unfold UL at 1. cbn [unchunk_loop]. rewrite gt2 by (cbn; rewrite !app_length; cbn; lia).
    change (cRB =?c cBS) with false. change (cRB =?c cCARET) with false. change (cRB =?c cLB) with false. cbv beta iota.
    rewrite gt2 by (cbn; rewrite !app_length; cbn; lia).
    change (cCARET =?c cBS) with false. rewrite ceq_refl. cbv beta iota. fold UL.
    rewrite (ul_lu ua _ _ _ _ _ _ (lu_run_spec ua l H2 uf rest)). rewrite !opre_app. f_equal. cbn [opened]. appeq.
Qed.
Lemma ctext_ne e : ctext e <> [].
Proof. destruct e; discriminate. Qed.
Lemma blc_cons e r : (r <> [] \/ forall c, e <> CChar c) -> but_last_char (e :: r) = e :: but_last_char r.
Proof. intros [H|H]; destruct r; try congruence; destruct e; try reflexivity. exfalso. eapply H. reflexivity. Qed.
Lemma ul_content ua c : Forall celem_ok c -> forall uf,
  UL ua uf (flat_map ctext c ++ [cRC]) UTop = Some (flat_map (opened tags) (csem ua uf (but_last_char c))).
Proof.
  induction 1 as [|e c He Hc IH]; intros uf.
  - reflexivity.
  - destruct c as [|e2 c].
    + destruct e as [x|x|s|l|wb l].
      1: reflexivity.
      all: rewrite blc_cons by (right; congruence); cbn [flat_map but_last_char]; rewrite app_nil_r, ul_elem by (exact He || discriminate); unfold UL; cbn [unchunk_loop length Nat.leb opre]; cbn [csem]; rewrite ?app_nil_r; try (destruct (lsem ua uf l) as [y f]); cbn [flat_map fst]; rewrite ?app_nil_r; reflexivity.
    + rewrite blc_cons by (left; discriminate). cbn [flat_map]. rewrite <- app_assoc. cbn [flat_map] in IH. rewrite ul_elem.
      * destruct e as [x|x|s|l|wb l]; cbn [csem]; try (destruct (lsem ua uf l) as [y f]; cbn [fst snd]); rewrite IH; reflexivity.
      * exact He.
      * intros K. apply app_eq_nil in K as [_ K]. discriminate.
      * intros y _. rewrite app_length. cbn [length]. assert (Q := ctext_ne e2). rewrite app_length. destruct (ctext e2); [congruence|cbn; lia].
Qed.

(** ** flags and case *)
Lemma lsem_ff l : lsem false false l = (l, false).
Proof. induction l as [|e l IH]; [reflexivity|]. destruct e; cbn; rewrite IH; reflexivity. Qed.
Lemma csem_ff c : csem false false c = c.
Proof. induction c as [|e c IH]; [reflexivity|]. destruct e; cbn; rewrite ?lsem_ff, IH; reflexivity. Qed.
Lemma lsem_ua l uf : lsem true uf l = (map (lup up) l, uf).
Proof. induction l as [|e l IH]; [reflexivity|]. destruct e; cbn; rewrite IH; reflexivity. Qed.
Lemma csem_ua c : forall uf, csem true uf c = map (all_up up) c.
Proof. induction c as [|e c IH]; intros uf; [reflexivity|]. destruct e; cbn; rewrite ?lsem_ua, IH; reflexivity. Qed.
Lemma lsem_ft l : lsem false true l = match lfirst up alnum l with Some l' => (l', false) | None => (l, true) end.
Proof.
  induction l as [|e l IH]; [reflexivity|]. destruct e as [c|c|t|d]; cbn [lsem lfirst put].
  - destruct (alnum c).
    + rewrite lsem_ff. reflexivity.
    + rewrite IH. destruct (lfirst up alnum l); reflexivity.
  - rewrite IH. destruct (lfirst up alnum l); reflexivity.
  - rewrite IH. destruct (lfirst up alnum l); reflexivity.
  - rewrite IH. destruct (lfirst up alnum l); reflexivity.
Qed.
Lemma csem_ft c : csem false true c = first_up up alnum c.
Proof.
  induction c as [|e c IH]; [reflexivity|]. destruct e as [x|x|s|l|wb l]; cbn [csem first_up]; rewrite ?IH; try reflexivity.
  - rewrite lsem_ft. destruct (lfirst up alnum l); [rewrite csem_ff|rewrite IH]; reflexivity.
  - rewrite lsem_ft. destruct (lfirst up alnum l); [rewrite csem_ff|rewrite IH]; reflexivity.
Qed.
Lemma csem_flags k c : csem (fst (flags k)) (snd (flags k)) c = recase up alnum k c.
Proof. destruct k; [apply csem_ua|apply csem_ft|apply csem_ff]. Qed.

(** ** splitting *)
Let SL := split_loop up alnum vt.
Lemma app_last_snoc l x y : app_last (l ++ [x]) y = Some (l ++ [x ++ y]).
Proof. unfold app_last. rewrite rev_app_distr. cbn. rewrite rev_involutive. reflexivity. Qed.
Lemma sl_lu ua : forall s uf m o f rest ws w bs la, lu_run ua uf s m = Some (o, f, rest) ->
  SL ua uf s (SLu m) (mks (ws ++ [w]) bs la) = SL ua f rest STop (mks (ws ++ [w ++ o]) bs la).
Proof.
  induction s as [|c s IH]; intros uf m o f rest ws w bs la H; [discriminate|]. cbn [lu_run] in H. unfold SL. cbn [split_loop].
  destruct (lu_step up alnum vt ua uf m c) as [[[o1 uf'] m2]|].
  - destruct (lu_run ua uf' s m2) as [[[o2 f2] r2]|] eqn:E; [|discriminate]. injection H as <- <- <-.
    unfold add_word. cbn [s_words]. rewrite app_last_snoc. fold SL. cbn [s_blanks s_last]. refine (eq_trans (IH _ _ _ _ _ ws (w ++ o1) bs la E) _). rewrite <- app_assoc. reflexivity.
  - injection H as <- <- <-. rewrite app_nil_r. reflexivity.
Qed.
Lemma sl_blank ua uf s : InBrackets s -> forall r ws bs b la, SL ua uf (s ++ cRB :: r) SBl (mks ws (bs ++ [b]) la) = SL ua uf r STop (mks ws (bs ++ [b ++ s ++ [cRB]]) la).
Proof.
  induction 1 as [|c s H1 H2 H IH|c s H IH]; intros r ws bs b la; unfold SL; cbn [app split_loop]; unfold add_blank; cbn [s_blanks s_words s_last]; rewrite app_last_snoc; cbv beta iota; fold SL.
  - rewrite ceq_refl. reflexivity.
  - destruct (ceq_spec c cRB); [contradiction|]. destruct (ceq_spec c cBS); [contradiction|]. rewrite IH. refine (f_equal (fun z => SL ua uf r STop (mks ws (bs ++ [z]) la)) _). appeq.
  - change (cBS =?c cRB) with false. rewrite ceq_refl. cbv beta iota. unfold add_blank; cbn [s_blanks s_words s_last]; rewrite app_last_snoc; cbv beta iota. rewrite IH. refine (f_equal (fun z => SL ua uf r STop (mks ws (bs ++ [z]) la)) _). appeq.
Qed.
Lemma sl_wb ua uf s : WBlank s -> forall p r ws w bs la, p <> cRB -> SL ua uf (s ++ cRB :: cRB :: cCARET :: r) (SW p) (mks (ws ++ [w]) bs la) = SL ua uf r (SLu LN) (mks (ws ++ [w ++ s ++ [cRB; cRB]]) bs la).
Proof.
  induction 1 as [|c s H1 H2 H IH|c s H1 H IH]; intros p r ws w bs la Hp; unfold SL; cbn [app split_loop]; unfold add_word; cbn [s_blanks s_words s_last]; rewrite app_last_snoc; cbv beta iota; fold SL.
  - change (cRB =?c cBS) with false. rewrite ceq_refl. destruct (ceq_spec p cRB); [contradiction|]. cbn [andb s_words s_blanks s_last]. rewrite app_last_snoc. cbv beta iota.
    refine (f_equal (fun z => SL ua uf r (SLu LN) (mks (ws ++ [z]) bs la)) _). appeq.
  - destruct (ceq_spec c cBS); [contradiction|]. destruct (ceq_spec c cRB); [contradiction|]. cbn [andb]. rewrite IH by assumption. refine (f_equal (fun z => SL ua uf r (SLu LN) (mks (ws ++ [z]) bs la)) _). appeq.
  - rewrite ceq_refl. cbv beta iota. unfold add_word; cbn [s_blanks s_words s_last]; rewrite app_last_snoc; cbv beta iota. rewrite IH by assumption. refine (f_equal (fun z => SL ua uf r (SLu LN) (mks (ws ++ [z]) bs la)) _). appeq.
Qed.
(* the state when words ws were read, bs are the finished gaps (first one: the blank of the caller) and g is the current one *)
Definition state (ws bs : list str) (g : str) (la : bool) : sst := mks ws (if la then bs ++ [g] else bs) la.
Definition gap_ok (g : str) (la : bool) : Prop := la = false -> g = [].
Lemma start_blank_state ws bs g la x : gap_ok g la -> start_blank (state ws bs g la) x = Some (state ws bs (g ++ x) true).
Proof.
  intros H. unfold start_blank, state. cbn [s_last s_blanks s_words]. destruct la.
  - rewrite app_last_snoc. reflexivity.
  - rewrite (H eq_refl). rewrite app_last_snoc. reflexivity.
Qed.
Lemma start_word_state ws bs g la : gap_ok g la -> start_word (state ws bs g la) = state (ws ++ [[]]) (bs ++ [g]) [] false.
Proof. intros H. unfold start_word, state. cbn. destruct la; [reflexivity|]. rewrite (H eq_refl). reflexivity. Qed.
Lemma sl_elem ua uf e rest ws bs g la : celem_ok e -> rest <> [] -> (forall c, e = CChar c -> 2 <= length rest) -> gap_ok g la ->
  SL ua uf (ctext e ++ rest) STop (state ws bs g la) = match e with
    | CLu l => SL ua (snd (lsem ua uf l)) rest STop (state (ws ++ [flat_map (resolved tags) (fst (lsem ua uf l))]) (bs ++ [g]) [] false)
    | CWLu wb l => SL ua (snd (lsem ua uf l)) rest STop (state (ws ++ [cLB :: cLB :: wb ++ [cRB; cRB] ++ flat_map (resolved tags) (fst (lsem ua uf l))]) (bs ++ [g]) [] false)
    | _ => SL ua uf rest STop (state ws bs (g ++ ctext e) true)
    end.
Proof.
  intros He Hr Hc Hg. assert (LR : 1 <= length rest) by (destruct rest; [congruence|cbn; lia]).
  destruct e as [c|c|s|l|wb l]; cbn [ctext].
  - specialize (Hc c eq_refl). destruct He as [H1 [H2 H3]]. unfold SL. cbn [app split_loop]. rewrite gt2 by (cbn; lia).
    destruct (ceq_spec c cBS); [contradiction|]. destruct (ceq_spec c cCARET); [contradiction|]. destruct (ceq_spec c cLB); [contradiction|].
    rewrite start_blank_state by exact Hg. reflexivity.
  - unfold SL. cbn [app]. cbn [split_loop]. rewrite gt2 by (cbn; lia). change (cBS =?c cCARET) with false. change (cBS =?c cLB) with false. cbv beta iota.
    rewrite start_blank_state by exact Hg. rewrite ceq_refl. unfold add_blank, state. cbn [s_blanks s_words s_last]. rewrite app_last_snoc. rewrite <- app_assoc. reflexivity.
  - destruct He as [H1 H2]. unfold SL. cbn [app]. cbn [split_loop]. rewrite gt2 by (cbn; rewrite !app_length; cbn; lia).
    change (cLB =?c cCARET) with false. rewrite ceq_refl. cbv beta iota. fold SL. rewrite start_blank_state by exact Hg.
    assert (E : match (s ++ [cRB]) ++ rest with [] => None | d :: _ => if d =?c cLB then match add_word (start_word (state ws bs g la)) [cLB] with Some st' => SL ua uf ((s ++ [cRB]) ++ rest) (SW cLB) st' | None => None end
         else SL ua uf ((s ++ [cRB]) ++ rest) SBl (state ws bs (g ++ [cLB]) true) end = SL ua uf ((s ++ [cRB]) ++ rest) SBl (state ws bs (g ++ [cLB]) true)).
    { destruct s as [|d s]; [reflexivity|]. cbn [app]. destruct (ceq_spec d cLB); [contradiction|reflexivity]. }
    rewrite E. clear E. rewrite <- app_assoc. cbn [app]. unfold state. rewrite sl_blank by exact H1. refine (f_equal (fun z => SL ua uf rest STop (mks ws (bs ++ [z]) true)) _). appeq.
  - unfold SL. cbn [app]. cbn [split_loop]. rewrite gt2 by (cbn; rewrite !app_length; cbn; lia). rewrite ceq_refl. fold SL.
    rewrite start_word_state by exact Hg. rewrite <- app_assoc. cbn [app]. unfold state at 1. cbv iota.
    rewrite (sl_lu ua _ _ _ _ _ _ _ _ _ _ (lu_run_spec ua l He uf rest)). reflexivity.
  - destruct He as [H1 H2]. unfold SL. cbn [app]. cbn [split_loop]. rewrite gt2 by (cbn; rewrite !app_length; cbn; lia).
    change (cLB =?c cCARET) with false. rewrite ceq_refl. cbv beta iota. fold SL. rewrite start_word_state by exact Hg.
    unfold state at 1. unfold add_word at 1. cbn [s_words s_blanks s_last]. rewrite app_last_snoc. cbv beta iota.
    unfold add_word at 1. cbn [s_words s_blanks s_last]. rewrite app_last_snoc. cbv beta iota. change (cLB =?c cBS) with false. change (cLB =?c cRB) with false. cbn [andb]. cbv beta iota. fold SL.
    replace ((wb ++ cRB :: cRB :: cCARET :: flat_map ltext l ++ [cDOL]) ++ rest) with (wb ++ cRB :: cRB :: cCARET :: (flat_map ltext l ++ cDOL :: rest)) by appeq.
    rewrite sl_wb by (exact H1 || discriminate).
    rewrite (sl_lu ua _ _ _ _ _ _ _ _ _ _ (lu_run_spec ua l H2 uf rest)). unfold state. refine (f_equal (fun z => SL ua _ rest STop (mks (ws ++ [z]) (bs ++ [g]) false)) _). appeq.
Qed.
(* the result of reading all the content from a state *)
Lemma sl_content ua c : Forall celem_ok c -> forall uf ws bs g la, gap_ok g la ->
  SL ua uf (flat_map ctext c ++ [cRC]) STop (state ws bs g la) =
    let '(x, tr) := cut tags g (csem ua uf (but_last_char c)) in
    Some (match x with
          | [] => state ws bs tr (match but_last_char c with [] => la | _ => true end)
          | _ => state (ws ++ map snd x) (bs ++ map fst x) tr (match tr with [] => false | _ => true end)
          end).
Proof.
  induction 1 as [|e c He Hc IH]; intros uf ws bs g la Hg.
  - reflexivity.
  - assert (STEP : forall rest, rest <> [] -> (forall x, e = CChar x -> 2 <= length rest) ->
      flat_map ctext c ++ [cRC] = rest ->
      SL ua uf (ctext e ++ rest) STop (state ws bs g la) =
       let '(x, tr) := cut tags g (csem ua uf (e :: but_last_char c)) in
       Some (match x with
          | [] => state ws bs tr true
          | _ => state (ws ++ map snd x) (bs ++ map fst x) tr (match tr with [] => false | _ => true end)
          end)).
    { intros rest H1 H2 H3. rewrite sl_elem by assumption. rewrite <- H3.
      assert (BL : forall e', (forall l, e' <> CLu l) -> (forall wb l, e' <> CWLu wb l) -> e = e' ->
         SL ua uf (flat_map ctext c ++ [cRC]) STop (state ws bs (g ++ ctext e) true) =
          let '(x, tr) := cut tags (g ++ ctext e) (csem ua uf (but_last_char c)) in
          Some (match x with [] => state ws bs tr true | _ => state (ws ++ map snd x) (bs ++ map fst x) tr (match tr with [] => false | _ => true end) end)).
      { intros e' K1 K2 K3. rewrite IH by (intros KK; discriminate KK). destruct (cut tags (g ++ ctext e) (csem ua uf (but_last_char c))) as [x tr]. destruct x; [|reflexivity].
        destruct (but_last_char c); reflexivity. }
      assert (WD : forall uf2 w, SL ua uf2 (flat_map ctext c ++ [cRC]) STop (state (ws ++ [w]) (bs ++ [g]) [] false) =
          let '(x, tr) := cut tags [] (csem ua uf2 (but_last_char c)) in
          Some (state (ws ++ map snd ((g, w) :: x)) (bs ++ map fst ((g, w) :: x)) tr (match tr with [] => false | _ => true end))).
      { intros uf2 w. rewrite IH by (intros _; reflexivity). destruct (cut tags [] (csem ua uf2 (but_last_char c))) as [x tr] eqn:EC.
        destruct x as [|y x].
        - cbn [map]. assert (TR : match tr with [] => false | _ => true end = match but_last_char c with [] => false | _ => true end).
          { assert (NE : forall c' g', (g' <> [] \/ c' <> []) -> fst (cut tags g' c') = [] -> snd (cut tags g' c') <> []).
            { induction c' as [|e' c' IHc]; intros g' Hn Hf; [destruct Hn; [exact H|congruence]|].
              destruct e'; cbn [cut] in *; try (apply IHc; [left; intros K; apply app_eq_nil in K as [_ K]; discriminate|exact Hf]);
                destruct (cut tags [] c') as [x0 g0]; discriminate. }
            destruct (but_last_char c) as [|e' c'] eqn:EB.
            - cbn in EC. injection EC as <-. reflexivity.
            - assert (Q := NE (csem ua uf2 (e' :: c')) [] ltac:(right; destruct e'; cbn; try destruct (lsem ua uf2 l); discriminate)). rewrite EC in Q. cbn [fst snd] in Q.
              specialize (Q eq_refl). destruct tr; [congruence|reflexivity]. }
          rewrite TR. reflexivity.
        - cbn [map fst snd]. f_equal. rewrite <- !app_assoc. reflexivity. }
      destruct e as [y|y|s|l|wb l]; cbn [csem cut].
      - apply (BL (CChar y)); congruence.
      - apply (BL (CEsc y)); congruence.
      - apply (BL (CBlank s)); congruence.
      - rewrite WD. destruct (lsem ua uf l) as [y f]. cbn [fst snd cut]. destruct (cut tags [] (csem ua f (but_last_char c))) as [x tr]. reflexivity.
      - rewrite WD. destruct (lsem ua uf l) as [y f]. cbn [fst snd cut]. destruct (cut tags [] (csem ua f (but_last_char c))) as [x tr]. reflexivity. }
    cbn [flat_map]. rewrite <- app_assoc. destruct c as [|e2 c].
    + destruct e as [y|y|s|l|wb l].
      1: { cbn [flat_map app ctext]. unfold SL. cbn [split_loop length Nat.leb but_last_char csem cut]. reflexivity. }
      all: rewrite blc_cons by (right; congruence); (rewrite STEP; [|discriminate|discriminate|reflexivity]); reflexivity.
    + rewrite blc_cons by (left; discriminate). rewrite STEP; [reflexivity| | |reflexivity].
      * intros K. apply app_eq_nil in K as [_ K]. discriminate.
      * intros y _. rewrite app_length. cbn [length flat_map]. rewrite app_length. assert (Q := ctext_ne e2). destruct (ctext e2); [congruence|cbn; lia].
Qed.
End P.
