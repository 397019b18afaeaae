From Verif Require Import Model.Base Model.TaggerWord Model.MorphoStream Spec.MorphoStream Proofs.Base Proofs.TaggerWord.

Lemma text_app a b : text (a ++ b) = text a ++ text b.
Proof. apply flat_map_app. Qed.
Lemma ttext_len t : 1 <= length (ttext t).
Proof. destruct t; cbn; lia. Qed.
Lemma find_gt_tag n r j : ~ In cGT n -> ~ In cBS n -> find_gt (n ++ cGT :: r) j = Some (Some (j + length n)).
Proof.
  revert j; induction n as [|c n IH]; intros j H1 H2; cbn.
  - f_equal. f_equal. lia.
  - destruct (ceq_spec c cBS) as [->|_]; [exfalso; apply H2; left; reflexivity|].
    destruct (ceq_spec c cGT) as [->|_]; [exfalso; apply H1; left; reflexivity|].
    rewrite IH; [f_equal; f_equal; lia|intros K; apply H1; right; exact K|intros K; apply H2; right; exact K].
Qed.

Section L.
Variable mt : str -> str -> bool.
Variables prefer : list str.
Variables kundef : nat.
Variable M : Type.
Variables (minit : M) (mstep : M -> char -> M) (mtag : M -> str -> M) (mfin : M -> option nat) (mdead : M -> bool).
Hypothesis init_nofin : mfin minit = None.
Notation addt := (add_tag mt prefer).
Notation scan := (scan M mstep mtag mfin mdead).
Notation tstep := (tstep M mstep mtag).
Notation lloop := (lloop mt prefer kundef M minit mstep mtag mfin mdead).
Notation lrlm := (lrlm M minit mstep mtag mfin mdead kundef).

Section One.
Variables (s A : str) (iv0 : nat) (vw : list tword) (iv : nat).
Variable b : bool.
Let floor := length A.

(** relation between the candidate of the specification and (last_type, last_pos + 1) *)
Definition cand (best : option (list tok * nat * list tok)) (lt : option nat) (q : nat) : Prop :=
  match best with
  | None => q = S floor \/ b = true
  | Some (p, v, r) => lt = Some v /\ q = floor + length (text p) /\ 2 <= length (text p) /\ s = A ++ text p ++ cPLUS :: text r
  end.
Definition tail_none fuel lt q i m :=
  if q =? S floor then Some (upd iv (addt kundef (skipn floor s)) vw, iv)
  else match lt with
       | None => None
       | Some t =>
         let vw := upd iv (addt t (piece s floor q)) vw in
         if match nth_error s q with Some d => d =?c cPLUS | None => false end
         then lloop s iv0 fuel (S q) (S q) lt (q + i) minit (cut_word iv vw) (S iv)
         else lloop s iv0 fuel (S floor) (S floor) lt q m vw iv
       end.
Definition lnext fuel lt q i m :=
  if mdead m then tail_none fuel lt q 2 m
  else if S i =? length s then match mfin m with None => tail_none fuel lt q 1 m | Some _ => lloop s iv0 fuel (S i) floor lt q m vw iv end
  else lloop s iv0 fuel (S i) floor lt q m vw iv.
Lemma lloop_step fuel i lt q m t pre r : tok_ok t -> s = A ++ text pre ++ ttext t ++ text r -> i = floor + length (text pre) ->
  lloop s iv0 (S fuel) i floor lt q m vw iv =
  let '(lt', q') := match t, mfin m with TC c, Some v => if c =?c cPLUS then (Some v, i) else (lt, q) | _, _ => (lt, q) end in
  lnext fuel lt' q' (i + length (ttext t) - 1) (tstep m t).
Proof.
  intros Ht Es Ei. cbn [MorphoStream.lloop].
  assert (L : length s = floor + length (text pre) + length (ttext t) + length (text r)) by (rewrite Es, !app_length; unfold floor; lia).
  pose proof (ttext_len t). destruct (Nat.eqb_spec i (length s)) as [K|_]; [lia|].
  assert (N0 : forall k, nth_error s (i + k) = nth_error (ttext t ++ text r) k).
  { intros k. rewrite Es. rewrite nth_error_app2 by (unfold floor in *; lia). rewrite nth_error_app2 by (unfold floor in *; lia). f_equal. unfold floor in *; lia. }
  assert (S0 : skipn i s = ttext t ++ text r).
  { rewrite Es, app_assoc. rewrite skipn_app, skipn_all2 by (rewrite app_length; unfold floor in *; lia). cbn.
    replace (i - length (A ++ text pre)) with 0 by (rewrite app_length; unfold floor in *; lia). reflexivity. }
  pose proof (N0 0) as N1. rewrite Nat.add_0_r in N1. rewrite N1. destruct t as [c|n]; cbn [ttext app nth_error].
  - cbn in Ht. destruct (ceq_spec c cLT) as [K|_]; [contradiction|]. cbn [negb Spec.MorphoStream.tstep]. cbn [length]. rewrite Nat.add_sub.
    destruct (c =?c cPLUS).
    + destruct (mfin m); reflexivity.
    + destruct (mfin m); reflexivity.
  - rewrite ceq_refl. cbn [negb]. destruct Ht as [H1 H2].
    assert (S1 : skipn (S i) s = n ++ cGT :: text r).
    { assert (Q : s = (A ++ text pre ++ [cLT]) ++ n ++ cGT :: text r) by (rewrite Es; cbn [ttext]; rewrite <- !app_assoc; cbn; rewrite <- app_assoc; reflexivity).
      assert (LQ : S i = length (A ++ text pre ++ [cLT])) by (rewrite !app_length; cbn [length]; subst i; unfold floor; lia).
      rewrite Q, LQ. rewrite skipn_app, skipn_all, Nat.sub_diag. reflexivity. }
    rewrite S1, (find_gt_tag n (text r) (S i) H1 H2).
    assert (F1 : firstn (S (S i + length n) - i) (skipn i s) = ttext (TT n)).
    { rewrite S0. cbn [ttext]. assert (LF : S (S i + length n) - i = length (cLT :: n ++ [cGT])) by (cbn [length]; rewrite app_length; cbn [length]; lia). rewrite LF.
      rewrite firstn_app, firstn_all, Nat.sub_diag. cbn [firstn]. apply app_nil_r. }
    rewrite F1. cbn [ttext length]. rewrite app_length. cbn [length].
    replace (i + S (length n + 1) - 1) with (S i + length n) by lia.
    destruct (mfin m); reflexivity.
Qed.
Lemma scan_sim : forall toks pre best m q lt fuel, Forall tok_ok toks -> length toks < fuel ->
  s = A ++ text pre ++ text toks -> (toks <> [] \/ mfin m <> None) -> (pre = [] -> mfin m = None) -> cand best lt q ->
  match best with Some (p, _, _) => length (text p) < length (text pre) | None => True end ->
  match scan m pre toks best with
  | Whole v => lloop s iv0 fuel (floor + length (text pre)) floor lt q m vw iv = Some (upd iv (addt v (skipn floor s)) vw, iv)
  | Nothing => b = false -> lloop s iv0 fuel (floor + length (text pre)) floor lt q m vw iv = Some (upd iv (addt kundef (skipn floor s)) vw, iv)
  | Cut e p v r => exists fuel', fuel <= fuel' + S (length toks) /\ 2 <= length (text p) /\ s = A ++ text p ++ cPLUS :: text r /\
      lloop s iv0 fuel (floor + length (text pre)) floor lt q m vw iv =
      lloop s iv0 fuel' (S (floor + length (text p))) (S (floor + length (text p))) (Some v) (floor + length (text p) + if e then 1 else 2)
        minit (cut_word iv (upd iv (addt v (text p)) vw)) (S iv)
  end.
Proof.
  assert (TN : forall fuel best lt q i m, cand best lt q ->
    match best with
    | Some (p, v, r) => tail_none fuel lt q i m =
        lloop s iv0 fuel (S (floor + length (text p))) (S (floor + length (text p))) (Some v) (floor + length (text p) + i)
          minit (cut_word iv (upd iv (addt v (text p)) vw)) (S iv)
    | None => b = false -> tail_none fuel lt q i m = Some (upd iv (addt kundef (skipn floor s)) vw, iv)
    end).
  { intros fuel [[[p v] r]|] lt q i m C; cbn in C.
    - destruct C as (-> & -> & Hp & Es). unfold tail_none. destruct (Nat.eqb_spec (floor + length (text p)) (S floor)); [lia|].
      assert (P : piece s floor (floor + length (text p)) = text p).
      { unfold piece. destruct (Nat.ltb_spec (floor + length (text p)) floor); [lia|]. rewrite Es. unfold floor.
        rewrite skipn_app, skipn_all, Nat.sub_diag. cbn [app skipn]. replace (length A + length (text p) - length A) with (length (text p)) by lia.
        rewrite firstn_app, firstn_all, Nat.sub_diag. cbn [firstn]. apply app_nil_r. }
      rewrite P. assert (Q : nth_error s (floor + length (text p)) = Some cPLUS).
      { rewrite Es. unfold floor. rewrite nth_error_app2 by lia. rewrite nth_error_app2 by lia.
        replace (length A + length (text p) - length A - length (text p)) with 0 by lia. reflexivity. }
      rewrite Q, ceq_refl. reflexivity.
    - intros Hb. destruct C as [->|C]; [|congruence]. unfold tail_none. rewrite Nat.eqb_refl. reflexivity. }
  induction toks as [|t r IH]; intros pre best m q lt fuel Hok Hf Es Hne Hpre C Hb.
  - cbn [Spec.MorphoStream.scan]. destruct Hne as [K|K]; [congruence|]. destruct (mfin m) as [v|] eqn:E; [|congruence].
    destruct fuel as [|fuel]; [lia|]. cbn [MorphoStream.lloop]. unfold text at 2 in Es. cbn in Es. rewrite app_nil_r in Es.
    destruct (Nat.eqb_spec (floor + length (text pre)) (length s)) as [_|K']; [|rewrite Es, app_length in K'; unfold floor in K'; lia].
    unfold lfinish. rewrite E. reflexivity.
  - destruct fuel as [|fuel]; [lia|]. inversion Hok as [|? ? Ht Hr]; subst x l.
    assert (Es' : s = A ++ text pre ++ ttext t ++ text r) by exact Es.
    rewrite (lloop_step fuel _ lt q m t pre r Ht Es' eq_refl).
    set (best' := match t, mfin m with TC c, Some v => if (c =?c cPLUS) && (2 <=? length (text pre)) then Some (pre, v, r) else best | _, _ => best end).
    set (ltq := match t, mfin m with TC c, Some v => if c =?c cPLUS then (Some v, floor + length (text pre)) else (lt, q) | _, _ => (lt, q) end).
    assert (C' : cand best' (fst ltq) (snd ltq)).
    { subst best' ltq. destruct t as [c|n]; [|exact C]. destruct (mfin m) as [v|] eqn:E; [|exact C]. destruct (ceq_spec c cPLUS) as [->|_]; [|exact C].
      cbn [fst snd andb]. destruct (Nat.leb_spec 2 (length (text pre))) as [L|L].
      - cbn. split; [reflexivity|]. split; [reflexivity|]. split; [exact L|exact Es].
      - destruct pre as [|t0 pre]; [specialize (Hpre eq_refl); congruence|]. 
        assert (length (text (t0 :: pre)) = 1). { change (text (t0 :: pre)) with (ttext t0 ++ text pre) in *. rewrite app_length in *. pose proof (ttext_len t0). lia. }
        destruct best as [[[p v'] r']|]; [|left; lia].
        (* an earlier candidate would be longer than one character *)
        exfalso. destruct C as (_ & _ & Lp & Ep). lia. }
    assert (B' : match best' with Some (p, _, _) => length (text p) < length (text (pre ++ [t])) | None => True end).
    { rewrite text_app. cbn [text flat_map]. rewrite app_nil_r, app_length. pose proof (ttext_len t).
      subst best'. assert (K : match best with Some (p, _, _) => length (text p) < length (text pre) + length (ttext t) | None => True end).
      { destruct best as [[[p ?] ?]|]; [lia|exact I]. }
      destruct t as [c|n]; [|exact K]. destruct (mfin m); [|exact K]. destruct ((c =?c cPLUS) && _); [lia|exact K]. }
    clearbody ltq. destruct ltq as [lt' q']. cbn [fst snd] in C'.
    change (scan m pre (t :: r) best) with (if mdead (tstep m t) then match best' with Some (p, v, r) => Cut false p v r | None => Nothing end else scan (tstep m t) (pre ++ [t]) r best').
    clearbody best'. unfold lnext.
    assert (Li : S (floor + length (text pre) + length (ttext t) - 1) = floor + length (text (pre ++ [t]))).
    { rewrite text_app. cbn [text flat_map]. rewrite app_nil_r, app_length. pose proof (ttext_len t). lia. }
    destruct (mdead (tstep m t)) eqn:D.
    + pose proof (TN fuel best' lt' q' 2 (tstep m t) C') as T. destruct best' as [[[p v] rr]|]; [|exact T].
      exists fuel. split; [lia|]. destruct C' as (_ & _ & Lp & Ep). split; [exact Lp|]. split; [exact Ep|]. exact T.
    + rewrite Li.
      assert (E2 : s = A ++ text (pre ++ [t]) ++ text r). { rewrite text_app. cbn [text flat_map]. rewrite app_nil_r, <- app_assoc. exact Es'. }
      assert (R : r <> [] \/ mfin (tstep m t) <> None ->
        match scan (tstep m t) (pre ++ [t]) r best' with
        | Whole v => lloop s iv0 fuel (floor + length (text (pre ++ [t]))) floor lt' q' (tstep m t) vw iv = Some (upd iv (addt v (skipn floor s)) vw, iv)
        | Nothing => b = false -> lloop s iv0 fuel (floor + length (text (pre ++ [t]))) floor lt' q' (tstep m t) vw iv = Some (upd iv (addt kundef (skipn floor s)) vw, iv)
        | Cut e p v r0 => exists fuel', S fuel <= fuel' + S (length (t :: r)) /\ 2 <= length (text p) /\ s = A ++ text p ++ cPLUS :: text r0 /\
            lloop s iv0 fuel (floor + length (text (pre ++ [t]))) floor lt' q' (tstep m t) vw iv =
            lloop s iv0 fuel' (S (floor + length (text p))) (S (floor + length (text p))) (Some v) (floor + length (text p) + if e then 1 else 2)
              minit (cut_word iv (upd iv (addt v (text p)) vw)) (S iv)
        end).
      { intros Hn. cbn [length] in Hf.
        assert (Hf' : length r < fuel) by lia.
        assert (Hp' : pre ++ [t] = [] -> mfin (tstep m t) = None) by (intros K; destruct pre; discriminate).
        pose proof (IH (pre ++ [t]) best' (tstep m t) q' lt' fuel Hr Hf' E2 Hn Hp' C' B') as Q.
        destruct (scan (tstep m t) (pre ++ [t]) r best'); try exact Q. destruct Q as (f' & Q1 & Q2). exists f'. split; [cbn; lia|exact Q2]. }
      destruct (Nat.eqb_spec (floor + length (text (pre ++ [t]))) (length s)) as [K|K].
      * assert (r = []) as ->.
        { destruct r as [|t1 r]; [reflexivity|]. exfalso. rewrite E2, !app_length in K. change (text (t1 :: r)) with (ttext t1 ++ text r) in K. rewrite app_length in K.
          pose proof (ttext_len t1). unfold floor in K. lia. }
        destruct (mfin (tstep m t)) as [v|] eqn:E.
        -- apply R. right. discriminate.
        -- cbn [Spec.MorphoStream.scan]. rewrite E. pose proof (TN fuel best' lt' q' 1 (tstep m t) C') as T. destruct best' as [[[p v] rr]|]; [|exact T].
           exists fuel. split; [cbn; lia|]. destruct C' as (_ & _ & Lp & Ep). split; [exact Lp|]. split; [exact Ep|]. exact T.
      * apply R. left. intros ->. apply K. rewrite E2, !app_length. cbn. unfold floor. lia.
Qed.
End One.

(** the parts of an analysis go to consecutive words *)
Fixpoint put_pieces (ps : list (str * nat)) (iv : nat) (vw : list tword) : list tword :=
  match ps with
  | [] => vw
  | [(t, v)] => upd iv (addt v t) vw
  | (t, v) :: r => put_pieces r (S iv) (cut_word iv (upd iv (addt v t) vw))
  end.
Lemma text_len ts : length ts <= length (text ts).
Proof. induction ts as [|t r IH]; [reflexivity|]. change (text (t :: r)) with (ttext t ++ text r). rewrite app_length. pose proof (ttext_len t). cbn [length]. lia. Qed.
Lemma scan_cut_sound m toks : forall pre best e p v r,
  match best with Some (p, _, r) => 2 <= length (text p) /\ text pre ++ text toks = text p ++ cPLUS :: text r /\ (Forall tok_ok (pre ++ toks) -> Forall tok_ok r) | None => True end ->
  scan m pre toks best = Cut e p v r -> 2 <= length (text p) /\ text pre ++ text toks = text p ++ cPLUS :: text r /\ (Forall tok_ok (pre ++ toks) -> Forall tok_ok r).
Proof.
  revert m. induction toks as [|t l IH]; intros m pre best e p v r Hb; cbn [Spec.MorphoStream.scan].
  - destruct (mfin m); [discriminate|]. destruct best as [[[p' v'] r']|]; [|discriminate]. intros E; injection E as _ <- _ <-. exact Hb.
  - set (best' := match t, mfin m with TC c, Some v => if (c =?c cPLUS) && (2 <=? length (text pre)) then Some (pre, v, l) else best | _, _ => best end).
    assert (B : match best' with Some (p, _, r) => 2 <= length (text p) /\ text pre ++ text (t :: l) = text p ++ cPLUS :: text r /\ (Forall tok_ok (pre ++ t :: l) -> Forall tok_ok r) | None => True end).
    { subst best'. destruct t as [c|n]; [|exact Hb]. destruct (mfin m); [|exact Hb]. destruct (ceq_spec c cPLUS) as [->|_]; [|exact Hb].
      cbn [andb]. destruct (Nat.leb_spec 2 (length (text pre))) as [L|_]; [|exact Hb]. split; [exact L|]. split; [reflexivity|].
      intros F. apply Forall_app in F as [_ F]. inversion F; assumption. }
    clearbody best'. destruct (mdead _).
    + destruct best' as [[[p' v'] r']|]; [|discriminate]. intros E; injection E as _ <- _ <-. exact B.
    + intros E. assert (A1 : text (pre ++ [t]) ++ text l = text pre ++ text (t :: l)) by (rewrite text_app, <- app_assoc; cbn [text flat_map]; rewrite app_nil_r; reflexivity).
      assert (A2 : (pre ++ [t]) ++ l = pre ++ t :: l) by (rewrite <- app_assoc; reflexivity).
      apply IH in E; [rewrite A1, A2 in E; exact E|]. rewrite A1, A2. exact B.
Qed.
Lemma pieces_len b ts ps : lrlm b ts ps -> length ps <= S (length (text ts)).
Proof.
  induction 1 as [| |b ts e p v r ps E Hr H IH]; [cbn; lia..|].
  apply scan_cut_sound in E; [|exact I]. destruct E as (L & E & _). cbn [text flat_map app] in E. rewrite E, app_length. cbn [length] in *. lia.
Qed.
Lemma pieces_text b ts ps : lrlm b ts ps -> exists t v r, ps = (t, v) :: r /\ text ts = t ++ flat_map (fun x => cPLUS :: fst x) r.
Proof.
  induction 1 as [b ts v E|ts E|b ts e p v r ps E Hr H IH].
  - exists (text ts), v, []. split; [reflexivity|]. cbn. rewrite app_nil_r. reflexivity.
  - exists (text ts), kundef, []. split; [reflexivity|]. cbn. rewrite app_nil_r. reflexivity.
  - destruct IH as (t & v' & r' & -> & IH). exists (text p), v, ((t, v') :: r'). split; [reflexivity|].
    apply scan_cut_sound in E; [|exact I]. destruct E as (_ & E & _). cbn [text flat_map app] in E. rewrite E, IH. reflexivity.
Qed.
Lemma lloop_lrlm b ts ps : lrlm b ts ps -> forall A s iv0 vw iv fuel lt q, Forall tok_ok ts -> ts <> [] -> s = A ++ text ts ->
  (b = false -> q = S (length A)) -> length ps * S (length s) <= fuel ->
  lloop s iv0 fuel (length A) (length A) lt q minit vw iv = Some (put_pieces ps iv vw, iv + length ps - 1).
Proof.
  induction 1 as [b ts v E|ts E|b ts e p v r ps E Hr H IH]; intros A s iv0 vw iv fuel lt q Hok Hne Es Hq Hf.
  - pose proof (scan_sim s A iv0 vw iv b ts [] None minit q lt fuel Hok) as Q. rewrite E in Q.
    assert (Sk : skipn (length A) s = text ts) by (rewrite Es, skipn_app, skipn_all, Nat.sub_diag; reflexivity).
    cbn [text flat_map length app] in Q. rewrite Nat.add_0_r, Sk in Q. rewrite Q; [cbn; f_equal; f_equal; lia| | | | | |exact I].
    + pose proof (text_len ts). rewrite Es, app_length in Hf. cbn [length] in Hf. lia.
    + exact Es.
    + left. exact Hne.
    + intros _. exact init_nofin.
    + cbn. destruct b; [right; reflexivity|left; apply Hq; reflexivity].
  - pose proof (scan_sim s A iv0 vw iv false ts [] None minit q lt fuel Hok) as Q. rewrite E in Q.
    assert (Sk : skipn (length A) s = text ts) by (rewrite Es, skipn_app, skipn_all, Nat.sub_diag; reflexivity).
    cbn [text flat_map length app] in Q. rewrite Nat.add_0_r, Sk in Q. rewrite Q; [cbn; f_equal; f_equal; lia| | | | | |exact I|reflexivity].
    + pose proof (text_len ts). rewrite Es, app_length in Hf. cbn [length] in Hf. lia.
    + exact Es.
    + left. exact Hne.
    + intros _. exact init_nofin.
    + cbn. left. apply Hq. reflexivity.
  - pose proof (scan_sim s A iv0 vw iv b ts [] None minit q lt fuel Hok) as Q. rewrite E in Q.
    cbn [text flat_map length app] in Q. rewrite Nat.add_0_r in Q.
    pose proof (text_len ts) as TL. assert (LS : length s = length A + length (text ts)) by (rewrite Es, app_length; reflexivity).
    destruct Q as (f' & Q1 & Q2 & Q3 & Q4).
    + cbn [length] in Hf. lia.
    + exact Es.
    + left. exact Hne.
    + intros _. exact init_nofin.
    + cbn. destruct b; [right; reflexivity|left; apply Hq; reflexivity].
    + exact I.
    + rewrite Q4. apply scan_cut_sound in E; [|exact I]. destruct E as (_ & _ & E).
      assert (LA : S (length A + length (text p)) = length (A ++ text p ++ [cPLUS])) by (rewrite !app_length; cbn [length]; lia).
      rewrite LA. rewrite (IH (A ++ text p ++ [cPLUS])).
      * destruct ps as [|x ps]; [inversion H|]. cbn [length put_pieces]. f_equal. f_equal. lia.
      * apply E. exact Hok.
      * exact Hr.
      * rewrite <- !app_assoc. exact Q3.
      * intros ->. rewrite <- LA. lia.
      * cbn [length] in Hf. lia.
Qed.
Theorem lrlm_correct ts ps vw iv : Forall tok_ok ts -> lrlm false ts ps ->
  lrlmClassify mt prefer kundef M minit mstep mtag mfin mdead (text ts) vw iv = Some (put_pieces ps iv vw, iv + length ps - 1).
Proof.
  intros Hok H. unfold lrlmClassify. destruct ts as [|t ts].
  - cbn [text flat_map length Nat.mul Nat.add]. cbn [MorphoStream.lloop Nat.eqb length]. unfold lfinish. rewrite init_nofin, Nat.ltb_irrefl. cbn [skipn].
    inversion H as [? ? ? E|? E|? ? ? ? ? ? ? E]; subst; cbn in E; rewrite init_nofin in E; try discriminate. cbn. f_equal. f_equal. lia.
  - apply (lloop_lrlm false (t :: ts) ps H []); [exact Hok|discriminate|reflexivity|reflexivity|].
    pose proof (pieces_len _ _ _ H). apply Nat.mul_le_mono_r. assumption.
Qed.
End L.

(** ** the words of a lexical unit *)
Lemma upd_nth iv f vw k : nth_error (upd iv f vw) k = if k =? iv then option_map f (nth_error vw k) else nth_error vw k.
Proof.
  revert iv k; induction vw as [|w r IH]; intros iv k.
  - destruct iv; destruct k; cbn; try reflexivity. destruct (k =? iv); reflexivity.
  - destruct iv as [|iv]; destruct k as [|k]; try reflexivity. exact (IH iv k).
Qed.
Lemma upd_len iv f vw : length (upd iv f vw) = length vw.
Proof. revert iv; induction vw as [|w r IH]; intros [|iv]; cbn; auto. Qed.
Lemma list_ext {X} (a b : list X) : (forall k, nth_error a k = nth_error b k) -> a = b.
Proof.
  revert b; induction a as [|x a IH]; intros [|y b] H; [reflexivity|discriminate (H 0)|discriminate (H 0)|].
  pose proof (H 0) as H0. injection H0 as ->. f_equal. apply IH. intros k. exact (H (S k)).
Qed.

Section W.
Variable mt : str -> str -> bool.
Variables prefer : list str.
Notation addt := (add_tag mt prefer).
Notation put_pieces := (put_pieces mt prefer).
Definition cutb (b : bool) (w : tword) := if b then set_cut true w else w.

Lemma cut_word_nth iv vw k : iv < length vw ->
  nth_error (cut_word iv vw) k = if k =? iv then option_map (set_cut true) (nth_error vw k)
    else if (k =? S iv) && (length vw =? S iv) then Some (tword0 true) else nth_error vw k.
Proof.
  intros H. unfold cut_word. rewrite upd_len. destruct (Nat.leb_spec (length vw) (S iv)) as [L|L].
  - destruct (Nat.ltb_spec k (length vw)) as [Lk|Lk].
    + rewrite nth_error_app1 by (rewrite upd_len; exact Lk). rewrite upd_nth. destruct (Nat.eqb_spec k iv); [reflexivity|].
      destruct (Nat.eqb_spec k (S iv)); [lia|]. reflexivity.
    + rewrite nth_error_app2 by (rewrite upd_len; exact Lk). rewrite upd_len. destruct (Nat.eqb_spec k iv); [lia|].
      destruct (Nat.eqb_spec k (S iv)) as [->|N].
      * destruct (Nat.eqb_spec (length vw) (S iv)); [|lia]. replace (S iv - length vw) with 0 by lia. reflexivity.
      * cbn [andb]. rewrite (proj2 (nth_error_None vw k)) by exact Lk. apply nth_error_None. cbn. lia.
  - rewrite upd_nth. destruct (Nat.eqb_spec k iv); [reflexivity|]. destruct (Nat.eqb_spec (length vw) (S iv)); [lia|]. rewrite andb_false_r. reflexivity.
Qed.
Lemma put_pieces_nth ps : forall iv vw k, ps <> [] -> iv < length vw ->
  nth_error (put_pieces ps iv vw) k =
  if k <? iv then nth_error vw k
  else match nth_error ps (k - iv) with
       | Some (t, v) => Some (cutb (S (k - iv) <? length ps) (addt v t (match nth_error vw k with Some w => w | None => tword0 true end)))
       | None => nth_error vw k
       end.
Proof.
  induction ps as [|[t v] ps IH]; intros iv vw k Hne Hiv; [congruence|]. destruct ps as [|x ps].
  - cbn [MorphoStream.put_pieces]. rewrite upd_nth. destruct (Nat.ltb_spec k iv) as [L|L]; [destruct (Nat.eqb_spec k iv); [lia|reflexivity]|].
    destruct (Nat.eqb_spec k iv) as [->|N].
    + rewrite Nat.sub_diag. cbn. destruct (nth_error vw iv) eqn:E; [reflexivity|]. apply nth_error_None in E. lia.
    + destruct (k - iv) as [|j] eqn:Ej; [lia|]. cbn. destruct j; reflexivity.
  - change (put_pieces ((t, v) :: x :: ps) iv vw) with (put_pieces (x :: ps) (S iv) (cut_word iv (upd iv (addt v t) vw))).
    assert (L1 : S iv < length (cut_word iv (upd iv (addt v t) vw))).
    { apply nth_error_Some. rewrite cut_word_nth by (rewrite upd_len; exact Hiv). destruct (Nat.eqb_spec (S iv) iv); [lia|]. rewrite Nat.eqb_refl.
      cbn [andb]. rewrite upd_len. destruct (Nat.eqb_spec (length vw) (S iv)) as [E|E]; [discriminate|]. apply nth_error_Some. rewrite upd_len. lia. }
    rewrite (IH (S iv) _ k ltac:(discriminate) L1). clear IH L1.
    rewrite cut_word_nth by (rewrite upd_len; exact Hiv). rewrite upd_nth, upd_len.
    destruct (Nat.ltb_spec k iv) as [La|La].
    + destruct (Nat.ltb_spec k (S iv)); [|lia]. destruct (Nat.eqb_spec k iv); [lia|]. destruct (Nat.eqb_spec k (S iv)); [lia|]. reflexivity.
    + destruct (Nat.eqb_spec k iv) as [->|N].
      * destruct (Nat.ltb_spec iv (S iv)); [|lia]. rewrite Nat.sub_diag. cbn [nth_error length]. cbn [Nat.ltb Nat.leb]. unfold cutb.
        destruct (nth_error vw iv) eqn:E; [reflexivity|]. apply nth_error_None in E. lia.
      * destruct (Nat.ltb_spec k (S iv)); [lia|]. replace (k - iv) with (S (k - S iv)) by lia. cbn [nth_error].
        destruct (nth_error (x :: ps) (k - S iv)) as [[t' v']|] eqn:Ep.
        -- f_equal. change (length ((t, v) :: x :: ps)) with (S (length (x :: ps))).
           assert (B : (S (S (k - S iv)) <? S (length (x :: ps))) = (S (k - S iv) <? length (x :: ps))) by reflexivity. rewrite B. f_equal. f_equal.
           destruct (Nat.eqb_spec k (S iv)) as [->|N']; [|reflexivity]. cbn [andb].
           destruct (Nat.eqb_spec (length vw) (S iv)) as [El|El]; [|reflexivity].
           rewrite (proj2 (nth_error_None vw (S iv))) by lia. reflexivity.
        -- apply nth_error_None in Ep. cbn [length] in Ep. destruct (Nat.eqb_spec k (S iv)); [lia|]. reflexivity.
Qed.
Lemma maxlen_app (pss : list (list (str * nat))) ps : fold_right Nat.max 1 (map (@length _) (pss ++ [ps])) = Nat.max (length ps) (fold_right Nat.max 1 (map (@length _) pss)).
Proof. induction pss as [|x r IH]; cbn; [reflexivity|]. rewrite IH. lia. Qed.
Lemma maxlen_ge (pss : list (list (str * nat))) : 1 <= fold_right Nat.max 1 (map (@length _) pss).
Proof. induction pss; cbn; lia. Qed.
Lemma maxlen_in (pss : list (list (str * nat))) ps : In ps pss -> length ps <= fold_right Nat.max 1 (map (@length _) pss).
Proof. induction pss; cbn; [tauto|]. intros [->|H]; [lia|]. specialize (IHpss H). lia. Qed.
Lemma nth_seq n k : nth_error (seq 0 n) k = if k <? n then Some k else None.
Proof.
  destruct (Nat.ltb_spec k n) as [L|L]; [|apply nth_error_None; rewrite seq_length; exact L].
  rewrite (nth_error_nth' _ 0) by (rewrite seq_length; exact L). rewrite seq_nth by exact L. reflexivity.
Qed.
Lemma lu_words_nth first pss k : nth_error (lu_words addt first pss) k =
  if k <? fold_right Nat.max 1 (map (@length _) pss) then Some (word_k addt first pss k) else None.
Proof. unfold lu_words. rewrite nth_error_map, nth_seq. destruct (k <? _); reflexivity. Qed.
Lemma lu_words_len first pss : length (lu_words addt first pss) = fold_right Nat.max 1 (map (@length _) pss).
Proof. unfold lu_words. rewrite map_length, seq_length. reflexivity. Qed.

Lemma add_cut v t w c : addt v t (mktw (sf w) (tags w) (forms w) (ign w) c (pcut w)) = set_cut c (addt v t w).
Proof. unfold add_tag, set_cut. cbn [tags forms sf ign pcut]. destruct (negb _); [reflexivity|]. destruct (existsb (mt t) prefer); reflexivity. Qed.
Lemma cutb_cut b c w : cutb b (set_cut c w) = set_cut (c || b) w.
Proof. destruct b; cbn; rewrite ?orb_true_r, ?orb_false_r; reflexivity. Qed.
Lemma put_all first pss : cut first = false -> Forall (fun ps => ps <> []) pss ->
  fold_left (fun vw ps => put_pieces ps 0 vw) pss [first] = lu_words addt first pss.
Proof.
  intros Hc. induction pss as [|ps pss IH] using rev_ind; intros Hne.
  - cbn. unfold word_k. cbn. rewrite <- Hc. destruct first; reflexivity.
  - rewrite fold_left_app. cbn [fold_left]. apply Forall_app in Hne as [Hne Hps]. inversion Hps as [|? ? Hp _]; subst. rewrite IH by exact Hne.
    pose proof (maxlen_ge pss) as G.
    apply list_ext. intros k. rewrite put_pieces_nth; [|exact Hp|rewrite lu_words_len; lia].
    cbn [Nat.ltb Nat.leb]. rewrite Nat.sub_0_r, !lu_words_nth, maxlen_app.
    destruct (nth_error ps k) as [[t v]|] eqn:E.
    + assert (Lk : k < length ps) by (apply nth_error_Some; congruence).
      destruct (Nat.ltb_spec k (Nat.max (length ps) (fold_right Nat.max 1 (map (@length _) pss)))); [|lia]. f_equal.
      unfold word_k at 2. rewrite fold_left_app. cbn [fold_left]. rewrite E, existsb_app. cbn [existsb]. rewrite orb_false_r.
      assert (Q : forall w, fold_left (fun w ps => match nth_error ps k with Some (t, v) => addt v t w | None => w end) pss
                     (match k with 0 => first | _ => tword0 true end) = w ->
         (match (if k <? fold_right Nat.max 1 (map (@length _) pss) then Some (word_k addt first pss k) else None) with Some w => w | None => tword0 true end)
           = mktw (sf w) (tags w) (forms w) (ign w) (existsb (fun ps => S k <? length ps) pss) (pcut w)).
      { intros w Ew. destruct (Nat.ltb_spec k (fold_right Nat.max 1 (map (@length _) pss))) as [L|L].
        - unfold word_k. rewrite Ew. reflexivity.
        - destruct k as [|k]; [lia|].
          assert (Ew' : w = tword0 true).
          { rewrite <- Ew. clear - L. induction pss as [|x r IH]; [reflexivity|]. cbn in L. cbn [fold_left].
            rewrite (proj2 (nth_error_None x (S k))) by lia. apply IH. lia. }
          rewrite Ew'. assert (X : existsb (fun ps => S (S k) <? length ps) pss = false).
          { destruct (existsb _ pss) eqn:X; [|reflexivity]. apply existsb_exists in X as (x & Hx & Lx). apply Nat.ltb_lt in Lx.
            apply maxlen_in in Hx. lia. }
          rewrite X. reflexivity. }
      specialize (Q _ eq_refl). rewrite Q. clear Q.
      set (w := fold_left _ pss _). rewrite add_cut, cutb_cut. reflexivity.
    + apply nth_error_None in E.
      destruct (Nat.ltb_spec k (fold_right Nat.max 1 (map (@length _) pss))) as [L|L].
      * destruct (Nat.ltb_spec k (Nat.max (length ps) (fold_right Nat.max 1 (map (@length _) pss)))); [|lia]. f_equal.
        unfold word_k. rewrite fold_left_app. cbn [fold_left]. rewrite (proj2 (nth_error_None ps k)) by exact E. rewrite existsb_app. cbn [existsb].
        destruct (Nat.ltb_spec (S k) (length ps)); [lia|]. rewrite !orb_false_r. reflexivity.
      * destruct (Nat.ltb_spec k (Nat.max (length ps) (fold_right Nat.max 1 (map (@length _) pss)))); [lia|]. reflexivity.
Qed.
End W.

(** ** reading *)
Section R.
Variable mt : str -> str -> bool.
Variables prefer discardr : list str.
Variables keof kundef : nat.
Variable M : Type.
Variables (minit : M) (mstep : M -> char -> M) (mtag : M -> str -> M) (mfin : M -> option nat) (mdead : M -> bool).
Variable nf : bool.
Hypothesis init_nofin : mfin minit = None.
Notation addt := (add_tag mt prefer).
Notation lrlm := (lrlm M minit mstep mtag mfin mdead kundef).
Notation read_analyses := (read_analyses mt prefer keof kundef M minit mstep mtag mfin mdead nf).
Notation read_surface := (read_surface mt prefer keof kundef M minit mstep mtag mfin mdead nf).
Notation read_blank := (read_blank mt prefer keof kundef M minit mstep mtag mfin mdead nf).
Notation read_word := (read_word mt prefer keof kundef M minit mstep mtag mfin mdead nf).
Notation words := (words mt prefer discardr keof kundef M minit mstep mtag mfin mdead nf).

Lemma is_end_spec c : is_end nf c = true <-> isnul nf c.
Proof.
  unfold is_end, isnul. rewrite andb_true_iff. split; intros [-> H]; split; try reflexivity; [apply ceq_eq, H|subst; apply ceq_refl].
Qed.
Lemma is_end_false c : ~ isnul nf c -> is_end nf c = false.
Proof. intros H. destruct (is_end nf c) eqn:E; [|reflexivity]. apply is_end_spec in E. contradiction. Qed.

Lemma analyses_part a : part_ok nf a -> forall acc rest vw iv, read_analyses (a ++ rest) acc vw iv = read_analyses rest (acc ++ a) vw iv.
Proof.
  induction 1 as [|c s Hb Hs _ IH|d s Hd _ IH]; intros acc rest vw iv.
  - cbn [app]. rewrite app_nil_r. reflexivity.
  - cbn [app MorphoStream.read_analyses]. rewrite (is_end_false c) by (intros K; apply Hs; auto).
    destruct (ceq_spec c cBS) as [K|_]; [contradiction|]. destruct (ceq_spec c cSLASH) as [K|_]; [exfalso; apply Hs; auto|].
    destruct (ceq_spec c cDOL) as [K|_]; [exfalso; apply Hs; auto|]. rewrite IH, <- app_assoc. reflexivity.
  - cbn [app MorphoStream.read_analyses]. rewrite (is_end_false cBS) by (intros [_ K]; discriminate). rewrite ceq_refl, IH, <- app_assoc. reflexivity.
Qed.
Lemma surface_part a : part_ok nf a -> forall acc rest vw iv, read_surface (a ++ rest) acc vw iv = read_surface rest (acc ++ a) vw iv.
Proof.
  induction 1 as [|c s Hb Hs _ IH|d s Hd _ IH]; intros acc rest vw iv.
  - cbn [app]. rewrite app_nil_r. reflexivity.
  - cbn [app MorphoStream.read_surface]. rewrite (is_end_false c) by (intros K; apply Hs; auto).
    destruct (ceq_spec c cBS) as [K|_]; [contradiction|]. destruct (ceq_spec c cSLASH) as [K|_]; [exfalso; apply Hs; auto|].
    destruct (ceq_spec c cDOL) as [K|_]; [exfalso; apply Hs; auto|]. rewrite IH, <- app_assoc. reflexivity.
  - cbn [app MorphoStream.read_surface]. rewrite (is_end_false cBS) by (intros [_ K]; discriminate). rewrite ceq_refl, IH, <- app_assoc. reflexivity.
Qed.
Lemma blank_part a : blank_ok nf a -> forall acc rest vw, read_blank (a ++ rest) acc vw = read_blank rest (acc ++ a) vw.
Proof.
  induction 1 as [|c s Hb Hs _ IH|d s Hd _ IH]; intros acc rest vw.
  - cbn [app]. rewrite app_nil_r. reflexivity.
  - cbn [app MorphoStream.read_blank]. rewrite (is_end_false c) by (intros K; apply Hs; auto).
    destruct (ceq_spec c cBS) as [K|_]; [contradiction|]. destruct (ceq_spec c cCARET) as [K|_]; [exfalso; apply Hs; auto|].
    rewrite IH, <- app_assoc. reflexivity.
  - cbn [app MorphoStream.read_blank]. rewrite (is_end_false cBS) by (intros [_ K]; discriminate). rewrite ceq_refl, (is_end_false d Hd), IH, <- app_assoc. reflexivity.
Qed.
(** the start of a word or the end of a document, after a blank *)
Definition after_blank (b rest : str) : option rst :=
  match rest with
  | [] => Some (mkr [] true true [addt keof [] (add_ign b (tword0 false))])
  | c :: r => if c =?c cCARET then read_surface r [] [add_ign b (tword0 false)] 0
              else Some (mkr r false true [addt keof [] (add_ign b (tword0 false))])
  end.
Lemma word_blank b rest : blank_ok nf b -> match rest with [] => True | c :: _ => c = cCARET \/ isnul nf c end ->
  read_word (b ++ rest) = after_blank b rest.
Proof.
  intros Hb Hr.
  assert (RB : forall acc, acc <> [] -> read_blank rest acc [tword0 false] = after_blank acc rest).
  { intros acc Ha. destruct rest as [|c r]; [reflexivity|]. cbn [MorphoStream.read_blank after_blank]. destruct Hr as [->|Hn].
    - destruct (is_end nf cCARET) eqn:E; [apply is_end_spec in E as [_ E]; discriminate|]. rewrite ceq_refl.
      change (cCARET =?c cBS) with false. destruct acc; [congruence|reflexivity].
    - pose proof Hn as Hn'. apply is_end_spec in Hn'. rewrite Hn'. destruct Hn as [_ ->]. reflexivity. }
  destruct Hb as [|c s Hc Hs Hb|d s Hd Hb]; unfold MorphoStream.read_word.
  - cbn [app]. destruct rest as [|c r]; [reflexivity|]. unfold after_blank. destruct Hr as [->|Hn].
    + destruct (is_end nf cCARET) eqn:E; [apply is_end_spec in E as [_ E]; discriminate|]. reflexivity.
    + pose proof Hn as Hn'. apply is_end_spec in Hn'. rewrite Hn'. destruct Hn as [_ ->]. reflexivity.
  - cbn [app]. rewrite (is_end_false c) by (intros K; apply Hs; auto). destruct (ceq_spec c cCARET) as [K|_]; [exfalso; apply Hs; auto|].
    destruct (ceq_spec c cBS) as [K|_]; [contradiction|]. rewrite (blank_part s Hb). cbn [app]. apply RB. discriminate.
  - cbn [app]. rewrite (is_end_false cBS) by (intros [_ K]; discriminate). change (cBS =?c cCARET) with false. rewrite ceq_refl.
    rewrite (blank_part s Hb). apply RB. discriminate.
Qed.

Variable parts : list tok -> list (str * nat).
Definition an_ok (a : list tok) : Prop := Forall tok_ok a /\ part_ok nf (text a) /\ starts_star (text a) = false.

Lemma read_ans ans : forall rest vw, ans <> [] -> Forall an_ok ans -> (forall a, In a ans -> lrlm false a (parts a)) ->
  read_analyses (join (map text ans) ++ cDOL :: rest) [] vw 0 =
  Some (mkr rest false false (fold_left (fun vw ps => put_pieces mt prefer ps 0 vw) (map parts ans) vw)).
Proof.
  induction ans as [|a ans IH]; intros rest vw Hne Hok Hl; [congruence|]. inversion Hok as [|? ? (O1 & O2 & O3) Hok']; subst.
  destruct ans as [|a2 ans].
  - cbn [map join]. rewrite (analyses_part _ O2). cbn [app MorphoStream.read_analyses]. rewrite (is_end_false cDOL) by (intros [_ K]; discriminate).
    change (cDOL =?c cBS) with false. change (cDOL =?c cSLASH) with false. change (cDOL =?c cDOL) with true. cbv iota.
    refine (eq_trans (f_equal (fun b : bool => if b then _ else _) O3) _). cbv iota.
    rewrite (lrlm_correct mt prefer kundef M minit mstep mtag mfin mdead init_nofin a (parts a) vw 0 O1 (Hl a (or_introl eq_refl))). reflexivity.
  - change (join (map text (a :: a2 :: ans))) with (text a ++ cSLASH :: join (map text (a2 :: ans))).
    rewrite <- app_assoc, (analyses_part _ O2). cbn [app MorphoStream.read_analyses]. rewrite (is_end_false cSLASH) by (intros [_ K]; discriminate).
    change (cSLASH =?c cBS) with false. change (cSLASH =?c cSLASH) with true. cbv iota.
    rewrite (lrlm_correct mt prefer kundef M minit mstep mtag mfin mdead init_nofin a (parts a) vw 0 O1 (Hl a (or_introl eq_refl))).
    rewrite IH; [reflexivity|discriminate|exact Hok'|]. intros x Hx. apply Hl. right. exact Hx.
Qed.
Lemma parts_ne a : lrlm false a (parts a) -> parts a <> [].
Proof. intros H. destruct (pieces_text _ _ _ _ _ _ _ _ _ _ H) as (t & v & r & -> & _). discriminate. Qed.
Lemma read_lu l rest : lu_ok nf l -> (forall ans a, l_read l = Known ans -> In a ans -> lrlm false a (parts a)) ->
  read_word (lu_text l ++ rest) = Some (mkr rest false false (words_of addt parts l)).
Proof.
  intros (Hb & Hs & Hr) Hl. unfold lu_text. rewrite <- app_assoc. cbn [app]. rewrite (word_blank (l_blank l)); [|exact Hb|left; reflexivity].
  unfold after_blank. rewrite ceq_refl. rewrite <- app_assoc. rewrite (surface_part _ Hs). cbn [app MorphoStream.read_surface].
  rewrite (is_end_false cSLASH) by (intros [_ K]; discriminate). change (cSLASH =?c cBS) with false. change (cSLASH =?c cSLASH) with true. cbv iota.
  unfold words_of. rewrite <- app_assoc. destruct (l_read l) as [ans|s] eqn:E; cbn [read_text].
  - destruct Hr as [Hne Hok]. cbn [app]. rewrite (read_ans ans rest _ Hne Hok (fun a => Hl ans a eq_refl)).
    f_equal. f_equal. cbn [upd]. apply (put_all mt prefer (first_word l) (map parts ans) eq_refl).
    apply Forall_forall. intros ps Hps. apply in_map_iff in Hps as (a & <- & Ha). apply parts_ne. exact (Hl ans a eq_refl Ha).
  - assert (Q : part_ok nf (cSTAR :: s)).
    { constructor; [discriminate| |exact Hr]. intros [K|[K|[_ K]]]; discriminate. }
    rewrite (analyses_part _ Q). cbn [app MorphoStream.read_analyses]. rewrite (is_end_false cDOL) by (intros [_ K]; discriminate).
    change (cDOL =?c cBS) with false. change (cDOL =?c cSLASH) with false. change (cDOL =?c cDOL) with true. cbv iota.
    cbn [starts_star]. rewrite ceq_refl. reflexivity.
Qed.
Lemma read_end_eof b : blank_ok nf b -> read_word b = Some (mkr [] true true [end_word keof b]).
Proof. intros H. rewrite <- (app_nil_r b) at 1. rewrite (word_blank b []); [reflexivity|exact H|exact I]. Qed.
Lemma read_end_nul b rest : nf = true -> blank_ok nf b -> read_word (b ++ cNUL :: rest) = Some (mkr rest false true [end_word keof b]).
Proof. intros Hn H. rewrite (word_blank b); [reflexivity|exact H|right; split; [exact Hn|reflexivity]]. Qed.

Notation dsc := (discard mt discardr).
Lemma on_words_app f l1 l2 : on_words f (l1 ++ l2) = match on_words f l1, on_words f l2 with Some a, Some b => Some (a ++ b) | _, _ => None end.
Proof.
  induction l1 as [|[w b] r IH]; cbn; [destruct (on_words f l2); reflexivity|]. rewrite IH.
  destruct (f w); [|reflexivity]. destruct (on_words f r); [|reflexivity]. destruct (on_words f l2); reflexivity.
Qed.
Lemma discard_list_on l : on_words dsc (map (fun w => (w, false)) l) = option_map (map (fun w => (w, false))) (discard_list mt discardr l).
Proof. induction l as [|w r IH]; cbn; [reflexivity|]. rewrite IH. destruct (dsc w); [|reflexivity]. destruct (discard_list mt discardr r); reflexivity. Qed.
Lemma flagged_false l : flagged false l = map (fun w => (w, false)) l.
Proof. destruct l; reflexivity. Qed.
Lemma dsc_end b : dsc (end_word keof b) = Some (end_word keof b).
Proof. reflexivity. Qed.

Lemma words_lus lus : forall fuel rest, Forall (lu_ok nf) lus ->
  (forall l ans a, In l lus -> l_read l = Known ans -> In a ans -> lrlm false a (parts a)) ->
  words (length lus + fuel) (flat_map lu_text lus ++ rest) =
  match on_words dsc (map (fun w => (w, false)) (flat_map (words_of addt parts) lus)), words fuel rest with
  | Some a, Some b => Some (a ++ b) | _, _ => None end.
Proof.
  induction lus as [|l lus IH]; intros fuel rest Hok Hl.
  - cbn. destruct (words fuel rest); reflexivity.
  - inversion Hok as [|? ? H1 H2]; subst. cbn [length Nat.add flat_map]. rewrite <- app_assoc. cbn [MorphoStream.words].
    rewrite (read_lu l _ H1) by (intros ans a; apply Hl; left; reflexivity). cbn [r_vw r_eof r_flag r_in].
    rewrite map_app, on_words_app, discard_list_on. destruct (discard_list mt discardr (words_of addt parts l)) as [dl|]; cbn [option_map]; [|reflexivity].
    rewrite IH; [|exact H2|intros l' ans a Hl'; apply Hl; right; exact Hl']. rewrite flagged_false.
    destruct (on_words dsc (map _ (flat_map (words_of addt parts) lus))) as [x|]; [|reflexivity].
    destruct (words fuel rest) as [y|]; [rewrite <- app_assoc; reflexivity|reflexivity].
Qed.
Lemma words_docs : forall ds d fuel, (ds = [] \/ nf = true) -> Forall (doc_ok nf) (d :: ds) ->
  (forall d', In d' (d :: ds) -> analyses_in (fun a => lrlm false a (parts a)) d') ->
  fold_right (fun d n => length (d_lus d) + S n) 0 (d :: ds) <= fuel ->
  words fuel (docs_text d ds) = on_words dsc (docs_words addt keof parts d ds).
Proof.
  induction ds as [|d2 ds IH]; intros d fuel Hnf Hok Hl Hf.
  - cbn in Hf. cbn [docs_text docs_words]. unfold doc_text, doc_words. inversion Hok as [|? ? [O1 O2] _]; subst.
    assert (Ef : fuel = length (d_lus d) + S (fuel - S (length (d_lus d)))) by lia. rewrite Ef.
    rewrite words_lus; [|exact O1|intros l ans a H1 H2 H3; exact (Hl d (or_introl eq_refl) l ans a H1 H2 H3)].
    rewrite on_words_app. cbn [MorphoStream.words]. rewrite (read_end_eof _ O2). cbn [r_vw r_eof r_flag discard_list on_words]. rewrite dsc_end. reflexivity.
  - destruct Hnf as [K|Hnf]; [discriminate|]. cbn [fold_right] in Hf. cbn [docs_text docs_words]. unfold doc_text at 1, doc_words at 1. inversion Hok as [|? ? [O1 O2] Hok']; subst x l.
    assert (Ef : fuel = length (d_lus d) + S (fuel - S (length (d_lus d)))) by lia. rewrite Ef. rewrite <- app_assoc.
    rewrite words_lus; [|exact O1|intros l ans a H1 H2 H3; exact (Hl d (or_introl eq_refl) l ans a H1 H2 H3)].
    rewrite !on_words_app. cbn [MorphoStream.words]. rewrite (read_end_nul _ _ Hnf O2). cbn [r_vw r_eof r_flag r_in discard_list on_words]. rewrite dsc_end.
    rewrite (IH d2); [|right; exact Hnf|exact Hok'|intros d' Hd'; apply Hl; right; exact Hd'|cbn [fold_right] in *; lia].
    destruct (on_words dsc (map _ _)) as [x|]; [|reflexivity].
    destruct (on_words dsc (docs_words addt keof parts d2 ds)) as [y|]; [|reflexivity]. cbn [flagged map]. rewrite <- app_assoc. reflexivity.
Qed.
Lemma fuel_ok : forall ds d, fold_right (fun d n => length (d_lus d) + S n) 0 (d :: ds) <= S (length (docs_text d ds)).
Proof.
  assert (L : forall lus, length lus <= length (flat_map lu_text lus)).
  { induction lus as [|l r IH]; cbn; [lia|]. rewrite app_length. assert (1 <= length (lu_text l)) by (unfold lu_text; rewrite app_length; cbn [length]; lia). lia. }
  induction ds as [|d2 ds IH]; intros d.
  - cbn. unfold doc_text. rewrite app_length. specialize (L (d_lus d)). lia.
  - specialize (IH d2). change (docs_text d (d2 :: ds)) with (doc_text d ++ cNUL :: docs_text d2 ds). rewrite app_length. cbn [length]. unfold doc_text at 1. rewrite app_length. specialize (L (d_lus d)).
    change (fold_right (fun d n => length (d_lus d) + S n) 0 (d :: d2 :: ds)) with (length (d_lus d) + S (fold_right (fun d n => length (d_lus d) + S n) 0 (d2 :: ds))). lia.
Qed.
End R.
