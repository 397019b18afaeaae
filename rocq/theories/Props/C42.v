(** C42: the multi-translation transfer loop is left-to-right longest match.  The pattern matcher is any machine with the
    following properties (lttoolbox MatchState started on compiled patterns):
    - the initial state is live; a dead state stays dead; accepting states are live
    - live only after a sequence word blank word blank ...; accepting only after a word. *)
From Coq Require Import String.
From Verif Require Import Model.Base Proofs.Base Model.TransferMult Spec.TransferMult Proofs.TransferMult.

Definition run_items bil MS ms_init ms_word ms_blank ms_empty ms_final (items : list item) (last : str) (fuel : nat) : option str :=
  loop bil MS ms_init ms_word ms_blank ms_empty ms_final fuel (map tok items ++ [TEof last]) (t0 MS ms_init).

Theorem C42_longest_match : forall bil MS ms_init ms_word ms_blank ms_empty ms_final,
  let accepted l := ms_final (steps MS ms_word ms_blank ms_init l) = true in
  ms_empty ms_init = false ->
  (forall m, ms_final m = true -> ms_empty m = false) ->
  (forall m i, ms_empty m = true -> ms_empty (step MS ms_word ms_blank m i) = true) ->
  (forall l, ms_empty (steps MS ms_word ms_blank ms_init l) = false -> Alt l) ->
  (forall l, accepted l -> exists l' w, l = l' ++ [W w]) ->
  (forall w, acceptions (bil w) <> None) ->
  forall items last out,
    (exists fuel, run_items bil MS ms_init ms_word ms_blank ms_empty ms_final items last fuel = Some out) <->
    Run accepted (fun ws bs o => applyRule bil ws bs = Some o) (fun w o => defaultWord bil w = Some o) items last out.
Proof.
  intros bil MS ms_init ms_word ms_blank ms_empty ms_final accepted H1 H2 H3 H4 H5 H6 items last out.
  assert (HF : Fresh MS ms_init items items (t0 MS ms_init)).
  { exists [], [], 0. split; [reflexivity|]. split; [left; reflexivity|reflexivity]. }
  assert (S : forall fuel o, run_items bil MS ms_init ms_word ms_blank ms_empty ms_final items last fuel = Some o ->
    Run accepted (fun ws bs o => applyRule bil ws bs = Some o) (fun w o => defaultWord bil w = Some o) items last o).
  { intros fuel o E. eapply (loop_sound bil MS ms_init ms_word ms_blank ms_empty ms_final); try eassumption. left. exact HF. }
  split; [intros [fuel E]; eapply S, E|]. intros HR.
  destruct (loop_ends bil MS ms_init ms_word ms_blank ms_empty ms_final) with (items := items) (last := last) (n := length items) (rest := items) (st := t0 MS ms_init) as [f [o E]]; try assumption; [reflexivity|left; exact HF|].
  exists f. assert (EO : o = out).
  { eapply (run_functional accepted (fun ws bs o => applyRule bil ws bs = Some o) (fun w o => defaultWord bil w = Some o)); [| | |apply (S f), E|exact HR].
  - cbn. congruence.
  - cbn. congruence.
  - intros l A. assert (L := H4 l (H2 _ A)). inversion L; subst; eauto. destruct (H5 [] A) as [l' [w K]]. destruct l'; discriminate. }
  subst o. exact E.
Qed.
Print Assumptions C42_longest_match.

(** the tokeniser always delivers blanks and words followed by one end token, so the theorem covers every input it accepts *)
Theorem C42_tokens : forall s toks, lex s [] false = Some toks -> exists items last, toks = map tok items ++ [TEof last].
Proof. intros s toks H. eapply lex_form; [reflexivity|exact H]. Qed.
Print Assumptions C42_tokens.
(** on a stream of blanks (no unescaped ^ $ [) and superblanks and words, the tokens are its blanks and words *)
Inductive Plain : str -> Prop :=
| pl_nil : Plain []
| pl_char c p : c <> cBS -> c <> cLB -> c <> cDOL -> c <> cCARET -> Plain p -> Plain (c :: p)
| pl_esc c p : Plain p -> Plain (cBS :: c :: p)
| pl_blank s p : InBr s -> Plain p -> Plain (cLB :: s ++ cRB :: p)
with InBr : str -> Prop :=
| ib_nil : InBr []
| ib_char c p : c <> cBS -> c <> cRB -> InBr p -> InBr (c :: p)
| ib_esc c p : InBr p -> InBr (cBS :: c :: p).
Lemma lex_inbr s : InBr s -> forall r c, lex (s ++ cRB :: r) c true = lex r (c ++ s ++ [cRB]) false.
Proof.
  induction 1 as [|x p H1 H2 H IH|x p H IH]; intros r c.
  - cbn [app lex]. change (cRB =?c cBS) with false. rewrite ceq_refl. reflexivity.
  - cbn [app lex]. destruct (ceq_spec x cBS); [contradiction|]. destruct (ceq_spec x cRB); [contradiction|]. cbn [negb]. rewrite IH. f_equal. appeq.
  - cbn [app lex]. rewrite ceq_refl. rewrite IH. f_equal. appeq.
Qed.
Lemma lex_plain s : Plain s -> forall r c, lex (s ++ r) c false = lex r (c ++ s) false.
Proof.
  induction 1 as [|x p H1 H2 H3 H4 H IH|x p H IH|s p HB H IH]; intros r c.
  - rewrite app_nil_r. reflexivity.
  - cbn [app lex]. destruct (ceq_spec x cBS); [contradiction|]. destruct (ceq_spec x cLB); [contradiction|]. destruct (ceq_spec x cDOL); [contradiction|].
    destruct (ceq_spec x cCARET); [contradiction|]. rewrite IH. f_equal. appeq.
  - cbn [app lex]. rewrite ceq_refl. rewrite IH. f_equal. appeq.
  - cbn [app lex]. change (cLB =?c cBS) with false. rewrite ceq_refl. cbv beta iota. rewrite <- app_assoc. cbn [app]. rewrite lex_inbr by exact HB. rewrite IH. f_equal. appeq.
Qed.
Fixpoint stream (l : list (str * str)) (last : str) : str :=
  match l with [] => last | (b, w) :: r => b ++ cCARET :: w ++ cDOL :: stream r last end.
Theorem C42_tokenise : forall l last, Forall (fun bw => Plain (fst bw) /\ Plain (snd bw)) l -> Plain last ->
  lex (stream l last) [] false = Some (map tok (flat_map (fun bw => [B (fst bw); W (snd bw)]) l) ++ [TEof last]).
Proof.
  intros l last H HL. induction H as [|[b w] l [Hb Hw] H IH]; cbn [stream flat_map map app fst snd] in *.
  - rewrite <- (app_nil_r last). rewrite lex_plain by exact HL. rewrite app_nil_r. reflexivity.
  - rewrite lex_plain by exact Hb. cbn [app lex]. change (cCARET =?c cBS) with false. change (cCARET =?c cLB) with false. change (cCARET =?c cDOL) with false. rewrite ceq_refl. cbv beta iota.
    rewrite lex_plain by exact Hw. cbn [app lex]. change (cDOL =?c cBS) with false. change (cDOL =?c cLB) with false. rewrite ceq_refl. cbv beta iota.
    rewrite IH. reflexivity.
Qed.
Print Assumptions C42_tokenise.
(** FINDING: an unclosed superblank at the end of the input is read forever *)
Theorem C42_unclosed_refuted : forall s, InBr s -> forall c, lex s c true = None.
Proof.
  induction 1 as [|x p H1 H2 H IH|x p H IH]; intros c; [reflexivity| |].
  - cbn [lex]. destruct (ceq_spec x cBS); [contradiction|]. destruct (ceq_spec x cRB); [contradiction|]. apply IH.
  - cbn [lex]. rewrite ceq_refl. apply IH.
Qed.
Print Assumptions C42_unclosed_refuted.

(** Case: every nonempty set of patterns, each a nonempty sequence of word tests separated by blanks, is such a machine *)
Section Patterns.
Definition pat := list (str -> bool).
(* what is still expected: true for "blank first" *)
Definition PS := list (bool * pat).
Definition p_word (m : PS) (w : str) : PS := flat_map (fun bp => match bp with (false, f :: r) => if (f w : bool) then [(true, r)] else [] | _ => [] end) m.
Definition p_blank (m : PS) : PS := flat_map (fun bp => match bp with (true, f :: r) => [(false, f :: r)] | _ => [] end) m.
Definition p_empty (m : PS) : bool := match m with [] => true | _ => false end.
Definition p_final (m : PS) : bool := existsb (fun bp => match bp with (true, []) => true | _ => false end) m.
Definition p_init (ps : list pat) : PS := map (fun p => (false, p)) ps.
(* lists alternating, started inside *)
Lemma p_live : forall l (m : PS) b p, In (b, p) (steps PS p_word p_blank m l) -> (forall b' p', In (b', p') m -> b' = false) ->
  Alt l /\ (b = true -> exists l' w, l = l' ++ [W w]).
Proof.
  assert (G : forall n l (m : PS), length l <= n -> forall b p, In (b, p) (steps PS p_word p_blank m l) -> (forall b' p', In (b', p') m -> b' = false) ->
    Alt l /\ (b = true -> exists l' w, l = l' ++ [W w])).
  { induction n as [|n IH]; intros l m Hn b p HI Hm.
    - destruct l; [|cbn in Hn; lia]. split; [constructor|]. intros ->. cbn in HI. apply Hm in HI. discriminate.
    - destruct l as [|[w|x] l]; [apply (IH []) in HI; [exact HI|cbn; lia|exact Hm]| |].
      + cbn in HI. destruct l as [|[v|x] l].
        * split; [constructor|]. intros _. exists [], w. reflexivity.
        * exfalso. cbn in HI. assert (E : p_word (p_word m w) v = []).
          { unfold p_word. assert (Q : forall m', (forall bp, In bp m' -> fst bp = true) -> flat_map (fun bp : bool * pat => match bp with (false, f :: r) => if f v then [(true, r)] else [] | _ => [] end) m' = []).
            { induction m' as [|[b' p'] m' IHm]; intros HB; [reflexivity|]. cbn. assert (K := HB (b', p') (or_introl eq_refl)). cbn in K. subst b'. apply IHm. intros bp Hb. apply HB. right. exact Hb. }
            apply Q. intros bp Hb. apply in_flat_map in Hb as [[b' p'] [_ Hb]]. destruct b', p' as [|f p']; try destruct Hb. destruct (f w); [|destruct Hb]. destruct Hb as [<-|[]]. reflexivity. }
          rewrite E in HI. assert (Q : steps PS p_word p_blank [] l = []) by (clear; induction l as [|[a|a] l IHl]; [reflexivity|exact IHl|exact IHl]).
          unfold steps in Q. rewrite Q in HI. destruct HI.
        * cbn in HI. destruct (IH l (p_blank (p_word m w))) with (b := b) (p := p) as [A1 A2].
          -- cbn in Hn. lia.
          -- exact HI.
          -- intros b' p' Hb. apply in_flat_map in Hb as [[b2 p2] [_ Hb]]. destruct b2, p2 as [|f p2]; [destruct Hb| |destruct Hb|destruct Hb]. destruct Hb as [Hb|[]]. injection Hb as <- _. reflexivity.
          -- split; [constructor; exact A1|]. intros Eb. destruct (A2 Eb) as [l' [v ->]]. exists (W w :: B x :: l'), v. reflexivity.
      + exfalso. cbn in HI. assert (E : p_blank m = []).
        { unfold p_blank. clear -Hm. induction m as [|[b' p'] m IHm]; [reflexivity|]. cbn. assert (K := Hm b' p' (or_introl eq_refl)). subst b'. apply IHm. intros b2 p2 Hb. eapply Hm. right. exact Hb. }
        rewrite E in HI. assert (Q : steps PS p_word p_blank [] l = []) by (clear; induction l as [|[a|a] l IHl]; [reflexivity|exact IHl|exact IHl]).
        unfold steps in Q. rewrite Q in HI. destruct HI. }
  intros l m. apply (G (length l)). reflexivity.
Qed.
Theorem C42_patterns : forall bil ps, ps <> [] -> (forall w, acceptions (bil w) <> None) -> forall items last out,
  (exists fuel, run_items bil PS (p_init ps) p_word p_blank p_empty p_final items last fuel = Some out) <->
  Run (fun l => p_final (steps PS p_word p_blank (p_init ps) l) = true) (fun ws bs o => applyRule bil ws bs = Some o) (fun w o => defaultWord bil w = Some o) items last out.
Proof.
  intros bil ps Hps Hbil items last out.
  assert (M0 : forall b' p', In (b', p') (p_init ps) -> b' = false) by (intros b' p' H; apply in_map_iff in H as [x [E _]]; congruence).
  apply C42_longest_match.
  - destruct ps; [congruence|reflexivity].
  - intros m H. destruct m; [discriminate|reflexivity].
  - intros m i H. destruct m; [|discriminate]. destruct i; reflexivity.
  - intros l H. destruct (steps PS p_word p_blank (p_init ps) l) as [|[b p] m] eqn:E; [discriminate|].
    eapply (p_live l (p_init ps) b p); [rewrite E; left; reflexivity|exact M0].
  - intros l H. unfold p_final in H. apply existsb_exists in H as [[b p] [H1 H2]]. destruct b, p; try discriminate.
    eapply (p_live l (p_init ps)); [exact H1|exact M0|reflexivity].
  - exact Hbil.
Qed.
End Patterns.
Print Assumptions C42_patterns.

Definition isw (x : str) (w : str) : bool := infixb x w.
Definition expats : list pat := [[isw (u "<det>"); isw (u "<n>")]; [isw (u "<n>")]; [isw (u "<det>"); isw (u "<n>"); isw (u "<adj>")]].
Definition exb (w : str) : str := if isw (u "<n>") w then u "a<n>/b<n>" else u "T" ++ w.
Example C42_case :
  match lex (u " ^el<det>$[x] ^gat<n>$ ^i<cnj>$  ^el<det>$ ^gos<n>$.") [] false with
  | Some toks => loop exb PS (p_init expats) p_word p_blank p_empty p_final 40 toks (t0 PS (p_init expats))
  | None => None end = Some (u " [{]^Tel<det>$[x] ^a<n>$[|]^Tel<det>$[x] ^b<n>$.[][}] ^Ti<cnj>$  [{]^Tel<det>$ ^a<n>$[|]^Tel<det>$ ^b<n>$.[][}].").
Proof. vm_compute. reflexivity. Qed.
