(** Which rule files are compiled. *)
From Coq Require Import String ZArith.
From Verif Require Import Model.Base Model.CapsRules Spec.CapsRules Proofs.Base Proofs.CapsCompile.
Open Scope nat_scope.

Section V.
Variable isupper : char -> bool.
Lemma select_vote m s : select_sym (cm_select m) = Some s -> s = vote m.
Proof.
  unfold select_sym, vote. destruct (cm_select m) as [[|c r]|]; [congruence| |congruence].
  repeat match goal with |- context [str_eqb (c :: r) ?y] => let E := fresh in destruct (str_eqb (c :: r) y) eqn:E; [apply str_eqb_eq in E; rewrite E; intros K; injection K as <-; reflexivity|] end. discriminate.
Qed.
Lemma select_valid m : (exists s, select_sym (cm_select m) = Some s) <-> (forall s, cm_select m = Some s -> In s (map u [""; "AA"; "Aa"; "aa"; "dix"]%string)).
Proof.
  unfold select_sym. destruct (cm_select m) as [[|c r]|]; split.
  - intros _ s K. injection K as <-. left; reflexivity.
  - eauto.
  - intros (s & H) s' K. injection K as <-.
    repeat match type of H with context [str_eqb (c :: r) ?y] => let E := fresh in destruct (str_eqb (c :: r) y) eqn:E; [apply str_eqb_eq in E; rewrite E; cbn; tauto|] end. discriminate.
  - intros H. specialize (H _ eq_refl). cbn [map In] in H. destruct H as [H|[H|[H|[H|[H|[]]]]]]; [discriminate|rewrite <- H; eexists; reflexivity..].
  - discriminate.
  - eauto.
Qed.
Lemma star_or a b : negb (negb (is_star a) && negb (is_star b)) = true <-> a = u "*"%string \/ b = u "*"%string.
Proof.
  unfold is_star. change [cSTAR] with (u "*"%string). destruct (str_eqb a (u "*"%string)) eqn:A; [apply str_eqb_eq in A; tauto|]. destruct (str_eqb b (u "*"%string)) eqn:B; [apply str_eqb_eq in B; tauto|].
  cbn. split; [discriminate|]. intros [->| ->]; rewrite str_eqb_refl in *; discriminate.
Qed.
Lemma match_valid m : match_ok m = true /\ (exists s, select_sym (cm_select m) = Some s) <-> valid_match m.
Proof. unfold match_ok, valid_match. rewrite Bool.andb_true_iff, !star_or, select_valid. unfold given, attr. cbn [u]. tauto. Qed.
Lemma match_total m tp : valid_match m -> exists r, compile_match isupper m tp = Some r.
Proof.
  intros V. apply match_valid in V. destruct V as (O & s & Hs). rewrite compile_match_pieces, O. destruct (add_pieces (match_pieces isupper m) tp) as [t p]. destruct (insert1 t l_bound p). rewrite Hs. eauto.
Qed.
Lemma match_only m tp r : compile_match isupper m tp = Some r -> valid_match m.
Proof.
  rewrite compile_match_pieces. destruct (match_ok m) eqn:O; [|discriminate]. destruct (add_pieces (match_pieces isupper m) tp) as [t p]. destruct (insert1 t l_bound p). destruct (select_sym (cm_select m)) eqn:Hs; [|discriminate]. intros _. apply match_valid. eauto.
Qed.
Lemma seq_only l : Forall (fun n => forall tp r, compile_node isupper n tp = Some r -> valid n) l -> forall tp r, compile_seq isupper l tp = Some r -> Forall valid l.
Proof.
  intros F. induction F as [|n l Hn F IH]; intros tp r C; constructor; cbn [compile_seq] in C; destruct (compile_node isupper n tp) eqn:C1; try discriminate; eauto.
Qed.
Lemma node_only : forall n tp r, compile_node isupper n tp = Some r -> valid n.
Proof.
  apply (cnode_rec' (fun n => forall tp r, compile_node isupper n tp = Some r -> valid n)).
  - intros m tp r C. constructor. eapply match_only; exact C.
  - intros. constructor.
  - intros l F tp r C. constructor. rewrite compile_or in C. revert C. generalize (fst tp), (snd tp) at 2. generalize (snd tp). intros start. clear tp.
    induction F as [|n l Hn F IH]; intros t fin C; constructor; cbn [alts_loop] in C; destruct (compile_node isupper n (insert_new t l_eps start)) as [[t2 nx]|] eqn:C1; try discriminate; eauto.
    destruct (fin =? start); eauto.
  - intros a b l F tp r C. rewrite compile_repeat in C. destruct ((a <? 0) || (b <? 0))%Z eqn:C1; [discriminate|]. destruct (a >? b)%Z eqn:C2; [discriminate|].
    apply Bool.orb_false_iff in C1. destruct C1 as [Ca Cb]. apply Z.ltb_ge in Ca. apply Z.ltb_ge in Cb. rewrite Z.gtb_ltb in C2. apply Z.ltb_ge in C2.
    constructor; [lia|]. destruct (compile_seq isupper l (no_trans, 0)) as [[c f]|] eqn:C3; [|discriminate]. eapply seq_only; eauto.
Qed.
Definition total (n : cnode) : Prop := valid n -> forall t p, wft t -> p < t_next t -> sink t p -> exists r, compile_node isupper n (t, p) = Some r.
Lemma seq_total l : Forall total l -> Forall valid l -> forall t p, wft t -> p < t_next t -> sink t p -> exists r, compile_seq isupper l (t, p) = Some r.
Proof.
  intros F. induction F as [|n l Hn F IH]; intros V t p W P S; cbn [compile_seq]; [eauto|]. inversion V as [|? ? V1 V2]; subst.
  destruct (Hn V1 t p W P S) as ([t1 q1] & C1). rewrite C1. destruct (all_nodes isupper n _ _ _ _ W P S C1) as (E1 & F1 & S1). destruct (frag_wft _ _ _ _ _ _ W P F1) as [W1 P1]. eauto.
Qed.
Lemma alts_total l : Forall total l -> Forall valid l -> forall t0 start t fin E L, wft t0 -> start < t_next t0 -> frag t0 start t fin E L -> fin <> start -> sink t fin -> exists r, alts_loop isupper start l t fin = Some r.
Proof.
  intros F. induction F as [|n l Hn F IH]; intros V t0 start t fin E L W P Fr N S; cbn [alts_loop]; [eauto|]. inversion V as [|? ? V1 V2]; subst.
  destruct (frag_wft _ _ _ _ _ _ W P Fr) as [W1 P1]. assert (Ps : start < t_next t) by (pose proof (f_next _ _ _ _ _ _ Fr); lia).
  destruct (insert_new_frag t start l_eps W1 Ps) as [Fn Sn]. destruct (frag_wft _ _ _ _ _ _ W1 Ps Fn) as [Wn Pn].
  destruct (Hn V1 _ _ Wn Pn Sn) as ([t2 nx] & C1). change (insert_new t l_eps start) with (fst (insert_new t l_eps start), t_next t). rewrite C1.
  destruct (all_nodes isupper n _ _ _ _ Wn Pn Sn C1) as (E2 & F2 & S2). rewrite (proj2 (Nat.eqb_neq fin start)) by exact N.
  destruct (more_alt _ _ _ _ _ _ _ _ _ _ W P Fr N S F2 S2) as [F3 S3]. exact (IH V2 _ _ _ _ _ _ W P F3 N S3).
Qed.
Lemma node_total : forall n, total n.
Proof.
  apply cnode_rec'.
  - intros m V t p _ _ _. inversion V; subst. apply match_total. assumption.
  - intros _ t p _ _ _. cbn. eauto.
  - intros l F V t p W P S. inversion V as [| |? V1|]; subst. rewrite compile_or. cbn [fst snd]. destruct F as [|n l Hn F]; cbn [alts_loop]; [eauto|]. inversion V1 as [|? ? V2 V3]; subst.
    destruct (insert_new_frag t p l_eps W P) as [Fn Sn]. destruct (frag_wft _ _ _ _ _ _ W P Fn) as [Wn Pn].
    destruct (Hn V2 _ _ Wn Pn Sn) as ([t2 nx] & C1). change (insert_new t l_eps p) with (fst (insert_new t l_eps p), t_next t). rewrite C1.
    destruct (all_nodes isupper n _ _ _ _ Wn Pn Sn C1) as (E2 & F2 & S2). rewrite Nat.eqb_refl.
    assert (N : nx <> p). { pose proof (f_end _ _ _ _ _ _ F2) as K. cbn in K. lia. }
    apply (first_alt t p t2 nx E2 _ W P) in F2. exact (alts_total l F V3 _ _ _ _ _ _ W P F2 N S2).
  - intros a b l F V t p W P S. inversion V as [| | |? ? ? R V1]; subst. rewrite compile_repeat.
    replace ((a <? 0) || (b <? 0))%Z with false by (symmetry; apply Bool.orb_false_iff; split; apply Z.ltb_ge; lia). replace (a >? b)%Z with false by (symmetry; rewrite Z.gtb_ltb; apply Z.ltb_ge; lia).
    assert (W0 : 0 < t_next no_trans) by (cbn; lia). assert (S0 : sink no_trans 0) by (intros m d []).
    destruct (seq_total l F V1 no_trans 0 no_trans_wf W0 S0) as ([c f] & C3). rewrite C3.
    apply (seq_frag isupper l) in C3; [|apply Forall_forall; intros; apply all_nodes|exact no_trans_wf|exact W0|exact S0]. destruct C3 as (Ec & Fc & Sc).
    destruct (frag_wft _ _ _ _ _ _ no_trans_wf W0 Fc) as [Wc Pc].
    assert (Sf : set_final c f = mkt (t_next c) (t_init c) (t_edges c) [f]).
    { unfold set_final. rewrite (f_finals _ _ _ _ _ _ Fc). reflexivity. }
    assert (O : one_final (set_final c f) f (seql (map (slang isupper) l))).
    { rewrite Sf. destruct Wc as (I1 & I2 & I3). split; [split; [exact I1|split; [exact I2|constructor; [exact Pc|constructor]]]|]. cbn [t_finals t_edges t_init].
      pose proof (f_edges _ _ _ _ _ _ Fc) as Ee. cbn in Ee. rewrite (f_init _ _ _ _ _ _ Fc). cbn [t_init no_trans]. split; [reflexivity|]. split; [rewrite Ee; apply (f_acyc _ _ _ _ _ _ Fc)|]. split; [exact Sc|].
      rewrite Ee. apply (f_lang _ _ _ _ _ _ Fc). }
    cbv zeta. destruct (insert_times_frag _ _ _ (Z.to_nat a) O t p W P S) as (t1 & q1 & E1 & H1 & F1 & S1). rewrite H1.
    destruct (optional_final _ _ _ O) as (c' & H2 & O'). rewrite H2. destruct (frag_wft _ _ _ _ _ _ W P F1) as [W1 P1].
    destruct (insert_times_frag _ _ _ (Z.to_nat (b - a)) O' t1 q1 W1 P1 S1) as (t2 & q2 & E2 & H3 & F2 & S2). rewrite H3. eauto.
Qed.
Lemma rule_total i r t Ls : machine t Ls -> Forall valid r -> exists t', compile_rule isupper i r t = Some t'.
Proof.
  intros (W & I & _) V. unfold compile_rule. rewrite I. assert (P : 0 < t_next t) by (destruct W as (K & _); lia).
  destruct (insert_new_frag t 0 l_eps W P) as [F0 S0]. destruct (frag_wft _ _ _ _ _ _ W P F0) as [W0 P0].
  destruct (seq_total r) with (t := fst (insert_new t l_eps 0)) (p := t_next t) as ([t1 p1] & C); auto; [apply Forall_forall; intros; apply node_total|].
  change (insert_new t l_eps 0) with (fst (insert_new t l_eps 0), t_next t). rewrite C. destruct (insert1 t1 l_bound p1). destruct (insert1 t0 (l_out (rule_id i)) n). eauto.
Qed.
Lemma rule_only i r t t' : compile_rule isupper i r t = Some t' -> Forall valid r.
Proof.
  unfold compile_rule. destruct (compile_seq isupper r (insert_new t l_eps (t_init t))) as [[t1 p1]|] eqn:C; [|discriminate]. intros _. eapply seq_only; [|exact C]. apply Forall_forall. intros. eapply node_only; eauto.
Qed.
Lemma compile_valid rules : (exists t, compile isupper rules = Some t) <-> Forall (Forall valid) rules.
Proof.
  unfold compile. split.
  - intros (t & C). revert C. generalize 0, no_trans. induction rules as [|r rules IH]; intros i t0 C; constructor; cbn [compile_from] in C; destruct (compile_rule isupper i r t0) eqn:C1; try discriminate; eauto using rule_only.
  - intros V. assert (M : machine no_trans []).
    { split; [exact no_trans_wf|]. split; [reflexivity|]. split; [intros a l b []|]. split; [exists (fun _ => 0); intros a l b []|]. split; [constructor|].
      intros x o. rewrite Exists_nil. split; [intros (f & [] & _)|intros []]. }
    revert M. generalize (@nil lang), 0, no_trans. induction V as [|r rules V1 V IH]; intros Ls i t M; cbn [compile_from]; [eauto|].
    destruct (rule_total i r t Ls M V1) as (t1 & C1). rewrite C1. apply (IH (Ls ++ [rlang isupper i r])). eapply add_rule_machine; eauto.
Qed.
End V.
