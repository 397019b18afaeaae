From Coq Require Import String ZArith.
From Verif Require Import Model.Base Proofs.Base Model.TransferRules Spec.TransferRules Spec.TransferBlanks Proofs.TransferRules.

Lemma io_right bs s t : InOrder bs s -> InOrder bs (s ++ t).
Proof. induction 1 as [s|b bs p r H IH]; [constructor|]. replace ((p ++ b ++ r) ++ t) with (p ++ b ++ (r ++ t)) by (rewrite <- !app_assoc; reflexivity). constructor. exact IH. Qed.
Lemma io_left bs s t : InOrder bs s -> InOrder bs (t ++ s).
Proof. intros H. destruct H as [s|b bs p r H]; [constructor|]. rewrite app_assoc. constructor. exact H. Qed.
Lemma io_app a b s t : InOrder a s -> InOrder b t -> InOrder (a ++ b) (s ++ t).
Proof. induction 1 as [s|x a p r H IH]; intros K; cbn; [apply io_left, K|]. replace ((p ++ x ++ r) ++ t) with (p ++ x ++ (r ++ t)) by (rewrite <- !app_assoc; reflexivity). constructor. apply IH, K. Qed.
Lemma io_one b : InOrder [b] b.
Proof. assert (H := io_cons b [] [] [] (io_nil [])). cbn in H. rewrite app_nil_r in H. exact H. Qed.
Lemma io_concat l : InOrder l (concat l).
Proof. induction l as [|b l IH]; [constructor|]. exact (io_cons b l [] (concat l) IH). Qed.
Lemma formatting_app a b : formatting (a ++ b) = formatting a ++ formatting b.
Proof. apply filter_app. Qed.

Section Blanks.
Variable attr_match : str -> str -> str.
Variable attr_replace : str -> str -> str -> str.
Variable copy_case case_from : str -> str -> str.
Variable get_case lower : str -> str.
Variable lists : str -> list str.
Variable dict_case : bool.
Variable macros : str -> nat.
Variable macro_map : list (nat * list instr).
Variable N : list (nat * tinstr).
Hypothesis HN : functional N.
Notation eval := (eval attr_match copy_case case_from get_case dict_case).
Notation eval_list := (eval_list attr_match copy_case case_from get_case dict_case).
Notation eval_mlu := (eval_mlu attr_match copy_case case_from get_case dict_case).
Notation test := (test attr_match copy_case case_from get_case lower lists dict_case).

(* what evaluating may do to blanks and output; [t]: the value *)
Definition keeps (st st' : rst) : Prop := cache_ok N st' /\ r_in_out st' = r_in_out st /\ r_out st' = r_out st /\ r_bq st' = r_bq st.
Definition uses (st st' : rst) (t : str) : Prop :=
  cache_ok N st' /\ r_in_out st' = r_in_out st /\ r_out st' = r_out st /\
  (r_in_out st = false -> r_bq st' = r_bq st) /\ (exists p, r_bq st = p ++ r_bq st' /\ InOrder (formatting p) t).
Lemma keeps_uses st st' t : keeps st st' -> uses st st' t.
Proof. intros (A & B & C & D). split; [exact A|]. split; [exact B|]. split; [exact C|]. split; [intros _; exact D|]. exists []. split; [rewrite D; reflexivity|constructor]. Qed.
Lemma keeps_refl st : cache_ok N st -> keeps st st.
Proof. intros H. split; [exact H|]. repeat split. Qed.
Lemma uses_trans st st1 st2 a b : uses st st1 a -> uses st1 st2 b -> uses st st2 (a ++ b).
Proof.
  intros (A1 & B1 & C1 & D1 & p & E1 & F1) (A2 & B2 & C2 & D2 & q & E2 & F2). split; [exact A2|]. split; [congruence|]. split; [congruence|].
  split; [intros K; rewrite D2 by congruence; apply D1, K|]. exists (p ++ q). split; [rewrite E1, E2, app_assoc; reflexivity|]. rewrite formatting_app. apply io_app; assumption.
Qed.
Lemma keeps_trans st st1 st2 : keeps st st1 -> keeps st1 st2 -> keeps st st2.
Proof. intros (A1 & B1 & C1 & D1) (A2 & B2 & C2 & D2). split; [exact A2|]. repeat split; congruence. Qed.
Lemma uses_text st st' t u : uses st st' t -> (forall l, InOrder l t -> InOrder l u) -> uses st st' u.
Proof. intros (A & B & C & D & p & E & F) H. split; [exact A|]. split; [exact B|]. split; [exact C|]. split; [exact D|]. exists p. split; [exact E|apply H, F]. Qed.
Lemma fetch_cache st id ti : cache_ok N st -> In (id, ti) N -> exists st1, fetch st id ti = (ti, st1) /\ keeps st st1.
Proof.
  intros C HI. unfold fetch. destruct (r_cache st id) as [t|] eqn:E.
  - rewrite (HN _ _ _ (C _ _ E) HI). exists st. split; [reflexivity|apply keeps_refl, C].
  - exists (cache_add st id ti). split; [reflexivity|]. split; [|repeat split]. intros i t H. cbn in H. destruct (Nat.eqb_spec i id); [injection H as <-; subst; exact HI|apply C, H].
Qed.
Lemma take_keeps st part wb st' : cache_ok N st -> take_wb st part wb = Some st' -> keeps st st'.
Proof.
  intros C. unfold take_wb. destruct (is_lemma part && (1 <? r_ll st)); [|intros H; injection H as <-; apply keeps_refl, C]. destruct (r_in_lu st).
  - destruct (combine_wblanks (r_owb st) wb); [|discriminate]. intros H; injection H as <-. split; [exact C|repeat split].
  - destruct (r_in_let st); [|intros H; injection H as <-; apply keeps_refl, C]. destruct (combine_wblanks _ wb); [|discriminate]. intros H; injection H as <-. split; [exact C|repeat split].
Qed.
Lemma single_keeps b st st' : cache_ok N st -> single_wb b st = Some st' -> keeps st st'.
Proof.
  intros C. unfold single_wb. destruct (Nat.eqb (r_ll st) 1); [|intros H; injection H as <-; apply keeps_refl, C].
  destruct (r_frame st) as [[|[i|] fr]|]; try discriminate.
  - destruct (obj st i); [|discriminate]. intros H; injection H as <-. split; [exact C|repeat split].
  - destruct b; [discriminate|]. intros H; injection H as <-. apply keeps_refl, C.
Qed.
Lemma leaf_keeps ti sub st t st' : ti <> TiB -> (forall p, ti <> TiCaseFrom p) -> cache_ok N st -> eval_instr attr_match case_from get_case ti sub st = Some (t, st') -> keeps st st'.
Proof.
  intros H1 H2 C E. destruct ti as [sd part pos q|sd part pos q link|n|v| |sd part pos|pos]; cbn [eval_instr] in E; try congruence; try (destruct (H2 pos); reflexivity).
  - destruct (word_at st pos) as [i|]; [|injection E as <- <-; apply keeps_refl, C]. destruct (obj st i) as [w|]; [|discriminate].
    destruct sd; try (injection E as <- <-; apply keeps_refl, C); destruct (take_wb st part (w_wb w)) as [s1|] eqn:T; try discriminate; injection E as <- <-; apply (take_keeps _ _ _ _ C T).
  - destruct (word_at st pos) as [i|]; [|injection E as <- <-; apply keeps_refl, C]. destruct (obj st i) as [w|]; [|discriminate]. injection E as <- <-; apply keeps_refl, C.
  - destruct (1 <? r_ll st); [|injection E as <- <-; apply keeps_refl, C]. destruct (combine_wblanks _ _); [|discriminate]. injection E as <- <-. split; [exact C|repeat split].
  - injection E as <- <-; apply keeps_refl, C.
  - destruct (word_at st pos) as [i|]; [|injection E as <- <-; apply keeps_refl, C]. destruct (obj st i) as [w|]; [|discriminate]. injection E as <- <-; apply keeps_refl, C.
Qed.
Lemma mlu_add_io v f w v' f' : mlu_add v f w = (v', f') -> exists m, v' = v ++ m ++ w.
Proof.
  unfold mlu_add. destruct w as [|c w]; [intros H; injection H as <- <-; exists []; cbn; rewrite app_nil_r; reflexivity|]. destruct f; [intros H; injection H as <- <-; exists []; reflexivity|].
  destruct (c =?c cHASH); intros H; injection H as <- <-; [exists []; reflexivity|exists [cPLUS]; rewrite <- app_assoc; reflexivity].
Qed.
Lemma eval_mlu_eq l st : eval (XMlu l) st =
      match eval_mlu l [] true (with_lu (with_owb st []) true) with
      | Some (w, st1) => match single_wb true st1 with Some st2 => Some (mlu_text (r_owb st2) w, st2) | None => None end
      | None => None
      end.
Proof. reflexivity. Qed.
Lemma lu_text_io wb w l : InOrder l w -> InOrder l (lu_text wb w).
Proof. intros H. unfold lu_text. destruct w as [|c w]; [exact H|]. destruct (begins_with (c :: w) [cLB; cLB]); [apply io_right, H|]. apply io_left. apply (io_left _ _ [cCARET]), io_right, H. Qed.
Lemma mlu_text_io wb w l : InOrder l w -> InOrder l (mlu_text wb w).
Proof. intros H. unfold mlu_text. destruct w as [|c w]; [exact H|]. apply io_left. apply (io_left _ _ [cCARET]), io_right, H. Qed.

(* an expression without <b/> uses no blanks *)
Definition no_b (e : expr) : Prop := forall st t st', cache_ok N st -> incl (nodes_e e) N -> has_b e = false -> eval e st = Some (t, st') -> keeps st st'.
Lemma no_b_list l : Forall no_b l -> forall st t st', cache_ok N st -> incl (flat_map nodes_e l) N -> existsb has_b l = false -> eval_list l st = Some (t, st') -> keeps st st'.
Proof.
  induction 1 as [|x l Hx H IH]; intros st t st' C Hn Hb E; cbn [TransferRules.eval_list] in E; [injection E as <- <-; apply keeps_refl, C|].
  cbn [flat_map existsb] in *. apply incl_app_inv in Hn as [Hn1 Hn2]. apply orb_false_elim in Hb as [Hb1 Hb2]. destruct (eval x st) as [[a st1]|] eqn:E1; [|discriminate].
  destruct (eval_list l st1) as [[b st2]|] eqn:E2; [|discriminate]. injection E as <- <-. assert (K := Hx _ _ _ C Hn1 Hb1 E1). apply (keeps_trans _ _ _ K), (IH _ _ _ (proj1 K) Hn2 Hb2 E2).
Qed.
Lemma no_b_mlu l : Forall (Forall no_b) l -> forall v f st t st', cache_ok N st -> incl (flat_map (flat_map nodes_e) l) N -> existsb (existsb has_b) l = false -> eval_mlu l v f st = Some (t, st') -> keeps st st'.
Proof.
  induction 1 as [|x l Hx H IH]; intros v f st t st' C Hn Hb E; cbn [TransferRules.eval_mlu] in E; [injection E as <- <-; apply keeps_refl, C|].
  cbn [flat_map existsb] in *. apply incl_app_inv in Hn as [Hn1 Hn2]. apply orb_false_elim in Hb as [Hb1 Hb2]. destruct (eval_list x st) as [[a st1]|] eqn:E1; [|discriminate].
  destruct (mlu_add v f a) as [v' f']. assert (K := no_b_list x Hx _ _ _ C Hn1 Hb1 E1). apply (keeps_trans _ _ _ K), (IH _ _ _ _ _ (proj1 K) Hn2 Hb2 E).
Qed.
Lemma no_b_all e : no_b e.
Proof.
  induction e as [id sd part pos q link|id v|id|id n|id sd part pos|id pos e IH|l IH|l IH|l IH|a b cc t0 l IHt IHl] using expr_ind2; intros st t st' C Hn Hb E.
  - cbn [TransferRules.eval] in E. destruct (fetch_cache st id (match link with [] => TiClip sd part pos q | _ => TiLink sd part pos q link end) C) as (st1 & F & K); [destruct link; apply Hn; left; reflexivity|].
    rewrite F in E. apply (keeps_trans _ _ _ K). refine (leaf_keeps _ _ _ _ _ _ _ (proj1 K) E); [destruct link; discriminate|intros; destruct link; discriminate].
  - cbn [TransferRules.eval] in E. destruct (fetch_cache st id (TiLit v) C) as (st1 & F & K); [apply Hn; left; reflexivity|].
    rewrite F in E. apply (keeps_trans _ _ _ K). refine (leaf_keeps _ _ _ _ _ _ _ (proj1 K) E); [discriminate|intros; discriminate].
  - discriminate.
  - cbn [TransferRules.eval] in E. destruct (fetch_cache st id (TiVar n) C) as (st1 & F & K); [apply Hn; left; reflexivity|].
    rewrite F in E. apply (keeps_trans _ _ _ K). refine (leaf_keeps _ _ _ _ _ _ _ (proj1 K) E); [discriminate|intros; discriminate].
  - cbn [TransferRules.eval] in E. destruct (fetch_cache st id (TiCaseOf sd part pos) C) as (st1 & F & K); [apply Hn; left; reflexivity|].
    rewrite F in E. apply (keeps_trans _ _ _ K). refine (leaf_keeps _ _ _ _ _ _ _ (proj1 K) E); [discriminate|intros; discriminate].
  - cbn [TransferRules.eval] in E. destruct (fetch_cache st id (TiCaseFrom pos) C) as (st1 & F & K); [apply Hn; left; reflexivity|].
    rewrite F in E. apply (keeps_trans _ _ _ K). cbn [eval_instr] in E. destruct (word_at st1 pos) as [i|]; [|injection E as <- <-; apply keeps_refl, K]. destruct (obj st1 i); [|discriminate].
    destruct (eval e st1) as [[d st2]|] eqn:E2; [|discriminate]. injection E as <- <-. apply (IH _ _ _ (proj1 K) (fun x Hx => Hn x (or_intror Hx)) Hb E2).
  - rewrite eval_concat in E. apply (no_b_list l IH _ _ _ C Hn Hb E).
  - rewrite eval_lu in E. destruct (eval_list l (with_owb (with_lu st true) [])) as [[w st1]|] eqn:E1; [|discriminate]. destruct (single_wb false (with_lu st1 false)) as [st2|] eqn:E2; [|discriminate]. injection E as <- <-.
    assert (K : keeps (with_owb (with_lu st true) []) st1) by (apply (no_b_list l IH (with_owb (with_lu st true) []) _ _ C Hn Hb E1)).
    assert (K2 := single_keeps _ _ _ (proj1 K : cache_ok N (with_lu st1 false)) E2). apply (keeps_trans _ _ _ K K2).
  - rewrite eval_mlu_eq in E. destruct (eval_mlu l [] true (with_lu (with_owb st []) true)) as [[w st1]|] eqn:E1; [|discriminate]. destruct (single_wb true st1) as [st2|] eqn:E2; [|discriminate]. injection E as <- <-.
    assert (K : keeps (with_lu (with_owb st []) true) st1) by (apply (no_b_mlu l IH _ _ (with_lu (with_owb st []) true) _ _ C Hn Hb E1)).
    assert (K2 := single_keeps _ _ _ (proj1 K) E2). apply (keeps_trans _ _ _ K K2).
  - rewrite eval_chunk in E. cbn [nodes_e has_b] in *. apply incl_app_inv in Hn as [Hn1 Hn2]. apply orb_false_elim in Hb as [Hb1 Hb2]. destruct (chunk_name copy_case dict_case st a b cc); [|discriminate].
    destruct (eval_list t0 st) as [[x st1]|] eqn:E1; [|discriminate]. destruct (eval_list l st1) as [[y st2]|] eqn:E2; [|discriminate]. injection E as <- <-.
    assert (K := no_b_list t0 IHt _ _ _ C Hn1 Hb1 E1). apply (keeps_trans _ _ _ K), (no_b_list l IHl _ _ _ (proj1 K) Hn2 Hb2 E2).
Qed.

Definition ok_b (e : expr) : Prop := forall st t st', cache_ok N st -> incl (nodes_e e) N -> plain_b e = true -> eval e st = Some (t, st') -> uses st st' t.
Lemma ok_b_list l : Forall ok_b l -> forall st t st', cache_ok N st -> incl (flat_map nodes_e l) N -> forallb plain_b l = true -> eval_list l st = Some (t, st') -> uses st st' t.
Proof.
  induction 1 as [|x l Hx H IH]; intros st t st' C Hn Hb E; cbn [TransferRules.eval_list] in E; [injection E as <- <-; apply keeps_uses, keeps_refl, C|].
  cbn [flat_map forallb] in *. apply incl_app_inv in Hn as [Hn1 Hn2]. apply andb_prop in Hb as [Hb1 Hb2]. destruct (eval x st) as [[a st1]|] eqn:E1; [|discriminate].
  destruct (eval_list l st1) as [[b st2]|] eqn:E2; [|discriminate]. injection E as <- <-. assert (K := Hx _ _ _ C Hn1 Hb1 E1). apply (uses_trans _ _ _ _ _ K), (IH _ _ _ (proj1 K) Hn2 Hb2 E2).
Qed.
Lemma ok_b_mlu l : Forall (Forall ok_b) l -> forall v f st t st', cache_ok N st -> incl (flat_map (flat_map nodes_e) l) N -> forallb (forallb plain_b) l = true -> eval_mlu l v f st = Some (t, st') ->
  exists m, t = v ++ m /\ uses st st' m.
Proof.
  induction 1 as [|x l Hx H IH]; intros v f st t st' C Hn Hb E; cbn [TransferRules.eval_mlu] in E; [injection E as <- <-; exists []; split; [symmetry; apply app_nil_r|apply keeps_uses, keeps_refl, C]|].
  cbn [flat_map forallb] in *. apply incl_app_inv in Hn as [Hn1 Hn2]. apply andb_prop in Hb as [Hb1 Hb2]. destruct (eval_list x st) as [[a st1]|] eqn:E1; [|discriminate].
  destruct (mlu_add v f a) as [v' f'] eqn:M. apply mlu_add_io in M as [s ->]. assert (K := ok_b_list x Hx _ _ _ C Hn1 Hb1 E1).
  destruct (IH _ _ _ _ _ (proj1 K) Hn2 Hb2 E) as (m & -> & U). exists ((s ++ a) ++ m). split; [rewrite <- !app_assoc; reflexivity|]. apply (uses_trans _ st1); [|exact U]. apply (uses_text _ _ a _ K). intros l0 Hl. apply io_left, Hl.
Qed.
Lemma ok_b_all e : ok_b e.
Proof.
  induction e as [id sd part pos q link|id v|id|id n|id sd part pos|id pos e IH|l IH|l IH|l IH|a b cc t0 l IHt IHl] using expr_ind2; intros st t st' C Hn Hb E;
    try (apply keeps_uses; match type of E with TransferRules.eval _ _ _ _ _ ?x _ = _ => apply (no_b_all x st t st' C Hn eq_refl E) end).
  - cbn [TransferRules.eval] in E. destruct (fetch_cache st id TiB C) as (st1 & F & K); [apply Hn; left; reflexivity|]. rewrite F in E. cbn [eval_instr] in E.
    change t with ([] ++ t). apply (uses_trans st st1); [apply keeps_uses, K|]. destruct (r_bq st1) as [|b0 q] eqn:B; [injection E as <- <-; apply keeps_uses, keeps_refl, K|]. injection E as <- <-.
    destruct (r_in_out st1) eqn:IO; [|apply keeps_uses, keeps_refl, K]. split; [apply K|]. split; [exact (eq_refl _)|]. split; [reflexivity|]. split; [congruence|].
    exists [b0]. split; [exact B|]. cbn [formatting filter]. destruct (negb (str_eqb b0 [cSP])); [apply io_one|constructor].
  - apply keeps_uses. apply (no_b_all (XCaseFrom id pos e) st t st' C Hn); [|exact E]. cbn in Hb |- *. apply negb_true_iff, Hb.
  - rewrite eval_concat in E. apply (ok_b_list l IH _ _ _ C Hn Hb E).
  - rewrite eval_lu in E. destruct (eval_list l (with_owb (with_lu st true) [])) as [[w st1]|] eqn:E1; [|discriminate]. destruct (single_wb false (with_lu st1 false)) as [st2|] eqn:E2; [|discriminate]. injection E as <- <-.
    assert (K : uses (with_owb (with_lu st true) []) st1 w) by (apply (ok_b_list l IH (with_owb (with_lu st true) []) _ _ C Hn Hb E1)).
    assert (K2 := single_keeps _ _ _ (proj1 K : cache_ok N (with_lu st1 false)) E2). apply (uses_text _ _ w _); [|intros; apply lu_text_io; assumption].
    rewrite <- (app_nil_r w). apply (uses_trans st st1 st2 w []); [exact K|apply keeps_uses, K2].
  - rewrite eval_mlu_eq in E. destruct (eval_mlu l [] true (with_lu (with_owb st []) true)) as [[w st1]|] eqn:E1; [|discriminate]. destruct (single_wb true st1) as [st2|] eqn:E2; [|discriminate]. injection E as <- <-.
    destruct (ok_b_mlu l IH _ _ (with_lu (with_owb st []) true) _ _ C Hn Hb E1) as (m & -> & K). cbn [app] in *.
    assert (K2 := single_keeps _ _ _ (proj1 K) E2). apply (uses_text _ _ m _); [|intros; apply mlu_text_io; assumption].
    rewrite <- (app_nil_r m). apply (uses_trans st st1 st2 m []); [exact K|apply keeps_uses, K2].
  - rewrite eval_chunk in E. cbn [nodes_e plain_b] in *. apply incl_app_inv in Hn as [Hn1 Hn2]. apply andb_prop in Hb as [Hb1 Hb2]. destruct (chunk_name copy_case dict_case st a b cc) as [nm|]; [|discriminate].
    destruct (eval_list t0 st) as [[x st1]|] eqn:E1; [|discriminate]. destruct (eval_list l st1) as [[y st2]|] eqn:E2; [|discriminate]. injection E as <- <-.
    assert (K := ok_b_list t0 IHt _ _ _ C Hn1 Hb1 E1). assert (K2 := ok_b_list l IHl _ _ _ (proj1 K) Hn2 Hb2 E2).
    replace (cCARET :: nm ++ x ++ cLC :: y ++ [cRC; cDOL]) with ((([cCARET] ++ nm) ++ x) ++ ([cLC] ++ y ++ [cRC; cDOL])) by (cbn; rewrite <- !app_assoc; reflexivity).
    apply (uses_trans _ st1); [apply (uses_text _ _ x _ K); intros; apply io_left; assumption|]. apply (uses_text _ _ y _ K2). intros l0 H0. apply io_left, io_right, H0.
Qed.
(* with in_out off, nothing is used, whatever the expression *)
Definition off (e : expr) : Prop := forall st t st', cache_ok N st -> incl (nodes_e e) N -> r_in_out st = false -> eval e st = Some (t, st') -> keeps st st'.
Lemma off_list l : Forall off l -> forall st t st', cache_ok N st -> incl (flat_map nodes_e l) N -> r_in_out st = false -> eval_list l st = Some (t, st') -> keeps st st'.
Proof.
  induction 1 as [|x l Hx H IH]; intros st t st' C Hn Hb E; cbn [TransferRules.eval_list] in E; [injection E as <- <-; apply keeps_refl, C|].
  cbn [flat_map] in *. apply incl_app_inv in Hn as [Hn1 Hn2]. destruct (eval x st) as [[a st1]|] eqn:E1; [|discriminate].
  destruct (eval_list l st1) as [[b st2]|] eqn:E2; [|discriminate]. injection E as <- <-. assert (K := Hx _ _ _ C Hn1 Hb E1). apply (keeps_trans _ _ _ K), (IH _ _ _ (proj1 K) Hn2 (eq_trans (proj1 (proj2 K)) Hb) E2).
Qed.
Lemma off_mlu l : Forall (Forall off) l -> forall v f st t st', cache_ok N st -> incl (flat_map (flat_map nodes_e) l) N -> r_in_out st = false -> eval_mlu l v f st = Some (t, st') -> keeps st st'.
Proof.
  induction 1 as [|x l Hx H IH]; intros v f st t st' C Hn Hb E; cbn [TransferRules.eval_mlu] in E; [injection E as <- <-; apply keeps_refl, C|].
  cbn [flat_map] in *. apply incl_app_inv in Hn as [Hn1 Hn2]. destruct (eval_list x st) as [[a st1]|] eqn:E1; [|discriminate].
  destruct (mlu_add v f a) as [v' f']. assert (K := off_list x Hx _ _ _ C Hn1 Hb E1). apply (keeps_trans _ _ _ K), (IH _ _ _ _ _ (proj1 K) Hn2 (eq_trans (proj1 (proj2 K)) Hb) E).
Qed.
Lemma off_all e : off e.
Proof.
  induction e as [id sd part pos q link|id v|id|id n|id sd part pos|id pos e IH|l IH|l IH|l IH|a b cc t0 l IHt IHl] using expr_ind2; intros st t st' C Hn Hb E;
    try (match type of E with TransferRules.eval _ _ _ _ _ ?x _ = _ => apply (no_b_all x st t st' C Hn eq_refl E) end).
  - cbn [TransferRules.eval] in E. destruct (fetch_cache st id TiB C) as (st1 & F & K); [apply Hn; left; reflexivity|]. rewrite F in E. cbn [eval_instr] in E.
    apply (keeps_trans _ _ _ K). assert (IO : r_in_out st1 = false) by (rewrite (proj1 (proj2 K)); exact Hb). rewrite IO in E. destruct (r_bq st1); injection E as <- <-; apply keeps_refl, K.
  - cbn [TransferRules.eval] in E. destruct (fetch_cache st id (TiCaseFrom pos) C) as (st1 & F & K); [apply Hn; left; reflexivity|].
    rewrite F in E. apply (keeps_trans _ _ _ K). cbn [eval_instr] in E. destruct (word_at st1 pos) as [i|]; [|injection E as <- <-; apply keeps_refl, K]. destruct (obj st1 i); [|discriminate].
    destruct (eval e st1) as [[d st2]|] eqn:E2; [|discriminate]. injection E as <- <-. apply (IH _ _ _ (proj1 K) (fun x Hx => Hn x (or_intror Hx)) (eq_trans (proj1 (proj2 K)) Hb) E2).
  - rewrite eval_concat in E. apply (off_list l IH _ _ _ C Hn Hb E).
  - rewrite eval_lu in E. destruct (eval_list l (with_owb (with_lu st true) [])) as [[w st1]|] eqn:E1; [|discriminate]. destruct (single_wb false (with_lu st1 false)) as [st2|] eqn:E2; [|discriminate]. injection E as <- <-.
    assert (K : keeps (with_owb (with_lu st true) []) st1) by (apply (off_list l IH (with_owb (with_lu st true) []) _ _ C Hn Hb E1)).
    assert (K2 := single_keeps _ _ _ (proj1 K : cache_ok N (with_lu st1 false)) E2). apply (keeps_trans _ _ _ K K2).
  - rewrite eval_mlu_eq in E. destruct (eval_mlu l [] true (with_lu (with_owb st []) true)) as [[w st1]|] eqn:E1; [|discriminate]. destruct (single_wb true st1) as [st2|] eqn:E2; [|discriminate]. injection E as <- <-.
    assert (K : keeps (with_lu (with_owb st []) true) st1) by (apply (off_mlu l IH _ _ (with_lu (with_owb st []) true) _ _ C Hn Hb E1)).
    assert (K2 := single_keeps _ _ _ (proj1 K) E2). apply (keeps_trans _ _ _ K K2).
  - rewrite eval_chunk in E. cbn [nodes_e] in *. apply incl_app_inv in Hn as [Hn1 Hn2]. destruct (chunk_name copy_case dict_case st a b cc); [|discriminate].
    destruct (eval_list t0 st) as [[x st1]|] eqn:E1; [|discriminate]. destruct (eval_list l st1) as [[y st2]|] eqn:E2; [|discriminate]. injection E as <- <-.
    assert (K := off_list t0 IHt _ _ _ C Hn1 Hb E1). apply (keeps_trans _ _ _ K), (off_list l IHl _ _ _ (proj1 K) Hn2 (eq_trans (proj1 (proj2 K)) Hb) E2).
Qed.

Notation run := (run attr_match attr_replace copy_case case_from get_case lower lists dict_case).
Notation run_list := (run_list attr_match attr_replace copy_case case_from get_case lower lists dict_case).
Notation run_opts := (run_opts attr_match attr_replace copy_case case_from get_case lower lists dict_case).
Notation run_macro := (run_macro attr_match attr_replace copy_case case_from get_case lower lists dict_case).
Notation call := (call attr_match attr_replace copy_case case_from get_case lower lists dict_case macros macro_map).
Notation process_rule := (process_rule attr_match attr_replace copy_case case_from get_case lower lists dict_case macros macro_map).
Notation do_let := (do_let attr_match attr_replace copy_case case_from get_case dict_case).
Notation let_var := (let_var attr_match copy_case case_from get_case dict_case).
Notation let_clip := (let_clip attr_match attr_replace copy_case case_from get_case dict_case).
Notation do_modcase := (do_modcase attr_match attr_replace copy_case case_from get_case dict_case).
Notation do_append := (do_append attr_match copy_case case_from get_case dict_case).
Notation do_out := (do_out attr_match copy_case case_from get_case dict_case).
Notation out_list := (out_list attr_match copy_case case_from get_case dict_case).

(* tests *)
Lemma test_off c : forall st b st', cache_ok N st -> incl (nodes_c c) N -> r_in_out st = false -> test c st = Some (b, st') -> keeps st st'.
Proof.
  assert (T2 : forall a b f st r st', cache_ok N st -> incl (nodes_e a ++ nodes_e b) N -> r_in_out st = false -> two attr_match copy_case case_from get_case dict_case a b f st = Some (r, st') -> keeps st st').
  { intros a b f st r st' C Hn Ho E. unfold two in E. apply incl_app_inv in Hn as [Hn1 Hn2]. destruct (eval a st) as [[x st1]|] eqn:E1; [|discriminate]. destruct (eval b st1) as [[y st2]|] eqn:E2; [|discriminate]. injection E as <- <-.
    assert (K := off_all a _ _ _ C Hn1 Ho E1). apply (keeps_trans _ _ _ K), (off_all b _ _ _ (proj1 K) Hn2 (eq_trans (proj1 (proj2 K)) Ho) E2). }
  assert (T1 : forall a f st r st', cache_ok N st -> incl (nodes_e a) N -> r_in_out st = false -> one attr_match copy_case case_from get_case dict_case a f st = Some (r, st') -> keeps st st').
  { intros a f st r st' C Hn Ho E. unfold one in E. destruct (eval a st) as [[x st1]|] eqn:E1; [|discriminate]. injection E as <- <-. apply (off_all a _ _ _ C Hn Ho E1). }
  induction c as [cl a b|cl a b|cl a b|cl a b|cl a l|cl a l|cl a l|l IH|l IH|c IH] using cond_ind2; intros st r st' C Hn Ho E;
    try (apply (T2 _ _ _ _ _ _ C Hn Ho E)); try (apply (T1 _ _ _ _ _ C Hn Ho E)).
  - cbn [TransferRules.test] in E. cbn [nodes_c] in Hn.
    match type of E with ?f l st = _ => set (F := f) in E end.
    assert (FE : forall x r s0, F (x :: r) s0 = match test x s0 with Some (true, st1) => F r st1 | o => o end) by reflexivity.
    assert (FN : forall s0, F [] s0 = Some (true, s0)) by reflexivity. clearbody F.
    revert st C Ho E. induction IH as [|x l Hx H IHl]; intros st C Ho E; [rewrite FN in E; injection E as <- <-; apply keeps_refl, C|].
    rewrite FE in E. cbn [flat_map] in Hn. apply incl_app_inv in Hn as [Hn1 Hn2]. destruct (test x st) as [[[|] st1]|] eqn:E1; [|injection E as <- <-; apply (Hx _ _ _ C Hn1 Ho E1)|discriminate].
    assert (K := Hx _ _ _ C Hn1 Ho E1). apply (keeps_trans _ _ _ K), (IHl Hn2 _ (proj1 K) (eq_trans (proj1 (proj2 K)) Ho) E).
  - cbn [TransferRules.test] in E. cbn [nodes_c] in Hn.
    match type of E with ?f l st = _ => set (F := f) in E end.
    assert (FE : forall x r s0, F (x :: r) s0 = match test x s0 with Some (false, st1) => F r st1 | o => o end) by reflexivity.
    assert (FN : forall s0, F [] s0 = Some (false, s0)) by reflexivity. clearbody F.
    revert st C Ho E. induction IH as [|x l Hx H IHl]; intros st C Ho E; [rewrite FN in E; injection E as <- <-; apply keeps_refl, C|].
    rewrite FE in E. cbn [flat_map] in Hn. apply incl_app_inv in Hn as [Hn1 Hn2]. destruct (test x st) as [[[|] st1]|] eqn:E1; [injection E as <- <-; apply (Hx _ _ _ C Hn1 Ho E1)| |discriminate].
    assert (K := Hx _ _ _ C Hn1 Ho E1). apply (keeps_trans _ _ _ K), (IHl Hn2 _ (proj1 K) (eq_trans (proj1 (proj2 K)) Ho) E).
  - cbn [TransferRules.test] in E. destruct (test c st) as [[b st1]|] eqn:E1; [|discriminate]. injection E as <- <-. apply (IH _ _ _ C Hn Ho E1).
Qed.

(* what an instruction does *)
Definition step (st st' : rst) : Prop :=
  cache_ok N st' /\ r_in_out st' = false /\ exists o p, r_out st' = r_out st ++ o /\ r_bq st = p ++ r_bq st' /\ InOrder (formatting p) o.
Lemma keeps_step st st' : r_in_out st = false -> keeps st st' -> step st st'.
Proof. intros Ho (A & B & C & D). split; [exact A|]. split; [congruence|]. exists [], []. split; [rewrite app_nil_r; exact C|]. split; [symmetry; exact D|constructor]. Qed.
Lemma step_refl st : r_in_out st = false -> cache_ok N st -> step st st.
Proof. intros Ho C. apply keeps_step; [exact Ho|apply keeps_refl, C]. Qed.
Lemma step_trans st st1 st2 : step st st1 -> step st1 st2 -> step st st2.
Proof.
  intros (A1 & B1 & o1 & p1 & D1 & E1 & F1) (A2 & B2 & o2 & p2 & D2 & E2 & F2). split; [exact A2|]. split; [exact B2|]. exists (o1 ++ o2), (p1 ++ p2).
  split; [rewrite D2, D1, app_assoc; reflexivity|]. split; [rewrite E1, E2, app_assoc; reflexivity|]. rewrite formatting_app. apply io_app; assumption.
Qed.
Lemma keeps_cache_add st st' id ti : keeps st st' -> In (id, ti) N -> keeps st (cache_add st' id ti).
Proof.
  intros (A & B & C & D) HI. split; [|repeat split; assumption]. intros i t H. cbn in H. destruct (Nat.eqb_spec i id); [injection H as <-; subst; exact HI|apply A, H].
Qed.
Lemma let_var_off n e st st' : cache_ok N st -> incl (nodes_e e) N -> r_in_out st = false -> let_var n e st = Some st' -> keeps st st'.
Proof.
  intros C Hn Ho E. unfold TransferRules.let_var in E. destruct (eval e _) as [[v st1]|] eqn:E1; [|discriminate]. injection E as <-.
  apply (off_all e (with_vwb (with_vv (with_let st true) n) (upd (r_vwb st) n [])) _ _ C Hn Ho E1).
Qed.
Lemma let_clip_off i sd part q e st st' : cache_ok N st -> incl (nodes_e e) N -> r_in_out st = false -> let_clip i sd part q e st = Some st' -> keeps st st'.
Proof.
  intros C Hn Ho E. unfold TransferRules.let_clip in E. destruct (eval e st) as [[v st1]|] eqn:E1; [|discriminate]. destruct (obj st1 i) as [w|]; [|discriminate].
  destruct (w_put _ _ _ _ _ _); [|discriminate]. injection E as <-. apply (off_all e st _ _ C Hn Ho E1).
Qed.
Lemma do_let_off l e st st' : cache_ok N st -> incl (nodes_l l ++ nodes_e e) N -> r_in_out st = false -> do_let l e st = Some st' -> keeps st st'.
Proof.
  intros C Hn Ho E. apply incl_app_inv in Hn as [Hl Hn]. unfold TransferRules.do_let in E. destruct (r_cache st _) as [ti|].
  - destruct ti as [sd part pos q|sd part pos q link|n|v| |sd part pos|pos]; try (injection E as <-; apply keeps_refl, C).
    + destruct (word_at st pos) as [i|]; [apply (let_clip_off _ _ _ _ _ _ _ C Hn Ho E)|injection E as <-; apply keeps_refl, C].
    + apply (let_var_off _ _ _ _ C Hn Ho E).
  - destruct l as [id n|id sd part pos q].
    + destruct (let_var n e st) as [st1|] eqn:E1; [|discriminate]. injection E as <-. apply keeps_cache_add; [apply (let_var_off _ _ _ _ C Hn Ho E1)|apply Hl; left; reflexivity].
    + destruct (_ <=? pos)%Z; [injection E as <-; apply keeps_refl, C|]. destruct (raw_ptr st pos) as [[i|]|]; [|injection E as <-; apply keeps_refl, C|discriminate].
      destruct (let_clip i sd part q e st) as [st1|] eqn:E1; [|discriminate]. injection E as <-. apply keeps_cache_add; [apply (let_clip_off _ _ _ _ _ _ _ C Hn Ho E1)|apply Hl; left; reflexivity].
Qed.
Lemma do_modcase_off l e st st' : cache_ok N st -> incl (nodes_e e) N -> r_in_out st = false -> do_modcase l e st = Some st' -> keeps st st'.
Proof.
  intros C Hn Ho E. unfold TransferRules.do_modcase in E. destruct dict_case eqn:DC; [injection E as <-; apply keeps_refl, C|]. rewrite <- DC in E. destruct l as [id n|id sd part pos q].
  - destruct (eval e st) as [[c st1]|] eqn:E1; [|discriminate]. injection E as <-. apply (off_all e st _ _ C Hn Ho E1).
  - destruct (eval e st) as [[c st1]|] eqn:E1; [|discriminate]. destruct (raw_ptr st1 pos) as [[i|]|]; try discriminate. destruct (obj st1 i) as [w|]; [|discriminate].
    destruct (w_put _ _ _ _ _ _); [|discriminate]. injection E as <-. apply (off_all e st _ _ C Hn Ho E1).
Qed.
Lemma do_append_off n l : forall st st', cache_ok N st -> incl (flat_map nodes_e l) N -> r_in_out st = false -> do_append n l st = Some st' -> keeps st st'.
Proof.
  induction l as [|e l IH]; intros st st' C Hn Ho E; cbn [TransferRules.do_append] in E; [injection E as <-; apply keeps_refl, C|].
  cbn [flat_map] in Hn. apply incl_app_inv in Hn as [Hn1 Hn2]. destruct (eval e _) as [[v st1]|] eqn:E1; [|discriminate].
  assert (K : keeps st st1) by (apply (off_all e (with_vv (with_let st true) n) _ _ C Hn1 Ho E1)).
  refine (keeps_trans _ _ _ _ (IH _ _ _ Hn2 _ E)); [exact K|exact (proj1 K)|exact (eq_trans (proj1 (proj2 K)) Ho)].
Qed.
Lemma out_list_uses l : forall st st', cache_ok N st -> incl (flat_map nodes_e l) N -> forallb plain_b l = true -> out_list l st = Some st' ->
  cache_ok N st' /\ exists o p, r_out st' = r_out st ++ o /\ r_bq st = p ++ r_bq st' /\ InOrder (formatting p) o.
Proof.
  induction l as [|e l IH]; intros st st' C Hn Hp E; cbn [TransferRules.out_list] in E.
  - injection E as <-. split; [exact C|]. exists [], []. split; [rewrite app_nil_r; reflexivity|]. split; [reflexivity|constructor].
  - cbn [flat_map forallb] in *. apply incl_app_inv in Hn as [Hn1 Hn2]. apply andb_prop in Hp as [Hp1 Hp2]. destruct (eval e st) as [[v st1]|] eqn:E1; [|discriminate].
    destruct (ok_b_all e _ _ _ C Hn1 Hp1 E1) as (A & B & D & F & p & G & H).
    destruct (IH (with_out st1 (r_out st1 ++ v)) _ A Hn2 Hp2 E) as (A' & o & q & D' & G' & H'). split; [exact A'|]. exists (v ++ o), (p ++ q).
    cbn in D', G'. split; [rewrite D', D, <- app_assoc; reflexivity|]. split; [rewrite G, G', app_assoc; reflexivity|]. rewrite formatting_app. apply io_app; assumption.
Qed.
Lemma do_out_step l st st' : cache_ok N st -> incl (flat_map nodes_e l) N -> forallb plain_b l = true -> do_out l st = Some st' -> step st st'.
Proof.
  intros C Hn Hp E. unfold TransferRules.do_out in E. destruct (out_list l (with_inout st true)) as [st1|] eqn:E1; [|discriminate]. injection E as <-.
  destruct (out_list_uses l (with_inout st true) _ C Hn Hp E1) as (A & o & p & D & G & H). split; [exact A|]. split; [reflexivity|]. exists o, p. split; [exact D|]. split; [exact G|exact H].
Qed.
Definition calls_step (cl : str -> list Z -> rst -> option rst) : Prop := forall n args st st', cache_ok N st -> r_in_out st = false -> cl n args st = Some st' -> step st st'.
Definition run_step_ok cl (i : instr) : Prop := forall st z st', cache_ok N st -> r_in_out st = false -> incl (nodes_i i) N -> plain_i i = true -> run cl i st = Some (z, st') -> step st st'.
Lemma run_list_step cl l : Forall (run_step_ok cl) l -> forall st z st', cache_ok N st -> r_in_out st = false -> incl (flat_map nodes_i l) N -> forallb plain_i l = true -> run_list cl l st = Some (z, st') -> step st st'.
Proof.
  induction 1 as [|x l Hx H IH]; intros st z st' C Ho Hn Hp E; cbn [TransferRules.run_list] in E; [injection E as <- <-; apply step_refl; assumption|].
  cbn [flat_map forallb] in *. apply incl_app_inv in Hn as [Hn1 Hn2]. apply andb_prop in Hp as [Hp1 Hp2]. destruct (run cl x st) as [[z1 st1]|] eqn:E1; [|discriminate].
  assert (K := Hx _ _ _ C Ho Hn1 Hp1 E1). destruct (z1 =? -1)%Z; [|injection E as <- <-; exact K]. apply (step_trans _ _ _ K), (IH _ _ _ (proj1 K) (proj1 (proj2 K)) Hn2 Hp2 E).
Qed.
Lemma run_step cl : calls_step cl -> forall i, run_step_ok cl i.
Proof.
  intros HC i. induction i as [l e|n l|l|l e|n args|z0|l IH] using instr_ind2; intros st z st' C Ho Hn Hp E.
  - cbn [TransferRules.run] in E. destruct (do_let l e st) as [st1|] eqn:E1; [|discriminate]. injection E as <- <-. apply keeps_step, (do_let_off l e _ _ C Hn Ho E1). exact Ho.
  - cbn [TransferRules.run] in E. destruct (do_append n l st) as [st1|] eqn:E1; [|discriminate]. injection E as <- <-. apply keeps_step, (do_append_off n l _ _ C Hn Ho E1). exact Ho.
  - cbn [TransferRules.run] in E. destruct (do_out l st) as [st1|] eqn:E1; [|discriminate]. injection E as <- <-. apply (do_out_step l _ _ C Hn Hp E1).
  - cbn [TransferRules.run] in E. destruct (do_modcase l e st) as [st1|] eqn:E1; [|discriminate]. injection E as <- <-. apply keeps_step, (do_modcase_off l e _ _ C Hn Ho E1). exact Ho.
  - cbn [TransferRules.run] in E. destruct (cl n args st) as [st1|] eqn:E1; [|discriminate]. injection E as <- <-. apply (HC _ _ _ _ C Ho E1).
  - cbn [TransferRules.run] in E. injection E as <- <-. apply step_refl; assumption.
  - change (run_opts cl l st = Some (z, st')) in E. cbn [nodes_i plain_i] in Hn, Hp. revert st C Ho E. induction IH as [|[oc b] l Hb H IHl]; intros st C Ho E.
    + injection E as <- <-. apply step_refl; assumption.
    + cbn [flat_map forallb fst snd] in *. apply incl_app_inv in Hn as [Hn1 Hn2]. apply incl_app_inv in Hn1 as [Hn0 Hn1]. apply andb_prop in Hp as [Hp1 Hp2]. cbn [TransferRules.run_opts] in E. destruct oc as [c|].
      * destruct (test c st) as [[[|] st1]|] eqn:E1; [| |discriminate]; assert (K := keeps_step _ _ Ho (test_off c _ _ _ C Hn0 Ho E1)).
        -- apply (step_trans _ _ _ K), (run_list_step cl b Hb _ _ _ (proj1 K) (proj1 (proj2 K)) Hn1 Hp1 E).
        -- apply (step_trans _ _ _ K), (IHl Hn2 Hp2 _ (proj1 K) (proj1 (proj2 K)) E).
      * destruct (run_list cl b st) as [[z1 st1]|] eqn:E1; [|discriminate]. assert (K := run_list_step cl b Hb _ _ _ C Ho Hn1 Hp1 E1).
        destruct (z1 =? -1)%Z; [|injection E as <- <-; exact K]. apply (step_trans _ _ _ K), (IHl Hn2 Hp2 _ (proj1 K) (proj1 (proj2 K)) E).
Qed.
Lemma run_macro_step cl l : calls_step cl -> forall st st', cache_ok N st -> r_in_out st = false -> incl (flat_map nodes_i l) N -> forallb plain_i l = true -> run_macro cl l st = Some st' -> step st st'.
Proof.
  intros HC. induction l as [|x l IH]; intros st st' C Ho Hn Hp E; cbn [TransferRules.run_macro] in E; [injection E as <-; apply step_refl; assumption|].
  cbn [flat_map forallb] in *. apply incl_app_inv in Hn as [Hn1 Hn2]. apply andb_prop in Hp as [Hp1 Hp2]. destruct (run cl x st) as [[z1 st1]|] eqn:E1; [|discriminate].
  assert (K := run_step cl HC x _ _ _ C Ho Hn1 Hp1 E1). apply (step_trans _ _ _ K), (IH _ _ (proj1 K) (proj1 (proj2 K)) Hn2 Hp2 E).
Qed.
Hypothesis HM : forall n npar body, nth_error macro_map n = Some (npar, body) -> incl (flat_map nodes_i body) N /\ forallb plain_i body = true.
Lemma call_step f : calls_step (call f).
Proof.
  induction f as [|f IH]; intros n args st st' C Ho E; cbn [TransferRules.call] in E; [discriminate|].
  destruct (nth_error macro_map (macros n)) as [[npar body]|] eqn:M; [|discriminate]. destruct (HM _ _ _ M) as [Hn Hp].
  assert (G : forall fr st1, run_macro (call f) body (with_frame st fr) = Some st1 -> step st (with_frame st1 (r_frame st))).
  { intros fr st1 E1. apply (run_macro_step (call f) body IH (with_frame st fr) st1 C Ho Hn Hp E1). }
  destruct npar as [|npar].
  - destruct (run_macro (call f) body (with_frame st None)) as [st1|] eqn:E1; [|discriminate]. injection E as <-. apply (G _ _ E1).
  - destruct (S npar <? length args).
    + destruct (ptrs st _); [|discriminate]. injection E as <-. apply step_refl; assumption.
    + destruct (ptrs st args) as [l|]; [|discriminate]. match type of E with match ?x with _ => _ end = _ => destruct x as [st1|] eqn:E1; [|discriminate] end. injection E as <-. apply (G _ _ E1).
Qed.
Theorem rule_blanks f body st z st' : cache_ok N st -> r_in_out st = false -> incl (flat_map nodes_i body) N -> forallb plain_i body = true ->
  process_rule f body st = Some (z, st') ->
  exists o, r_out st' = r_out st ++ o /\ InOrder (formatting (r_bq st)) o /\ r_bq st' = [] /\ cache_ok N st' /\ r_in_out st' = false.
Proof.
  intros C Ho Hn Hp E. unfold TransferRules.process_rule in E. destruct (run_list (call f) body st) as [[z1 st1]|] eqn:E1; [|discriminate]. injection E as <- <-.
  assert (RS : Forall (run_step_ok (call f)) body) by (apply Forall_forall; intros x _; apply run_step, call_step).
  destruct (run_list_step (call f) body RS _ _ _ C Ho Hn Hp E1) as (A & B & o & p & D & G & H).
  exists (o ++ flush (r_bq st1)). split; [cbn; rewrite D, <- app_assoc; reflexivity|]. split; [|split; [reflexivity|split; [exact A|exact B]]].
  rewrite G, formatting_app. apply io_app; [exact H|].
  replace (flush (r_bq st1)) with (concat (formatting (r_bq st1))); [apply io_concat|]. unfold formatting, flush. clear. induction (r_bq st1) as [|b l IH]; [reflexivity|]. cbn [filter flat_map].
  destruct (str_eqb b [cSP]); cbn [negb concat app]; rewrite IH; reflexivity.
Qed.
End Blanks.
