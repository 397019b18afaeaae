(** Evaluating outside <let> and <out> changes nothing a rule can see: for all expressions and all contents of the cache. *)
From Coq Require Import String ZArith.
From Verif Require Import Model.Base Proofs.Base Model.TransferRules Spec.TransferRules Proofs.TransferRules.
Section Pure.
Variable attr_match : str -> str -> str.
Variable copy_case case_from : str -> str -> str.
Variable get_case lower : str -> str.
Variable lists : str -> list str.
Variable dict_case : bool.
Notation eval := (eval attr_match copy_case case_from get_case dict_case).
Notation eval_list := (eval_list attr_match copy_case case_from get_case dict_case).
Notation eval_mlu := (eval_mlu attr_match copy_case case_from get_case dict_case).
Notation test := (test attr_match copy_case case_from get_case lower lists dict_case).
Definition quiet (st : rst) : Prop := r_in_let st = false /\ r_in_out st = false.
(** words, variables and their word-bound blanks, blank queue, output *)
Definition shown (st : rst) : sst := s_set_unit (proj st) false.
Definition same (st st' : rst) : Prop := quiet st' /\ shown st' = shown st.
Lemma same_refl st : quiet st -> same st st.
Proof. intros H. split; [exact H|reflexivity]. Qed.
Lemma same_trans a b c : same a b -> same b c -> same a c.
Proof. intros [A B] [C D]. split; [exact C|congruence]. Qed.
Lemma fetch_same st id ti : quiet st -> same st (snd (fetch st id ti)).
Proof. intros H. unfold fetch. destruct (r_cache st id); cbn; split; [exact H|reflexivity|exact H|reflexivity]. Qed.
Lemma take_same st part wb st' : quiet st -> take_wb st part wb = Some st' -> same st st'.
Proof.
  intros H E. unfold take_wb in E. destruct (is_lemma part && _); [|injection E as <-; apply same_refl, H]. destruct (r_in_lu st).
  - destruct (combine_wblanks _ _); [|discriminate]. injection E as <-. split; [exact H|reflexivity].
  - rewrite (proj1 H) in E. injection E as <-. apply same_refl, H.
Qed.
Lemma single_same b st st' : quiet st -> single_wb b st = Some st' -> same st st'.
Proof.
  intros H E. unfold single_wb in E. destruct (Nat.eqb _ _); [|injection E as <-; apply same_refl, H]. destruct (r_frame st) as [[|[i|] fr]|]; try discriminate.
  - destruct (obj st i); [|discriminate]. injection E as <-. split; [exact H|reflexivity].
  - destruct b; [discriminate|]. injection E as <-. apply same_refl, H.
Qed.
Lemma instr_same ti sub st t st' : quiet st -> (forall d s', sub st = Some (d, s') -> same st s') -> eval_instr attr_match case_from get_case ti sub st = Some (t, st') -> same st st'.
Proof.
  intros H HS E. destruct ti as [sd part pos q|sd part pos q link|n|v| |sd part pos|pos]; cbn [eval_instr] in E.
  - destruct (word_at st pos) as [i|]; [|injection E as <- <-; apply same_refl, H]. destruct (obj st i) as [w|]; [|discriminate].
    destruct sd; try (injection E as <- <-; apply same_refl, H); destruct (take_wb st part (w_wb w)) as [s1|] eqn:T; try discriminate; injection E as <- <-; apply (take_same _ _ _ _ H T).
  - destruct (word_at st pos) as [i|]; [|injection E as <- <-; apply same_refl, H]. destruct (obj st i) as [w|]; [|discriminate]. injection E as <- <-; apply same_refl, H.
  - destruct (1 <? r_ll st); [|injection E as <- <-; apply same_refl, H]. destruct (combine_wblanks _ _); [|discriminate]. injection E as <- <-. split; [exact H|reflexivity].
  - injection E as <- <-; apply same_refl, H.
  - destruct (r_bq st) eqn:B; [injection E as <- <-; apply same_refl, H|]. rewrite (proj2 H) in E. injection E as <- <-; apply same_refl, H.
  - destruct (word_at st pos) as [i|]; [|injection E as <- <-; apply same_refl, H]. destruct (obj st i) as [w|]; [|discriminate]. injection E as <- <-; apply same_refl, H.
  - destruct (word_at st pos) as [i|]; [|injection E as <- <-; apply same_refl, H]. destruct (obj st i) as [w|]; [|discriminate].
    destruct (sub st) as [[d s1]|] eqn:S; [|discriminate]. injection E as <- <-. apply (HS _ _ eq_refl).
Qed.
Definition pure_e (e : expr) : Prop := forall st t st', quiet st -> eval e st = Some (t, st') -> same st st'.
Lemma pure_list l : Forall pure_e l -> forall st t st', quiet st -> eval_list l st = Some (t, st') -> same st st'.
Proof.
  induction 1 as [|x l Hx H IH]; intros st t st' Q E; cbn [TransferRules.eval_list] in E; [injection E as <- <-; apply same_refl, Q|].
  destruct (eval x st) as [[a st1]|] eqn:E1; [|discriminate]. destruct (eval_list l st1) as [[b st2]|] eqn:E2; [|discriminate]. injection E as <- <-.
  assert (K := Hx _ _ _ Q E1). apply (same_trans _ _ _ K), (IH _ _ _ (proj1 K) E2).
Qed.
Lemma pure_mlu l : Forall (Forall pure_e) l -> forall v f st t st', quiet st -> eval_mlu l v f st = Some (t, st') -> same st st'.
Proof.
  induction 1 as [|x l Hx H IH]; intros v f st t st' Q E; cbn [TransferRules.eval_mlu] in E; [injection E as <- <-; apply same_refl, Q|].
  destruct (eval_list x st) as [[a st1]|] eqn:E1; [|discriminate]. destruct (mlu_add v f a) as [v' f'].
  assert (K := pure_list x Hx _ _ _ Q E1). apply (same_trans _ _ _ K), (IH _ _ _ _ _ (proj1 K) E).
Qed.
Lemma eval_same e : pure_e e.
Proof.
  assert (LF : forall id ti st t st', quiet st -> (let '(ti', st1) := fetch st id ti in eval_instr attr_match case_from get_case ti' (fun _ => None) st1) = Some (t, st') -> same st st').
  { intros id ti st t st' Q E. assert (K := fetch_same st id ti Q). destruct (fetch st id ti) as [ti' st1]. cbn [snd] in K. apply (same_trans _ _ _ K). refine (instr_same _ _ _ _ _ (proj1 K) _ E). discriminate. }
  induction e as [id sd part pos q link|id v|id|id n|id sd part pos|id pos e IH|l IH|l IH|l IH|a b cc t0 l IHt IHl] using expr_ind2; intros st t st' Q E;
    try (cbn [TransferRules.eval] in E; apply (LF _ _ _ _ _ Q E)).
  - cbn [TransferRules.eval] in E. assert (K := fetch_same st id (TiCaseFrom pos) Q). destruct (fetch st id (TiCaseFrom pos)) as [ti st1]. cbn [snd] in K. apply (same_trans _ _ _ K).
    refine (instr_same _ _ _ _ _ (proj1 K) _ E). intros d s' E'. apply (IH _ _ _ (proj1 K) E').
  - apply (pure_list l IH _ _ _ Q E).
  - rewrite eval_lu in E. destruct (eval_list l (with_owb (with_lu st true) [])) as [[w st1]|] eqn:E1; [|discriminate]. destruct (single_wb false (with_lu st1 false)) as [st2|] eqn:E2; [|discriminate]. injection E as <- <-.
    assert (K : same (with_owb (with_lu st true) []) st1) by (apply (pure_list l IH (with_owb (with_lu st true) []) _ _ Q E1)).
    assert (K2 := single_same _ (with_lu st1 false) _ (proj1 K) E2). apply (same_trans st (with_lu st1 false) st2); [exact K|exact K2].
  - change (eval (XMlu l) st) with (match eval_mlu l [] true (with_lu (with_owb st []) true) with Some (w, st1) => match single_wb true st1 with Some st2 => Some (mlu_text (r_owb st2) w, st2) | None => None end | None => None end) in E.
    destruct (eval_mlu l [] true (with_lu (with_owb st []) true)) as [[w st1]|] eqn:E1; [|discriminate]. destruct (single_wb true st1) as [st2|] eqn:E2; [|discriminate]. injection E as <- <-.
    assert (K : same (with_lu (with_owb st []) true) st1) by (apply (pure_mlu l IH _ _ (with_lu (with_owb st []) true) _ _ Q E1)).
    assert (K2 := single_same _ st1 _ (proj1 K) E2). apply (same_trans st st1 st2); [exact K|exact K2].
  - rewrite eval_chunk in E. destruct (chunk_name _ _ _ _ _ _) as [nm|]; [|discriminate]. destruct (eval_list t0 st) as [[x st1]|] eqn:E1; [|discriminate]. destruct (eval_list l st1) as [[y st2]|] eqn:E2; [|discriminate]. injection E as <- <-.
    assert (K := pure_list t0 IHt _ _ _ Q E1). apply (same_trans _ _ _ K), (pure_list l IHl _ _ _ (proj1 K) E2).
Qed.
Lemma test_same c : forall st b st', quiet st -> test c st = Some (b, st') -> same st st'.
Proof.
  assert (T2 : forall a b f st r st', quiet st -> two attr_match copy_case case_from get_case dict_case a b f st = Some (r, st') -> same st st').
  { intros a b f st r st' Q E. unfold two in E. destruct (eval a st) as [[x st1]|] eqn:E1; [|discriminate]. destruct (eval b st1) as [[y st2]|] eqn:E2; [|discriminate]. injection E as <- <-.
    assert (K := eval_same a _ _ _ Q E1). apply (same_trans _ _ _ K), (eval_same b _ _ _ (proj1 K) E2). }
  assert (T1 : forall a f st r st', quiet st -> one attr_match copy_case case_from get_case dict_case a f st = Some (r, st') -> same st st').
  { intros a f st r st' Q E. unfold one in E. destruct (eval a st) as [[x st1]|] eqn:E1; [|discriminate]. injection E as <- <-. apply (eval_same a _ _ _ Q E1). }
  induction c as [cl a b|cl a b|cl a b|cl a b|cl a l|cl a l|cl a l|l IH|l IH|c IH] using cond_ind2; intros st r st' Q E;
    try (apply (T2 _ _ _ _ _ _ Q E)); try (apply (T1 _ _ _ _ _ Q E)).
  - cbn [TransferRules.test] in E. match type of E with ?f l st = _ => set (F := f) in E end.
    assert (FE : forall x r s0, F (x :: r) s0 = match test x s0 with Some (true, st1) => F r st1 | o => o end) by reflexivity.
    assert (FN : forall s0, F [] s0 = Some (true, s0)) by reflexivity. clearbody F.
    revert st Q E. induction IH as [|x l Hx H IHl]; intros st Q E; [rewrite FN in E; injection E as <- <-; apply same_refl, Q|].
    rewrite FE in E. destruct (test x st) as [[[|] st1]|] eqn:E1; [|injection E as <- <-; apply (Hx _ _ _ Q E1)|discriminate].
    assert (K := Hx _ _ _ Q E1). apply (same_trans _ _ _ K), (IHl _ (proj1 K) E).
  - cbn [TransferRules.test] in E. match type of E with ?f l st = _ => set (F := f) in E end.
    assert (FE : forall x r s0, F (x :: r) s0 = match test x s0 with Some (false, st1) => F r st1 | o => o end) by reflexivity.
    assert (FN : forall s0, F [] s0 = Some (false, s0)) by reflexivity. clearbody F.
    revert st Q E. induction IH as [|x l Hx H IHl]; intros st Q E; [rewrite FN in E; injection E as <- <-; apply same_refl, Q|].
    rewrite FE in E. destruct (test x st) as [[[|] st1]|] eqn:E1; [injection E as <- <-; apply (Hx _ _ _ Q E1)| |discriminate].
    assert (K := Hx _ _ _ Q E1). apply (same_trans _ _ _ K), (IHl _ (proj1 K) E).
  - cbn [TransferRules.test] in E. destruct (test c st) as [[b st1]|] eqn:E1; [|discriminate]. injection E as <- <-. apply (IH _ _ _ Q E1).
Qed.
End Pure.
