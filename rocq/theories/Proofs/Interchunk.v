From Coq Require Import String ZArith.
From Verif Require Import Model.Base Proofs.Base Model.TransferRules Model.Interchunk Spec.Interchunk Proofs.TransferRules.

Section IexprInd.
Variable P : iexpr -> Prop.
Hypothesis H1 : forall id part pos, P (JClip id part pos).
Hypothesis H2 : forall id v, P (JLit id v).
Hypothesis H3 : forall id v, P (JLitTag id v).
Hypothesis H4 : forall id, P (JB id).
Hypothesis H5 : forall id n, P (JVar id n).
Hypothesis H6 : forall id part pos, P (JCaseOf id part pos).
Hypothesis H7 : forall id pos e, P e -> P (JCaseFrom id pos e).
Hypothesis H8 : forall l, Forall P l -> P (JConcat l).
Hypothesis H9 : forall l, Forall P l -> P (JChunk l).
Hypothesis H10 : P JOther.
Fixpoint iexpr_ind2 (e : iexpr) : P e :=
  let fl := fix fl (l : list iexpr) : Forall P l := match l with [] => Forall_nil _ | x :: r => Forall_cons _ (iexpr_ind2 x) (fl r) end in
  match e with
  | JClip id part pos => H1 id part pos | JLit id v => H2 id v | JLitTag id v => H3 id v | JB id => H4 id | JVar id n => H5 id n
  | JCaseOf id part pos => H6 id part pos | JCaseFrom id pos x => H7 id pos x (iexpr_ind2 x)
  | JConcat l => H8 l (fl l) | JChunk l => H9 l (fl l) | JOther => H10
  end.
End IexprInd.
Section IcondInd.
Variable P : icond -> Prop.
Hypothesis H1 : forall cl a b, P (DEqual cl a b).
Hypothesis H2 : forall cl a b, P (DBegins cl a b).
Hypothesis H3 : forall cl a b, P (DEnds cl a b).
Hypothesis H4 : forall cl a b, P (DContains cl a b).
Hypothesis H5 : forall cl a b, P (DBeginsList cl a b).
Hypothesis H6 : forall cl a b, P (DEndsList cl a b).
Hypothesis H7 : forall cl a b, P (DIn cl a b).
Hypothesis H8 : forall l, Forall P l -> P (DAnd l).
Hypothesis H9 : forall l, Forall P l -> P (DOr l).
Hypothesis H10 : forall c, P c -> P (DNot c).
Fixpoint icond_ind2 (c : icond) : P c :=
  let fl := fix fl (l : list icond) : Forall P l := match l with [] => Forall_nil _ | x :: r => Forall_cons _ (icond_ind2 x) (fl r) end in
  match c with
  | DEqual cl a b => H1 cl a b | DBegins cl a b => H2 cl a b | DEnds cl a b => H3 cl a b | DContains cl a b => H4 cl a b
  | DBeginsList cl a b => H5 cl a b | DEndsList cl a b => H6 cl a b | DIn cl a b => H7 cl a b
  | DAnd l => H8 l (fl l) | DOr l => H9 l (fl l) | DNot c => H10 c (icond_ind2 c)
  end.
End IcondInd.
Section IinstrInd.
Variable P : iinstr -> Prop.
Hypothesis H1 : forall l e, P (KLet l e).
Hypothesis H2 : forall n l, P (KAppend n l).
Hypothesis H3 : forall l, P (KOut l).
Hypothesis H4 : forall l e, P (KModCase l e).
Hypothesis H5 : forall n a, P (KCall n a).
Hypothesis H6 : forall z, P (KReject z).
Hypothesis H7 : forall l, Forall (fun o => Forall P (snd o)) l -> P (KChoose l).
Fixpoint iinstr_ind2 (i : iinstr) : P i :=
  let fl := fix fl (l : list iinstr) : Forall P l := match l with [] => Forall_nil _ | x :: r => Forall_cons _ (iinstr_ind2 x) (fl r) end in
  let fo := fix fo (l : list (option icond * list iinstr)) : Forall (fun o => Forall P (snd o)) l :=
    match l with [] => Forall_nil _ | x :: r => Forall_cons x (match x as y return Forall P (snd y) with (a, b) => fl b end) (fo r) end in
  match i with
  | KLet l e => H1 l e | KAppend n l => H2 n l | KOut l => H3 l | KModCase l e => H4 l e | KCall n a => H5 n a | KReject z => H6 z
  | KChoose l => H7 l (fo l)
  end.
End IinstrInd.
Lemma fold_and {A} (P : A -> Prop) l : fold_right and True (map P l) <-> Forall P l.
Proof. induction l as [|x l IH]; cbn; [split; auto|]. rewrite IH. split; [intros [a b]; auto|intros H; inversion H; auto]. Qed.
Lemma firstn_nth {A} (l : list A) n i : i < n -> nth_error (firstn n l) i = nth_error l i.
Proof. revert l i. induction n as [|n IH]; intros l i H; [lia|]. destruct l as [|x l]; [reflexivity|]. destruct i as [|i]; [reflexivity|]. cbn. apply IH. lia. Qed.
Lemma firstn_set_nth {A} n i (w : A) l : i < n -> firstn n (set_nth i w l) = set_nth i w (firstn n l).
Proof. revert i l. induction n as [|n IH]; intros i l H; [lia|]. destruct l as [|x l]; [destruct i; reflexivity|]. destruct i as [|i]; [reflexivity|]. cbn. f_equal. apply IH. lia. Qed.
Lemma set_nth_length {A} i (w : A) l : List.length (set_nth i w l) = List.length l.
Proof. revert i. induction l as [|x l IH]; intros i; [destruct i; reflexivity|]. destruct i as [|i]; [reflexivity|]. cbn. f_equal. apply IH. Qed.

Section Interp.
Variable attr_match : str -> str -> str.
Variable attr_replace : str -> str -> str -> str.
Variable copy_case case_from : str -> str -> str.
Variable get_case lower : str -> str.
Variable lists : str -> list str.
Variable dict_case : bool.
Variable macros : str -> nat.
Variable macro_map : list (nat * list iinstr).
Variable N : list (nat * jinstr).
Hypothesis N_one : one_instr N.
Notation get := (chunk_part attr_match).
Notation setp := (set_part attr_replace).
Notation ieval := (ieval attr_match case_from get_case).
Notation den := (den attr_match case_from get_case).
Notation value := (value attr_match case_from get_case).
Notation itest := (itest attr_match case_from get_case lower lists).
Notation holds := (holds attr_match case_from get_case lower lists).

Definition cache_ok (c : nat -> option jinstr) : Prop := forall id t, c id = Some t -> In (id, t) N.
Definition Rel (n : nat) (st : ist) (s : cst) : Prop :=
  (exists n0, k_words s = firstn n0 (i_words st)) /\ firstn n (i_frame st) = map Some (k_args s) /\ Forall (fun i => i < List.length (k_words s)) (k_args s) /\
  i_vars st = k_vars s /\ i_bq st = k_bq s /\ i_out st = k_out s /\ cache_ok (i_cache st).

Lemma rel_frame n st s p : Rel n st s -> p < n -> nth_error (i_frame st) p = option_map Some (nth_error (k_args s) p).
Proof. intros (_ & F & _) H. rewrite <- (firstn_nth (i_frame st) n p H), F. apply nth_error_map. Qed.
Lemma rel_word n st s p i : Rel n st s -> nth_error (k_args s) p = Some i -> nth_error (i_words st) i = nth_error (k_words s) i /\ i < List.length (k_words s).
Proof.
  intros ((n0 & E) & _ & F & _) H. apply nth_error_In in H. rewrite Forall_forall in F. specialize (F i H). split; [|exact F].
  rewrite E. symmetry. apply firstn_nth. rewrite E, firstn_length in F. lia.
Qed.
Lemma at_ok n st s pos : Rel n st s -> in_range n pos -> i_at st pos = Some (k_at s pos).
Proof.
  intros R [P1 P2]. unfold i_at, k_at. rewrite (proj2 (Z.ltb_ge pos 0) P1). cbn [orb].
  assert (Q := rel_frame n st s (Z.to_nat pos) R ltac:(lia)). destruct (Z.leb_spec (Z.of_nat (List.length (i_frame st))) pos) as [L|L].
  - assert (X : nth_error (i_frame st) (Z.to_nat pos) = None) by (apply nth_error_None; lia). rewrite X in Q. destruct (nth_error (k_args s) (Z.to_nat pos)); [discriminate|reflexivity].
  - rewrite Q. destruct (nth_error (k_args s) (Z.to_nat pos)) as [i|] eqn:E; cbn [option_map].
    + destruct (rel_word n st s _ i R E) as [W L2]. rewrite W. destruct (nth_error (k_words s) i) eqn:EW; [reflexivity|]. apply nth_error_None in EW. lia.
    + exfalso. apply nth_error_None in Q. lia.
Qed.
Definition k_ptr (s : cst) (pos : Z) : option nat := if (pos <? 0)%Z then None else nth_error (k_args s) (Z.to_nat pos).
Lemma ptr_ok n st s pos : Rel n st s -> in_range n pos -> i_ptr st pos = k_ptr s pos.
Proof.
  intros R [P1 P2]. unfold i_ptr, k_ptr. rewrite (proj2 (Z.ltb_ge pos 0) P1). rewrite (rel_frame n st s (Z.to_nat pos) R ltac:(lia)).
  destruct (nth_error (k_args s) (Z.to_nat pos)); reflexivity.
Qed.
Lemma set_same s : k_set_bq s (k_bq s) = s. Proof. destruct s; reflexivity. Qed.
Lemma rel_cache n st s id t : Rel n st s -> In (id, t) N -> Rel n (icache_add st id t) s.
Proof.
  intros (A & B & C & D & E & F & G) H. repeat (split; [assumption|]). intros x y. cbn. destruct (Nat.eqb_spec x id) as [->|]; [intros [= <-]; exact H|apply G].
Qed.
Lemma fetch_ok n st s id t : Rel n st s -> In (id, t) N -> exists st1, i_fetch st id t = (t, st1) /\ Rel n st1 s /\ i_in_out st1 = i_in_out st /\ i_frame st1 = i_frame st.
Proof.
  intros R H. unfold i_fetch. destruct (i_cache st id) as [t'|] eqn:E.
  - destruct R as (A & B & C & D & E1 & F & G). rewrite (N_one _ _ _ (G _ _ E) H). eexists. split; [reflexivity|]. repeat (split; [assumption|]). repeat split; assumption.
  - eexists. split; [reflexivity|]. split; [apply rel_cache; assumption|]. split; reflexivity.
Qed.
Definition ev_ok (n : nat) (st : ist) (s : cst) (r : option (str * ist)) (d : option (str * list str)) : Prop :=
  match r with
  | None => d = None
  | Some (v, st') => exists q, d = Some (v, q) /\ Rel n st' (k_set_bq s q) /\ i_in_out st' = i_in_out st /\ i_frame st' = i_frame st
  end.
Lemma rel_bq n st s : Rel n st s -> i_bq st = k_bq s. Proof. intros (_ & _ & _ & _ & E & _). exact E. Qed.
Lemma rel_vars n st s : Rel n st s -> i_vars st = k_vars s. Proof. intros (_ & _ & _ & E & _). exact E. Qed.
Lemma rel_out n st s : Rel n st s -> i_out st = k_out s. Proof. intros (_ & _ & _ & _ & _ & E & _). exact E. Qed.
Lemma same_ok n st s st1 v : Rel n st1 s -> i_in_out st1 = i_in_out st -> i_frame st1 = i_frame st -> ev_ok n st s (Some (v, st1)) (Some (v, k_bq s)).
Proof. intros R E F. exists (k_bq s). split; [reflexivity|]. rewrite set_same. auto. Qed.
Lemma eval_ok n e : wf_e n e -> incl (jnodes_e e) N -> forall st s, Rel n st s -> ev_ok n st s (ieval e st) (den (i_in_out st) e s).
Proof.
  induction e as [id part pos|id v|id v|id|id x|id part pos|id pos e IH|l IH|l IH|] using iexpr_ind2; intros W I st s R; cbn [jnodes_e] in I;
    try (assert (I0 := I _ (or_introl eq_refl)); destruct (fetch_ok n st s _ _ R I0) as (st1 & E & R1 & O1 & F1); cbn [Interchunk.ieval]; rewrite E; cbn [i_instr den]).
  - cbn [wf_e] in W. rewrite (at_ok _ _ _ _ R1 W). cbn [den]. destruct (k_at s pos) as [w|]; [|apply same_ok; assumption].
    destruct (str_eqb part (u "content")); [|apply same_ok; assumption]. destruct (trim_braces (get w part)); [apply same_ok; assumption|reflexivity].
  - apply same_ok; assumption.
  - apply same_ok; assumption.
  - rewrite <- (rel_bq _ _ _ R1), O1. destruct (i_bq st1) as [|b q] eqn:Q.
    + rewrite (rel_bq _ _ _ R1) in Q. unfold ev_ok. exists []. rewrite <- Q, set_same. auto.
    + assert (Q' := Q). rewrite (rel_bq _ _ _ R1) in Q'. unfold ev_ok. destruct (i_in_out st) eqn:PO; eexists; (split; [reflexivity|]).
      * split; [|split; [cbn; congruence|auto]]. destruct R1 as (A1 & B1 & C1 & D1 & E1 & G1 & H1). repeat (split; [assumption|]). split; [reflexivity|]. split; assumption.
      * rewrite <- Q', set_same. split; [exact R1|split; congruence].
  - rewrite (rel_vars _ _ _ R1). apply same_ok; assumption.
  - cbn [wf_e] in W. rewrite (at_ok _ _ _ _ R1 W). destruct (k_at s pos); apply same_ok; assumption.
  - destruct W as [W1 W2]. rewrite (at_ok _ _ _ _ R1 W1). destruct (k_at s pos) as [w|]; [|apply same_ok; assumption].
    specialize (IH W2 (fun x H => I x (or_intror H)) st1 s R1). unfold ev_ok in IH. rewrite O1 in IH. destruct (ieval e st1) as [[d st2]|].
    + destruct IH as (q & -> & R2 & O2 & F2). unfold ev_ok. exists q. split; [reflexivity|]. split; [exact R2|]. split; congruence.
    + rewrite IH. reflexivity.
  - cbn [wf_e] in W. apply (proj1 (fold_and _ _)) in W. cbn [Interchunk.ieval Spec.Interchunk.den]. revert st s R. induction IH as [|x r IHx IHr IHl]; intros st s R; [apply same_ok; auto|].
    inversion_clear W as [|? ? W1 W2]. cbn [flat_map] in I. assert (I1 : incl (jnodes_e x) N) by (intros y H; apply I, in_or_app; auto). assert (I2 : incl (flat_map jnodes_e r) N) by (intros y H; apply I, in_or_app; auto).
    specialize (IHx W1 I1 st s R). unfold ev_ok in IHx. destruct (ieval x st) as [[a st1]|]; [|rewrite IHx; reflexivity]. destruct IHx as (q & -> & R1 & O1 & F1).
    specialize (IHl W2 I2 st1 _ R1). rewrite O1 in IHl. unfold ev_ok in IHl.
    match type of IHl with match ?a with _ => _ end => destruct a as [[b st2]|] end; [|rewrite IHl; reflexivity].
    destruct IHl as (q2 & -> & R2 & O2 & F2). unfold ev_ok. exists q2. split; [reflexivity|]. split; [exact R2|]. split; congruence.
  - cbn [wf_e] in W. apply (proj1 (fold_and _ _)) in W. cbn [Interchunk.ieval Spec.Interchunk.den].
    match goal with |- ev_ok _ _ _ (match ?A with _ => _ end) (match ?B with _ => _ end) => enough (K : ev_ok n st s A B) end.
    { unfold ev_ok in K. match type of K with match ?A with _ => _ end => destruct A as [[v st1]|] end; [|rewrite K; reflexivity].
      destruct K as (q & -> & K). unfold ev_ok. exists q. split; [reflexivity|exact K]. }
    revert st s R. induction IH as [|x r IHx IHr IHl]; intros st s R; [apply same_ok; auto|].
    inversion_clear W as [|? ? W1 W2]. cbn [flat_map] in I. assert (I1 : incl (jnodes_e x) N) by (intros y H; apply I, in_or_app; auto). assert (I2 : incl (flat_map jnodes_e r) N) by (intros y H; apply I, in_or_app; auto).
    specialize (IHx W1 I1 st s R). unfold ev_ok in IHx. destruct (ieval x st) as [[a st1]|]; [|rewrite IHx; reflexivity]. destruct IHx as (q & -> & R1 & O1 & F1).
    specialize (IHl W2 I2 st1 _ R1). rewrite O1 in IHl. unfold ev_ok in IHl.
    match type of IHl with match ?a with _ => _ end => destruct a as [[b st2]|] end; [|rewrite IHl; reflexivity].
    destruct IHl as (q2 & -> & R2 & O2 & F2). unfold ev_ok. exists q2. split; [reflexivity|]. split; [exact R2|]. split; congruence.
  - destruct W.
Qed.
Lemma den_pure e : forall s v q, den false e s = Some (v, q) -> q = k_bq s.
Proof.
  induction e as [id part pos|id x|id x|id|id x|id part pos|id pos e IH|l IH|l IH|] using iexpr_ind2; intros s v q; cbn [Spec.Interchunk.den].
  - destruct (k_at s pos) as [w|]; [|intros [= <- <-]; reflexivity]. destruct (str_eqb part (u "content")); [destruct (trim_braces _); [|discriminate]|]; intros [= <- <-]; reflexivity.
  - intros [= <- <-]; reflexivity.
  - intros [= <- <-]; reflexivity.
  - destruct (k_bq s); intros [= <- <-]; reflexivity.
  - intros [= <- <-]; reflexivity.
  - destruct (k_at s pos); intros [= <- <-]; reflexivity.
  - destruct (k_at s pos) as [w|]; [|intros [= <- <-]; reflexivity]. destruct (den false e s) as [[d q']|] eqn:E; [|discriminate]. intros [= <- <-]. exact (IH _ _ _ E).
  - revert s v q. induction IH as [|x r IHx IHr IHl]; intros s v q; [intros [= <- <-]; reflexivity|].
    destruct (den false x s) as [[a q1]|] eqn:E; [|discriminate]. rewrite (IHx _ _ _ E), set_same. match goal with |- match ?a with _ => _ end = _ -> _ => destruct a as [[b q2]|] eqn:E2 end; [|discriminate]. intros [= <- <-]. exact (IHl _ _ _ E2).
  - match goal with |- match ?a with _ => _ end = _ -> _ => destruct a as [[b q2]|] eqn:E2 end; [|discriminate]. intros [= <- <-]. revert s b q2 E2.
    induction IH as [|x r IHx IHr IHl]; intros s v' q'; [intros [= <- <-]; reflexivity|].
    destruct (den false x s) as [[a q1]|] eqn:E; [|discriminate]. rewrite (IHx _ _ _ E), set_same. match goal with |- match ?a with _ => _ end = _ -> _ => destruct a as [[b q3]|] eqn:E2 end; [|discriminate]. intros [= <- <-]. exact (IHl _ _ _ E2).
  - discriminate.
Qed.
(** outside <out> *)
Definition still (st st' : ist) : Prop := i_in_out st' = false /\ i_frame st' = i_frame st.
Lemma value_ok n e st s : wf_e n e -> incl (jnodes_e e) N -> Rel n st s -> i_in_out st = false ->
  match ieval e st with None => value e s = None | Some (v, st') => value e s = Some v /\ Rel n st' s /\ still st st' end.
Proof.
  intros W I R O. assert (E := eval_ok n e W I st s R). unfold ev_ok in E. rewrite O in E. unfold Spec.Interchunk.value. destruct (ieval e st) as [[v st']|]; [|rewrite E; reflexivity].
  destruct E as (q & E & R1 & O1 & F1). rewrite E. split; [reflexivity|]. rewrite (den_pure _ _ _ _ E), set_same in R1. split; [exact R1|]. split; congruence.
Qed.
Lemma still_trans a b c : still a b -> still b c -> still a c.
Proof. intros [A1 A2] [B1 B2]. split; congruence. Qed.
Definition t_ok (n : nat) (st : ist) (s : cst) (r : option (bool * ist)) (h : option bool) : Prop :=
  match r with None => h = None | Some (b, st') => h = Some b /\ Rel n st' s /\ still st st' end.
Lemma two_ok n a b f st s : wf_e n a /\ wf_e n b -> incl (jnodes_e a ++ jnodes_e b) N -> Rel n st s -> i_in_out st = false ->
  t_ok n st s (itwo attr_match case_from get_case a b f st) (cmp attr_match case_from get_case f a b s).
Proof.
  intros [W1 W2] I R O. unfold itwo, cmp. assert (A := value_ok n a st s W1 (fun x H => I x (in_or_app _ _ _ (or_introl H))) R O).
  destruct (ieval a st) as [[x st1]|]; [|rewrite A; reflexivity]. destruct A as (-> & R1 & S1).
  assert (B := value_ok n b st1 s W2 (fun x H => I x (in_or_app _ _ _ (or_intror H))) R1 (proj1 S1)).
  destruct (ieval b st1) as [[y st2]|]; [|rewrite B; reflexivity]. destruct B as (-> & R2 & S2). split; [reflexivity|]. split; [exact R2|]. exact (still_trans _ _ _ S1 S2).
Qed.
Lemma one_ok n a f cl l g st s : wf_e n a -> incl (jnodes_e a) N -> Rel n st s -> i_in_out st = false -> (forall x, f x = existsb (g (low lower cl x)) (list_of lower lists cl l)) ->
  t_ok n st s (ione attr_match case_from get_case a f st) (cmp_list attr_match case_from get_case lower lists g cl a l s).
Proof.
  intros W I R O F. unfold ione, cmp_list. assert (A := value_ok n a st s W I R O). destruct (ieval a st) as [[x st1]|]; [|rewrite A; reflexivity]. destruct A as (-> & R1 & S1).
  rewrite F. split; [reflexivity|]. auto.
Qed.
Lemma test_ok n c : wf_c n c -> incl (jnodes_c c) N -> forall st s, Rel n st s -> i_in_out st = false -> t_ok n st s (itest c st) (holds c s).
Proof.
  induction c as [cl a b|cl a b|cl a b|cl a b|cl a b|cl a b|cl a b|l IH|l IH|c IH] using icond_ind2; intros W I st s R O; cbn [jnodes_c wf_c] in *; cbn [Interchunk.itest Spec.Interchunk.holds].
  1-4: apply two_ok; assumption. 1-3: apply one_ok; auto.
  - apply (proj1 (fold_and _ _)) in W. revert st R O. induction IH as [|x r IHx IHr IHl]; intros st R O; [split; [reflexivity|]; split; [exact R|]; split; auto|].
    inversion_clear W as [|? ? W1 W2]. cbn [flat_map] in I. specialize (IHx W1 (fun y H => I y (in_or_app _ _ _ (or_introl H))) st s R O). cbn [map fold_right]. unfold t_ok in IHx.
    destruct (itest x st) as [[[] st1]|]; [| |rewrite IHx; reflexivity]; destruct IHx as (-> & R1 & S1).
    + specialize (IHl W2 (fun y H => I y (in_or_app _ _ _ (or_intror H))) st1 R1 (proj1 S1)). unfold t_ok in IHl |- *.
      match type of IHl with match ?a with _ => _ end => destruct a as [[b st2]|] end; [|exact IHl]. destruct IHl as (E & R2 & S2). split; [exact E|]. split; [exact R2|]. exact (still_trans _ _ _ S1 S2).
    + split; [reflexivity|]. auto.
  - apply (proj1 (fold_and _ _)) in W. revert st R O. induction IH as [|x r IHx IHr IHl]; intros st R O; [split; [reflexivity|]; split; [exact R|]; split; auto|].
    inversion_clear W as [|? ? W1 W2]. cbn [flat_map] in I. specialize (IHx W1 (fun y H => I y (in_or_app _ _ _ (or_introl H))) st s R O). cbn [map fold_right]. unfold t_ok in IHx.
    destruct (itest x st) as [[[] st1]|]; [| |rewrite IHx; reflexivity]; destruct IHx as (-> & R1 & S1).
    + split; [reflexivity|]. auto.
    + specialize (IHl W2 (fun y H => I y (in_or_app _ _ _ (or_intror H))) st1 R1 (proj1 S1)). unfold t_ok in IHl |- *.
      match type of IHl with match ?a with _ => _ end => destruct a as [[b st2]|] end; [|exact IHl]. destruct IHl as (E & R2 & S2). split; [exact E|]. split; [exact R2|]. exact (still_trans _ _ _ S1 S2).
  - specialize (IH W I st s R O). unfold t_ok in IH. destruct (itest c st) as [[b st1]|]; [|rewrite IH; reflexivity]. destruct IH as (-> & R1 & S1). split; [reflexivity|]. auto.
Qed.

(** ** the rules on what the specification shows, as a program *)
Definition aput (s : cst) (pos : Z) (f : iword -> iword) : option cst :=
  match k_ptr s pos with Some i => match nth_error (k_words s) i with Some w => Some (k_set_word s i (f w)) | None => None end | None => None end.
Definition alet (l : ilhs) (e : iexpr) (s : cst) : option cst :=
  match value e s with
  | None => None
  | Some v => match l with MVar _ n => Some (k_set_vars s (upd (k_vars s) n v)) | MClip _ part pos => aput s pos (fun w => setp w part v) end
  end.
Definition amod (l : ilhs) (e : iexpr) (s : cst) : option cst :=
  if dict_case then Some s else
  match value e s with
  | None => None
  | Some c => match l with
              | MVar _ n => Some (k_set_vars s (upd (k_vars s) n (copy_case c (k_vars s n))))
              | MClip _ part pos => aput s pos (fun w => setp w part (copy_case c (get w part)))
              end
  end.
Fixpoint aappend (n : str) (l : list iexpr) (s : cst) : option cst :=
  match l with
  | [] => Some s
  | e :: r => match value e s with Some v => aappend n r (k_set_vars s (upd (k_vars s) n (k_vars s n ++ v))) | None => None end
  end.
Fixpoint aout (l : list iexpr) (s : cst) : option cst :=
  match l with
  | [] => Some s
  | e :: r => match den true e s with Some (v, q) => aout r (k_set_out (k_set_bq s q) (k_out s ++ v)) | None => None end
  end.
Section A.
Variable acall : str -> list Z -> cst -> option cst.
Fixpoint arun (i : iinstr) (s : cst) {struct i} : option cst :=
  let runs := fix runs (l : list iinstr) (s : cst) {struct l} : option cst :=
    match l with [] => Some s | x :: r => match arun x s with Some s1 => runs r s1 | None => None end end in
  let opts := fix opts (l : list (option icond * list iinstr)) (s : cst) {struct l} : option cst :=
    match l with
    | [] => Some s
    | (Some c, b) :: r => match holds c s with Some true => runs b s | Some false => opts r s | None => None end
    | (None, b) :: r => match runs b s with Some s1 => opts r s1 | None => None end
    end in
  match i with
  | KLet l e => alet l e s
  | KAppend n l => aappend n l s
  | KOut l => aout l s
  | KModCase l e => amod l e s
  | KCall n args => acall n args s
  | KReject _ => None
  | KChoose l => opts l s
  end.
Fixpoint aruns (l : list iinstr) (s : cst) : option cst :=
  match l with [] => Some s | x :: r => match arun x s with Some s1 => aruns r s1 | None => None end end.
Fixpoint aopts (l : list (option icond * list iinstr)) (s : cst) : option cst :=
  match l with
  | [] => Some s
  | (Some c, b) :: r => match holds c s with Some true => aruns b s | Some false => aopts r s | None => None end
  | (None, b) :: r => match aruns b s with Some s1 => aopts r s1 | None => None end
  end.
Lemma arun_choose l s : arun (KChoose l) s = aopts l s. Proof. reflexivity. Qed.
End A.
Fixpoint aptrs (s : cst) (args : list Z) : option (list nat) :=
  match args with
  | [] => Some []
  | a :: r => match k_ptr s a with Some p => match aptrs s r with Some l => Some (p :: l) | None => None end | None => None end
  end.
Fixpoint acall (fuel : nat) (n : str) (args : list Z) (s : cst) : option cst :=
  match fuel with
  | 0 => None
  | S f => match nth_error macro_map (macros n) with
           | None => None
           | Some (npar, body) => if Nat.eqb (List.length args) npar
                                  then match aptrs s args with
                                       | Some ps => match aruns (acall f) body (k_set_args s ps) with Some s1 => Some (k_set_args s1 (k_args s)) | None => None end
                                       | None => None
                                       end
                                  else None
           end
  end.

(** ** the program does that *)
Definition r_ok (n : nat) (st : ist) (r : option ist) (a : option cst) : Prop :=
  match r with None => a = None | Some st' => exists s', a = Some s' /\ Rel n st' s' /\ still st st' end.
Lemma put_ok n st s i w w' f : Rel n st s -> i < List.length (k_words s) -> nth_error (k_words s) i = Some w -> w' = f w -> Rel n (i_put st i w') (k_set_word s i (f w)).
Proof.
  intros ((n0 & A) & B & C & D & E & F & G) L W ->. split; [|split; [|split]].
  - exists n0. cbn. rewrite A. symmetry. apply firstn_set_nth. rewrite A, firstn_length in L. lia.
  - exact B.
  - cbn. rewrite set_nth_length. exact C.
  - auto.
Qed.
Lemma aput_ok n st st1 s pos f : Rel n st1 s -> still st st1 -> in_range n pos ->
  r_ok n st (match i_ptr st1 pos with Some i => match nth_error (i_words st1) i with Some w => Some (i_put st1 i (f w)) | None => None end | None => None end) (aput s pos f).
Proof.
  intros R S P. unfold aput. rewrite (ptr_ok n st1 s pos R P). unfold k_ptr. rewrite (proj2 (Z.ltb_ge pos 0) (proj1 P)). destruct (nth_error (k_args s) (Z.to_nat pos)) as [i|] eqn:E; [|reflexivity].
  destruct (rel_word n st1 s _ i R E) as [-> L]. destruct (nth_error (k_words s) i) as [w|] eqn:W; [|reflexivity]. eexists. split; [reflexivity|]. split; [apply (put_ok n st1 s i w (f w) f R L W eq_refl)|exact S].
Qed.
Lemma rel_set_vars n st s v : Rel n st s -> Rel n (iset_vars st v) (k_set_vars s v).
Proof. intros (A & B & C & D & E & F & G). repeat (split; [assumption|]). split; [reflexivity|]. auto. Qed.
Lemma rel_set_out n st s v : Rel n st s -> Rel n (iset_out st v) (k_set_out s v).
Proof. intros (A & B & C & D & E & F & G). repeat (split; [assumption|]). split; [reflexivity|]. auto. Qed.
Lemma rel_in_out n st s v : Rel n st s -> Rel n (iset_in_out st v) s.
Proof. intros R. exact R. Qed.
Lemma let_ok n l e st s : wf_l n l -> wf_e n e -> incl (jnodes_l l ++ jnodes_e e) N -> Rel n st s -> i_in_out st = false ->
  r_ok n st (ido_let attr_match attr_replace case_from get_case l e st) (alet l e s).
Proof.
  intros WL W I R O. assert (I1 : incl (jnodes_l l) N) by (intros x H; apply I, in_or_app; auto). assert (I2 : incl (jnodes_e e) N) by (intros x H; apply I, in_or_app; auto).
  assert (V := value_ok n e st s W I2 R O). unfold ido_let, alet. destruct l as [id x|id part pos]; cbn [jnodes_l wf_l] in *.
  - assert (H0 := I1 _ (or_introl eq_refl)). unfold ilet_var. destruct (i_cache st id) as [t|] eqn:C.
    + destruct R as (A1 & B1 & C1 & D1 & E1 & F1 & G1). rewrite (N_one _ _ _ (G1 _ _ C) H0). destruct (ieval e st) as [[v st1]|]; [|rewrite V; reflexivity].
      destruct V as (-> & R1 & S1). eexists. split; [reflexivity|]. rewrite <- (rel_vars _ _ _ R1). split; [apply rel_set_vars, R1|exact S1].
    + destruct (ieval e st) as [[v st1]|]; [|rewrite V; reflexivity]. destruct V as (-> & R1 & S1). eexists. split; [reflexivity|]. rewrite <- (rel_vars _ _ _ R1). split; [apply rel_cache; [apply rel_set_vars, R1|exact H0]|exact S1].
  - assert (H0 := I1 _ (or_introl eq_refl)). unfold ilet_clip. destruct (i_cache st id) as [t|] eqn:C.
    + assert (R' := R). destruct R as (A1 & B1 & C1 & D1 & E1 & F1 & G1). rewrite (N_one _ _ _ (G1 _ _ C) H0). destruct (ieval e st) as [[v st1]|]; [|rewrite V; reflexivity].
      destruct V as (-> & R1 & S1). exact (aput_ok n st st1 s pos (fun w => setp w part v) R1 S1 WL).
    + destruct (ieval e st) as [[v st1]|]; [|rewrite V; reflexivity]. destruct V as (-> & R1 & S1). assert (A := aput_ok n st st1 s pos (fun w => setp w part v) R1 S1 WL). unfold r_ok in A.
      match type of A with match ?a with _ => _ end => destruct a as [st2|] end; [|exact A]. destruct A as (s' & -> & R2 & S2). eexists. split; [reflexivity|]. split; [apply rel_cache; assumption|exact S2].
Qed.
Lemma mod_ok n l e st s : wf_l n l -> wf_e n e -> incl (jnodes_e e) N -> Rel n st s -> i_in_out st = false ->
  r_ok n st (ido_modcase attr_match attr_replace copy_case case_from get_case dict_case l e st) (amod l e s).
Proof.
  intros WL W I R O. unfold ido_modcase, amod. destruct dict_case; [eexists; split; [reflexivity|]; split; [exact R|]; split; auto|].
  assert (V := value_ok n e st s W I R O). destruct (ieval e st) as [[c st1]|]; [|rewrite V; reflexivity]. destruct V as (-> & R1 & S1). destruct l as [id x|id part pos].
  - eexists. split; [reflexivity|]. rewrite <- (rel_vars _ _ _ R1). split; [apply rel_set_vars, R1|exact S1].
  - exact (aput_ok n st st1 s pos (fun w => setp w part (copy_case c (get w part))) R1 S1 WL).
Qed.
Lemma append_ok n x l : Forall (wf_e n) l -> incl (flat_map jnodes_e l) N -> forall st s, Rel n st s -> i_in_out st = false ->
  r_ok n st (ido_append attr_match case_from get_case x l st) (aappend x l s).
Proof.
  induction 1 as [|e l W _ IH]; intros I st s R O; cbn [ido_append aappend]; [eexists; split; [reflexivity|]; split; [exact R|]; split; auto|]. cbn [flat_map] in I.
  assert (V := value_ok n e st s W (fun y H => I y (in_or_app _ _ _ (or_introl H))) R O). destruct (ieval e st) as [[v st1]|]; [|rewrite V; reflexivity]. destruct V as (-> & R1 & S1).
  rewrite <- (rel_vars _ _ _ R1). specialize (IH (fun y H => I y (in_or_app _ _ _ (or_intror H))) _ _ (rel_set_vars _ _ _ (upd (i_vars st1) x (i_vars st1 x ++ v)) R1) (proj1 S1)).
  unfold r_ok in IH |- *. match type of IH with match ?a with _ => _ end => destruct a as [st2|] end; [|exact IH]. destruct IH as (s' & E & R2 & S2). exists s'. split; [exact E|]. split; [exact R2|]. exact (still_trans _ _ _ S1 S2).
Qed.
Lemma outl_ok n l : Forall (wf_e n) l -> incl (flat_map jnodes_e l) N -> forall st s, Rel n st s -> i_in_out st = true ->
  match iout_list attr_match case_from get_case l st with None => aout l s = None | Some st' => exists s', aout l s = Some s' /\ Rel n st' s' /\ i_frame st' = i_frame st end.
Proof.
  induction 1 as [|e l W _ IH]; intros I st s R O; cbn [iout_list aout]; [eexists; split; [reflexivity|]; split; [exact R|]; auto|]. cbn [flat_map] in I.
  assert (V := eval_ok n e W (fun y H => I y (in_or_app _ _ _ (or_introl H))) st s R). rewrite O in V. unfold ev_ok in V. destruct (ieval e st) as [[v st1]|]; [|rewrite V; reflexivity]. destruct V as (q & -> & R1 & O1 & F1).
  assert (RO := rel_out _ _ _ R1). cbn in RO. rewrite <- RO.
  specialize (IH (fun y H => I y (in_or_app _ _ _ (or_intror H))) _ _ (rel_set_out _ _ _ (i_out st1 ++ v) R1) ltac:(cbn; congruence)).
  match type of IH with match ?a with _ => _ end => destruct a as [st2|] end; [|exact IH]. destruct IH as (s' & E & R2 & F2). exists s'. split; [exact E|]. split; [exact R2|]. cbn in F2. congruence.
Qed.
Lemma out_ok n l st s : Forall (wf_e n) l -> incl (flat_map jnodes_e l) N -> Rel n st s -> r_ok n st (ido_out attr_match case_from get_case l st) (aout l s).
Proof.
  intros W I R. unfold ido_out. assert (V := outl_ok n l W I (iset_in_out st true) s (rel_in_out _ _ _ _ R) eq_refl). match type of V with match ?a with _ => _ end => destruct a as [st2|] end; [|exact V].
  destruct V as (s' & -> & R2 & F2). eexists. split; [reflexivity|]. split; [exact R2|]. split; [reflexivity|exact F2].
Qed.
Section RunOk.
Variable rank : nat -> nat.
Variable call : str -> list Z -> ist -> option ist.
Variable ac : str -> list Z -> cst -> option cst.
Variable below : nat.
Hypothesis call_ok : forall n m args st s, Forall (in_range n) args -> rank (macros m) < below -> (exists body, nth_error macro_map (macros m) = Some (List.length args, body)) ->
  Rel n st s -> i_in_out st = false -> r_ok n st (call m args st) (ac m args s).
Notation irun := (irun attr_match attr_replace copy_case case_from get_case lower lists dict_case call).
Notation irun_list := (irun_list attr_match attr_replace copy_case case_from get_case lower lists dict_case call).
Notation wfi := (fun n => wf_i macros macro_map n rank below).
Definition z_ok (n : nat) (st : ist) (r : option (Z * ist)) (a : option cst) : Prop :=
  match r with None => a = None | Some (z, st') => z = (-1)%Z /\ exists s', a = Some s' /\ Rel n st' s' /\ still st st' end.
Fixpoint iopts (l : list (option icond * list iinstr)) (st : ist) : option (Z * ist) :=
  match l with
  | [] => Some ((-1)%Z, st)
  | (Some c, b) :: r => match itest c st with Some (true, st1) => irun_list b st1 | Some (false, st1) => iopts r st1 | None => None end
  | (None, b) :: r => match irun_list b st with Some (z, st1) => if (z =? -1)%Z then iopts r st1 else Some (z, st1) | None => None end
  end.
Lemma irun_choose l st : irun (KChoose l) st = iopts l st. Proof. reflexivity. Qed.
Lemma go_on n st r a : r_ok n st r a -> z_ok n st (match r with Some st1 => Some ((-1)%Z, st1) | None => None end) a.
Proof. unfold r_ok, z_ok. destruct r; auto. Qed.
Lemma list_ok n l : Forall (fun i => wfi n i -> incl (jnodes_i i) N -> forall st s, Rel n st s -> i_in_out st = false -> z_ok n st (irun i st) (arun ac i s)) l ->
  Forall (wfi n) l -> incl (flat_map jnodes_i l) N -> forall st s, Rel n st s -> i_in_out st = false -> z_ok n st (irun_list l st) (aruns ac l s).
Proof.
  induction 1 as [|i l Hi _ IH]; intros W I st s R O; cbn [Interchunk.irun_list aruns]; [split; [reflexivity|]; eexists; split; [reflexivity|]; split; [exact R|]; split; auto|].
  inversion_clear W as [|? ? W1 W2]. cbn [flat_map] in I. specialize (Hi W1 (fun y H => I y (in_or_app _ _ _ (or_introl H))) st s R O). unfold z_ok in Hi. destruct (irun i st) as [[z st1]|]; [|rewrite Hi; reflexivity].
  destruct Hi as (-> & s1 & -> & R1 & S1). cbn [Z.eqb]. change ((-1 =? -1)%Z) with true. cbn iota. specialize (IH W2 (fun y H => I y (in_or_app _ _ _ (or_intror H))) st1 s1 R1 (proj1 S1)). unfold z_ok in IH |- *.
  destruct (irun_list l st1) as [[z st2]|]; [|exact IH]. destruct IH as (-> & s2 & E & R2 & S2). split; [reflexivity|]. exists s2. split; [exact E|]. split; [exact R2|]. exact (still_trans _ _ _ S1 S2).
Qed.
Lemma run_ok n i : wfi n i -> incl (jnodes_i i) N -> forall st s, Rel n st s -> i_in_out st = false -> z_ok n st (irun i st) (arun ac i s).
Proof.
  induction i as [l e|x l|l|l e|x args|z|l IH] using iinstr_ind2; intros W I st s R O; cbn [wf_i jnodes_i] in *.
  - apply (go_on n st _ (alet l e s)). apply let_ok; tauto.
  - apply (go_on n st _ (aappend x l s)). apply append_ok; assumption.
  - apply (go_on n st _ (aout l s)). apply out_ok; assumption.
  - apply (go_on n st _ (amod l e s)). apply mod_ok; tauto.
  - apply (go_on n st _ (ac x args s)). destruct W as (W1 & W2 & W3). apply (call_ok n); assumption.
  - destruct W.
  - rewrite irun_choose, arun_choose. apply (proj1 (fold_and _ _)) in W. revert st s R O. induction IH as [|[o b] l Hb _ IHl]; intros st s R O; cbn [iopts aopts].
    { split; [reflexivity|]. eexists. split; [reflexivity|]. split; [exact R|]. split; auto. }
    inversion_clear W as [|? ? W1 W2]. cbn [flat_map fst snd] in I, W1, Hb. destruct W1 as [Wc Wb]. apply (proj1 (fold_and _ _)) in Wb.
    assert (I0 : incl (match o with Some c => jnodes_c c | None => [] end) N) by (intros y H; apply I, in_or_app; left; apply in_or_app; auto).
    assert (I1 : incl (flat_map jnodes_i b) N) by (intros y H; apply I, in_or_app; left; apply in_or_app; auto).
    assert (I2 : incl (flat_map (fun o => match fst o with Some c => jnodes_c c | None => [] end ++ flat_map jnodes_i (snd o)) l) N) by (intros y H; apply I, in_or_app; auto).
    specialize (IHl W2 I2). destruct o as [c|].
    + assert (T := test_ok n c Wc I0 st s R O). unfold t_ok in T. destruct (itest c st) as [[[] st1]|]; [| |rewrite T; reflexivity]; destruct T as (-> & R1 & S1).
      * assert (L := list_ok n b Hb Wb I1 st1 s R1 (proj1 S1)). unfold z_ok in L |- *. destruct (irun_list b st1) as [[z st2]|]; [|exact L]. destruct L as (-> & s2 & E & R2 & S2). split; [reflexivity|]. exists s2. split; [exact E|]. split; [exact R2|]. exact (still_trans _ _ _ S1 S2).
      * specialize (IHl st1 s R1 (proj1 S1)). unfold z_ok in IHl |- *. destruct (iopts l st1) as [[z st2]|]; [|exact IHl]. destruct IHl as (-> & s2 & E & R2 & S2). split; [reflexivity|]. exists s2. split; [exact E|]. split; [exact R2|]. exact (still_trans _ _ _ S1 S2).
    + assert (L := list_ok n b Hb Wb I1 st s R O). unfold z_ok in L. destruct (irun_list b st) as [[z st1]|]; [|rewrite L; reflexivity]. destruct L as (-> & s1 & -> & R1 & S1). change ((-1 =? -1)%Z) with true. cbn iota.
      specialize (IHl st1 s1 R1 (proj1 S1)). unfold z_ok in IHl |- *. destruct (iopts l st1) as [[z st2]|]; [|exact IHl]. destruct IHl as (-> & s2 & E & R2 & S2). split; [reflexivity|]. exists s2. split; [exact E|]. split; [exact R2|]. exact (still_trans _ _ _ S1 S2).
Qed.
Lemma runs_ok n l : Forall (wfi n) l -> incl (flat_map jnodes_i l) N -> forall st s, Rel n st s -> i_in_out st = false -> z_ok n st (irun_list l st) (aruns ac l s).
Proof. intros W. apply list_ok; [|exact W]. apply Forall_forall. intros i _. apply run_ok. Qed.
(* the body of a macro *)
Lemma macro_ok n l : Forall (wfi n) l -> incl (flat_map jnodes_i l) N -> forall st s, Rel n st s -> i_in_out st = false ->
  r_ok n st (irun_macro attr_match attr_replace copy_case case_from get_case lower lists dict_case call l st) (aruns ac l s).
Proof.
  induction 1 as [|i l W _ IH]; intros I st s R O; cbn [irun_macro aruns]; [eexists; split; [reflexivity|]; split; [exact R|]; split; auto|].
  cbn [flat_map] in I. assert (Hi := run_ok n i W (fun y H => I y (in_or_app _ _ _ (or_introl H))) st s R O). unfold z_ok in Hi. destruct (irun i st) as [[z st1]|]; [|rewrite Hi; reflexivity].
  destruct Hi as (-> & s1 & -> & R1 & S1). specialize (IH (fun y H => I y (in_or_app _ _ _ (or_intror H))) st1 s1 R1 (proj1 S1)). unfold r_ok in IH |- *.
  match type of IH with match ?a with _ => _ end => destruct a as [st2|] end; [|exact IH]. destruct IH as (s2 & E & R2 & S2). exists s2. split; [exact E|]. split; [exact R2|]. exact (still_trans _ _ _ S1 S2).
Qed.
End RunOk.

(** ** what stays: the contents of the chunks, the chunks that can be named *)
Definition keep (s s' : cst) : Prop := map iw_queue (k_words s') = map iw_queue (k_words s) /\ k_args s' = k_args s.
Lemma keep_refl s : keep s s. Proof. split; reflexivity. Qed.
Lemma keep_trans a b c : keep a b -> keep b c -> keep a c.
Proof. intros [A1 A2] [B1 B2]. split; congruence. Qed.
Lemma keep_len s s' : keep s s' -> List.length (k_words s') = List.length (k_words s).
Proof. intros [A _]. rewrite <- (map_length iw_queue (k_words s')), A. apply map_length. Qed.
Lemma map_set_nth {A B} (f : A -> B) i w w' l : nth_error l i = Some w -> f w' = f w -> map f (set_nth i w' l) = map f l.
Proof.
  revert i. induction l as [|x l IH]; intros i E F; [destruct i; discriminate|]. destruct i as [|i]; cbn in *; [injection E as ->; rewrite F; reflexivity|]. f_equal. apply IH; assumption.
Qed.
Lemma aput_keep s pos f s' : (forall w, iw_queue (f w) = iw_queue w) -> aput s pos f = Some s' -> keep s s'.
Proof.
  intros F. unfold aput. destruct (k_ptr s pos) as [i|]; [|discriminate]. destruct (nth_error (k_words s) i) as [w|] eqn:E; [|discriminate]. intros [= <-]. split; [|reflexivity]. cbn. apply (map_set_nth _ _ w); auto.
Qed.
Lemma aappend_keep n l : forall s s', aappend n l s = Some s' -> keep s s'.
Proof.
  induction l as [|e l IH]; intros s s'; cbn [aappend]; [intros [= <-]; apply keep_refl|]. destruct (value e s) as [v|]; [|discriminate]. intros H. apply IH in H. exact H.
Qed.
Lemma aout_keep l : forall s s', aout l s = Some s' -> keep s s'.
Proof.
  induction l as [|e l IH]; intros s s'; cbn [aout]; [intros [= <-]; apply keep_refl|]. destruct (den true e s) as [[v q]|]; [|discriminate]. intros H. apply IH in H. exact H.
Qed.
Section Keep.
Variable ac : str -> list Z -> cst -> option cst.
Hypothesis ac_keep : forall n args s s', ac n args s = Some s' -> keep s s'.
Lemma arun_keep i : forall s s', arun ac i s = Some s' -> keep s s'.
Proof.
  induction i as [l e|x l|l|l e|x args|z|l IH] using iinstr_ind2; intros s s'.
  - cbn [arun]. unfold alet. destruct (value e s) as [v|]; [|discriminate]. destruct l; [intros [= <-]; split; reflexivity|]. apply aput_keep. reflexivity.
  - apply aappend_keep.
  - apply aout_keep.
  - cbn [arun]. unfold amod. destruct dict_case; [intros [= <-]; apply keep_refl|]. destruct (value e s) as [v|]; [|discriminate]. destruct l; [intros [= <-]; split; reflexivity|]. apply aput_keep. reflexivity.
  - apply ac_keep.
  - discriminate.
  - rewrite arun_choose. revert s s'. induction IH as [|[o b] l Hb _ IHl]; intros s s'; cbn [aopts]; [intros [= <-]; apply keep_refl|]. cbn [snd] in Hb.
    assert (B : forall s s', aruns ac b s = Some s' -> keep s s').
    { clear IHl. induction Hb as [|y b Hy _ IHb]; intros a a'; cbn [aruns]; [intros [= <-]; apply keep_refl|]. destruct (arun ac y a) as [a1|] eqn:E; [|discriminate]. intros H. exact (keep_trans _ _ _ (Hy _ _ E) (IHb _ _ H)). }
    destruct o as [c|].
    + destruct (holds c s) as [[]|]; [apply B|apply IHl|discriminate].
    + destruct (aruns ac b s) as [s1|] eqn:E; [|discriminate]. intros H. exact (keep_trans _ _ _ (B _ _ E) (IHl _ _ H)).
Qed.
Lemma aruns_keep l : forall s s', aruns ac l s = Some s' -> keep s s'.
Proof.
  induction l as [|y b IHb]; intros a a'; cbn [aruns]; [intros [= <-]; apply keep_refl|]. destruct (arun ac y a) as [a1|] eqn:E; [|discriminate]. intros H. exact (keep_trans _ _ _ (arun_keep _ _ _ E) (IHb _ _ H)).
Qed.
End Keep.
Lemma acall_keep f : forall n args s s', acall f n args s = Some s' -> keep s s'.
Proof.
  induction f as [|f IH]; intros n args s s'; cbn [acall]; [discriminate|]. destruct (nth_error macro_map (macros n)) as [[npar body]|]; [|discriminate]. destruct (Nat.eqb _ _); [|discriminate]. destruct (aptrs s args) as [ps|]; [|discriminate].
  destruct (aruns (acall f) body (k_set_args s ps)) as [s1|] eqn:E; [|discriminate]. intros [= <-]. apply (aruns_keep _ IH) in E. split; [exact (proj1 E)|reflexivity].
Qed.

(** ** macros *)
Variable rank : nat -> nat.
Hypothesis macros_wf : wf_macros macros macro_map rank.
Hypothesis macro_nodes : forall k npar body, nth_error macro_map k = Some (npar, body) -> incl (flat_map jnodes_i body) N.
Lemma ptrs_ok n st s args : Rel n st s -> Forall (in_range n) args -> i_ptrs st args = option_map (map Some) (aptrs s args).
Proof.
  intros R. induction 1 as [|a args Ha _ IH]; [reflexivity|]. cbn [i_ptrs aptrs]. unfold k_ptr. rewrite (proj2 (Z.ltb_ge a 0) (proj1 Ha)). rewrite (rel_frame n st s (Z.to_nat a) R ltac:(destruct Ha; lia)).
  destruct (nth_error (k_args s) (Z.to_nat a)); [|reflexivity]. cbn [option_map]. rewrite IH. destruct (aptrs s args); reflexivity.
Qed.
Lemma aptrs_spec s args ps : aptrs s args = Some ps -> Forall2 (fun a p => (0 <= a)%Z /\ nth_error (k_args s) (Z.to_nat a) = Some p) args ps.
Proof.
  revert ps. induction args as [|a args IH]; intros ps; cbn [aptrs]; [intros [= <-]; constructor|]. unfold k_ptr. destruct (Z.ltb_spec a 0); [discriminate|]. destruct (nth_error (k_args s) (Z.to_nat a)) as [p|] eqn:E; [|discriminate].
  destruct (aptrs s args) as [l|]; [|discriminate]. intros [= <-]. constructor; [split; [lia|exact E]|auto].
Qed.
Lemma F2_len {A B} (P : A -> B -> Prop) l m : Forall2 P l m -> List.length l = List.length m.
Proof. induction 1; cbn; congruence. Qed.
Lemma call_all f : forall n m args st s, Forall (in_range n) args -> (exists body, nth_error macro_map (macros m) = Some (List.length args, body)) ->
  Rel n st s -> i_in_out st = false -> r_ok n st (icall attr_match attr_replace copy_case case_from get_case lower lists dict_case macros macro_map f m args st) (acall f m args s).
Proof.
  induction f as [|f IH]; intros n m args st s A [body M] R O; cbn [icall acall]; [reflexivity|]. rewrite M, Nat.eqb_refl.
  assert (P := ptrs_ok n st s args R A).
  match goal with |- r_ok _ _ (match ?X with _ => _ end) _ => replace X with (option_map (map (@Some nat)) (aptrs s args)) end.
  2: { rewrite <- P. destruct args as [|a r]; [reflexivity|]. cbn [List.length]. rewrite (proj2 (Nat.ltb_ge _ _) (le_n _)), Nat.sub_diag. destruct (i_ptrs st (a :: r)); [|reflexivity]. cbn. rewrite app_nil_r. reflexivity. }
  destruct (aptrs s args) as [ps|] eqn:AP; [|reflexivity]. cbn [option_map]. apply aptrs_spec in AP. assert (L := F2_len _ _ _ AP).
  assert (R0 : Rel (List.length args) (iset_frame st (map Some ps)) (k_set_args s ps)).
  { assert (R' := R). destruct R as (H1 & H2 & H3 & H4 & H5 & H6 & H7). split; [exact H1|]. split; [cbn; rewrite L; rewrite <- (map_length (@Some nat)) at 1; apply firstn_all|]. split; [|auto].
    cbn. clear -AP R'. induction AP as [|a p l l' [_ E] _ IHA]; constructor; [|exact IHA]. exact (proj2 (rel_word n st s _ p R' E)). }
  assert (K := macro_ok rank _ (acall f) (rank (macros m)) (fun n m args st s A _ B => IH n m args st s A B) (List.length args) body (macros_wf _ _ _ M) (macro_nodes _ _ _ M) _ _ R0 O).
  unfold r_ok in K. destruct (irun_macro _ _ _ _ _ _ _ _ _ body (iset_frame st (map Some ps))) as [st1|]; [|rewrite K; reflexivity]. destruct K as (s1 & E & R1 & S1). rewrite E.
  eexists. split; [reflexivity|]. split; [|split; [exact (proj1 S1)|reflexivity]]. apply (aruns_keep _ (acall_keep f)) in E. apply keep_len in E. cbn [k_words k_set_args] in E.
  destruct R as (H1 & H2 & H3 & H4 & H5 & H6 & H7). destruct R1 as (G1 & G2 & G3 & G4 & G5 & G6 & G7). split; [exact G1|]. split; [exact H2|]. split; [cbn; rewrite E; exact H3|]. auto.
Qed.

(** ** it is what the specification says *)
Notation Exec := (Exec attr_match attr_replace copy_case case_from get_case lower lists dict_case macros macro_map).
Notation Appended := (Appended attr_match attr_replace copy_case case_from get_case lower lists dict_case macros macro_map).
Notation Printed := (Printed attr_match attr_replace copy_case case_from get_case lower lists dict_case macros macro_map).
Notation Seq := (Seq attr_match attr_replace copy_case case_from get_case lower lists dict_case macros macro_map).
Notation Choose := (Choose attr_match attr_replace copy_case case_from get_case lower lists dict_case macros macro_map).
Lemma aput_spec s pos f s' : aput s pos f = Some s' -> exists i w, (0 <= pos)%Z /\ nth_error (k_args s) (Z.to_nat pos) = Some i /\ nth_error (k_words s) i = Some w /\ s' = k_set_word s i (f w).
Proof.
  unfold aput, k_ptr. destruct (Z.ltb_spec pos 0); [discriminate|]. destruct (nth_error (k_args s) (Z.to_nat pos)) as [i|] eqn:E; [|discriminate]. destruct (nth_error (k_words s) i) as [w|] eqn:W; [|discriminate].
  intros [= <-]. exists i, w. repeat split; auto; lia.
Qed.
Lemma append_sound n l : forall s s', aappend n l s = Some s' -> Appended n l s s'.
Proof.
  induction l as [|e l IH]; intros s s'; cbn [aappend]; [intros [= <-]; constructor|]. destruct (value e s) as [v|] eqn:E; [|discriminate]. intros H. econstructor; [exact E|apply IH, H].
Qed.
Lemma out_sound l : forall s s', aout l s = Some s' -> Printed l s s'.
Proof.
  induction l as [|e l IH]; intros s s'; cbn [aout]; [intros [= <-]; constructor|]. destruct (den true e s) as [[v q]|] eqn:E; [|discriminate]. intros H. econstructor; [exact E|apply IH, H].
Qed.
Section Sound.
Variable ac : str -> list Z -> cst -> option cst.
Hypothesis ac_sound : forall n args s s', ac n args s = Some s' -> Exec (KCall n args) s s'.
Lemma arun_sound i : forall s s', arun ac i s = Some s' -> Exec i s s'.
Proof.
  induction i as [l e|x l|l|l e|x args|z|l IH] using iinstr_ind2; intros s s'.
  - cbn [arun]. unfold alet. destruct (value e s) as [v|] eqn:E; [|discriminate]. destruct l; [intros [= <-]; apply xe_let_var; exact E|]. intros H. apply aput_spec in H as (i & w & P & H1 & H2 & ->). apply xe_let_clip; assumption.
  - intros H. apply xe_append, append_sound, H.
  - intros H. apply xe_out, out_sound, H.
  - cbn [arun]. unfold amod. destruct dict_case eqn:D; [intros [= <-]; apply xe_case_dict; reflexivity|]. destruct (value e s) as [v|] eqn:E; [|discriminate].
    destruct l; [intros [= <-]; apply xe_case_var; [reflexivity|exact E]|]. intros H. apply aput_spec in H as (i & w & P & H1 & H2 & ->). apply xe_case_clip; auto.
  - apply ac_sound.
  - discriminate.
  - rewrite arun_choose. intros H. apply xe_choose. revert s s' H. induction IH as [|[o b] l Hb _ IHl]; intros s s'; cbn [aopts]; [intros [= <-]; constructor|]. cbn [snd] in Hb.
    assert (B : forall s s', aruns ac b s = Some s' -> Seq b s s').
    { clear IHl. induction Hb as [|y b Hy _ IHb]; intros a a'; cbn [aruns]; [intros [= <-]; constructor|]. destruct (arun ac y a) as [a1|] eqn:E; [|discriminate]. intros H. econstructor; [exact (Hy _ _ E)|exact (IHb _ _ H)]. }
    destruct o as [c|].
    + destruct (holds c s) as [[]|] eqn:T; [| |discriminate]; intros H; [apply cs_when|apply cs_skip]; auto.
    + destruct (aruns ac b s) as [s1|] eqn:E; [|discriminate]. intros H. econstructor; [exact (B _ _ E)|exact (IHl _ _ H)].
Qed.
Lemma aruns_sound l : forall s s', aruns ac l s = Some s' -> Seq l s s'.
Proof.
  induction l as [|y b IHb]; intros a a'; cbn [aruns]; [intros [= <-]; constructor|]. destruct (arun ac y a) as [a1|] eqn:E; [|discriminate]. intros H. econstructor; [exact (arun_sound _ _ _ E)|exact (IHb _ _ H)].
Qed.
End Sound.
Lemma acall_sound f : forall n args s s', acall f n args s = Some s' -> Exec (KCall n args) s s'.
Proof.
  induction f as [|f IH]; intros n args s s'; cbn [acall]; [discriminate|]. destruct (nth_error macro_map (macros n)) as [[npar body]|] eqn:M; [|discriminate]. destruct (Nat.eqb_spec (List.length args) npar) as [L|]; [|discriminate].
  destruct (aptrs s args) as [ps|] eqn:AP; [|discriminate]. destruct (aruns (acall f) body (k_set_args s ps)) as [s1|] eqn:E; [|discriminate]. intros [= <-].
  exact (xe_call _ _ _ _ _ _ _ _ _ _ n args npar body ps s s1 M (aptrs_spec _ _ _ AP) L (aruns_sound _ IH _ _ _ E)).
Qed.

(** ** one result *)
Scheme Exec_mut := Minimality for Spec.Interchunk.Exec Sort Prop
  with App_mut := Minimality for Spec.Interchunk.Appended Sort Prop
  with Prn_mut := Minimality for Spec.Interchunk.Printed Sort Prop
  with Seq_mut := Minimality for Spec.Interchunk.Seq Sort Prop
  with Cho_mut := Minimality for Spec.Interchunk.Choose Sort Prop.
Lemma args_det s args ps ps' : Forall2 (fun a p => (0 <= a)%Z /\ nth_error (k_args s) (Z.to_nat a) = Some p) args ps -> Forall2 (fun a p => (0 <= a)%Z /\ nth_error (k_args s) (Z.to_nat a) = Some p) args ps' -> ps = ps'.
Proof.
  intros H. revert ps'. induction H as [|a p l l' [_ E] _ IH]; intros ps' H'; inversion H' as [|? p' ? ? [_ E'] H'']; subst; [reflexivity|]. f_equal; [congruence|auto].
Qed.
Ltac same := repeat match goal with H1 : ?a = Some _, H2 : ?a = Some _ |- _ => rewrite H1 in H2; injection H2 as H2; subst end.
Lemma seq_det l s s1 : Seq l s s1 -> forall s2, Seq l s s2 -> s1 = s2.
Proof.
  intros H. apply (Seq_mut attr_match attr_replace copy_case case_from get_case lower lists dict_case macros macro_map
    (fun i s s1 => forall s2, Exec i s s2 -> s1 = s2) (fun n l s s1 => forall s2, Appended n l s s2 -> s1 = s2) (fun l s s1 => forall s2, Printed l s s2 -> s1 = s2)
    (fun l s s1 => forall s2, Seq l s s2 -> s1 = s2) (fun l s s1 => forall s2, Choose l s s2 -> s1 = s2)); [..|exact H]; clear l s s1 H.
  - intros id n e s v V s2 H. inversion H; subst. same. reflexivity.
  - intros id part pos e s v i w V P A W s2 H. inversion H; subst. same. reflexivity.
  - intros n l s s1 _ IH s2 H. inversion H; subst. auto.
  - intros l s s1 _ IH s2 H. inversion H; subst. auto.
  - intros l e s D s2 H. inversion H; subst; congruence.
  - intros id n e s c D V s2 H. inversion H; subst; [congruence|]. same. reflexivity.
  - intros id part pos e s c i w D V P A W s2 H. inversion H; subst; [congruence|]. same. reflexivity.
  - intros n args npar body ps s s1 M A L _ IH s2 H. inversion H as [| | | | | | |? ? npar' body' ps' ? s1' M' A' L' H'|]; subst. rewrite M in M'. inversion M'; subst. rewrite <- (args_det _ _ _ _ A A') in H'. rewrite (IH _ H'). reflexivity.
  - intros l s s1 _ IH s2 H. inversion H; subst. auto.
  - intros n s s2 H. inversion H. reflexivity.
  - intros n e l s v s1 V _ IH s2 H. inversion H; subst. same. auto.
  - intros s s2 H. inversion H. reflexivity.
  - intros e l s v q s1 V _ IH s2 H. inversion H as [|? ? ? v' q' ? V' H']; subst. rewrite V in V'. injection V' as <- <-. auto.
  - intros s s2 H. inversion H. reflexivity.
  - intros i l s s1 s2 _ IH1 _ IH2 s3 H. inversion H as [|? ? ? s1' ? E1 E2]; subst. rewrite <- (IH1 _ E1) in E2. auto.
  - intros s s2 H. inversion H. reflexivity.
  - intros c b l s s1 T _ IH s2 H. inversion H; subst; [auto|congruence].
  - intros c b l s s1 T _ IH s2 H. inversion H; subst; [congruence|auto].
  - intros b l s s1 s2 _ IH1 _ IH2 s3 H. inversion H as [| | |? ? ? s1' ? E1 E2]; subst. rewrite <- (IH1 _ E1) in E2. auto.
Qed.

(** ** well-formed rules do not abort *)
Hypothesis content_re : uses_content N -> forall s, attr_match (u "content") s = from_brace s.
Definition full (s : cst) : Prop := uses_content N -> Forall (fun q : str => exists i, q = cLC :: i /\ i <> []) (map iw_queue (k_words s)).
Lemma from_brace_some a i : i <> [] -> from_brace (a ++ cLC :: i) <> [].
Proof.
  intros H. induction a as [|c a IH]; cbn [app from_brace].
  - rewrite ceq_refl. destruct i; [contradiction|]. cbn. discriminate.
  - destruct ((c =?c cLC) && negb (str_eqb (a ++ cLC :: i) [])); [discriminate|exact IH].
Qed.
Lemma from_brace_all i : i <> [] -> from_brace (cLC :: i) = cLC :: i.
Proof. intros H. cbn. destruct i; [contradiction|reflexivity]. Qed.
Lemma content_some w i : uses_content N -> iw_queue w = cLC :: i -> i <> [] -> get w (u "content") <> [].
Proof.
  intros U E H. unfold chunk_part. rewrite !content_re by exact U. rewrite E, (from_brace_all i H). rewrite Nat.eqb_refl.
  destruct (from_brace (iw_chunk w)) as [|c r] eqn:F; [discriminate|]. destruct (Nat.eqb _ _); [|discriminate]. apply from_brace_some, H.
Qed.
Lemma k_at_in s pos w : k_at s pos = Some w -> In w (k_words s).
Proof. unfold k_at. destruct (pos <? 0)%Z; [discriminate|]. destruct (nth_error (k_args s) (Z.to_nat pos)); [|discriminate]. apply nth_error_In. Qed.
Lemma full_bq s q : full s -> full (k_set_bq s q). Proof. exact (fun H => H). Qed.
Lemma den_total n pop e : wf_e n e -> incl (jnodes_e e) N -> forall s, full s -> den pop e s <> None.
Proof.
  induction e as [id part pos|id x|id x|id|id x|id part pos|id pos e IH|l IH|l IH|] using iexpr_ind2; intros W I s F; cbn [Spec.Interchunk.den jnodes_e wf_e] in *; try discriminate.
  - destruct (k_at s pos) as [w|] eqn:E; [|discriminate]. destruct (str_eqb part (u "content")) eqn:P; [|discriminate]. apply str_eqb_eq in P. subst part.
    assert (U : uses_content N) by (exists id, pos; apply I; left; reflexivity). specialize (F U). apply k_at_in in E. rewrite Forall_map, Forall_forall in F. destruct (F w E) as (i & Q & Hi).
    assert (C := content_some w i U Q Hi). destruct (get w (u "content")); [contradiction|discriminate].
  - destruct (k_bq s); discriminate.
  - destruct (k_at s pos); discriminate.
  - destruct (k_at s pos); [|discriminate]. specialize (IH (proj2 W) (fun x H => I x (or_intror H)) s F). destruct (den pop e s) as [[d q]|]; [discriminate|contradiction].
  - apply (proj1 (fold_and _ _)) in W. revert s F. induction IH as [|x r IHx IHr IHl]; intros s F; [discriminate|]. inversion_clear W as [|? ? W1 W2]. cbn [flat_map] in I.
    specialize (IHx W1 (fun y H => I y (in_or_app _ _ _ (or_introl H))) s F). destruct (den pop x s) as [[a q]|]; [|contradiction].
    specialize (IHl W2 (fun y H => I y (in_or_app _ _ _ (or_intror H))) (k_set_bq s q) F). match goal with |- match ?a with _ => _ end <> _ => destruct a as [[b q2]|] end; [discriminate|contradiction].
  - apply (proj1 (fold_and _ _)) in W. match goal with |- match ?a with _ => _ end <> _ => enough (K : a <> None); [destruct a as [[b q2]|]; [discriminate|contradiction]|] end.
    revert s F. induction IH as [|x r IHx IHr IHl]; intros s F; [discriminate|]. inversion_clear W as [|? ? W1 W2]. cbn [flat_map] in I.
    specialize (IHx W1 (fun y H => I y (in_or_app _ _ _ (or_introl H))) s F). destruct (den pop x s) as [[a q]|]; [|contradiction].
    specialize (IHl W2 (fun y H => I y (in_or_app _ _ _ (or_intror H))) (k_set_bq s q) F). match goal with |- match ?a with _ => _ end <> _ => destruct a as [[b q2]|] end; [discriminate|contradiction].
  - contradiction.
Qed.
Lemma value_total n e s : wf_e n e -> incl (jnodes_e e) N -> full s -> value e s <> None.
Proof. intros W I F. unfold Spec.Interchunk.value. assert (D := den_total n false e W I s F). destruct (den false e s) as [[v q]|]; [discriminate|contradiction]. Qed.
Lemma cmp_total n f a b s : wf_e n a /\ wf_e n b -> incl (jnodes_e a ++ jnodes_e b) N -> full s -> cmp attr_match case_from get_case f a b s <> None.
Proof.
  intros [W1 W2] I F. unfold cmp. assert (A := value_total n a s W1 (fun y H => I y (in_or_app _ _ _ (or_introl H))) F). assert (B := value_total n b s W2 (fun y H => I y (in_or_app _ _ _ (or_intror H))) F).
  destruct (value a s); [|contradiction]. destruct (value b s); [discriminate|contradiction].
Qed.
Lemma holds_total n c s : wf_c n c -> incl (jnodes_c c) N -> full s -> holds c s <> None.
Proof.
  intros W I F. induction c as [cl a b|cl a b|cl a b|cl a b|cl a b|cl a b|cl a b|l IH|l IH|c IH] using icond_ind2; cbn [wf_c jnodes_c] in *; cbn [Spec.Interchunk.holds].
  1-4: apply (cmp_total n); assumption.
  1-3: unfold cmp_list; assert (A := value_total n a s W I F); destruct (value a s); [discriminate|contradiction].
  - apply (proj1 (fold_and _ _)) in W. induction IH as [|x r IHx IHr IHl]; [discriminate|]. inversion_clear W as [|? ? W1 W2]. cbn [flat_map] in I. cbn [map fold_right].
    specialize (IHx W1 (fun y H => I y (in_or_app _ _ _ (or_introl H)))). destruct (holds x s) as [[]|]; [|discriminate|contradiction]. apply IHl; [exact W2|]. intros y H. apply I, in_or_app. auto.
  - apply (proj1 (fold_and _ _)) in W. induction IH as [|x r IHx IHr IHl]; [discriminate|]. inversion_clear W as [|? ? W1 W2]. cbn [flat_map] in I. cbn [map fold_right].
    specialize (IHx W1 (fun y H => I y (in_or_app _ _ _ (or_introl H)))). destruct (holds x s) as [[]|]; [discriminate| |contradiction]. apply IHl; [exact W2|]. intros y H. apply I, in_or_app. auto.
  - specialize (IH W I). destruct (holds c s); [discriminate|contradiction].
Qed.
(** [n] chunks can be named, they exist *)
Definition sound_st (n : nat) (s : cst) : Prop := List.length (k_args s) = n /\ Forall (fun i => i < List.length (k_words s)) (k_args s) /\ full s.
Lemma sound_keep n s s' : keep s s' -> sound_st n s -> sound_st n s'.
Proof.
  intros K (A & B & C). assert (L := keep_len _ _ K). destruct K as [K1 K2]. split; [congruence|]. split; [rewrite K2, L; exact B|]. intros U. rewrite K1. exact (C U).
Qed.
Lemma ptr_total n s pos : sound_st n s -> in_range n pos -> exists i, k_ptr s pos = Some i /\ i < List.length (k_words s).
Proof.
  intros (A & B & _) [P1 P2]. unfold k_ptr. rewrite (proj2 (Z.ltb_ge pos 0) P1). destruct (nth_error (k_args s) (Z.to_nat pos)) as [i|] eqn:E; [|apply nth_error_None in E; lia].
  exists i. split; [reflexivity|]. apply nth_error_In in E. rewrite Forall_forall in B. auto.
Qed.
Lemma aput_total n s pos f : sound_st n s -> in_range n pos -> aput s pos f <> None.
Proof.
  intros S P. unfold aput. destruct (ptr_total n s pos S P) as (i & -> & L). destruct (nth_error (k_words s) i) eqn:E; [discriminate|]. apply nth_error_None in E. lia.
Qed.
Section Total.
Variable ac : str -> list Z -> cst -> option cst.
Variable below : nat.
Hypothesis ac_keep : forall n args s s', ac n args s = Some s' -> keep s s'.
Hypothesis ac_total : forall n m args s, Forall (in_range n) args -> rank (macros m) < below -> (exists body, nth_error macro_map (macros m) = Some (List.length args, body)) -> sound_st n s -> ac m args s <> None.
Notation wfi := (fun n => wf_i macros macro_map n rank below).
Lemma arun_total n i : wfi n i -> incl (jnodes_i i) N -> forall s, sound_st n s -> arun ac i s <> None.
Proof.
  induction i as [l e|x l|l|l e|x args|z|l IH] using iinstr_ind2; intros W I s S; cbn [wf_i jnodes_i] in *.
  - cbn [arun]. unfold alet. assert (V := value_total n e s (proj2 W) (fun y H => I y (in_or_app _ _ _ (or_intror H))) (proj2 (proj2 S))). destruct (value e s) as [v|]; [|contradiction]. destruct l; [discriminate|]. apply (aput_total n); [exact S|exact (proj1 W)].
  - cbn [arun]. assert (F : full s) by apply S. clear S. revert s F. induction W as [|e l W1 _ IHl]; intros s F; cbn [aappend]; [discriminate|]. cbn [flat_map] in I. assert (V := value_total n e s W1 (fun y H => I y (in_or_app _ _ _ (or_introl H))) F).
    destruct (value e s) as [v|]; [|contradiction]. apply IHl; [intros y H; apply I, in_or_app; auto|exact F].
  - cbn [arun]. assert (F : full s) by apply S. clear S. revert s F. induction W as [|e l W1 _ IHl]; intros s F; cbn [aout]; [discriminate|]. cbn [flat_map] in I. assert (V := den_total n true e W1 (fun y H => I y (in_or_app _ _ _ (or_introl H))) s F).
    destruct (den true e s) as [[v q]|]; [|contradiction]. apply IHl; [intros y H; apply I, in_or_app; auto|exact F].
  - cbn [arun]. unfold amod. destruct dict_case; [discriminate|]. assert (V := value_total n e s (proj2 W) I (proj2 (proj2 S))). destruct (value e s) as [v|]; [|contradiction]. destruct l; [discriminate|]. apply (aput_total n); [exact S|exact (proj1 W)].
  - destruct W as (W1 & W2 & W3). apply (ac_total n); assumption.
  - destruct W.
  - rewrite arun_choose. apply (proj1 (fold_and _ _)) in W. revert s S. induction IH as [|[o b] l Hb _ IHl]; intros s S; cbn [aopts]; [discriminate|].
    inversion_clear W as [|? ? W1 W2]. cbn [flat_map fst snd] in I, W1, Hb. destruct W1 as [Wc Wb]. apply (proj1 (fold_and _ _)) in Wb.
    assert (I0 : incl (match o with Some c => jnodes_c c | None => [] end) N) by (intros y H; apply I, in_or_app; left; apply in_or_app; auto).
    assert (I1 : incl (flat_map jnodes_i b) N) by (intros y H; apply I, in_or_app; left; apply in_or_app; auto).
    assert (I2 : incl (flat_map (fun o => match fst o with Some c => jnodes_c c | None => [] end ++ flat_map jnodes_i (snd o)) l) N) by (intros y H; apply I, in_or_app; auto).
    specialize (IHl W2 I2).
    assert (B : forall s, sound_st n s -> aruns ac b s <> None).
    { clear IHl I I0 I2 S s. induction Hb as [|y b Hy _ IHb]; intros s S; cbn [aruns]; [discriminate|]. inversion_clear Wb as [|? ? Y1 Y2]. cbn [flat_map] in I1. specialize (Hy Y1 (fun z H => I1 z (in_or_app _ _ _ (or_introl H))) s S).
      destruct (arun ac y s) as [s1|] eqn:E; [|contradiction]. apply IHb; [exact Y2|intros z H; apply I1, in_or_app; auto|]. exact (sound_keep _ _ _ (arun_keep _ ac_keep _ _ _ E) S). }
    destruct o as [c|].
    + assert (T := holds_total n c s Wc I0 (proj2 (proj2 S))). destruct (holds c s) as [[]|]; [apply B, S|apply IHl, S|contradiction].
    + assert (T := B s S). destruct (aruns ac b s) as [s1|] eqn:E; [|contradiction]. apply IHl. exact (sound_keep _ _ _ (aruns_keep _ ac_keep _ _ _ E) S).
Qed.
Lemma aruns_total n l : Forall (wfi n) l -> incl (flat_map jnodes_i l) N -> forall s, sound_st n s -> aruns ac l s <> None.
Proof.
  induction 1 as [|y b Y1 _ IHb]; intros I s S; cbn [aruns]; [discriminate|]. cbn [flat_map] in I. assert (Hy := arun_total n y Y1 (fun z H => I z (in_or_app _ _ _ (or_introl H))) s S).
  destruct (arun ac y s) as [s1|] eqn:E; [|contradiction]. apply IHb; [intros z H; apply I, in_or_app; auto|]. exact (sound_keep _ _ _ (arun_keep _ ac_keep _ _ _ E) S).
Qed.
End Total.
Lemma aptrs_total n s args : sound_st n s -> Forall (in_range n) args -> exists ps, aptrs s args = Some ps /\ Forall (fun i => i < List.length (k_words s)) ps /\ List.length ps = List.length args.
Proof.
  intros S. induction 1 as [|a args Ha _ (ps & E & F & L)]; cbn [aptrs]; [exists []; auto|]. destruct (ptr_total n s a S Ha) as (i & -> & Li). rewrite E. exists (i :: ps). split; [reflexivity|]. split; [constructor; assumption|cbn; congruence].
Qed.
Lemma wf_below n l a b : a <= b -> Forall (wf_i macros macro_map n rank a) l -> Forall (wf_i macros macro_map n rank b) l.
Proof.
  intros L H. eapply Forall_impl; [|exact H]. intros i. clear H. induction i as [l0 e|x l0|l0|l0 e|x args|z|l0 IH] using iinstr_ind2; cbn [wf_i]; auto.
  - intros (A & B & C). split; [exact A|]. split; [lia|exact C].
  - intros H. apply (proj1 (fold_and _ _)) in H. apply (proj2 (fold_and _ _)). induction IH as [|[o b0] l1 Hb _ IHl]; [constructor|]. inversion_clear H as [|? ? H1 H2]. constructor; [|auto]. cbn [fst snd] in *. destruct H1 as [C D]. split; [exact C|].
    apply (proj1 (fold_and _ _)) in D. apply (proj2 (fold_and _ _)). clear -Hb D. induction Hb as [|y b1 Hy _ IHb]; [constructor|]. inversion_clear D as [|? ? D1 D2]. constructor; auto.
Qed.
Lemma acall_total f : forall n m args s, Forall (in_range n) args -> rank (macros m) < f -> (exists body, nth_error macro_map (macros m) = Some (List.length args, body)) -> sound_st n s -> acall f m args s <> None.
Proof.
  induction f as [|f IH]; intros n m args s A Hr [body M] S; [lia|]. cbn [acall]. rewrite M, Nat.eqb_refl. destruct (aptrs_total n s args S A) as (ps & -> & F & L).
  assert (B := aruns_total (acall f) f (acall_keep f) IH (List.length args) body (wf_below _ _ (rank (macros m)) f ltac:(lia) (macros_wf _ _ _ M)) (macro_nodes _ _ _ M) (k_set_args s ps)).
  destruct (aruns (acall f) body (k_set_args s ps)); [discriminate|]. exfalso. apply B; [|reflexivity]. split; [exact L|]. split; [exact F|]. exact (proj2 (proj2 S)).
Qed.
End Interp.
