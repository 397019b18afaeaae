(** A rule does not see the words read beyond its own. *)
From Coq Require Import String ZArith.
From Verif Require Import Model.Base Proofs.Base Model.TransferRules Spec.TransferRules Spec.TransferText Proofs.TransferRules.

(** ** two states that differ in words and frame *)
Definition swp (ws : list tword) (fr : option (list (option nat))) (st : rst) : rst := with_frame (with_words st ws) fr.
Definition valid (m : nat) (p : option nat) : Prop := match p with Some i => i < m | None => True end.
Definition in_pos (k : option nat) (p : Z) : Prop := match k with Some n => (p < Z.of_nat n)%Z | None => True end.
(** [k]: the number of positions the frames agree on; [None]: they are equal.  [m]: the words agree below m *)
Definition frames (k : option nat) (m : nat) (fr fr' : option (list (option nat))) : Prop :=
  match k with
  | None => fr = fr' /\ match fr with Some f => Forall (valid m) f | None => True end
  | Some n => exists f f1 f2, fr = Some (f ++ f1) /\ fr' = Some (f ++ f2) /\ length f = n /\ 0 < n /\ Forall (valid m) f
  end.
Definition same (m : nat) (ws ws' : list tword) : Prop := forall i, i < m -> nth_error ws i = nth_error ws' i.
Definition view (k : option nat) (m : nat) (st : rst) (ws : list tword) (fr : option (list (option nat))) : Prop :=
  same m (r_words st) ws /\ frames k m (r_frame st) fr.
Lemma view_eq k m st st1 ws fr : r_words st1 = r_words st -> r_frame st1 = r_frame st -> view k m st ws fr -> view k m st1 ws fr.
Proof. intros E1 E2 [A B]. split; [rewrite E1; exact A|rewrite E2; exact B]. Qed.
Lemma valid_nth m f p i : Forall (valid m) f -> nth_error f p = Some (Some i) -> i < m.
Proof. intros F E. exact (proj1 (Forall_forall _ _) F _ (nth_error_In _ _ E)). Qed.
Lemma frames_nth k m fr fr' p : frames k m fr fr' -> in_pos k p -> (0 <= p)%Z ->
  match fr with None => fr' = None | Some f => exists f', fr' = Some f' /\ nth_error f (Z.to_nat p) = nth_error f' (Z.to_nat p) /\ (forall i, nth_error f (Z.to_nat p) = Some (Some i) -> i < m) end.
Proof.
  destruct k as [n|]; cbn [frames in_pos].
  - intros (f & f1 & f2 & -> & -> & L & _ & F) H H0. exists (f ++ f2). split; [reflexivity|]. rewrite !nth_error_app1 by lia. split; [reflexivity|]. intros i. apply (valid_nth m f _ i F).
  - intros [<- F] _ H0. destruct fr as [f|]; [|reflexivity]. exists f. split; [reflexivity|]. split; [reflexivity|]. intros i. apply (valid_nth m f _ i F).
Qed.
Lemma word_at_swp k m st ws fr p : view k m st ws fr -> in_pos k p -> word_at (swp ws fr st) p = word_at st p /\ forall i, word_at st p = Some i -> i < m.
Proof.
  intros [_ V] H. unfold word_at. change (r_frame (swp ws fr st)) with fr. destruct (Z.ltb_spec p 0).
  - destruct fr as [f'|], (r_frame st) as [f|]; (split; [reflexivity|discriminate]).
  - assert (K := frames_nth _ _ _ _ _ V H ltac:(lia)). destruct (r_frame st) as [f|]; [|subst fr; split; [reflexivity|discriminate]].
    destruct K as (f' & -> & -> & B). split; [reflexivity|]. intros i E. apply B. destruct (nth_error f' (Z.to_nat p)) as [[j|]|]; congruence.
Qed.
Lemma raw_ptr_swp k m st ws fr p : view k m st ws fr -> in_pos k p -> raw_ptr (swp ws fr st) p = raw_ptr st p /\ forall q, raw_ptr st p = Some q -> valid m q.
Proof.
  intros [_ V] H. unfold raw_ptr. change (r_frame (swp ws fr st)) with fr. destruct (Z.ltb_spec p 0).
  - destruct fr as [f'|], (r_frame st) as [f|]; (split; [reflexivity|discriminate]).
  - assert (K := frames_nth _ _ _ _ _ V H ltac:(lia)). destruct (r_frame st) as [f|]; [|subst fr; split; [reflexivity|discriminate]].
    destruct K as (f' & -> & E & B). split; [congruence|]. intros [i|] Q; [|exact I]. apply B. exact Q.
Qed.
Lemma obj_swp k m st ws fr i : view k m st ws fr -> i < m -> obj (swp ws fr st) i = obj st i.
Proof. intros [V _] H. unfold obj. symmetry. apply V, H. Qed.
Lemma single_swp k m st ws fr b : view k m st ws fr ->
  match single_wb b st with None => single_wb b (swp ws fr st) = None | Some st1 => single_wb b (swp ws fr st) = Some (swp ws fr st1) /\ r_words st1 = r_words st /\ r_frame st1 = r_frame st end.
Proof.
  intros V. assert (V' := V). destruct V as [V W]. unfold single_wb. change (r_ll (swp ws fr st)) with (r_ll st). change (r_frame (swp ws fr st)) with fr.
  destruct (Nat.eqb (r_ll st) 1); [|auto].
  assert (K : match r_frame st with None => fr = None | Some [] => fr = Some [] | Some (p :: _) => valid m p /\ exists f', fr = Some (p :: f') end).
  { destruct k as [n|].
    - destruct W as (f & f1 & f2 & -> & -> & L & L0 & F). destruct f as [|p f]; [cbn in L; lia|]. inversion_clear F. cbn [app]. eauto.
    - destruct W as [<- F]. destruct (r_frame st) as [[|p f]|]; try reflexivity. inversion_clear F. eauto. }
  destruct (r_frame st) as [[|p f]|] eqn:RF.
  - subst fr. reflexivity.
  - destruct K as (P & f' & ->). destruct p as [i|]; [|reflexivity]. rewrite (obj_swp _ _ _ _ _ _ V' P). destruct (obj st i); [|reflexivity]. auto.
  - subst fr. destruct b; [reflexivity|auto].
Qed.

Section Loc.
Variable attr_match : str -> str -> str.
Variable attr_replace : str -> str -> str -> str.
Variable copy_case case_from : str -> str -> str.
Variable get_case lower : str -> str.
Variable lists : str -> list str.
Variable dict_case : bool.
Variable macros : str -> nat.
Variable macro_map : list (nat * list instr).
Variable N : list (nat * tinstr).
Hypothesis HN : functional N.
Hypothesis HM : Forall (fun m => incl (flat_map nodes_i (snd m)) N /\ forallb simple_i (snd m) = true) macro_map.
Notation eval := (eval attr_match copy_case case_from get_case dict_case).
Notation eval_list := (eval_list attr_match copy_case case_from get_case dict_case).
Notation test := (test attr_match copy_case case_from get_case lower lists dict_case).

(** positions: [Some n]: below n; [None]: any *)
Definition pe (k : option nat) (e : expr) : Prop := match k with Some n => pos_e (Z.of_nat n) e = true | None => True end.
Definition pc (k : option nat) (c : cond) : Prop := match k with Some n => pos_c (Z.of_nat n) c = true | None => True end.
Definition pl (k : option nat) (l : lhs) : Prop := match k with Some n => pos_l (Z.of_nat n) l = true | None => True end.
Definition pi (k : option nat) (i : instr) : Prop := match k with Some n => pos_i (Z.of_nat n) i = true | None => True end.
Lemma forall_pe k l : match k with Some n => forallb (pos_e (Z.of_nat n)) l = true | None => True end -> Forall (pe k) l.
Proof. destruct k as [n|]; intros H; apply Forall_forall; intros x Hx; [|exact I]. exact (proj1 (forallb_forall _ _) H x Hx). Qed.

Definition loc (ws : list tword) (fr : option (list (option nat))) (st : rst) (r r' : option (str * rst)) : Prop :=
  match r with None => r' = None | Some (t, st1) => r' = Some (t, swp ws fr st1) /\ r_words st1 = r_words st /\ r_frame st1 = r_frame st end.
Definition eval_loc (k : option nat) (m : nat) (e : expr) : Prop := forall c st ws fr, Inv N c st -> incl (nodes_e e) N -> simple_e (c_lu c) e = true -> pe k e -> view k m st ws fr ->
  loc ws fr st (eval e st) (eval e (swp ws fr st)).
Lemma eval_inv e c st t st1 : Inv N c st -> incl (nodes_e e) N -> simple_e (c_lu c) e = true -> eval e st = Some (t, st1) -> Inv N c st1.
Proof.
  intros H1 H2 H3 E. assert (K := eval_den attr_match copy_case case_from get_case dict_case N HN e c st H1 H2 H3). unfold step_ok in K.
  destruct (den attr_match copy_case case_from get_case dict_case c e (proj st)) as [[[a b] s]|]; [|congruence]. destruct K as (st' & K & _ & I1 & _). rewrite E in K. injection K as <- <-. exact I1.
Qed.
Lemma list_loc k m l : Forall (eval_loc k m) l -> forall c st ws fr, Inv N c st -> incl (flat_map nodes_e l) N -> forallb (simple_e (c_lu c)) l = true -> Forall (pe k) l -> view k m st ws fr ->
  loc ws fr st (eval_list l st) (eval_list l (swp ws fr st)).
Proof.
  induction 1 as [|e l He H IH]; intros c st ws fr HI Hn Hs Hp V; [cbn; auto|]. cbn [flat_map forallb] in Hn, Hs. apply incl_app_inv in Hn as [Hn1 Hn2]. apply andb_prop in Hs as [Hs1 Hs2]. inversion_clear Hp as [|? ? Hp1 Hp2].
  cbn [TransferRules.eval_list]. assert (K := He c st ws fr HI Hn1 Hs1 Hp1 V). destruct (eval e st) as [[a st1]|] eqn:E; [|cbn in K; rewrite K; reflexivity]. destruct K as (K & W1 & F1). rewrite K.
  assert (K2 := IH c st1 ws fr (eval_inv e c st a st1 HI Hn1 Hs1 E) Hn2 Hs2 Hp2 (view_eq k m st st1 ws fr W1 F1 V)).
  destruct (eval_list l st1) as [[b st2]|]; [|cbn in K2; rewrite K2; reflexivity]. destruct K2 as (K2 & W2 & F2). rewrite K2. cbn. split; [reflexivity|]. split; congruence.
Qed.
Notation eval_mlu := (eval_mlu attr_match copy_case case_from get_case dict_case).
Lemma list_inv l c st t st1 : Inv N c st -> incl (flat_map nodes_e l) N -> forallb (simple_e (c_lu c)) l = true -> eval_list l st = Some (t, st1) -> Inv N c st1.
Proof.
  intros H1 H2 H3 E. assert (Q := list_ok attr_match copy_case case_from get_case dict_case N c l). specialize (Q ltac:(apply Forall_forall; intros y _ s K1 K2 K3; apply eval_den; assumption) st H1 H2 H3). unfold step_ok in Q.
  destruct (den_list attr_match copy_case case_from get_case dict_case c l (proj st)) as [[[? ?] ?]|]; [|congruence]. destruct Q as (st' & Q & _ & I1 & _). rewrite E in Q. injection Q as <- <-. exact I1.
Qed.
Lemma mlu_loc k m l : Forall (Forall (eval_loc k m)) l -> forall c v fi st ws fr, Inv N c st -> incl (flat_map (flat_map nodes_e) l) N -> forallb (forallb (simple_e (c_lu c))) l = true -> Forall (Forall (pe k)) l -> view k m st ws fr ->
  loc ws fr st (eval_mlu l v fi st) (eval_mlu l v fi (swp ws fr st)).
Proof.
  induction 1 as [|x l Hx H IH]; intros c v fi st ws fr HI Hn Hs Hp V; [cbn; auto|]. cbn [flat_map forallb] in Hn, Hs. apply incl_app_inv in Hn as [Hn1 Hn2]. apply andb_prop in Hs as [Hs1 Hs2]. inversion_clear Hp as [|? ? Hp1 Hp2].
  cbn [TransferRules.eval_mlu]. assert (K := list_loc k m x Hx c st ws fr HI Hn1 Hs1 Hp1 V). destruct (eval_list x st) as [[a st1]|] eqn:E; [|cbn in K; rewrite K; reflexivity]. destruct K as (K & W1 & F1). rewrite K.
  destruct (mlu_add v fi a) as [v' f'].
  assert (K2 := IH c v' f' st1 ws fr (list_inv x c st a st1 HI Hn1 Hs1 E) Hn2 Hs2 Hp2 (view_eq k m st st1 ws fr W1 F1 V)).
  destruct (eval_mlu l v' f' st1) as [[b st2]|]; [|cbn in K2; rewrite K2; reflexivity]. destruct K2 as (K2 & W2 & F2). rewrite K2. cbn. split; [reflexivity|]. split; congruence.
Qed.
Lemma fetch_loc c st ws fr id ti : Inv N c st -> In (id, ti) N -> exists st1, fetch st id ti = (ti, st1) /\ fetch (swp ws fr st) id ti = (ti, swp ws fr st1) /\ Inv N c st1 /\ r_words st1 = r_words st /\ r_frame st1 = r_frame st.
Proof.
  intros HI K. destruct (fetch_ok N HN c st id ti HI K) as (st1 & E & P & I1 & _). exists st1. split; [exact E|].
  assert (X : r_words st1 = r_words st /\ r_frame st1 = r_frame st) by (split; [exact (f_equal s_words P)|exact (f_equal s_frame P)]).
  split; [|split; [exact I1|exact X]]. unfold fetch in *. change (r_cache (swp ws fr st)) with (r_cache st). destruct (r_cache st id) as [t0|]; [injection E as -> <-|injection E as <-]; reflexivity.
Qed.
Lemma take_loc st ws fr part wb : take_wb (swp ws fr st) part wb = option_map (swp ws fr) (take_wb st part wb) /\ forall st1, take_wb st part wb = Some st1 -> r_words st1 = r_words st /\ r_frame st1 = r_frame st.
Proof.
  unfold take_wb. change (r_ll (swp ws fr st)) with (r_ll st). change (r_in_lu (swp ws fr st)) with (r_in_lu st). change (r_in_let (swp ws fr st)) with (r_in_let st). change (r_owb (swp ws fr st)) with (r_owb st).
  change (r_vwb (swp ws fr st)) with (r_vwb st). change (r_vv (swp ws fr st)) with (r_vv st).
  destruct (is_lemma part && (1 <? r_ll st)); [|split; [reflexivity|intros ? [= <-]; auto]]. destruct (r_in_lu st).
  - destruct (combine_wblanks (r_owb st) wb); (split; [reflexivity|intros ? E; inversion E; auto]).
  - destruct (r_in_let st); [|split; [reflexivity|intros ? [= <-]; auto]]. destruct (combine_wblanks (r_vwb st (r_vv st)) wb); (split; [reflexivity|intros ? E; inversion E; auto]).
Qed.
Lemma loc_eq ws fr st st1 r r' : r_words st1 = r_words st -> r_frame st1 = r_frame st -> loc ws fr st1 r r' -> loc ws fr st r r'.
Proof. intros A B. unfold loc. destruct r as [[t s]|]; [|auto]. rewrite A, B. auto. Qed.
Lemma eval_local k m e : eval_loc k m e.
Proof.
  induction e as [id sd part pos q link|id v|id|id n|id sd part pos|id pos e IH|l IH|l IH|l IH|a b cc t l IHt IHl] using expr_ind2; intros c st ws fr HI Hn Hs Hp V.
  - cbn [nodes_e] in Hn. assert (K : In (id, match link with [] => TiClip sd part pos q | _ => TiLink sd part pos q link end) N) by (destruct link; apply Hn; left; reflexivity).
    destruct (fetch_loc c st ws fr id _ HI K) as (st1 & E1 & E2 & I1 & W1 & F1). cbn [TransferRules.eval]. rewrite E1, E2. apply (loc_eq ws fr st st1); [exact W1|exact F1|].
    assert (V1 := view_eq k m st st1 ws fr W1 F1 V). assert (IP : in_pos k pos) by (destruct k as [n|]; [cbn in Hp |- *; apply Z.ltb_lt, Hp|exact I]).
    destruct (word_at_swp k m st1 ws fr pos V1 IP) as [EW VW].
    destruct link as [|x link]; cbn [eval_instr]; rewrite EW; destruct (word_at st1 pos) as [i|]; try (cbn; auto; fail); rewrite (obj_swp k m st1 ws fr i V1 (VW i eq_refl)); destruct (obj st1 i) as [w|]; try reflexivity.
    + destruct sd; [| |cbn; auto]; destruct (take_loc st1 ws fr part (w_wb w)) as [T1 T2]; rewrite T1; destruct (take_wb st1 part (w_wb w)) as [st2|]; cbn; auto.
    + cbn. auto.
  - destruct (fetch_loc c st ws fr id (TiLit v) HI) as (st1 & E1 & E2 & I1 & W1 & F1); [apply Hn; left; reflexivity|]. cbn [TransferRules.eval]. rewrite E1, E2. cbn. auto.
  - destruct (fetch_loc c st ws fr id TiB HI) as (st1 & E1 & E2 & I1 & W1 & F1); [apply Hn; left; reflexivity|]. cbn [TransferRules.eval]. rewrite E1, E2. cbn [eval_instr].
    change (r_bq (swp ws fr st1)) with (r_bq st1). change (r_in_out (swp ws fr st1)) with (r_in_out st1). destruct (r_bq st1); [cbn; auto|]. destruct (r_in_out st1); cbn; auto.
  - destruct (fetch_loc c st ws fr id (TiVar n) HI) as (st1 & E1 & E2 & I1 & W1 & F1); [apply Hn; left; reflexivity|]. cbn [TransferRules.eval]. rewrite E1, E2. cbn [eval_instr].
    change (r_ll (swp ws fr st1)) with (r_ll st1). change (r_owb (swp ws fr st1)) with (r_owb st1). change (r_vwb (swp ws fr st1)) with (r_vwb st1). change (r_vars (swp ws fr st1)) with (r_vars st1).
    destruct (1 <? r_ll st1); [|cbn; auto]. destruct (combine_wblanks (r_owb st1) (r_vwb st1 n)); cbn; auto.
  - destruct (fetch_loc c st ws fr id (TiCaseOf sd part pos) HI) as (st1 & E1 & E2 & I1 & W1 & F1); [apply Hn; left; reflexivity|]. cbn [TransferRules.eval]. rewrite E1, E2. cbn [eval_instr].
    apply (loc_eq ws fr st st1); [exact W1|exact F1|]. assert (V1 := view_eq k m st st1 ws fr W1 F1 V).
    assert (IP : in_pos k pos) by (destruct k as [n|]; [cbn in Hp |- *; apply Z.ltb_lt, Hp|exact I]). destruct (word_at_swp k m st1 ws fr pos V1 IP) as [EW VW]. rewrite EW.
    destruct (word_at st1 pos) as [i|]; [|cbn; auto]. rewrite (obj_swp k m st1 ws fr i V1 (VW i eq_refl)). destruct (obj st1 i); cbn; auto.
  - destruct (fetch_loc c st ws fr id (TiCaseFrom pos) HI) as (st1 & E1 & E2 & I1 & W1 & F1); [apply Hn; left; reflexivity|]. cbn [TransferRules.eval]. rewrite E1, E2. cbn [eval_instr].
    apply (loc_eq ws fr st st1); [exact W1|exact F1|]. assert (V1 := view_eq k m st st1 ws fr W1 F1 V).
    assert (IP : in_pos k pos) by (destruct k as [n|]; [cbn in Hp |- *; apply andb_prop in Hp as [Hp _]; apply Z.ltb_lt, Hp|exact I]). destruct (word_at_swp k m st1 ws fr pos V1 IP) as [EW VW]. rewrite EW.
    destruct (word_at st1 pos) as [i|]; [|cbn; auto]. rewrite (obj_swp k m st1 ws fr i V1 (VW i eq_refl)). destruct (obj st1 i) as [w|]; [|reflexivity].
    assert (K := IH c st1 ws fr I1 (fun x Hx => Hn x (or_intror Hx)) Hs ltac:(destruct k as [n|]; [cbn in Hp |- *; apply andb_prop in Hp as [_ Hp]; exact Hp|exact I]) V1).
    destruct (eval e st1) as [[d st2]|]; [|cbn in K; rewrite K; reflexivity]. destruct K as (K & W2 & F2). rewrite K. cbn. auto.
  - rewrite !eval_concat. apply (list_loc k m l IH c); try assumption. apply forall_pe. exact Hp.
  - rewrite !eval_lu. cbn [simple_e] in Hs. apply andb_prop in Hs as [Hs1 Hs2]. set (c' := mkc true (c_let c) (c_out c)). set (st0 := with_owb (with_lu st true) []).
    assert (I0 : Inv N c' st0). { destruct HI as [[A2 A3] [C [G1 [G2 G3]]]]. split; [split; [exact A2|exact A3]|]. split; [exact C|]. split; [exact G1|]. split; [exact G2|]. apply good_nil. }
    change (with_owb (with_lu (swp ws fr st) true) []) with (swp ws fr st0). assert (K := list_loc k m l IH c' st0 ws fr I0 Hn Hs2 (forall_pe k l Hp) V).
    destruct (eval_list l st0) as [[w st1]|]; [|cbn in K; rewrite K; reflexivity]. destruct K as (K & W1 & F1). rewrite K. change (with_lu (swp ws fr st1) false) with (swp ws fr (with_lu st1 false)).
    assert (S1 := single_swp k m (with_lu st1 false) ws fr false (view_eq k m st _ ws fr W1 F1 V)). destruct (single_wb false (with_lu st1 false)) as [st2|]; [|rewrite S1; reflexivity]. destruct S1 as (S1 & W2 & F2). rewrite S1. cbn in *. split; [reflexivity|]. split; congruence.
  - rewrite !eval_mlu_eq. cbn [simple_e nodes_e] in Hs, Hn. apply andb_prop in Hs as [Hs1 Hs2]. set (c' := mkc true (c_let c) (c_out c)). set (st0 := with_lu (with_owb st []) true).
    assert (I0 : Inv N c' st0). { destruct HI as [[A2 A3] [C [G1 [G2 G3]]]]. split; [split; [exact A2|exact A3]|]. split; [exact C|]. split; [exact G1|]. split; [exact G2|]. apply good_nil. }
    assert (Hp2 : Forall (Forall (pe k)) l). { destruct k as [n|]; apply Forall_forall; intros x Hx; [|apply Forall_forall; intros; exact I]. apply forall_pe. exact (proj1 (forallb_forall _ _) Hp x Hx). }
    change (with_lu (with_owb (swp ws fr st) []) true) with (swp ws fr st0). assert (K := mlu_loc k m l IH c' [] true st0 ws fr I0 Hn Hs2 Hp2 V).
    destruct (eval_mlu l [] true st0) as [[w st1]|]; [|cbn in K; rewrite K; reflexivity]. destruct K as (K & W1 & F1). rewrite K.
    assert (S1 := single_swp k m st1 ws fr true (view_eq k m st _ ws fr W1 F1 V)). destruct (single_wb true st1) as [st2|]; [|rewrite S1; reflexivity]. destruct S1 as (S1 & W2 & F2). rewrite S1. cbn in *. split; [reflexivity|]. split; congruence.
  - rewrite !eval_chunk. cbn [simple_e nodes_e] in Hs, Hn. apply andb_prop in Hs as [Hs1 Hs2]. apply incl_app_inv in Hn as [Hn1 Hn2].
    assert (P1 : Forall (pe k) t /\ Forall (pe k) l). { destruct k as [n|]; [|split; apply Forall_forall; intros; exact I]. cbn in Hp. apply andb_prop in Hp as [Hp1 Hp2]. split; apply forall_pe; assumption. } destruct P1 as [P1 P2].
    change (chunk_name copy_case dict_case (swp ws fr st) a b cc) with (chunk_name copy_case dict_case st a b cc). destruct (chunk_name copy_case dict_case st a b cc) as [nm|]; [|reflexivity].
    assert (K := list_loc k m t IHt c st ws fr HI Hn1 Hs1 P1 V). destruct (eval_list t st) as [[x st1]|] eqn:E1; [|cbn in K; rewrite K; reflexivity]. destruct K as (K & W1 & F1). rewrite K.
    assert (I1 : Inv N c st1).
    { assert (Q := list_ok attr_match copy_case case_from get_case dict_case N c t). specialize (Q ltac:(apply Forall_forall; intros y _ s H1 H2 H3; apply eval_den; assumption) st HI Hn1 Hs1). unfold step_ok in Q.
      destruct (den_list attr_match copy_case case_from get_case dict_case c t (proj st)) as [[[? ?] ?]|]; [|congruence]. destruct Q as (st' & Q & _ & I1 & _). rewrite E1 in Q. injection Q as <- <-. exact I1. }
    assert (K2 := list_loc k m l IHl c st1 ws fr I1 Hn2 Hs2 P2 (view_eq k m st st1 ws fr W1 F1 V)). destruct (eval_list l st1) as [[y st2]|]; [|cbn in K2; rewrite K2; reflexivity]. destruct K2 as (K2 & W2 & F2). rewrite K2. cbn. split; [reflexivity|]. split; congruence.
Qed.
Lemma plain_inv e st t st1 : Inv N plain st -> incl (nodes_e e) N -> simple_e false e = true -> eval e st = Some (t, st1) -> Inv N plain st1.
Proof. intros. eapply eval_inv; eassumption. Qed.
(** ** tests *)
Definition tloc (ws : list tword) (fr : option (list (option nat))) (st : rst) (r r' : option (bool * rst)) : Prop :=
  match r with None => r' = None | Some (t, st1) => r' = Some (t, swp ws fr st1) /\ r_words st1 = r_words st /\ r_frame st1 = r_frame st /\ Inv N plain st1 end.
Lemma two_loc k m f a b st ws fr : Inv N plain st -> incl (nodes_e a ++ nodes_e b) N -> simple_e true a && simple_e true b = true -> pe k a /\ pe k b -> view k m st ws fr ->
  tloc ws fr st (two attr_match copy_case case_from get_case dict_case a b f st) (two attr_match copy_case case_from get_case dict_case a b f (swp ws fr st)).
Proof.
  intros HI Hn Hs [P1 P2] V. apply andb_prop in Hs as [Hs1 Hs2]. apply simple_weak in Hs1, Hs2. apply incl_app_inv in Hn as [Hn1 Hn2]. unfold two. assert (K := eval_local k m a plain st ws fr HI Hn1 Hs1 P1 V).
  destruct (eval a st) as [[x st1]|] eqn:E; [|cbn in K; rewrite K; reflexivity]. destruct K as (K & W1 & F1). rewrite K. assert (I1 := plain_inv a st x st1 HI Hn1 Hs1 E).
  assert (K2 := eval_local k m b plain st1 ws fr I1 Hn2 Hs2 P2 (view_eq k m st st1 ws fr W1 F1 V)). destruct (eval b st1) as [[y st2]|] eqn:E2; [|cbn in K2; rewrite K2; reflexivity]. destruct K2 as (K2 & W2 & F2). rewrite K2.
  cbn. split; [reflexivity|]. split; [congruence|]. split; [congruence|]. exact (plain_inv b st1 y st2 I1 Hn2 Hs2 E2).
Qed.
Lemma one_loc k m f a st ws fr : Inv N plain st -> incl (nodes_e a) N -> simple_e true a = true -> pe k a -> view k m st ws fr ->
  tloc ws fr st (one attr_match copy_case case_from get_case dict_case a f st) (one attr_match copy_case case_from get_case dict_case a f (swp ws fr st)).
Proof.
  intros HI Hn Hs P1 V. apply simple_weak in Hs. unfold one. assert (K := eval_local k m a plain st ws fr HI Hn Hs P1 V).
  destruct (eval a st) as [[x st1]|] eqn:E; [|cbn in K; rewrite K; reflexivity]. destruct K as (K & W1 & F1). rewrite K. cbn. split; [reflexivity|]. split; [exact W1|]. split; [exact F1|]. exact (plain_inv a st x st1 HI Hn Hs E).
Qed.
Lemma test_loc k m c : forall st ws fr, Inv N plain st -> incl (nodes_c c) N -> simple_c c = true -> pc k c -> view k m st ws fr -> tloc ws fr st (test c st) (test c (swp ws fr st)).
Proof.
  induction c as [cl a b|cl a b|cl a b|cl a b|cl a l|cl a l|cl a l|l IH|l IH|c IH] using cond_ind2; intros st ws fr HI Hn Hs Hp V;
    try (apply (two_loc k m); [assumption|assumption|assumption|destruct k as [n|]; [cbn in Hp; apply andb_prop in Hp; exact Hp|split; exact I]|assumption]);
    try (apply (one_loc k m); [assumption|assumption|assumption|destruct k as [n|]; [exact Hp|exact I]|assumption]).
  - cbn [TransferRules.test]. cbn [nodes_c simple_c] in Hn, Hs. assert (Hp' : Forall (pc k) l) by (destruct k as [n|]; apply Forall_forall; intros x Hx; [exact (proj1 (forallb_forall _ _) Hp x Hx)|exact I]). clear Hp.
    revert st HI V. induction IH as [|x l Hx H IHl]; intros st HI V; [cbn; auto|]. cbn [flat_map forallb] in Hn, Hs. apply incl_app_inv in Hn as [Hn1 Hn2]. apply andb_prop in Hs as [Hs1 Hs2]. inversion_clear Hp' as [|? ? Hp1 Hp2].
    assert (K := Hx st ws fr HI Hn1 Hs1 Hp1 V). destruct (test x st) as [[[] st1]|]; [| |cbn in K; rewrite K; reflexivity]; destruct K as (K & W1 & F1 & I1); rewrite K.
    + assert (K2 := IHl Hn2 Hs2 Hp2 st1 I1 (view_eq k m st st1 ws fr W1 F1 V)). unfold tloc in K2 |- *. rewrite <- W1, <- F1. exact K2.
    + cbn. auto.
  - cbn [TransferRules.test]. cbn [nodes_c simple_c] in Hn, Hs. assert (Hp' : Forall (pc k) l) by (destruct k as [n|]; apply Forall_forall; intros x Hx; [exact (proj1 (forallb_forall _ _) Hp x Hx)|exact I]). clear Hp.
    revert st HI V. induction IH as [|x l Hx H IHl]; intros st HI V; [cbn; auto|]. cbn [flat_map forallb] in Hn, Hs. apply incl_app_inv in Hn as [Hn1 Hn2]. apply andb_prop in Hs as [Hs1 Hs2]. inversion_clear Hp' as [|? ? Hp1 Hp2].
    assert (K := Hx st ws fr HI Hn1 Hs1 Hp1 V). destruct (test x st) as [[[] st1]|]; [| |cbn in K; rewrite K; reflexivity]; destruct K as (K & W1 & F1 & I1); rewrite K.
    + cbn. auto.
    + assert (K2 := IHl Hn2 Hs2 Hp2 st1 I1 (view_eq k m st st1 ws fr W1 F1 V)). unfold tloc in K2 |- *. rewrite <- W1, <- F1. exact K2.
  - cbn [TransferRules.test]. assert (K := IH st ws fr HI Hn Hs Hp V). destruct (test c st) as [[b st1]|]; [|cbn in K; rewrite K; reflexivity]. destruct K as (K & W1 & F1 & I1). rewrite K. cbn. auto.
Qed.

(** ** instructions *)
Notation let_var := (let_var attr_match copy_case case_from get_case dict_case).
Notation let_clip := (let_clip attr_match attr_replace copy_case case_from get_case dict_case).
Notation do_let := (do_let attr_match attr_replace copy_case case_from get_case dict_case).
Notation do_modcase := (do_modcase attr_match attr_replace copy_case case_from get_case dict_case).
Notation do_append := (do_append attr_match copy_case case_from get_case dict_case).
Notation do_out := (do_out attr_match copy_case case_from get_case dict_case).
Definition bloc (k : option nat) (m : nat) (fr : option (list (option nat))) (r r' : option rst) : Prop :=
  match r with None => r' = None | Some st1 => exists ws', r' = Some (swp ws' fr st1) /\ view k m st1 ws' fr end.
Lemma let_var_loc k m n e st ws fr : Inv N plain st -> incl (nodes_e e) N -> simple_e false e = true -> pe k e -> view k m st ws fr ->
  match let_var n e st with None => let_var n e (swp ws fr st) = None | Some st1 => let_var n e (swp ws fr st) = Some (swp ws fr st1) /\ view k m st1 ws fr end.
Proof.
  intros HI Hn Hs P1 V. unfold TransferRules.let_var. set (st0 := with_vwb (with_vv (with_let st true) n) (upd (r_vwb st) n [])).
  assert (I0 : Inv N (in_let n) st0).
  { destruct HI as [[A2 A3] [C [G1 [G2 G3]]]]. split; [split; [exact A2|split; reflexivity]|]. split; [exact C|]. split; [exact G1|]. split; [|exact G3]. intros x. cbn. unfold upd. destruct (str_eqb x n); [apply good_nil|apply G2]. }
  change (with_vwb (with_vv (with_let (swp ws fr st) true) n) (upd (r_vwb (swp ws fr st)) n [])) with (swp ws fr st0).
  assert (K := eval_local k m e (in_let n) st0 ws fr I0 Hn Hs P1 V). destruct (eval e st0) as [[v st1]|]; [|cbn in K; rewrite K; reflexivity]. destruct K as (K & W1 & F1). rewrite K.
  split; [reflexivity|]. exact (view_eq k m st _ ws fr W1 F1 V).
Qed.
Lemma put_word_view k m st ws fr i w : i < m -> view k m st ws fr -> view k m (put_word st i w) (set_nth i w ws) fr.
Proof.
  intros H [V W]. split; [|exact W]. intros j Hj. cbn. rewrite !nth_set_nth. rewrite (V j Hj). reflexivity.
Qed.
Lemma let_clip_loc k m i sd part q e st ws fr : i < m -> Inv N plain st -> incl (nodes_e e) N -> simple_e false e = true -> pe k e -> view k m st ws fr ->
  bloc k m fr (let_clip i sd part q e st) (let_clip i sd part q e (swp ws fr st)).
Proof.
  intros Hi HI Hn Hs P1 V. unfold TransferRules.let_clip. assert (K := eval_local k m e plain st ws fr HI Hn Hs P1 V). destruct (eval e st) as [[v st1]|]; [|cbn in K; rewrite K; reflexivity]. destruct K as (K & W1 & F1). rewrite K.
  assert (V1 := view_eq k m st st1 ws fr W1 F1 V). rewrite (obj_swp k m st1 ws fr i V1 Hi). destruct (obj st1 i) as [w|]; [|reflexivity]. destruct (w_put attr_replace sd w part v q) as [w'|]; [|reflexivity].
  exists (set_nth i w' ws). split; [reflexivity|]. apply put_word_view; assumption.
Qed.
Lemma bloc_add k m fr r r' id t : bloc k m fr r r' -> bloc k m fr (match r with Some x => Some (cache_add x id t) | None => None end) (match r' with Some x => Some (cache_add x id t) | None => None end).
Proof. unfold bloc. destruct r as [x|]; [|intros ->; reflexivity]. intros (ws & -> & V). exists ws. split; [reflexivity|exact V]. Qed.
Lemma do_let_loc k m l e st ws fr : Inv N plain st -> incl (nodes_l l ++ nodes_e e) N -> simple_i (ILet l e) = true -> pl k l -> pe k e -> view k m st ws fr ->
  bloc k m fr (do_let l e st) (do_let l e (swp ws fr st)).
Proof.
  intros HI Hn Hs PL P1 V. apply incl_app_inv in Hn as [Hn1 Hn2]. unfold TransferRules.do_let. change (r_cache (swp ws fr st)) with (r_cache st).
  assert (DONE : bloc k m fr (Some st) (Some (swp ws fr st))) by (exists ws; split; [reflexivity|exact V]).
  destruct l as [id n|id sd part pos q]; cbn [nodes_l] in Hn1.
  - cbn [simple_i] in Hs. rename Hs into Hs2. assert (KK : In (id, TiVar n) N) by (apply Hn1; left; reflexivity). assert (L := let_var_loc k m n e st ws fr HI Hn2 Hs2 P1 V).
    assert (L' : bloc k m fr (let_var n e st) (let_var n e (swp ws fr st))). { unfold bloc. destruct (let_var n e st) as [st1|]; [|exact L]. exists ws. exact L. }
    destruct (r_cache st id) as [t|] eqn:E.
    + assert (HC : In (id, t) N) by (apply HI, E). rewrite (HN _ _ _ HC KK). exact L'.
    + apply bloc_add, L'.
  - cbn [simple_i] in Hs. apply andb_prop in Hs as [Hs1 Hs2]. apply simple_weak in Hs2. assert (KK : In (id, TiClip sd part pos q) N) by (apply Hn1; left; reflexivity). assert (IP : in_pos k pos) by (destruct k as [n|]; [cbn in PL |- *; apply Z.ltb_lt, PL|exact I]).
    destruct (r_cache st id) as [t|] eqn:E.
    + assert (HC : In (id, t) N) by (apply HI, E). rewrite (HN _ _ _ HC KK). destruct (word_at_swp k m st ws fr pos V IP) as [-> B]. destruct (word_at st pos) as [i|]; [|exact DONE].
      apply let_clip_loc; auto.
    + destruct (raw_ptr_swp k m st ws fr pos V IP) as [-> B].
      assert (LEN : (Z.of_nat (match r_frame (swp ws fr st) with Some f => length f | None => 0 end) <=? pos)%Z = (Z.of_nat (match r_frame st with Some f => length f | None => 0 end) <=? pos)%Z).
      { change (r_frame (swp ws fr st)) with fr. destruct V as [_ F]. destruct k as [n|]; cbn [frames in_pos] in F, IP.
        - destruct F as (f & f1 & f2 & -> & -> & L & _). rewrite !app_length. destruct (Z.leb_spec (Z.of_nat (length f + length f2)) pos); [lia|]. symmetry. apply Z.leb_gt. lia.
        - destruct F as [<- _]. reflexivity. }
      rewrite LEN. clear Hs1. destruct (Z.of_nat (match r_frame st with Some f => length f | None => 0 end) <=? pos)%Z; [exact DONE|]. destruct (raw_ptr st pos) as [[i|]|]; [|exact DONE|reflexivity].
      apply bloc_add. apply let_clip_loc; auto. exact (B _ eq_refl).
Qed.
Lemma do_modcase_loc k m l e st ws fr : Inv N plain st -> incl (nodes_e e) N -> simple_e true e = true -> pl k l -> pe k e -> view k m st ws fr ->
  bloc k m fr (do_modcase l e st) (do_modcase l e (swp ws fr st)).
Proof.
  intros HI Hn Hs PL P1 V. apply simple_weak in Hs. unfold TransferRules.do_modcase. destruct dict_case eqn:DC; [exists ws; split; [reflexivity|exact V]|].
  assert (K := eval_local k m e plain st ws fr HI Hn Hs P1 V). rewrite DC in K.
  destruct l as [id n|id sd part pos q].
  - destruct (TransferRules.eval attr_match copy_case case_from get_case false e st) as [[v st1]|]; [|cbn in K; rewrite K; reflexivity]. destruct K as (K & W1 & F1). rewrite K. exists ws. split; [reflexivity|]. exact (view_eq k m st _ ws fr W1 F1 V).
  - assert (IP : in_pos k pos) by (destruct k as [n|]; [cbn in PL |- *; apply Z.ltb_lt, PL|exact I]).
    destruct (TransferRules.eval attr_match copy_case case_from get_case false e st) as [[v st1]|]; [|cbn in K; rewrite K; reflexivity]. destruct K as (K & W1 & F1). rewrite K. assert (V1 := view_eq k m st st1 ws fr W1 F1 V).
    destruct (raw_ptr_swp k m st1 ws fr pos V1 IP) as [-> B]. destruct (raw_ptr st1 pos) as [[i|]|]; [|reflexivity|reflexivity]. assert (Hi : i < m) by exact (B _ eq_refl).
    rewrite (obj_swp k m st1 ws fr i V1 Hi). destruct (obj st1 i) as [w|]; [|reflexivity]. destruct (w_put attr_replace sd w part _ true) as [w'|]; [|reflexivity].
    exists (set_nth i w' ws). split; [reflexivity|]. apply put_word_view; assumption.
Qed.
Lemma do_append_loc k m n l : forall st ws fr, Inv N plain st -> incl (flat_map nodes_e l) N -> forallb (simple_e false) l = true -> Forall (pe k) l -> view k m st ws fr ->
  bloc k m fr (do_append n l st) (do_append n l (swp ws fr st)).
Proof.
  induction l as [|e l IH]; intros st ws fr HI Hn Hs Hp V; [exists ws; split; [reflexivity|exact V]|].
  cbn [flat_map forallb] in *. apply incl_app_inv in Hn as [Hn1 Hn2]. apply andb_prop in Hs as [Hs1 Hs2]. inversion_clear Hp as [|? ? P1 P2]. cbn [TransferRules.do_append].
  set (st0 := with_vv (with_let st true) n). change (with_vv (with_let (swp ws fr st) true) n) with (swp ws fr st0).
  assert (I0 : Inv N (in_let n) st0). { destruct HI as [[A2 A3] [C G]]. split; [split; [exact A2|split; reflexivity]|]. split; [exact C|exact G]. }
  assert (K := eval_local k m e (in_let n) st0 ws fr I0 Hn1 Hs1 P1 V). destruct (eval e st0) as [[v st1]|] eqn:E; [|cbn in K; rewrite K; reflexivity]. destruct K as (K & W1 & F1). rewrite K.
  assert (I1 := eval_inv e (in_let n) st0 v st1 I0 Hn1 Hs1 E). set (st2 := with_let (with_vars st1 (upd (r_vars st1) n (r_vars st1 n ++ v))) false).
  assert (I2 : Inv N plain st2). { destruct I1 as [[A2 A3] [C G]]. split; [split; [exact A2|reflexivity]|]. split; [exact C|exact G]. }
  exact (IH st2 ws fr I2 Hn2 Hs2 P2 (view_eq k m st st2 ws fr W1 F1 V)).
Qed.
Lemma out_list_loc k m l : forall st ws fr, Inv N in_out st -> incl (flat_map nodes_e l) N -> forallb (simple_e false) l = true -> Forall (pe k) l -> view k m st ws fr ->
  bloc k m fr (out_list attr_match copy_case case_from get_case dict_case l st) (out_list attr_match copy_case case_from get_case dict_case l (swp ws fr st)).
Proof.
  induction l as [|e l IH]; intros st ws fr HI Hn Hs Hp V; [exists ws; split; [reflexivity|exact V]|].
  cbn [flat_map forallb] in *. apply incl_app_inv in Hn as [Hn1 Hn2]. apply andb_prop in Hs as [Hs1 Hs2]. inversion_clear Hp as [|? ? P1 P2]. cbn [out_list].
  assert (K := eval_local k m e in_out st ws fr HI Hn1 Hs1 P1 V). destruct (eval e st) as [[v st1]|] eqn:E; [|cbn in K; rewrite K; reflexivity]. destruct K as (K & W1 & F1). rewrite K.
  assert (I1 := eval_inv e in_out st v st1 HI Hn1 Hs1 E). exact (IH (with_out st1 (r_out st1 ++ v)) ws fr I1 Hn2 Hs2 P2 (view_eq k m st _ ws fr W1 F1 V)).
Qed.
Lemma do_out_loc k m l st ws fr : Inv N plain st -> incl (flat_map nodes_e l) N -> forallb (simple_e false) l = true -> Forall (pe k) l -> view k m st ws fr ->
  bloc k m fr (do_out l st) (do_out l (swp ws fr st)).
Proof.
  intros HI Hn Hs Hp V. unfold TransferRules.do_out. assert (I0 : Inv N in_out (with_inout st true)). { destruct HI as [[A2 A3] [C G]]. split; [split; [reflexivity|exact A3]|]. split; [exact C|exact G]. }
  assert (K := out_list_loc k m l (with_inout st true) ws fr I0 Hn Hs Hp V). change (with_inout (swp ws fr st) true) with (swp ws fr (with_inout st true)).
  destruct (out_list attr_match copy_case case_from get_case dict_case l (with_inout st true)) as [st1|]; [|cbn in K; rewrite K; reflexivity]. destruct K as (ws' & -> & V'). exists ws'. split; [reflexivity|exact V'].
Qed.

(** ** control *)
Notation run := (run attr_match attr_replace copy_case case_from get_case lower lists dict_case).
Notation run_list := (run_list attr_match attr_replace copy_case case_from get_case lower lists dict_case).
Notation run_opts := (run_opts attr_match attr_replace copy_case case_from get_case lower lists dict_case).
Notation run_macro := (run_macro attr_match attr_replace copy_case case_from get_case lower lists dict_case).
Notation call := (call attr_match attr_replace copy_case case_from get_case lower lists dict_case macros macro_map).
Notation sound_call := (sound_call attr_match attr_replace copy_case case_from get_case lower lists dict_case macros macro_map N).
Definition rloc (k : option nat) (m : nat) (fr : option (list (option nat))) (r r' : option (Z * rst)) : Prop :=
  match r with None => r' = None | Some (z, st1) => exists ws', r' = Some (z, swp ws' fr st1) /\ view k m st1 ws' fr end.
Definition call_loc (cl : str -> list Z -> rst -> option rst) : Prop := forall k m n args st ws fr, Inv N plain st -> Forall (in_pos k) args -> view k m st ws fr -> bloc k m fr (cl n args st) (cl n args (swp ws fr st)).
Definition run_loc (k : option nat) (m : nat) (cl : str -> list Z -> rst -> option rst) (i : instr) : Prop :=
  forall st ws fr, Inv N plain st -> incl (nodes_i i) N -> simple_i i = true -> pi k i -> view k m st ws fr -> rloc k m fr (run cl i st) (run cl i (swp ws fr st)).
Lemma run_inv cl i st z st1 : sound_call cl -> Inv N plain st -> incl (nodes_i i) N -> simple_i i = true -> run cl i st = Some (z, st1) -> Inv N plain st1.
Proof. intros SC HI Hn Hs E. exact (proj2 (sound_run attr_match attr_replace copy_case case_from get_case lower lists dict_case macros macro_map N HN cl SC i st z st1 HI Hn Hs E)). Qed.
Lemma run_list_loc k m cl l : sound_call cl -> Forall (run_loc k m cl) l -> forall st ws fr, Inv N plain st -> incl (flat_map nodes_i l) N -> forallb simple_i l = true -> Forall (pi k) l -> view k m st ws fr ->
  rloc k m fr (run_list cl l st) (run_list cl l (swp ws fr st)).
Proof.
  intros SC. induction 1 as [|i l Hi H IH]; intros st ws fr HI Hn Hs Hp V; [exists ws; split; [reflexivity|exact V]|].
  cbn [flat_map forallb] in *. apply incl_app_inv in Hn as [Hn1 Hn2]. apply andb_prop in Hs as [Hs1 Hs2]. inversion_clear Hp as [|? ? P1 P2]. cbn [TransferRules.run_list].
  assert (K := Hi st ws fr HI Hn1 Hs1 P1 V). destruct (run cl i st) as [[z st1]|] eqn:E; [|cbn in K; rewrite K; reflexivity]. destruct K as (ws1 & K & V1). rewrite K.
  destruct (z =? -1)%Z; [|exists ws1; split; [reflexivity|exact V1]]. apply IH; try assumption. exact (run_inv cl i st z st1 SC HI Hn1 Hs1 E).
Qed.
Lemma run_local k m cl : sound_call cl -> call_loc cl -> forall i, run_loc k m cl i.
Proof.
  intros SC CL i. assert (LIFT : forall fr r r', bloc k m fr r r' -> rloc k m fr (match r with Some st1 => Some ((-1)%Z, st1) | None => None end) (match r' with Some st1 => Some ((-1)%Z, st1) | None => None end)).
  { intros fr r r' B. unfold bloc in B. destruct r as [x|]; [|subst r'; reflexivity]. destruct B as (ws & -> & V). exists ws. split; [reflexivity|exact V]. }
  induction i as [l e|n l|l|l e|n args|z0|l IH] using instr_ind2; intros st ws fr HI Hn Hs Hp V.
  - cbn [TransferRules.run]. apply LIFT. assert (P : pl k l /\ pe k e) by (destruct k as [n|]; [cbn in Hp; apply andb_prop in Hp; exact Hp|split; exact I]). destruct P. apply do_let_loc; assumption.
  - cbn [TransferRules.run]. apply LIFT, do_append_loc; try assumption. apply forall_pe. exact Hp.
  - cbn [TransferRules.run]. apply LIFT, do_out_loc; try assumption. apply forall_pe. exact Hp.
  - cbn [TransferRules.run]. apply LIFT. assert (P : pl k l /\ pe k e) by (destruct k as [n|]; [cbn in Hp; apply andb_prop in Hp; exact Hp|split; exact I]). destruct P. apply do_modcase_loc; assumption.
  - cbn [TransferRules.run]. apply LIFT, CL; try assumption. destruct k as [n0|]; apply Forall_forall; intros a Ha; [|exact I]. cbn in Hp. apply Z.ltb_lt. exact (proj1 (forallb_forall _ _) Hp a Ha).
  - exists ws. split; [reflexivity|exact V].
  - rewrite !run_choose. cbn [nodes_i simple_i] in Hn, Hs.
    assert (Hp' : Forall (fun o => match fst o with Some c => pc k c | None => True end /\ Forall (pi k) (snd o)) l).
    { destruct k as [n|]; apply Forall_forall; intros o Ho.
      - cbn in Hp. assert (Q := proj1 (forallb_forall _ _) Hp o Ho). cbn in Q. apply andb_prop in Q as [Q1 Q2]. split; [destruct (fst o); [exact Q1|exact I]|]. apply Forall_forall. intros x Hx. exact (proj1 (forallb_forall _ _) Q2 x Hx).
      - split; [destruct (fst o); exact I|]. apply Forall_forall. intros; exact I. }
    clear Hp. revert st ws HI V. induction IH as [|[[c|] b] l Hb H IHl]; intros st ws HI V; [exists ws; split; [reflexivity|exact V]| |];
      cbn [flat_map forallb fst snd] in Hn, Hs; apply incl_app_inv in Hn as [Hn1 Hn2]; apply incl_app_inv in Hn1 as [Hn0 Hn1]; apply andb_prop in Hs as [Hs1 Hs2]; apply andb_prop in Hs1 as [Hs0 Hs1];
      inversion_clear Hp' as [|? ? [P1 P2] P3]; cbn [fst snd] in P1, P2; cbn [TransferRules.run_opts].
    + assert (K := test_loc k m c st ws fr HI Hn0 Hs0 P1 V). destruct (test c st) as [[[] st1]|]; [| |cbn in K; rewrite K; reflexivity]; destruct K as (K & W1 & F1 & I1); rewrite K; assert (V1 := view_eq k m st st1 ws fr W1 F1 V).
      * apply run_list_loc; assumption.
      * apply IHl; assumption.
    + assert (K := run_list_loc k m cl b SC Hb st ws fr HI Hn1 Hs1 P2 V). destruct (run_list cl b st) as [[z st1]|] eqn:E; [|cbn in K; rewrite K; reflexivity]. destruct K as (ws1 & K & V1). rewrite K.
      destruct (z =? -1)%Z; [|exists ws1; split; [reflexivity|exact V1]].
      assert (I1 : Inv N plain st1).
      { assert (SS : Forall (sound attr_match attr_replace copy_case case_from get_case lower lists dict_case macros macro_map N cl) b) by (apply Forall_forall; intros i0 _; apply sound_run; assumption).
        exact (proj2 (sound_list attr_match attr_replace copy_case case_from get_case lower lists dict_case macros macro_map N cl b SS st z st1 HI Hn1 Hs1 E)). }
      apply IHl; assumption.
Qed.
Lemma ptrs_swp k m st ws fr args : Forall (in_pos k) args -> view k m st ws fr -> ptrs (swp ws fr st) args = ptrs st args /\ forall l, ptrs st args = Some l -> Forall (valid m) l.
Proof.
  intros F V. induction F as [|a args Ha F [IH1 IH2]]; [split; [reflexivity|intros l [= <-]; constructor]|]. cbn [ptrs]. destruct (raw_ptr_swp k m st ws fr a V Ha) as [-> B]. rewrite IH1.
  split; [reflexivity|]. intros l E. destruct (raw_ptr st a) as [p|]; [|discriminate]. destruct (ptrs st args) as [l'|]; [|discriminate]. injection E as <-. constructor; [apply B; reflexivity|apply IH2; reflexivity].
Qed.
Lemma run_macro_loc m cl l : sound_call cl -> call_loc cl -> forall st ws fr, Inv N plain st -> incl (flat_map nodes_i l) N -> forallb simple_i l = true -> view None m st ws fr ->
  bloc None m fr (run_macro cl l st) (run_macro cl l (swp ws fr st)).
Proof.
  intros SC CL. induction l as [|i l IH]; intros st ws fr HI Hn Hs V; [exists ws; split; [reflexivity|exact V]|].
  cbn [flat_map forallb] in *. apply incl_app_inv in Hn as [Hn1 Hn2]. apply andb_prop in Hs as [Hs1 Hs2]. cbn [TransferRules.run_macro].
  assert (K := run_local None m cl SC CL i st ws fr HI Hn1 Hs1 I V). destruct (run cl i st) as [[z st1]|] eqn:E; [|cbn in K; rewrite K; reflexivity]. destruct K as (ws1 & K & V1). rewrite K.
  apply IH; try assumption. exact (run_inv cl i st z st1 SC HI Hn1 Hs1 E).
Qed.
Lemma call_local f : call_loc (call f).
Proof.
  induction f as [|f IH]; intros k m n args st ws fr HI HA V; [reflexivity|]. cbn [TransferRules.call]. destruct (nth_error macro_map (macros n)) as [[npar body]|] eqn:M; [|reflexivity].
  assert (W : incl (flat_map nodes_i body) N /\ forallb simple_i body = true) by exact (proj1 (Forall_forall _ _) HM (npar, body) (nth_error_In _ _ M)). destruct W as [Wn Ws].
  assert (SC := sound_fuel attr_match attr_replace copy_case case_from get_case lower lists dict_case macros macro_map N HN HM f).
  assert (GO : forall fr0, match fr0 with Some l => Forall (valid m) l | None => True end ->
    bloc k m fr (match run_macro (call f) body (with_frame st fr0) with Some st1 => Some (with_frame st1 (r_frame st)) | None => None end)
                (match run_macro (call f) body (with_frame (swp ws fr st) fr0) with Some st1 => Some (with_frame st1 fr) | None => None end)).
  { intros fr0 VF. assert (V0 : view None m (with_frame st fr0) ws fr0). { split; [exact (proj1 V)|]. split; [reflexivity|exact VF]. }
    assert (K := run_macro_loc m (call f) body SC IH (with_frame st fr0) ws fr0 (frame_inv N st fr0 HI) Wn Ws V0).
    change (with_frame (swp ws fr st) fr0) with (swp ws fr0 (with_frame st fr0)).
    destruct (run_macro (call f) body (with_frame st fr0)) as [st1|]; [|cbn in K; rewrite K; reflexivity]. destruct K as (ws1 & -> & V1). exists ws1. split; [reflexivity|]. split; [exact (proj1 V1)|exact (proj2 V)]. }
  destruct npar as [|p]; [exact (GO None I)|]. destruct (S p <? length args).
  - assert (HA' : Forall (in_pos k) (firstn (S p) args)). { apply Forall_forall. intros a Ha. rewrite <- (firstn_skipn (S p) args) in HA. apply Forall_app in HA as [HA _]. exact (proj1 (Forall_forall _ _) HA a Ha). }
    destruct (ptrs_swp k m st ws fr _ HA' V) as [-> _]. destruct (ptrs st (firstn (S p) args)); [|reflexivity]. exists ws. split; [reflexivity|exact V].
  - destruct (ptrs_swp k m st ws fr _ HA V) as [-> B]. destruct (ptrs st args) as [l|]; [|reflexivity]. apply (GO (Some _)). apply Forall_app. split; [apply B; reflexivity|].
    apply Forall_forall. intros x Hx. apply repeat_spec in Hx. subst x. exact I.
Qed.
(** a rule whose positions are below n does the same with n words and with more *)
Theorem rule_local f n body st ws fr m : Inv N plain st -> incl (flat_map nodes_i body) N -> forallb simple_i body = true -> forallb (pos_i (Z.of_nat n)) body = true -> view (Some n) m st ws fr ->
  rloc (Some n) m fr (run_list (call f) body st) (run_list (call f) body (swp ws fr st)).
Proof.
  intros HI Hn Hs Hp V. assert (SC := sound_fuel attr_match attr_replace copy_case case_from get_case lower lists dict_case macros macro_map N HN HM f).
  apply run_list_loc; try assumption.
  - apply Forall_forall. intros i _. apply run_local; [exact SC|apply call_local].
  - apply Forall_forall. intros i Hi. exact (proj1 (forallb_forall _ _) Hp i Hi).
Qed.
(** a rule without reject-current-rule does not reject *)
Lemma keeps_run cl i : keeps_i i = true -> forall st z st', run cl i st = Some (z, st') -> z = (-1)%Z.
Proof.
  assert (L : forall l, Forall (fun i => keeps_i i = true -> forall st z st', run cl i st = Some (z, st') -> z = (-1)%Z) l -> forallb keeps_i l = true -> forall st z st', run_list cl l st = Some (z, st') -> z = (-1)%Z).
  { induction 1 as [|x l Hx H IH]; intros Hs st z st' E; cbn [TransferRules.run_list] in E; [injection E as <- _; reflexivity|]. cbn [forallb] in Hs. apply andb_prop in Hs as [H1 H2].
    destruct (run cl x st) as [[z1 st1]|] eqn:E1; [|discriminate]. rewrite (Hx H1 _ _ _ E1) in E. exact (IH H2 _ _ _ E). }
  assert (G : forall (o : option rst) z st', match o with Some st1 => Some ((-1)%Z, st1) | None => None end = Some (z, st') -> z = (-1)%Z) by (intros [x|] z st' E; [injection E as <- _; reflexivity|discriminate]).
  induction i as [l e|n l|l|l e|n args|z0|l IH] using instr_ind2; intros Hs st z st' E; try (exact (G _ _ _ E)); [discriminate|].
  rewrite run_choose in E. cbn [keeps_i] in Hs. revert st E. induction IH as [|[[c|] b] l Hb H IHl]; intros st E; cbn [TransferRules.run_opts] in E; [injection E as <- _; reflexivity| |]; cbn [forallb snd] in Hs; apply andb_prop in Hs as [H1 H2].
  - destruct (test c st) as [[[] st1]|]; [exact (L b Hb H1 _ _ _ E)|exact (IHl H2 _ E)|discriminate].
  - destruct (run_list cl b st) as [[z1 st1]|] eqn:E1; [|discriminate]. rewrite (L b Hb H1 _ _ _ E1) in E. exact (IHl H2 _ E).
Qed.
Lemma keeps_list cl l : forallb keeps_i l = true -> forall st z st', run_list cl l st = Some (z, st') -> z = (-1)%Z.
Proof.
  intros Hs. induction l as [|x l IH]; intros st z st' E; cbn [TransferRules.run_list] in E; [injection E as <- _; reflexivity|]. cbn [forallb] in Hs. apply andb_prop in Hs as [H1 H2].
  destruct (run cl x st) as [[z1 st1]|] eqn:E1; [|discriminate]. rewrite (keeps_run cl x H1 _ _ _ E1) in E. exact (IH H2 _ _ _ E).
Qed.
End Loc.
