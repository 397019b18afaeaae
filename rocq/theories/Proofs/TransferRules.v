From Coq Require Import String ZArith.
From Verif Require Import Model.Base Proofs.Base Model.TransferRules Spec.TransferRules.

Section ExprInd.
Variable P : expr -> Prop.
Hypothesis H1 : forall id sd part pos q link, P (XClip id sd part pos q link).
Hypothesis H2 : forall id v, P (XLit id v).
Hypothesis H3 : forall id, P (XB id).
Hypothesis H4 : forall id n, P (XVar id n).
Hypothesis H5 : forall id sd part pos, P (XCaseOf id sd part pos).
Hypothesis H6 : forall id pos e, P e -> P (XCaseFrom id pos e).
Hypothesis H7 : forall l, Forall P l -> P (XConcat l).
Hypothesis H8 : forall l, Forall P l -> P (XLu l).
Hypothesis H9 : forall l, Forall (Forall P) l -> P (XMlu l).
Hypothesis H10 : forall a b c t l, Forall P t -> Forall P l -> P (XChunk a b c t l).
Fixpoint expr_ind2 (e : expr) : P e :=
  let fl := fix fl (l : list expr) : Forall P l := match l with [] => Forall_nil _ | x :: r => Forall_cons _ (expr_ind2 x) (fl r) end in
  let fll := fix fll (l : list (list expr)) : Forall (Forall P) l := match l with [] => Forall_nil _ | x :: r => Forall_cons _ (fl x) (fll r) end in
  match e with
  | XClip id sd part pos q link => H1 id sd part pos q link
  | XLit id v => H2 id v
  | XB id => H3 id
  | XVar id n => H4 id n
  | XCaseOf id sd part pos => H5 id sd part pos
  | XCaseFrom id pos x => H6 id pos x (expr_ind2 x)
  | XConcat l => H7 l (fl l)
  | XLu l => H8 l (fl l)
  | XMlu l => H9 l (fll l)
  | XChunk a b c t l => H10 a b c t l (fl t) (fl l)
  end.
End ExprInd.
Section CondInd.
Variable P : cond -> Prop.
Hypothesis H1 : forall cl a b, P (CEqual cl a b).
Hypothesis H2 : forall cl a b, P (CBegins cl a b).
Hypothesis H3 : forall cl a b, P (CEnds cl a b).
Hypothesis H4 : forall cl a b, P (CContains cl a b).
Hypothesis H5 : forall cl a b, P (CBeginsList cl a b).
Hypothesis H6 : forall cl a b, P (CEndsList cl a b).
Hypothesis H7 : forall cl a b, P (CIn cl a b).
Hypothesis H8 : forall l, Forall P l -> P (CAnd l).
Hypothesis H9 : forall l, Forall P l -> P (COr l).
Hypothesis H10 : forall c, P c -> P (CNot c).
Fixpoint cond_ind2 (c : cond) : P c :=
  let fl := fix fl (l : list cond) : Forall P l := match l with [] => Forall_nil _ | x :: r => Forall_cons _ (cond_ind2 x) (fl r) end in
  match c with
  | CEqual cl a b => H1 cl a b | CBegins cl a b => H2 cl a b | CEnds cl a b => H3 cl a b | CContains cl a b => H4 cl a b
  | CBeginsList cl a b => H5 cl a b | CEndsList cl a b => H6 cl a b | CIn cl a b => H7 cl a b
  | CAnd l => H8 l (fl l) | COr l => H9 l (fl l) | CNot c => H10 c (cond_ind2 c)
  end.
End CondInd.
Section InstrInd.
Variable P : instr -> Prop.
Hypothesis H1 : forall l e, P (ILet l e).
Hypothesis H2 : forall n l, P (IAppend n l).
Hypothesis H3 : forall l, P (IOut l).
Hypothesis H4 : forall l e, P (IModCase l e).
Hypothesis H5 : forall n a, P (ICall n a).
Hypothesis H6 : forall z, P (IReject z).
Hypothesis H7 : forall l, Forall (fun o => Forall P (snd o)) l -> P (IChoose l).
Fixpoint instr_ind2 (i : instr) : P i :=
  let fl := fix fl (l : list instr) : Forall P l := match l with [] => Forall_nil _ | x :: r => Forall_cons _ (instr_ind2 x) (fl r) end in
  let fo := fix fo (l : list (option cond * list instr)) : Forall (fun o => Forall P (snd o)) l :=
    match l with [] => Forall_nil _ | x :: r => Forall_cons x (match x as y return Forall P (snd y) with (a, b) => fl b end) (fo r) end in
  match i with
  | ILet l e => H1 l e | IAppend n l => H2 n l | IOut l => H3 l | IModCase l e => H4 l e | ICall n a => H5 n a | IReject z => H6 z
  | IChoose l => H7 l (fo l)
  end.
End InstrInd.

(** ** blanks *)
Definition good_wb (s : str) : Prop := forall b, combine_wblanks s b <> None.
Lemma odd_bs_some c l e : In c l -> c <> cBS -> odd_bs l e <> None.
Proof.
  revert e. induction l as [|x l IH]; intros e [] Hc; cbn.
  - subst. rewrite (proj2 (ceq_neq _ _) Hc). discriminate.
  - destruct (x =?c cBS); [apply IH; assumption|discriminate].
Qed.
Lemma begins_app h n : begins_with (n ++ h) n = true.
Proof. induction n as [|c n IH]; [destruct h; reflexivity|]. cbn. rewrite ceq_refl. exact IH. Qed.
Lemma begins_spec h n : begins_with h n = true <-> exists r, h = n ++ r.
Proof.
  split; [|intros [r ->]; apply begins_app]. revert h. induction n as [|c n IH]; intros h H; [exists h; reflexivity|].
  destruct h as [|a h]; [discriminate|]. cbn in H. apply andb_prop in H as [H1 H2]. apply ceq_eq in H1 as ->. destruct (IH _ H2) as [r ->]. exists r. reflexivity.
Qed.
Lemma ends_spec h n : ends_with h n = true <-> exists r, h = r ++ n.
Proof.
  unfold ends_with. rewrite begins_spec. split; intros [r E].
  - exists (rev r). rewrite <- (rev_involutive h), E, rev_app_distr, rev_involutive. reflexivity.
  - exists (rev r). rewrite E, rev_app_distr. reflexivity.
Qed.
Lemma cut2_app (a : str) x y : cut2 (a ++ [x; y]) = a.
Proof. unfold cut2. rewrite app_length. cbn. rewrite firstn_app. replace (length a + 2 - 2) with (length a) by lia. rewrite firstn_all, Nat.sub_diag. cbn. apply app_nil_r. Qed.
Lemma good_nil : good_wb [].
Proof. intros b. discriminate. Qed.
Lemma good_in c s x y : s = x ++ c :: y -> c <> cBS -> 2 <= length y -> good_wb s.
Proof.
  intros -> Hc Hy b. unfold combine_wblanks. destruct (x ++ c :: y) as [|a0 s0] eqn:E; [destruct x; discriminate|]. rewrite <- E. clear a0 s0 E. destruct b as [|b0 b]; [discriminate|].
  destruct (ends_with (x ++ c :: y) [cRB; cRB]) eqn:K; [|discriminate]. destruct (2 <? length (x ++ c :: y)) eqn:L; [|discriminate].
  assert (In c (rev (cut2 (x ++ c :: y)))).
  { rewrite <- in_rev. unfold cut2. rewrite app_length. cbn [length]. rewrite firstn_app. apply in_or_app. right.
    replace (length x + S (length y) - 2 - length x) with (S (length y - 2)) by lia. left. reflexivity. }
  destruct (odd_bs (rev (cut2 (x ++ c :: y))) false) as [[]|] eqn:O; try discriminate. exfalso. exact (odd_bs_some _ _ _ H Hc O).
Qed.
Lemma good_noend s : ends_with s [cRB; cRB] = false -> good_wb s.
Proof. intros H b. unfold combine_wblanks. destruct s; [discriminate|]. destruct b; [discriminate|]. rewrite H. discriminate. Qed.
Lemma good_mid (a t : str) : good_wb (a ++ [cSEMI; cSP] ++ t).
Proof.
  destruct t as [|x t].
  { apply good_noend. destruct (ends_with (a ++ [cSEMI; cSP] ++ []) [cRB; cRB]) eqn:E; [|reflexivity]. exfalso. apply ends_spec in E as [r E]. cbn in E.
    apply (f_equal (@rev char)) in E. rewrite !rev_app_distr in E. cbn in E. discriminate. }
  destruct t as [|y t].
  { apply good_noend. destruct (ends_with (a ++ [cSEMI; cSP] ++ [x]) [cRB; cRB]) eqn:E; [|reflexivity]. exfalso. apply ends_spec in E as [r E]. cbn in E.
    apply (f_equal (@rev char)) in E. rewrite !rev_app_distr in E. cbn in E. discriminate. }
  apply (good_in cSEMI _ a (cSP :: x :: y :: t)); [reflexivity|discriminate|cbn; lia].
Qed.
Lemma combine_good a b x : good_wb a -> good_wb b -> combine_wblanks a b = Some x -> good_wb x.
Proof.
  intros Ha Hb E. unfold combine_wblanks in E. destruct a as [|a0 a]; [injection E as <-; exact Hb|]. destruct b as [|b0 b]; [injection E as <-; exact Ha|].
  set (A := a0 :: a) in *. set (B := if begins_with (b0 :: b) [cLB; cLB] then skipn 2 (b0 :: b) else b0 :: b) in *.
  destruct (ends_with A [cRB; cRB]).
  - destruct (2 <? length A).
    + destruct (odd_bs (rev (cut2 A)) false) as [[]|]; try discriminate; injection E as <-; first [exact (good_mid (cut2 A) B)|exact (good_mid A B)].
    + injection E as <-. first [exact (good_mid (cut2 A) B)|exact (good_mid A B)].
  - injection E as <-. first [exact (good_mid (cut2 A) B)|exact (good_mid A B)].
Qed.
Lemma combine_merge a b : good_wb a -> combine_wblanks a b = Some (merge a b).
Proof. intros H. unfold merge. specialize (H b). destruct (combine_wblanks a b); [reflexivity|contradiction]. Qed.
Lemma merge_good a b : good_wb a -> good_wb b -> good_wb (merge a b).
Proof. intros Ha Hb. apply (combine_good a b); [assumption|assumption|apply combine_merge, Ha]. Qed.

Lemma nth_set_nth {A} i (x : A) l j : nth_error (set_nth i x l) j = if Nat.eqb i j then (match nth_error l j with Some _ => Some x | None => None end) else nth_error l j.
Proof.
  revert i j. induction l as [|a l IH]; intros i j; cbn.
  - destruct i; destruct j; cbn; try destruct (Nat.eqb i j); reflexivity.
  - destruct i as [|i]; destruct j as [|j]; cbn; try reflexivity. apply IH.
Qed.
Lemma set_nth_Forall {A} (P : A -> Prop) i x l : P x -> Forall P l -> Forall P (set_nth i x l).
Proof. intros Hx H. revert i. induction H as [|a l Ha H IH]; intros [|i]; cbn; constructor; auto. Qed.

(** ** the interpreter agrees with the specification *)
Section Ref.
Variable attr_match : str -> str -> str.
Variable attr_replace : str -> str -> str -> str.
Variable copy_case case_from : str -> str -> str.
Variable get_case lower : str -> str.
Variable lists : str -> list str.
Variable dict_case : bool.
Variable macros : str -> nat.
Variable macro_map : list (nat * list instr).
Variable N : list (nat * tinstr).
Hypothesis HN : functional N.
Notation eval := (eval attr_match copy_case case_from get_case dict_case).
Notation eval_list := (eval_list attr_match copy_case case_from get_case dict_case).
Notation den := (den attr_match copy_case case_from get_case dict_case).
Notation den_list := (den_list attr_match copy_case case_from get_case dict_case).
Notation test := (test attr_match copy_case case_from get_case lower lists dict_case).
Notation holds := (holds attr_match copy_case case_from get_case lower lists dict_case).
Notation value := (value attr_match copy_case case_from get_case dict_case).

Definition proj (st : rst) : sst := mkst (r_words st) (r_frame st) (r_ll st) (r_vars st) (r_vwb st) (r_bq st) (r_out st) (r_in_lu st).
Definition goods (st : rst) : Prop := Forall (fun w => good_wb (w_wb w)) (r_words st) /\ (forall n, good_wb (r_vwb st n)) /\ good_wb (r_owb st).
Definition cache_ok (st : rst) : Prop := forall id t, r_cache st id = Some t -> In (id, t) N.
Definition agree (c : ctx) (st : rst) : Prop :=
  r_in_out st = c_out c /\ match c_let c with Some n => r_in_let st = true /\ r_vv st = n | None => r_in_let st = false end.
Definition Inv (c : ctx) (st : rst) : Prop := agree c st /\ cache_ok st /\ goods st.

Lemma eval_concat l st : eval (XConcat l) st = eval_list l st.
Proof. reflexivity. Qed.
Lemma eval_lu l st : eval (XLu l) st =
  match eval_list l (with_owb (with_lu st true) []) with
  | Some (w, st1) => match single_wb false (with_lu st1 false) with Some st2 => Some (lu_text (r_owb st2) w, st2) | None => None end
  | None => None
  end.
Proof. reflexivity. Qed.
Lemma eval_chunk name namefrom ccase tags body st : eval (XChunk name namefrom ccase tags body) st =
      match chunk_name copy_case dict_case st name namefrom ccase with
      | None => None
      | Some n => match eval_list tags st with
                  | None => None
                  | Some (t, st1) => match eval_list body st1 with
                                     | None => None
                                     | Some (b, st2) => Some (cCARET :: n ++ t ++ [cLC] ++ b ++ [cRC; cDOL], st2)
                                     end
                  end
      end.
Proof. reflexivity. Qed.
Lemma den_concat c l s : den c (XConcat l) s = den_list c l s.
Proof. reflexivity. Qed.
Lemma den_lu c l s : den c (XLu l) s =
  match den_list (mkc true (c_let c) (c_out c)) l (s_set_unit s true) with
  | Some (w, bl, s1) => match unit_wb s1 bl with Some wb => Some (lu_text wb w, [], s_set_unit s1 false) | None => None end
  | None => None
  end.
Proof. reflexivity. Qed.
Lemma den_chunk c name namefrom ccase tags body s : den c (XChunk name namefrom ccase tags body) s =
      match name_of copy_case dict_case s name namefrom ccase with
      | None => None
      | Some n => match den_list c tags s with
                  | Some (t, b1, s1) => match den_list c body s1 with
                                        | Some (b, b2, s2) => Some (cCARET :: n ++ t ++ [cLC] ++ b ++ [cRC; cDOL], b1 ++ b2, s2)
                                        | None => None end
                  | None => None
                  end
      end.
Proof. reflexivity. Qed.

(* fetching a node's instruction *)
Lemma fetch_ok c st id ti : Inv c st -> In (id, ti) N -> exists st1, fetch st id ti = (ti, st1) /\ proj st1 = proj st /\ Inv c st1 /\ r_owb st1 = r_owb st.
Proof.
  intros [A [C G]] HI. unfold fetch. destruct (r_cache st id) as [t|] eqn:E.
  - rewrite (HN _ _ _ (C _ _ E) HI). exists st. split; [reflexivity|]. split; [reflexivity|]. split; [split; [exact A|split; [exact C|exact G]]|reflexivity].
  - exists (cache_add st id ti). split; [reflexivity|]. split; [reflexivity|]. split; [|reflexivity]. split; [exact A|]. split; [|exact G].
    intros i t H. cbn in H. destruct (Nat.eqb_spec i id); [injection H as <-; subst; exact HI|apply C, H].
Qed.
Definition step_ok (c : ctx) (st : rst) (r : option (str * rst)) (d : option (str * list str * sst)) : Prop :=
  match d with
  | None => r = None
  | Some (t, bl, s') => exists st', r = Some (t, st') /\ proj st' = s' /\ Inv c st' /\ (c_lu c = true -> r_owb st' = fold_left merge bl (r_owb st))
  end.
Lemma step_here c st t : Inv c st -> step_ok c st (Some (t, st)) (Some (t, [], proj st)).
Proof. intros H. exists st. split; [reflexivity|]. split; [reflexivity|]. split; [exact H|reflexivity]. Qed.
Lemma step_eq c st st1 r d : r_owb st1 = r_owb st -> step_ok c st1 r d -> step_ok c st r d.
Proof. intros E H. unfold step_ok in *. destruct d as [[[t bl] s]|]; [|exact H]. rewrite <- E. exact H. Qed.

Lemma list_ok c l : Forall (fun e => forall st, Inv c st -> incl (nodes_e e) N -> simple_e (c_lu c) e = true -> step_ok c st (eval e st) (den c e (proj st))) l ->
  forall st, Inv c st -> incl (flat_map nodes_e l) N -> forallb (simple_e (c_lu c)) l = true -> step_ok c st (eval_list l st) (den_list c l (proj st)).
Proof.
  induction 1 as [|e l He H IH]; intros st HI Hn Hs.
  - apply step_here, HI.
  - cbn [flat_map forallb] in *. apply andb_prop in Hs as [Hs1 Hs2]. apply incl_app_inv in Hn as [Hn1 Hn2].
    specialize (He st HI Hn1 Hs1). cbn [TransferRules.eval_list TransferRules.den_list]. destruct (den c e (proj st)) as [[[a b1] s1]|]; [|cbn in He |- *; rewrite He; reflexivity].
    destruct He as (st1 & E1 & P1 & I1 & O1). rewrite E1. specialize (IH st1 I1 Hn2 Hs2). rewrite P1 in IH.
    destruct (den_list c l s1) as [[[b b2] s2]|]; [|cbn in IH |- *; rewrite IH; reflexivity].
    destruct IH as (st2 & E2 & P2 & I2 & O2). rewrite E2. exists st2. split; [reflexivity|]. split; [exact P2|]. split; [exact I2|].
    intros K. rewrite fold_left_app, <- (O1 K). apply O2, K.
Qed.
Lemma word_at_proj st pos : word_at st pos = s_word_at (proj st) pos.
Proof. reflexivity. Qed.
Lemma single_ok c st bl : Inv c st -> r_owb st = merges bl ->
  match unit_wb (proj st) bl with
  | None => single_wb false st = None
  | Some wb => exists st2, single_wb false st = Some st2 /\ r_owb st2 = wb /\ proj st2 = proj st /\ Inv c st2
  end.
Proof.
  intros [A [C G]] Ho. unfold unit_wb, single_wb. cbn [proj s_ll s_frame s_words].
  destruct (Nat.eqb (r_ll st) 1); [|exists st; split; [reflexivity|split; [exact Ho|split; [reflexivity|split; [exact A|split; assumption]]]]].
  destruct (r_frame st) as [[|[i|] fr]|]; [reflexivity| |reflexivity|exists st; split; [reflexivity|split; [exact Ho|split; [reflexivity|split; [exact A|split; assumption]]]]].
  unfold obj. destruct (nth_error (r_words st) i) as [w|] eqn:E; [|reflexivity]. exists (with_owb st (w_wb w)). split; [reflexivity|]. split; [reflexivity|]. split; [reflexivity|].
  split; [exact A|]. split; [exact C|]. destruct G as (G1 & G2 & G3). split; [exact G1|]. split; [exact G2|]. cbn. apply nth_error_In in E. rewrite Forall_forall in G1. apply G1, E.
Qed.
Lemma take_ok c st part wb t : Inv c st -> good_wb wb ->
  step_ok c st (match take_wb st part wb with Some st' => Some (t, st') | None => None end)
   (if is_lemma part && (1 <? s_ll (proj st)) then
                 if s_unit (proj st) then Some (t, [wb], proj st)
                 else match c_let c with
                      | Some n => Some (t, [], s_set_vwb (proj st) (upd (s_vwb (proj st)) n (merge (s_vwb (proj st) n) wb)))
                      | None => Some (t, [], proj st)
                      end
               else Some (t, [], proj st)).
Proof.
  intros HI Hwb. assert (HI0 := HI). destruct HI as [[A2 A3] [C [G1 [G2 G3]]]]. unfold take_wb. cbn [proj s_ll s_vwb s_unit]. destruct (is_lemma part && (1 <? r_ll st)); [|apply step_here, HI0].
  destruct (r_in_lu st) eqn:CL.
  - rewrite (combine_merge _ _ G3). eexists. split; [reflexivity|]. split; [unfold proj; cbn; rewrite CL; reflexivity|]. split; [|reflexivity]. split; [split; assumption|]. split; [exact C|].
    split; [exact G1|]. split; [exact G2|]. cbn. apply merge_good; assumption.
  - destruct (c_let c) as [n|] eqn:CT.
    + destruct A3 as [A3 A4]. rewrite A3, A4, (combine_merge _ _ (G2 n)). eexists. split; [reflexivity|]. split; [unfold proj, s_set_vwb; cbn; rewrite CL; reflexivity|]. split; [|reflexivity].
      split; [split; [exact A2|rewrite CT; split; assumption]|]. split; [exact C|]. split; [exact G1|]. split; [|exact G3].
      intros m. cbn. unfold upd. destruct (str_eqb m n); [apply merge_good; [apply G2|exact Hwb]|apply G2].
    + rewrite A3. replace (mkst (r_words st) (r_frame st) (r_ll st) (r_vars st) (r_vwb st) (r_bq st) (r_out st) false) with (proj st) by (unfold proj; rewrite CL; reflexivity). apply step_here, HI0.
Qed.
(** <mlu>: its words, and the text so far *)
Notation eval_mlu := (eval_mlu attr_match copy_case case_from get_case dict_case).
Fixpoint den_mlu (c : ctx) (l : list (list expr)) (value : str) (first : bool) (s : sst) {struct l} : option (str * list str * sst) :=
  match l with
  | [] => Some (value, [], s)
  | x :: r => match den_list c x s with
              | Some (w, b1, s1) => let '(v, f) := mlu_add value first w in
                                    match den_mlu c r v f s1 with Some (t, b2, s2) => Some (t, b1 ++ b2, s2) | None => None end
              | None => None
              end
  end.
Lemma eval_mlu_eq l st : eval (XMlu l) st =
  match eval_mlu l [] true (with_lu (with_owb st []) true) with
  | Some (w, st1) => match single_wb true st1 with Some st2 => Some (mlu_text (r_owb st2) w, st2) | None => None end
  | None => None
  end.
Proof. reflexivity. Qed.
Lemma den_mlu_eq c l s : den c (XMlu l) s =
  match den_mlu (mkc true (c_let c) (c_out c)) l [] true (s_set_unit s true) with
  | Some (w, bl, s1) => match strict_wb s1 bl with Some wb => Some (mlu_text wb w, [], s1) | None => None end
  | None => None
  end.
Proof. reflexivity. Qed.
Lemma parts_ok c l : Forall (Forall (fun e => forall st, Inv c st -> incl (nodes_e e) N -> simple_e (c_lu c) e = true -> step_ok c st (eval e st) (den c e (proj st)))) l ->
  forall st v fi, Inv c st -> incl (flat_map (flat_map nodes_e) l) N -> forallb (forallb (simple_e (c_lu c))) l = true ->
  step_ok c st (eval_mlu l v fi st) (den_mlu c l v fi (proj st)).
Proof.
  induction 1 as [|x l Hx H IH]; intros st v fi HI Hn Hs.
  - apply step_here, HI.
  - cbn [flat_map forallb] in *. apply andb_prop in Hs as [Hs1 Hs2]. apply incl_app_inv in Hn as [Hn1 Hn2].
    assert (L := list_ok c x Hx st HI Hn1 Hs1). cbn [TransferRules.eval_mlu den_mlu]. destruct (den_list c x (proj st)) as [[[a b1] s1]|]; [|cbn in L |- *; rewrite L; reflexivity].
    destruct L as (st1 & E1 & P1 & I1 & O1). rewrite E1. destruct (mlu_add v fi a) as [v' f']. specialize (IH st1 v' f' I1 Hn2 Hs2). rewrite P1 in IH.
    destruct (den_mlu c l v' f' s1) as [[[b b2] s2]|]; [|cbn in IH |- *; rewrite IH; reflexivity].
    destruct IH as (st2 & E2 & P2 & I2 & O2). rewrite E2. exists st2. split; [reflexivity|]. split; [exact P2|]. split; [exact I2|].
    intros K. rewrite fold_left_app, <- (O1 K). apply O2, K.
Qed.
Lemma strict_ok c st bl : Inv c st -> r_owb st = merges bl ->
  match strict_wb (proj st) bl with
  | None => single_wb true st = None
  | Some wb => exists st2, single_wb true st = Some st2 /\ r_owb st2 = wb /\ proj st2 = proj st /\ Inv c st2
  end.
Proof.
  intros [A [C G]] Ho. unfold strict_wb, unit_wb, single_wb. cbn [proj s_ll s_frame s_words].
  destruct (r_frame st) as [fr|] eqn:F; (destruct (Nat.eqb (r_ll st) 1); [|exists st; split; [reflexivity|split; [exact Ho|split; [unfold proj; rewrite F; reflexivity|split; [exact A|split; assumption]]]]]); [|reflexivity].
  destruct fr as [|[i|] fr]; [reflexivity| |reflexivity].
  unfold obj. destruct (nth_error (r_words st) i) as [w|] eqn:E; [|reflexivity]. exists (with_owb st (w_wb w)). split; [reflexivity|]. split; [reflexivity|]. split; [unfold proj; cbn; rewrite F; reflexivity|].
  split; [exact A|]. split; [exact C|]. destruct G as (G1 & G2 & G3). split; [exact G1|]. split; [exact G2|]. cbn. apply nth_error_In in E. rewrite Forall_forall in G1. apply G1, E.
Qed.

Lemma eval_den e : forall c st, Inv c st -> incl (nodes_e e) N -> simple_e (c_lu c) e = true -> step_ok c st (eval e st) (den c e (proj st)).
Proof.
  induction e as [id sd part pos q link|id v|id|id n|id sd part pos|id pos e IH|l IH|l IH|l IH|a b cc t l IHt IHl] using expr_ind2; intros c st HI Hn Hs.
  - assert (HI2 := fun ti => fetch_ok c st id ti HI). cbn [nodes_e] in Hn.
    assert (K : In (id, match link with [] => TiClip sd part pos q | _ => TiLink sd part pos q link end) N) by (destruct link; apply Hn; left; reflexivity).
    destruct (HI2 _ K) as (st1 & E1 & P1 & I1 & O1). cbn [TransferRules.eval]. rewrite E1. apply (step_eq c st st1 _ _ O1). rewrite <- P1. clear HI2 K E1 P1 O1 HI Hn Hs. clear st. rename st1 into st.
    destruct link as [|x link]; cbn [eval_instr TransferRules.den]; unfold at_word; rewrite <- word_at_proj; destruct (word_at st pos) as [i|]; try (apply step_here, I1).
    + unfold obj. cbn [proj s_words]. destruct (nth_error (r_words st) i) as [w|] eqn:E; [|reflexivity].
      assert (Hwb : good_wb (w_wb w)) by (destruct I1 as [_ [_ [G1 _]]]; rewrite Forall_forall in G1; apply G1, (nth_error_In _ _ E)).
      destruct sd; try apply (take_ok c st part (w_wb w) _ I1 Hwb). apply step_here, I1.
    + unfold obj. cbn [proj s_words]. destruct (nth_error (r_words st) i) as [w|] eqn:E; [|reflexivity]. destruct (w_get attr_match sd w part q); apply step_here, I1.
  - destruct (fetch_ok c st id (TiLit v) HI) as (st1 & E1 & P1 & I1 & O1); [apply Hn; left; reflexivity|]. cbn [TransferRules.eval]. rewrite E1. apply (step_eq c st st1 _ _ O1). rewrite <- P1. apply step_here, I1.
  - destruct (fetch_ok c st id TiB HI) as (st1 & E1 & P1 & I1 & O1); [apply Hn; left; reflexivity|]. cbn [TransferRules.eval]. rewrite E1. apply (step_eq c st st1 _ _ O1). rewrite <- P1.
    cbn [eval_instr TransferRules.den]. cbn [proj s_bq]. destruct (r_bq st1) as [|b0 bq] eqn:E; [apply step_here, I1|].
    assert (A2 : r_in_out st1 = c_out c) by apply I1. rewrite A2. destruct (c_out c) eqn:CO.
    + exists (with_bq st1 bq). split; [reflexivity|]. split; [reflexivity|]. split; [|reflexivity]. destruct I1 as [[_ A3] [C G]]. split; [split; [cbn; congruence|exact A3]|split; assumption].
    + apply (step_here c st1 b0 I1).
  - destruct (fetch_ok c st id (TiVar n) HI) as (st1 & E1 & P1 & I1 & O1); [apply Hn; left; reflexivity|]. cbn [TransferRules.eval]. rewrite E1. apply (step_eq c st st1 _ _ O1). rewrite <- P1.
    cbn [eval_instr TransferRules.den]. cbn [proj s_ll s_vars s_vwb]. destruct (1 <? r_ll st1); [|apply (step_here c st1 _ I1)].
    assert (I2 := I1). destruct I2 as [A [C [G1 [G2 G3]]]]. rewrite (combine_merge _ _ G3). eexists. split; [reflexivity|]. split; [reflexivity|]. split; [|reflexivity].
    split; [exact A|]. split; [exact C|]. split; [exact G1|]. split; [exact G2|]. cbn. apply merge_good; [exact G3|apply G2].
  - destruct (fetch_ok c st id (TiCaseOf sd part pos) HI) as (st1 & E1 & P1 & I1 & O1); [apply Hn; left; reflexivity|]. cbn [TransferRules.eval]. rewrite E1. apply (step_eq c st st1 _ _ O1). rewrite <- P1.
    cbn [eval_instr TransferRules.den]. unfold at_word; rewrite <- word_at_proj; destruct (word_at st1 pos) as [i|]; [|apply step_here, I1].
    unfold obj. cbn [proj s_words]. destruct (nth_error (r_words st1) i) as [w|] eqn:E; [|reflexivity]. apply (step_here c st1 _ I1).
  - destruct (fetch_ok c st id (TiCaseFrom pos) HI) as (st1 & E1 & P1 & I1 & O1); [apply Hn; left; reflexivity|]. cbn [TransferRules.eval]. rewrite E1. apply (step_eq c st st1 _ _ O1). rewrite <- P1.
    cbn [eval_instr TransferRules.den]. unfold at_word; rewrite <- word_at_proj; destruct (word_at st1 pos) as [i|]; [|apply step_here, I1].
    unfold obj. change (s_words (proj st1)) with (r_words st1). destruct (nth_error (r_words st1) i) as [w|] eqn:E; [|reflexivity].
    assert (IH' := IH c st1 I1 (fun x Hx => Hn x (or_intror Hx)) Hs). destruct (den c e (proj st1)) as [[[d bl] s1]|]; [|cbn in IH' |- *; rewrite IH'; reflexivity].
    destruct IH' as (st2 & E2 & P2 & I2 & O2). rewrite E2. exists st2. split; [reflexivity|]. split; [exact P2|]. split; [exact I2|exact O2].
  - rewrite eval_concat, den_concat. apply list_ok; try assumption. apply Forall_forall. intros x Hx st0 HI0 Hn0 Hs0. rewrite Forall_forall in IH. apply (IH x Hx); assumption.
  - rewrite eval_lu, den_lu. cbn [simple_e] in Hs. apply andb_prop in Hs as [Hs1 Hs2]. apply negb_true_iff in Hs1.
    set (c' := mkc true (c_let c) (c_out c)) in *. set (st0 := with_owb (with_lu st true) []).
    assert (I0 : Inv c' st0). { destruct HI as [[A2 A3] [C [G1 [G2 G3]]]]. split; [split; [exact A2|exact A3]|]. split; [exact C|]. split; [exact G1|]. split; [exact G2|]. apply good_nil. }
    assert (L := list_ok c' l). specialize (L ltac:(apply Forall_forall; intros x Hx st1 HI1 Hn1 Hs1'; rewrite Forall_forall in IH; apply (IH x Hx); assumption) st0 I0 Hn Hs2).
    change (s_set_unit (proj st) true) with (proj st0). destruct (den_list c' l (proj st0)) as [[[w bl] s1]|]; [|cbn in L |- *; rewrite L; reflexivity].
    destruct L as (st1 & E1 & P1 & I1 & O1). rewrite E1.
    assert (I2 : Inv c (with_lu st1 false)). { destruct I1 as [[A2 A3] [C G]]. split; [split; [exact A2|exact A3]|]. split; [exact C|exact G]. }
    assert (S := single_ok c (with_lu st1 false) bl I2 (O1 eq_refl)). change (proj (with_lu st1 false)) with (s_set_unit (proj st1) false) in S. rewrite P1 in S. change (unit_wb (s_set_unit s1 false) bl) with (unit_wb s1 bl) in S.
    destruct (unit_wb s1 bl) as [wb|]; [|rewrite S; reflexivity]. destruct S as (st2 & E2 & W2 & P2 & I2'). rewrite E2, W2. exists st2. split; [reflexivity|]. split; [exact P2|]. split; [exact I2'|]. congruence.
  - rewrite eval_mlu_eq, den_mlu_eq. cbn [simple_e nodes_e] in Hs, Hn. apply andb_prop in Hs as [Hs1 Hs2]. apply negb_true_iff in Hs1.
    set (c' := mkc true (c_let c) (c_out c)) in *. set (st0 := with_lu (with_owb st []) true).
    assert (I0 : Inv c' st0). { destruct HI as [[A2 A3] [C [G1 [G2 G3]]]]. split; [split; [exact A2|exact A3]|]. split; [exact C|]. split; [exact G1|]. split; [exact G2|]. apply good_nil. }
    assert (L := parts_ok c' l). specialize (L ltac:(eapply Forall_impl; [|exact IH]; intros y Hy; eapply Forall_impl; [|exact Hy]; intros x Hx st1 HI1 Hn1 Hs1'; apply Hx; assumption) st0 [] true I0 Hn Hs2).
    change (s_set_unit (proj st) true) with (proj st0). destruct (den_mlu c' l [] true (proj st0)) as [[[w bl] s1]|]; [|cbn in L |- *; rewrite L; reflexivity].
    destruct L as (st1 & E1 & P1 & I1 & O1). rewrite E1.
    assert (I2 : Inv c st1). { destruct I1 as [[A2 A3] [C G]]. split; [split; [exact A2|exact A3]|]. split; [exact C|exact G]. }
    assert (S := strict_ok c st1 bl I2 (O1 eq_refl)). rewrite P1 in S.
    destruct (strict_wb s1 bl) as [wb|]; [|rewrite S; reflexivity]. destruct S as (st2 & E2 & W2 & P2 & I2'). rewrite E2, W2. exists st2. split; [reflexivity|]. split; [exact P2|]. split; [exact I2'|]. congruence.
  - rewrite eval_chunk, den_chunk. cbn [simple_e nodes_e] in Hs, Hn. apply andb_prop in Hs as [Hs1 Hs2]. apply incl_app_inv in Hn as [Hn1 Hn2].
    replace (chunk_name copy_case dict_case st a b cc) with (name_of copy_case dict_case (proj st) a b cc) by (unfold name_of, chunk_name; destruct a, b, cc; reflexivity).
    destruct (name_of copy_case dict_case (proj st) a b cc) as [nm|]; [|reflexivity].
    assert (L := list_ok c t). specialize (L ltac:(apply Forall_forall; intros x Hx st1 HI1 Hn1' Hs1'; rewrite Forall_forall in IHt; apply (IHt x Hx); assumption) st HI Hn1 Hs1).
    destruct (den_list c t (proj st)) as [[[tt b1] s1]|]; [|cbn in L |- *; rewrite L; reflexivity]. destruct L as (st1 & E1 & P1 & I1 & O1). rewrite E1.
    assert (L := list_ok c l). specialize (L ltac:(apply Forall_forall; intros x Hx st2 HI1 Hn1' Hs1'; rewrite Forall_forall in IHl; apply (IHl x Hx); assumption) st1 I1 Hn2 Hs2). rewrite P1 in L.
    destruct (den_list c l s1) as [[[bb b2] s2]|]; [|cbn in L |- *; rewrite L; reflexivity]. destruct L as (st2 & E2 & P2 & I2 & O2). rewrite E2.
    exists st2. split; [reflexivity|]. split; [exact P2|]. split; [exact I2|]. intros K. rewrite fold_left_app, <- (O1 K). apply O2, K.
Qed.

(* outside <out> and the value of a variable, evaluating an expression without units changes nothing *)
Lemma den_pure e : forall c s t bl s', c_let c = None -> c_out c = false -> simple_e true e = true -> den c e s = Some (t, bl, s') -> s' = s.
Proof.
  assert (L : forall l, Forall (fun e => forall c s t bl s', c_let c = None -> c_out c = false -> simple_e true e = true -> den c e s = Some (t, bl, s') -> s' = s) l ->
     forall c s t bl s', c_let c = None -> c_out c = false -> forallb (simple_e true) l = true -> den_list c l s = Some (t, bl, s') -> s' = s).
  { induction 1 as [|x l Hx H IH]; intros c s t bl s' H1 H2 HS E; cbn in E; [injection E as <- <- <-; reflexivity|]. cbn [forallb] in HS. apply andb_prop in HS as [HS1 HS2].
    destruct (den c x s) as [[[a b1] s1]|] eqn:E1; [|discriminate]. destruct (den_list c l s1) as [[[b b2] s2]|] eqn:E2; [|discriminate]. injection E as <- <- <-.
    rewrite (IH _ _ _ _ _ H1 H2 HS2 E2). apply (Hx _ _ _ _ _ H1 H2 HS1 E1). }
  induction e as [id sd part pos q link|id v|id|id n|id sd part pos|id pos e IH|l IH|l IH|l IH|a b cc t0 l IHt IHl] using expr_ind2; intros c s t bl s' H1 H2 HS E.
  - destruct link; cbn [TransferRules.den] in E; unfold at_word in E; destruct (s_word_at s pos) as [i|]; try (injection E as <- <- <-; reflexivity);
      destruct (nth_error (s_words s) i) as [w|]; try discriminate; [|injection E as <- <- <-; reflexivity].
    rewrite H1 in E. destruct sd, (is_lemma part && (1 <? s_ll s)), (s_unit s); injection E as <- <- <-; reflexivity.
  - injection E as <- <- <-. reflexivity.
  - cbn in E. rewrite H2 in E. destruct (s_bq s); injection E as <- <- <-; reflexivity.
  - injection E as <- <- <-. reflexivity.
  - cbn in E. unfold at_word in E. destruct (s_word_at s pos) as [i|]; [|injection E as <- <- <-; reflexivity]. destruct (nth_error (s_words s) i); [|discriminate]. injection E as <- <- <-. reflexivity.
  - cbn in E. unfold at_word in E. destruct (s_word_at s pos) as [i|]; [|injection E as <- <- <-; reflexivity]. destruct (nth_error (s_words s) i); [|discriminate].
    destruct (den c e s) as [[[d b1] s1]|] eqn:E1; [|discriminate]. injection E as <- <- <-. apply (IH _ _ _ _ _ H1 H2 HS E1).
  - rewrite den_concat in E. apply (L l IH _ _ _ _ _ H1 H2 HS E).
  - discriminate HS.
  - discriminate HS.
  - cbn [simple_e] in HS. apply andb_prop in HS as [HS1 HS2].
    rewrite den_chunk in E. destruct (name_of copy_case dict_case s a b cc); [|discriminate]. destruct (den_list c t0 s) as [[[x b1] s1]|] eqn:E1; [|discriminate].
    destruct (den_list c l s1) as [[[y b2] s2]|] eqn:E2; [|discriminate]. injection E as <- <- <-. rewrite (L l IHl _ _ _ _ _ H1 H2 HS2 E2). apply (L t0 IHt _ _ _ _ _ H1 H2 HS1 E1).
Qed.
Lemma simple_weak e : simple_e true e = true -> simple_e false e = true.
Proof.
  assert (L : forall l, Forall (fun e => simple_e true e = true -> simple_e false e = true) l -> forallb (simple_e true) l = true -> forallb (simple_e false) l = true).
  { induction 1 as [|x l Hx H IH]; [reflexivity|]. cbn. intros K. apply andb_prop in K as [K1 K2]. rewrite (Hx K1). apply IH, K2. }
  induction e as [id sd part pos q link|id v|id|id n|id sd part pos|id pos e IH|l IH|l IH|l IH|a b cc t0 l IHt IHl] using expr_ind2; intros HS; try reflexivity; try discriminate HS.
  - apply IH, HS.
  - apply (L l IH HS).
  - cbn [simple_e] in HS |- *. apply andb_prop in HS as [HS1 HS2]. rewrite (L _ IHt HS1). apply (L _ IHl HS2).
Qed.
Lemma eval_plain e st : Inv plain st -> incl (nodes_e e) N -> simple_e true e = true ->
  match value e (proj st) with
  | None => eval e st = None
  | Some t => exists st', eval e st = Some (t, st') /\ proj st' = proj st /\ Inv plain st'
  end.
Proof.
  intros HI Hn Hs. assert (H := eval_den e plain st HI Hn (simple_weak e Hs)). unfold TransferRules.value. destruct (den plain e (proj st)) as [[[t bl] s']|] eqn:E; [|exact H].
  destruct H as (st' & H1 & H2 & H3 & _). exists st'. split; [exact H1|]. split; [|exact H3]. rewrite H2. apply (den_pure e plain _ _ _ _ eq_refl eq_refl Hs E).
Qed.
(* tests *)
Definition test_ok (st : rst) (r : option (bool * rst)) (d : option bool) : Prop :=
  match d with None => r = None | Some b => exists st', r = Some (b, st') /\ proj st' = proj st /\ Inv plain st' end.
Lemma two_ok f a b st : Inv plain st -> incl (nodes_e a ++ nodes_e b) N -> simple_e true a && simple_e true b = true ->
  test_ok st (two attr_match copy_case case_from get_case dict_case a b f st) (cmp attr_match copy_case case_from get_case dict_case f a b (proj st)).
Proof.
  intros HI Hn Hs. apply andb_prop in Hs as [Hs1 Hs2]. apply incl_app_inv in Hn as [Hn1 Hn2]. unfold two, cmp. assert (A := eval_plain a st HI Hn1 Hs1).
  destruct (value a (proj st)) as [x|]; [|rewrite A; reflexivity]. destruct A as (st1 & -> & P1 & I1). assert (B := eval_plain b st1 I1 Hn2 Hs2). rewrite P1 in B.
  destruct (value b (proj st)) as [y|]; [|rewrite B; reflexivity]. destruct B as (st2 & -> & P2 & I2). exists st2. split; [reflexivity|]. split; [congruence|exact I2].
Qed.
Lemma one_ok f g a st : (forall x, g x = f x) -> Inv plain st -> incl (nodes_e a) N -> simple_e true a = true ->
  test_ok st (one attr_match copy_case case_from get_case dict_case a f st) (match value a (proj st) with Some x => Some (g x) | None => None end).
Proof.
  intros Hfg HI Hn Hs. unfold one. assert (A := eval_plain a st HI Hn Hs).
  destruct (value a (proj st)) as [x|]; [|rewrite A; reflexivity]. destruct A as (st1 & -> & P1 & I1). exists st1. rewrite Hfg. split; [reflexivity|]. split; [exact P1|exact I1].
Qed.
Lemma test_holds c : forall st, Inv plain st -> incl (nodes_c c) N -> simple_c c = true -> test_ok st (test c st) (holds c (proj st)).
Proof.
  induction c as [cl a b|cl a b|cl a b|cl a b|cl a l|cl a l|cl a l|l IH|l IH|c IH] using cond_ind2; intros st HI Hn Hs;
    try (apply two_ok; assumption); try (apply one_ok; [reflexivity|assumption|assumption|assumption]).
  - cbn [TransferRules.test TransferRules.holds]. cbn [nodes_c simple_c] in Hn, Hs.
    match goal with |- test_ok _ (?f l st) _ => set (F := f) end.
    assert (FE : forall x r s0, F (x :: r) s0 = match test x s0 with Some (true, st1) => F r st1 | o => o end) by reflexivity.
    assert (FN : forall s0, F [] s0 = Some (true, s0)) by reflexivity. clearbody F.
    revert st HI. induction IH as [|x l Hx H IHl]; intros st HI; [rewrite FN; exists st; split; [reflexivity|split; [reflexivity|exact HI]]|].
    cbn [flat_map forallb map fold_right] in *. apply incl_app_inv in Hn as [Hn1 Hn2]. apply andb_prop in Hs as [Hs1 Hs2]. rewrite FE. assert (T := Hx st HI Hn1 Hs1).
    destruct (holds x (proj st)) as [[]|]; [|destruct T as (st1 & -> & P1 & I1); exists st1; split; [reflexivity|split; assumption]|rewrite T; reflexivity].
    destruct T as (st1 & -> & P1 & I1). assert (T2 := IHl Hn2 Hs2 st1 I1). rewrite P1 in T2. unfold test_ok in *.
    destruct (fold_right _ (Some true) (map (fun c => holds c (proj st)) l)) as [b|]; [|exact T2]. destruct T2 as (st2 & E2 & P2 & I2). exists st2. split; [exact E2|]. split; [congruence|exact I2].
  - cbn [TransferRules.test TransferRules.holds]. cbn [nodes_c simple_c] in Hn, Hs.
    match goal with |- test_ok _ (?f l st) _ => set (F := f) end.
    assert (FE : forall x r s0, F (x :: r) s0 = match test x s0 with Some (false, st1) => F r st1 | o => o end) by reflexivity.
    assert (FN : forall s0, F [] s0 = Some (false, s0)) by reflexivity. clearbody F.
    revert st HI. induction IH as [|x l Hx H IHl]; intros st HI; [rewrite FN; exists st; split; [reflexivity|split; [reflexivity|exact HI]]|].
    cbn [flat_map forallb map fold_right] in *. apply incl_app_inv in Hn as [Hn1 Hn2]. apply andb_prop in Hs as [Hs1 Hs2]. rewrite FE. assert (T := Hx st HI Hn1 Hs1).
    destruct (holds x (proj st)) as [[]|]; [destruct T as (st1 & -> & P1 & I1); exists st1; split; [reflexivity|split; assumption]| |rewrite T; reflexivity].
    destruct T as (st1 & -> & P1 & I1). assert (T2 := IHl Hn2 Hs2 st1 I1). rewrite P1 in T2. unfold test_ok in *.
    destruct (fold_right _ (Some false) (map (fun c => holds c (proj st)) l)) as [b|]; [|exact T2]. destruct T2 as (st2 & E2 & P2 & I2). exists st2. split; [exact E2|]. split; [congruence|exact I2].
  - cbn [TransferRules.test TransferRules.holds]. assert (T := IH st HI Hn Hs). destruct (holds c (proj st)) as [b|]; [|cbn in *; rewrite T; reflexivity].
    destruct T as (st1 & -> & P1 & I1). exists st1. split; [reflexivity|]. split; assumption.
Qed.

(** ** simple instructions *)
Notation get := (w_get attr_match).
Notation put := (w_put attr_replace).
Notation do_let := (do_let attr_match attr_replace copy_case case_from get_case dict_case).
Notation do_modcase := (do_modcase attr_match attr_replace copy_case case_from get_case dict_case).
Notation do_append := (do_append attr_match copy_case case_from get_case dict_case).
Notation do_out := (do_out attr_match copy_case case_from get_case dict_case).
Notation Exec := (Exec attr_match attr_replace copy_case case_from get_case lower lists dict_case macros macro_map).
Notation Appended := (Appended attr_match attr_replace copy_case case_from get_case lower lists dict_case macros macro_map).
Notation Printed := (Printed attr_match attr_replace copy_case case_from get_case lower lists dict_case macros macro_map).

Definition f_let (l : lhs) (e : expr) (s : sst) : option sst :=
  match l with
  | LVar _ n => match den (in_let n) e (s_set_vwb s (upd (s_vwb s) n [])) with Some (t, _, s1) => Some (s_set_vars s1 (upd (s_vars s1) n t)) | None => None end
  | LClip _ sd part pos q =>
      match s_word_at s pos with
      | None => Some s
      | Some i => match value e s, nth_error (s_words s) i with
                  | Some t, Some w => match put sd w part t q with Some w' => Some (s_set_word s i w') | None => None end
                  | _, _ => None end
      end
  end.
Definition f_modcase (l : lhs) (e : expr) (s : sst) : option sst :=
  if dict_case then Some s else
  match value e s with
  | None => None
  | Some t =>
    match l with
    | LVar _ n => Some (s_set_vars s (upd (s_vars s) n (copy_case t (s_vars s n))))
    | LClip _ sd part pos q =>
        match s_word_at s pos with
        | None => None
        | Some i => match nth_error (s_words s) i with
                    | Some w => match put sd w part (copy_case t (get sd w part q)) true with Some w' => Some (s_set_word s i w') | None => None end
                    | None => None end
        end
    end
  end.
Fixpoint f_append (n : str) (l : list expr) (s : sst) : option sst :=
  match l with
  | [] => Some s
  | e :: r => match den (in_let n) e s with Some (t, _, s1) => f_append n r (s_set_vars s1 (upd (s_vars s1) n (s_vars s1 n ++ t))) | None => None end
  end.
Fixpoint f_out (l : list expr) (s : sst) : option sst :=
  match l with
  | [] => Some s
  | e :: r => match den in_out e s with Some (t, _, s1) => f_out r (s_set_out s1 (s_out s1 ++ t)) | None => None end
  end.
Definition basic_ok (r : option rst) (d : option sst) : Prop :=
  match d with None => r = None | Some s' => exists st', r = Some st' /\ proj st' = s' /\ Inv plain st' end.

Lemma let_var_ok n e st : Inv plain st -> incl (nodes_e e) N -> simple_e false e = true ->
  basic_ok (let_var attr_match copy_case case_from get_case dict_case n e st) (f_let (LVar 0 n) e (proj st)).
Proof.
  intros HI Hn Hs. unfold let_var, f_let. set (st0 := with_vwb (with_vv (with_let st true) n) (upd (r_vwb st) n [])).
  assert (I0 : Inv (in_let n) st0).
  { destruct HI as [[A2 A3] [C [G1 [G2 G3]]]]. split; [split; [exact A2|split; reflexivity]|]. split; [exact C|]. split; [exact G1|]. split; [|exact G3].
    intros m. cbn. unfold upd. destruct (str_eqb m n); [apply good_nil|apply G2]. }
  assert (H := eval_den e (in_let n) st0 I0 Hn Hs). change (proj st0) with (s_set_vwb (proj st) (upd (s_vwb (proj st)) n [])) in H.
  destruct (den (in_let n) e (s_set_vwb (proj st) (upd (s_vwb (proj st)) n []))) as [[[t bl] s1]|]; [|cbn in H |- *; rewrite H; reflexivity].
  destruct H as (st1 & E1 & P1 & I1 & _). rewrite E1. eexists. split; [reflexivity|]. split; [rewrite <- P1; reflexivity|].
  destruct I1 as [[A2 A3] [C G]]. split; [split; [exact A2|reflexivity]|]. split; [exact C|exact G].
Qed.
Lemma put_wb sd w part v q w' : put sd w part v q = Some w' -> w_wb w' = w_wb w.
Proof. unfold w_put. destruct q; [intros H; injection H as <-; destruct sd; reflexivity|]. destruct (_ <? _); [discriminate|]. intros H; injection H as <-; destruct sd; reflexivity. Qed.
Lemma put_word_inv st i w w' : Inv plain st -> nth_error (r_words st) i = Some w -> w_wb w' = w_wb w -> Inv plain (put_word st i w').
Proof.
  intros [A [C [G1 [G2 G3]]]] E W. split; [exact A|]. split; [exact C|]. split; [|split; [exact G2|exact G3]]. cbn. apply set_nth_Forall; [|exact G1].
  rewrite W. rewrite Forall_forall in G1. apply G1, (nth_error_In _ _ E).
Qed.
Lemma let_clip_ok i sd part q e st : Inv plain st -> incl (nodes_e e) N -> simple_e true e = true ->
  basic_ok (let_clip attr_match attr_replace copy_case case_from get_case dict_case i sd part q e st)
    (match value e (proj st), nth_error (s_words (proj st)) i with
     | Some t, Some w => match put sd w part t q with Some w' => Some (s_set_word (proj st) i w') | None => None end
     | _, _ => None end).
Proof.
  intros HI Hn Hs. unfold let_clip. assert (H := eval_plain e st HI Hn Hs). destruct (value e (proj st)) as [t|]; [|rewrite H; reflexivity].
  destruct H as (st1 & -> & P1 & I1). unfold obj. rewrite <- P1. cbn [proj s_words]. destruct (nth_error (r_words st1) i) as [w|] eqn:E; [|reflexivity].
  destruct (put sd w part t q) as [w'|] eqn:E2; [|reflexivity]. exists (put_word st1 i w'). split; [reflexivity|]. split; [reflexivity|]. apply (put_word_inv st1 i w w' I1 E), (put_wb _ _ _ _ _ _ E2).
Qed.
Lemma add_inv st id t : Inv plain st -> In (id, t) N -> Inv plain (cache_add st id t).
Proof.
  intros [A [C G]] HI. split; [exact A|]. split; [|exact G]. intros i x H. cbn in H. destruct (Nat.eqb_spec i id); [injection H as <-; subst; exact HI|apply C, H].
Qed.
Lemma do_let_ok l e st : Inv plain st -> incl (nodes_l l ++ nodes_e e) N -> simple_i (ILet l e) = true -> basic_ok (do_let l e st) (f_let l e (proj st)).
Proof.
  intros HI Hn Hs. apply incl_app_inv in Hn as [Hn1 Hn2]. unfold TransferRules.do_let.
  destruct l as [id n|id sd part pos q]; cbn [nodes_l] in Hn1; cbn [simple_i] in Hs; [rename Hs into Hs2|apply andb_prop in Hs as [Hs1 Hs2]].
  - assert (K : In (id, TiVar n) N) by (apply Hn1; left; reflexivity). assert (L := let_var_ok n e st HI Hn2 Hs2). change (f_let (LVar 0 n) e (proj st)) with (f_let (LVar id n) e (proj st)) in L.
    destruct (r_cache st id) as [t|] eqn:E.
    + assert (HC : In (id, t) N) by (apply HI, E). rewrite (HN _ _ _ HC K). exact L.
    + destruct (f_let (LVar id n) e (proj st)) as [s'|]; cbn [basic_ok] in *; [|rewrite L; reflexivity]. destruct L as (st1 & -> & P1 & I1).
      eexists. split; [reflexivity|]. split; [exact P1|]. apply add_inv; assumption.
  - assert (K : In (id, TiClip sd part pos q) N) by (apply Hn1; left; reflexivity). cbn [f_let]. rewrite <- word_at_proj.
    destruct (r_cache st id) as [t|] eqn:E.
    + assert (HC : In (id, t) N) by (apply HI, E). rewrite (HN _ _ _ HC K). destruct (word_at st pos) as [i|]; [apply let_clip_ok; assumption|exists st; split; [reflexivity|split; [reflexivity|exact HI]]].
    + apply Z.leb_le in Hs1. unfold word_at, raw_ptr. destruct (r_frame st) as [fr|].
      * destruct (Z.leb_spec (Z.of_nat (length fr)) pos) as [Hl|Hl].
        { destruct (Z.ltb_spec pos 0); [lia|]. destruct (nth_error fr (Z.to_nat pos)) as [p|] eqn:Ep; [|exists st; split; [reflexivity|split; [reflexivity|exact HI]]].
          assert (Z.to_nat pos < length fr) by (apply nth_error_Some; congruence). lia. }
        destruct (Z.ltb_spec pos 0); [lia|]. destruct (nth_error fr (Z.to_nat pos)) as [[i|]|] eqn:Ep.
        -- assert (L := let_clip_ok i sd part q e st HI Hn2 Hs2).
           match type of L with basic_ok _ ?d => destruct d as [s'|]; cbn [basic_ok] in *; [|rewrite L; reflexivity] end. destruct L as (st1 & -> & P1 & I1).
           eexists. split; [reflexivity|]. split; [exact P1|]. apply add_inv; assumption.
        -- exists st; split; [reflexivity|split; [reflexivity|exact HI]].
        -- apply nth_error_None in Ep. lia.
      * destruct (Z.leb_spec (Z.of_nat 0) pos); [|lia]. exists st; split; [reflexivity|split; [reflexivity|exact HI]].
Qed.
Lemma do_modcase_ok l e st : Inv plain st -> incl (nodes_e e) N -> simple_e true e = true -> basic_ok (do_modcase l e st) (f_modcase l e (proj st)).
Proof.
  intros HI Hn Hs. unfold TransferRules.do_modcase, f_modcase. destruct dict_case eqn:DC; [exists st; split; [reflexivity|split; [reflexivity|exact HI]]|].
  assert (H := eval_plain e st HI Hn Hs). rewrite DC in H. destruct l as [id n|id sd part pos q].
  - destruct (TransferRules.value attr_match copy_case case_from get_case false e (proj st)) as [t|]; [|rewrite H; reflexivity]. destruct H as (st1 & -> & P1 & I1). eexists. split; [reflexivity|]. split; [rewrite <- P1; reflexivity|exact I1].
  - destruct (TransferRules.value attr_match copy_case case_from get_case false e (proj st)) as [t|]; [|rewrite H; reflexivity]. destruct H as (st1 & -> & P1 & I1). rewrite <- P1.
    replace (raw_ptr st1 pos) with (match r_frame st1 with None => None | Some fr => if (pos <? 0)%Z then None else nth_error fr (Z.to_nat pos) end) by reflexivity.
    unfold s_word_at. cbn [proj s_frame]. destruct (r_frame st1) as [fr|]; [|reflexivity]. destruct (pos <? 0)%Z; [reflexivity|]. destruct (nth_error fr (Z.to_nat pos)) as [[i|]|]; try reflexivity.
    unfold obj. change (s_words (proj st1)) with (r_words st1). destruct (nth_error (r_words st1) i) as [w|] eqn:E; [|reflexivity].
    destruct (put sd w part (copy_case t (get sd w part q)) true) as [w'|] eqn:E2; [|reflexivity]. exists (put_word st1 i w'). split; [reflexivity|]. split; [reflexivity|]. apply (put_word_inv st1 i w w' I1 E), (put_wb _ _ _ _ _ _ E2).
Qed.
Lemma do_append_ok n l : forall st, Inv plain st -> incl (flat_map nodes_e l) N -> forallb (simple_e false) l = true -> basic_ok (do_append n l st) (f_append n l (proj st)).
Proof.
  induction l as [|e l IH]; intros st HI Hn Hs; [exists st; split; [reflexivity|split; [reflexivity|exact HI]]|].
  cbn [flat_map forallb] in *. apply incl_app_inv in Hn as [Hn1 Hn2]. apply andb_prop in Hs as [Hs1 Hs2]. cbn [TransferRules.do_append f_append].
  set (st0 := with_vv (with_let st true) n).
  assert (I0 : Inv (in_let n) st0). { destruct HI as [[A2 A3] [C G]]. split; [split; [exact A2|split; reflexivity]|]. split; [exact C|exact G]. }
  assert (H := eval_den e (in_let n) st0 I0 Hn1 Hs1). change (proj st0) with (proj st) in H.
  destruct (den (in_let n) e (proj st)) as [[[t bl] s1]|]; [|cbn in H |- *; rewrite H; reflexivity].
  destruct H as (st1 & E1 & P1 & I1 & _). rewrite E1. set (st2 := with_let (with_vars st1 (upd (r_vars st1) n (r_vars st1 n ++ t))) false).
  assert (I2 : Inv plain st2). { destruct I1 as [[A2 A3] [C G]]. split; [split; [exact A2|reflexivity]|]. split; [exact C|exact G]. }
  assert (R := IH st2 I2 Hn2 Hs2). replace (s_set_vars s1 (upd (s_vars s1) n (s_vars s1 n ++ t))) with (proj st2) by (rewrite <- P1; reflexivity). exact R.
Qed.
Lemma do_out_ok l st : Inv plain st -> incl (flat_map nodes_e l) N -> forallb (simple_e false) l = true -> basic_ok (do_out l st) (f_out l (proj st)).
Proof.
  intros HI Hn Hs. unfold TransferRules.do_out.
  assert (K : forall l st, Inv in_out st -> incl (flat_map nodes_e l) N -> forallb (simple_e false) l = true ->
    match f_out l (proj st) with None => out_list attr_match copy_case case_from get_case dict_case l st = None
    | Some s' => exists st', out_list attr_match copy_case case_from get_case dict_case l st = Some st' /\ proj st' = s' /\ Inv in_out st' end).
  { clear l st HI Hn Hs. induction l as [|e l IH]; intros st HI Hn Hs; [exists st; split; [reflexivity|split; [reflexivity|exact HI]]|].
    cbn [flat_map forallb] in *. apply incl_app_inv in Hn as [Hn1 Hn2]. apply andb_prop in Hs as [Hs1 Hs2]. cbn [out_list f_out].
    assert (H := eval_den e in_out st HI Hn1 Hs1). destruct (den in_out e (proj st)) as [[[t bl] s1]|]; [|cbn in H |- *; rewrite H; reflexivity].
    destruct H as (st1 & E1 & P1 & I1 & _). rewrite E1. assert (R := IH (with_out st1 (r_out st1 ++ t)) I1 Hn2 Hs2).
    replace (s_set_out s1 (s_out s1 ++ t)) with (proj (with_out st1 (r_out st1 ++ t))) by (rewrite <- P1; reflexivity). exact R. }
  assert (I0 : Inv in_out (with_inout st true)). { destruct HI as [[A2 A3] [C G]]. split; [split; [reflexivity|exact A3]|]. split; [exact C|exact G]. }
  assert (R := K l _ I0 Hn Hs). change (proj (with_inout st true)) with (proj st) in R. destruct (f_out l (proj st)) as [s'|]; [|rewrite R; reflexivity].
  destruct R as (st1 & -> & P1 & I1). eexists. split; [reflexivity|]. split; [exact P1|]. destruct I1 as [[A2 A3] [C G]]. split; [split; [reflexivity|exact A3]|]. split; [exact C|exact G].
Qed.

(** ** control structure *)
Notation run := (run attr_match attr_replace copy_case case_from get_case lower lists dict_case).
Notation run_list := (run_list attr_match attr_replace copy_case case_from get_case lower lists dict_case).
Notation run_opts := (run_opts attr_match attr_replace copy_case case_from get_case lower lists dict_case).
Notation run_macro := (run_macro attr_match attr_replace copy_case case_from get_case lower lists dict_case).
Notation call := (call attr_match attr_replace copy_case case_from get_case lower lists dict_case macros macro_map).
Notation Seq := (Seq attr_match attr_replace copy_case case_from get_case lower lists dict_case macros macro_map).
Notation Choose := (Choose attr_match attr_replace copy_case case_from get_case lower lists dict_case macros macro_map).
Notation Body := (Body attr_match attr_replace copy_case case_from get_case lower lists dict_case macros macro_map).
Hypothesis HM : Forall (fun m => incl (flat_map nodes_i (snd m)) N /\ forallb simple_i (snd m) = true) macro_map.

Lemma run_choose cl l st : run cl (IChoose l) st = run_opts cl l st.
Proof. reflexivity. Qed.

Lemma appended_f n l s s1 : Appended n l s s1 <-> f_append n l s = Some s1.
Proof.
  revert s. induction l as [|e l IH]; intros s; cbn [f_append].
  - split; [intros H; inversion H; reflexivity|intros H; injection H as <-; constructor].
  - split.
    + intros H. inversion H as [|? ? ? ? t bl s' ? D R]; subst. rewrite D. apply IH, R.
    + destruct (den (in_let n) e s) as [[[t bl] s']|] eqn:D; [|discriminate]. intros H. econstructor; [exact D|]. apply IH, H.
Qed.
Lemma printed_f l s s1 : Printed l s s1 <-> f_out l s = Some s1.
Proof.
  revert s. induction l as [|e l IH]; intros s; cbn [f_out].
  - split; [intros H; inversion H; reflexivity|intros H; injection H as <-; constructor].
  - split.
    + intros H. inversion H as [|? ? ? t bl s' ? D R]; subst. rewrite D. apply IH, R.
    + destruct (den in_out e s) as [[[t bl] s']|] eqn:D; [|discriminate]. intros H. econstructor; [exact D|]. apply IH, H.
Qed.
Lemma let_f l e s s1 : f_let l e s = Some s1 -> Exec (ILet l e) s (-1) s1.
Proof.
  destruct l as [id n|id sd part pos q]; cbn [f_let].
  - destruct (den (in_let n) e _) as [[[t bl] s']|] eqn:D; [|discriminate]. intros H; injection H as <-. econstructor. exact D.
  - destruct (s_word_at s pos) as [i|] eqn:E; [|intros H; injection H as <-; apply ex_let_nowhere, E].
    destruct (value e s) as [t|] eqn:V; [|discriminate]. destruct (nth_error (s_words s) i) as [w|] eqn:W; [|discriminate]. destruct (put sd w part t q) as [w'|] eqn:P; [|discriminate].
    intros H; injection H as <-. eapply ex_let_clip; eassumption.
Qed.
Lemma modcase_f l e s s1 : f_modcase l e s = Some s1 -> Exec (IModCase l e) s (-1) s1.
Proof.
  unfold f_modcase. destruct dict_case eqn:DC; [intros H; injection H as <-; apply ex_case_dict; reflexivity|].
  destruct (TransferRules.value attr_match copy_case case_from get_case false e s) as [t|] eqn:V; [|discriminate]. destruct l as [id n|id sd part pos q].
  - intros H; injection H as <-. apply ex_case_var; [reflexivity|exact V].
  - destruct (s_word_at s pos) as [i|] eqn:E; [|discriminate]. destruct (nth_error (s_words s) i) as [w|] eqn:W; [|discriminate].
    destruct (put sd w part _ true) as [w'|] eqn:P; [|discriminate]. intros H; injection H as <-. eapply ex_case_clip; try eassumption. reflexivity.
Qed.
Lemma ptrs_args st l ps : ptrs st l = Some ps <-> Forall2 (arg (proj st)) l ps.
Proof.
  revert ps. induction l as [|a l IH]; intros ps; cbn [ptrs].
  - split; [intros H; injection H as <-; constructor|intros H; inversion H; reflexivity].
  - split.
    + destruct (raw_ptr st a) as [p|] eqn:R; [|discriminate]. destruct (ptrs st l) as [l'|]; [|discriminate]. intros H; injection H as <-. constructor; [|apply IH; reflexivity].
      unfold raw_ptr in R. unfold arg. cbn [proj s_frame]. destruct (r_frame st) as [fr|]; [|discriminate]. destruct (Z.ltb_spec a 0); [discriminate|]. exists fr. split; [reflexivity|]. split; [assumption|exact R].
    + intros H. inversion H as [|? p ? l' (fr & F & A & E) H']; subst. cbn [proj s_frame] in F. unfold raw_ptr. rewrite F. destruct (Z.ltb_spec a 0); [lia|]. rewrite E, (proj2 (IH l') H'). reflexivity.
Qed.
Lemma frame_inv st fr : Inv plain st -> Inv plain (with_frame st fr).
Proof. intros [A [C G]]. split; [exact A|]. split; [exact C|exact G]. Qed.
Lemma macro_wf n npar body : nth_error macro_map n = Some (npar, body) -> incl (flat_map nodes_i body) N /\ forallb simple_i body = true.
Proof. intros E. rewrite Forall_forall in HM. apply (HM (npar, body)), (nth_error_In _ _ E). Qed.

(** from the program to the specification *)
Definition sound_call (cl : str -> list Z -> rst -> option rst) : Prop :=
  forall n args st st', Inv plain st -> cl n args st = Some st' -> Exec (ICall n args) (proj st) (-1) (proj st') /\ Inv plain st'.
Definition sound (cl : str -> list Z -> rst -> option rst) (i : instr) : Prop :=
  forall st z st', Inv plain st -> incl (nodes_i i) N -> simple_i i = true -> run cl i st = Some (z, st') -> Exec i (proj st) z (proj st') /\ Inv plain st'.
Lemma sound_list cl l : Forall (sound cl) l -> forall st z st', Inv plain st -> incl (flat_map nodes_i l) N -> forallb simple_i l = true ->
  run_list cl l st = Some (z, st') -> Seq l (proj st) z (proj st') /\ Inv plain st'.
Proof.
  induction 1 as [|x l Hx H IH]; intros st z st' HI Hn Hs E; cbn [TransferRules.run_list] in E; [injection E as <- <-; split; [constructor|exact HI]|].
  cbn [flat_map forallb] in Hn, Hs. apply incl_app_inv in Hn as [Hn1 Hn2]. apply andb_prop in Hs as [Hs1 Hs2]. destruct (run cl x st) as [[z1 st1]|] eqn:E1; [|discriminate].
  destruct (Hx _ _ _ HI Hn1 Hs1 E1) as [X1 I1]. destruct (Z.eqb_spec z1 (-1)).
  - subst. destruct (IH _ _ _ I1 Hn2 Hs2 E) as [X2 I2]. split; [eapply sq_go; eassumption|exact I2].
  - injection E as <- <-. split; [apply sq_stop; assumption|exact I1].
Qed.
Lemma sound_run cl : sound_call cl -> forall i, sound cl i.
Proof.
  intros HC i. induction i as [l e|n l|l|l e|n args|z0|l IH] using instr_ind2; intros st z st' HI Hn Hs E.
  - cbn [TransferRules.run] in E. assert (K := do_let_ok l e st HI Hn Hs). destruct (f_let l e (proj st)) as [s'|] eqn:F; cbn [basic_ok] in K; [|rewrite K in E; discriminate].
    destruct K as (st1 & K & P & I1). rewrite K in E. injection E as <- <-. split; [rewrite P; apply let_f, F|exact I1].
  - cbn [TransferRules.run] in E. assert (K := do_append_ok n l st HI Hn Hs). destruct (f_append n l (proj st)) as [s'|] eqn:F; cbn [basic_ok] in K; [|rewrite K in E; discriminate].
    destruct K as (st1 & K & P & I1). rewrite K in E. injection E as <- <-. split; [rewrite P; apply ex_append, appended_f, F|exact I1].
  - cbn [TransferRules.run] in E. assert (K := do_out_ok l st HI Hn Hs). destruct (f_out l (proj st)) as [s'|] eqn:F; cbn [basic_ok] in K; [|rewrite K in E; discriminate].
    destruct K as (st1 & K & P & I1). rewrite K in E. injection E as <- <-. split; [rewrite P; apply ex_out, printed_f, F|exact I1].
  - cbn [TransferRules.run] in E. assert (K := do_modcase_ok l e st HI Hn Hs). destruct (f_modcase l e (proj st)) as [s'|] eqn:F; cbn [basic_ok] in K; [|rewrite K in E; discriminate].
    destruct K as (st1 & K & P & I1). rewrite K in E. injection E as <- <-. split; [rewrite P; apply modcase_f, F|exact I1].
  - cbn [TransferRules.run] in E. destruct (cl n args st) as [st1|] eqn:E1; [|discriminate]. injection E as <- <-. apply (HC _ _ _ _ HI E1).
  - injection E as <- <-. split; [constructor|exact HI].
  - rewrite run_choose in E. cbn [nodes_i simple_i] in Hn, Hs.
    assert (K : Choose l (proj st) z (proj st') /\ Inv plain st'); [|split; [apply ex_choose, K|apply K]].
    revert st HI E. induction IH as [|[[c|] b] l Hb H IHl]; intros st HI E; cbn [TransferRules.run_opts] in E; [injection E as <- <-; split; [constructor|exact HI]| |];
      cbn [flat_map forallb fst snd] in Hn, Hs; apply incl_app_inv in Hn as [Hn1 Hn2]; apply incl_app_inv in Hn1 as [Hn0 Hn1]; apply andb_prop in Hs as [Hs1 Hs2]; apply andb_prop in Hs1 as [Hs0 Hs1].
    + assert (T := test_holds c st HI Hn0 Hs0). destruct (holds c (proj st)) as [[]|] eqn:HH; [| |rewrite T in E; discriminate]; destruct T as (st1 & T & P1 & I1); rewrite T in E.
      * destruct (sound_list cl b Hb _ _ _ I1 Hn1 Hs1 E) as [X I2]. rewrite P1 in X. split; [apply ch_when; assumption|exact I2].
      * destruct (IHl Hn2 Hs2 _ I1 E) as [X I2]. rewrite P1 in X. split; [apply ch_skip; assumption|exact I2].
    + destruct (run_list cl b st) as [[z1 st1]|] eqn:E1; [|discriminate]. destruct (sound_list cl b Hb _ _ _ HI Hn1 Hs1 E1) as [X I1]. destruct (Z.eqb_spec z1 (-1)).
      * subst. destruct (IHl Hn2 Hs2 _ I1 E) as [X2 I2]. split; [eapply ch_other_go; eassumption|exact I2].
      * injection E as <- <-. split; [apply ch_other; assumption|exact I1].
Qed.
Lemma sound_body cl l : sound_call cl -> forall st st', Inv plain st -> incl (flat_map nodes_i l) N -> forallb simple_i l = true ->
  run_macro cl l st = Some st' -> Body l (proj st) (proj st') /\ Inv plain st'.
Proof.
  intros HC. induction l as [|x l IH]; intros st st' HI Hn Hs E; cbn [TransferRules.run_macro] in E; [injection E as <-; split; [constructor|exact HI]|].
  cbn [flat_map forallb] in Hn, Hs. apply incl_app_inv in Hn as [Hn1 Hn2]. apply andb_prop in Hs as [Hs1 Hs2]. destruct (run cl x st) as [[z1 st1]|] eqn:E1; [|discriminate].
  destruct (sound_run cl HC x _ _ _ HI Hn1 Hs1 E1) as [X1 I1]. destruct (IH _ _ I1 Hn2 Hs2 E) as [X2 I2]. split; [eapply bd_cons; eassumption|exact I2].
Qed.
Lemma sound_fuel f : sound_call (call f).
Proof.
  induction f as [|f IH]; intros n args st st' HI E; [discriminate|]. cbn [TransferRules.call] in E. destruct (nth_error macro_map (macros n)) as [[npar body]|] eqn:M; [|discriminate].
  destruct (macro_wf _ _ _ M) as [Hn Hs]. destruct npar as [|k].
  - destruct (run_macro (call f) body (with_frame st None)) as [st1|] eqn:E1; [|discriminate]. injection E as <-.
    destruct (sound_body _ body IH _ _ (frame_inv st None HI) Hn Hs E1) as [X I1]. split; [|apply frame_inv, I1].
    apply (ex_call0 _ _ _ _ _ _ _ _ _ _ n args body (proj st) (proj st1)); [exact M|exact X].
  - destruct (S k <? length args) eqn:L.
    + apply Nat.ltb_lt in L. destruct (ptrs st (firstn (S k) args)) as [ps|] eqn:PS; [|discriminate]. injection E as <-. split; [|exact HI].
      eapply ex_call_extra; [exact M|lia|exact L|]. apply ptrs_args, PS.
    + apply Nat.ltb_ge in L. destruct (ptrs st args) as [ps|] eqn:PS; [|discriminate].
      destruct (run_macro (call f) body (with_frame st (Some (ps ++ repeat None (S k - length args))))) as [st1|] eqn:E1; [|discriminate]. injection E as <-.
      destruct (sound_body _ body IH _ _ (frame_inv st _ HI) Hn Hs E1) as [X I1]. split; [|apply frame_inv, I1].
      apply (ex_call _ _ _ _ _ _ _ _ _ _ n args (S k) body ps (proj st) (proj st1)); [exact M|lia|exact L|apply ptrs_args, PS|exact X].
Qed.

(** from the specification to the program *)
Scheme Exec_mi := Minimality for TransferRules.Exec Sort Prop
  with Appended_mi := Minimality for TransferRules.Appended Sort Prop
  with Printed_mi := Minimality for TransferRules.Printed Sort Prop
  with Seq_mi := Minimality for TransferRules.Seq Sort Prop
  with Choose_mi := Minimality for TransferRules.Choose Sort Prop
  with Body_mi := Minimality for TransferRules.Body Sort Prop.

Definition cmpl {A} (wf : Prop) (r : nat -> rst -> option A) (st_of : A -> rst) (res : A -> Prop) (s s' : sst) : Prop :=
  forall st, Inv plain st -> proj st = s -> wf -> exists f0 x, (forall f, f0 <= f -> r f st = Some x) /\ res x /\ proj (st_of x) = s' /\ Inv plain (st_of x).
Definition C_exec (i : instr) (s : sst) (z : Z) (s' : sst) : Prop :=
  cmpl (incl (nodes_i i) N /\ simple_i i = true) (fun f st => run (call f) i st) snd (fun x => fst x = z) s s'.
Definition C_seq (l : list instr) (s : sst) (z : Z) (s' : sst) : Prop :=
  cmpl (incl (flat_map nodes_i l) N /\ forallb simple_i l = true) (fun f st => run_list (call f) l st) snd (fun x => fst x = z) s s'.
Definition C_choose (l : list (option cond * list instr)) (s : sst) (z : Z) (s' : sst) : Prop :=
  cmpl (incl (nodes_i (IChoose l)) N /\ simple_i (IChoose l) = true) (fun f st => run_opts (call f) l st) snd (fun x => fst x = z) s s'.
Definition C_body (l : list instr) (s s' : sst) : Prop :=
  cmpl (incl (flat_map nodes_i l) N /\ forallb simple_i l = true) (fun f st => run_macro (call f) l st) (fun x => x) (fun _ => True) s s'.

Lemma basic_complete (i : instr) (d : rst -> option rst) (f : sst -> option sst) s s' :
  (forall fu st, run (call fu) i st = match d st with Some st1 => Some ((-1)%Z, st1) | None => None end) ->
  (forall st, Inv plain st -> incl (nodes_i i) N -> simple_i i = true -> basic_ok (d st) (f (proj st))) ->
  f s = Some s' -> C_exec i s (-1) s'.
Proof.
  intros HR HB HF st HI HP [Hn Hs]. specialize (HB st HI Hn Hs). rewrite HP, HF in HB. destruct HB as (st' & E & P & I').
  exists 0, ((-1)%Z, st'). split; [intros fu _; rewrite HR, E; reflexivity|]. split; [reflexivity|]. split; [exact P|exact I'].
Qed.
Lemma complete_all : (forall i s z s', Exec i s z s' -> C_exec i s z s') /\ (forall l s z s', Seq l s z s' -> C_seq l s z s').
Proof.
  assert (E1 : forall id n e s t bl s1, den (in_let n) e (s_set_vwb s (upd (s_vwb s) n [])) = Some (t, bl, s1) -> C_exec (ILet (LVar id n) e) s (-1) (s_set_vars s1 (upd (s_vars s1) n t))).
  { intros id n e s t bl s1 D. apply (basic_complete _ (do_let (LVar id n) e) (f_let (LVar id n) e)); [reflexivity|intros; apply do_let_ok; assumption|]. cbn [f_let]. rewrite D. reflexivity. }
  assert (E2 : forall id sd part pos q e s i w t w', s_word_at s pos = Some i -> value e s = Some t -> nth_error (s_words s) i = Some w -> put sd w part t q = Some w' ->
    C_exec (ILet (LClip id sd part pos q) e) s (-1) (s_set_word s i w')).
  { intros id sd part pos q e s i w t w' E V W P. apply (basic_complete _ (do_let (LClip id sd part pos q) e) (f_let (LClip id sd part pos q) e)); [reflexivity|intros; apply do_let_ok; assumption|].
    cbn [f_let]. rewrite E, V, W, P. reflexivity. }
  assert (E3 : forall id sd part pos q e s, s_word_at s pos = None -> C_exec (ILet (LClip id sd part pos q) e) s (-1) s).
  { intros id sd part pos q e s E. apply (basic_complete _ (do_let (LClip id sd part pos q) e) (f_let (LClip id sd part pos q) e)); [reflexivity|intros; apply do_let_ok; assumption|].
    cbn [f_let]. rewrite E. reflexivity. }
  assert (E4 : forall n l s s1, Appended n l s s1 -> f_append n l s = Some s1 -> C_exec (IAppend n l) s (-1) s1).
  { intros n l s s1 _ A. apply (basic_complete _ (do_append n l) (f_append n l)); [reflexivity|intros; apply do_append_ok; assumption|exact A]. }
  assert (E5 : forall l s s1, Printed l s s1 -> f_out l s = Some s1 -> C_exec (IOut l) s (-1) s1).
  { intros l s s1 _ A. apply (basic_complete _ (do_out l) (f_out l)); [reflexivity|intros; apply do_out_ok; assumption|exact A]. }
  assert (E6 : forall l e s, dict_case = true -> C_exec (IModCase l e) s (-1) s).
  { intros l e s DC. apply (basic_complete _ (do_modcase l e) (f_modcase l e)); [reflexivity|intros; apply do_modcase_ok; assumption|]. unfold f_modcase. rewrite DC. reflexivity. }
  assert (E7 : forall id sd part pos q e s i w t w', dict_case = false -> value e s = Some t -> s_word_at s pos = Some i -> nth_error (s_words s) i = Some w ->
    put sd w part (copy_case t (get sd w part q)) true = Some w' -> C_exec (IModCase (LClip id sd part pos q) e) s (-1) (s_set_word s i w')).
  { intros id sd part pos q e s i w t w' DC V E W P. apply (basic_complete _ (do_modcase (LClip id sd part pos q) e) (f_modcase (LClip id sd part pos q) e)); [reflexivity|intros; apply do_modcase_ok; assumption|].
    unfold f_modcase. rewrite DC. rewrite DC in V. rewrite V, E, W, P. reflexivity. }
  assert (E8 : forall id n e s t, dict_case = false -> value e s = Some t -> C_exec (IModCase (LVar id n) e) s (-1) (s_set_vars s (upd (s_vars s) n (copy_case t (s_vars s n))))).
  { intros id n e s t DC V. apply (basic_complete _ (do_modcase (LVar id n) e) (f_modcase (LVar id n) e)); [reflexivity|intros; apply do_modcase_ok; assumption|].
    unfold f_modcase. rewrite DC. rewrite DC in V. rewrite V. reflexivity. }
  assert (E9 : forall n args npar body ps s s1, nth_error macro_map (macros n) = Some (npar, body) -> npar <> 0 -> length args <= npar -> Forall2 (arg s) args ps ->
     Body body (s_set_frame s (Some (ps ++ repeat None (npar - length args)))) s1 -> C_body body (s_set_frame s (Some (ps ++ repeat None (npar - length args)))) s1 ->
     C_exec (ICall n args) s (-1) (s_set_frame s1 (s_frame s))).
  { intros n args npar body ps s s1 M Hnp L A _ IH st HI HP [Hn Hs]. subst s. destruct (macro_wf _ _ _ M) as [Wn Ws].
    destruct (IH (with_frame st (Some (ps ++ repeat None (npar - length args)))) (frame_inv _ _ HI) eq_refl (conj Wn Ws)) as (f0 & st1 & K & _ & P & I1).
    exists (S f0), ((-1)%Z, with_frame st1 (r_frame st)). split; [|split; [reflexivity|]; split; [cbn [snd]; rewrite <- P; reflexivity|apply frame_inv, I1]].
    intros f Hf. destruct f as [|f]; [lia|]. cbn [TransferRules.run TransferRules.call]. rewrite M. destruct npar as [|k]; [contradiction|].
    rewrite (proj2 (Nat.ltb_ge _ _) L), (proj2 (ptrs_args st args ps) A), (K f) by lia. reflexivity. }
  assert (E10 : forall n args body s s1, nth_error macro_map (macros n) = Some (0, body) -> Body body (s_set_frame s None) s1 -> C_body body (s_set_frame s None) s1 ->
     C_exec (ICall n args) s (-1) (s_set_frame s1 (s_frame s))).
  { intros n args body s s1 M _ IH st HI HP [Hn Hs]. subst s. destruct (macro_wf _ _ _ M) as [Wn Ws].
    destruct (IH (with_frame st None) (frame_inv _ _ HI) eq_refl (conj Wn Ws)) as (f0 & st1 & K & _ & P & I1).
    exists (S f0), ((-1)%Z, with_frame st1 (r_frame st)). split; [|split; [reflexivity|]; split; [cbn [snd]; rewrite <- P; reflexivity|apply frame_inv, I1]].
    intros f Hf. destruct f as [|f]; [lia|]. cbn [TransferRules.run TransferRules.call]. rewrite M, (K f) by lia. reflexivity. }
  assert (E11 : forall n args npar body ps s, nth_error macro_map (macros n) = Some (npar, body) -> npar <> 0 -> npar < length args -> Forall2 (arg s) (firstn npar args) ps -> C_exec (ICall n args) s (-1) s).
  { intros n args npar body ps s M Hnp L A st HI HP [Hn Hs]. subst s. exists 1, ((-1)%Z, st). split; [|split; [reflexivity|]; split; [reflexivity|exact HI]].
    intros f Hf. destruct f as [|f]; [lia|]. cbn [TransferRules.run TransferRules.call]. rewrite M.
    destruct npar as [|k]; [contradiction|]. rewrite (proj2 (Nat.ltb_lt _ _) L). rewrite (proj2 (ptrs_args st (firstn (S k) args) ps) A). reflexivity. }
  assert (E12 : forall z s, C_exec (IReject z) s z s) by (intros z s st HI HP _; exists 0, (z, st); split; [reflexivity|]; split; [reflexivity|]; split; [exact HP|exact HI]).
  assert (E13 : forall l s z s1, Choose l s z s1 -> C_choose l s z s1 -> C_exec (IChoose l) s z s1).
  { intros l s z s1 _ IH st HI HP W. destruct (IH st HI HP W) as (f0 & x & K & X). exists f0, x. split; [intros f Hf; rewrite run_choose; apply K, Hf|exact X]. }
  assert (E14 : forall n s, f_append n [] s = Some s) by reflexivity.
  assert (E15 : forall n e l s t bl s1 s2, den (in_let n) e s = Some (t, bl, s1) -> Appended n l (s_set_vars s1 (upd (s_vars s1) n (s_vars s1 n ++ t))) s2 ->
     f_append n l (s_set_vars s1 (upd (s_vars s1) n (s_vars s1 n ++ t))) = Some s2 -> f_append n (e :: l) s = Some s2) by (intros n e l s t bl s1 s2 D _ IH; cbn [f_append]; rewrite D; exact IH).
  assert (E16 : forall s, f_out [] s = Some s) by reflexivity.
  assert (E17 : forall e l s t bl s1 s2, den in_out e s = Some (t, bl, s1) -> Printed l (s_set_out s1 (s_out s1 ++ t)) s2 -> f_out l (s_set_out s1 (s_out s1 ++ t)) = Some s2 -> f_out (e :: l) s = Some s2)
    by (intros e l s t bl s1 s2 D _ IH; cbn [f_out]; rewrite D; exact IH).
  assert (E18 : forall s, C_seq [] s (-1) s) by (intros s st HI HP _; exists 0, ((-1)%Z, st); split; [reflexivity|]; split; [reflexivity|]; split; [exact HP|exact HI]).
  assert (E19 : forall i l s s1 z s2, Exec i s (-1) s1 -> C_exec i s (-1) s1 -> Seq l s1 z s2 -> C_seq l s1 z s2 -> C_seq (i :: l) s z s2).
  { intros i l s s1 z s2 _ IH1 _ IH2 st HI HP [Hn Hs]. cbn [flat_map forallb] in Hn, Hs. apply incl_app_inv in Hn as [Hn1 Hn2]. apply andb_prop in Hs as [Hs1 Hs2].
    destruct (IH1 st HI HP (conj Hn1 Hs1)) as (f1 & [z1 st1] & K1 & Z1 & P1 & I1). cbn [fst snd] in *. subst z1.
    destruct (IH2 st1 I1 P1 (conj Hn2 Hs2)) as (f2 & x & K2 & X). exists (Nat.max f1 f2), x. split; [|exact X].
    intros f Hf. cbn [TransferRules.run_list]. rewrite K1 by lia. rewrite Z.eqb_refl. apply K2. lia. }
  assert (E20 : forall i l s z s1, Exec i s z s1 -> C_exec i s z s1 -> z <> (-1)%Z -> C_seq (i :: l) s z s1).
  { intros i l s z s1 _ IH Hz st HI HP [Hn Hs]. cbn [flat_map forallb] in Hn, Hs. apply incl_app_inv in Hn as [Hn1 Hn2]. apply andb_prop in Hs as [Hs1 Hs2].
    destruct (IH st HI HP (conj Hn1 Hs1)) as (f1 & [z1 st1] & K1 & Z1 & X). cbn [fst] in Z1. subst z1. exists f1, (z, st1). split; [|split; [reflexivity|exact X]].
    intros f Hf. cbn [TransferRules.run_list]. rewrite K1 by lia. rewrite (proj2 (Z.eqb_neq _ _) Hz). reflexivity. }
  assert (E21 : forall s, C_choose [] s (-1) s) by (intros s st HI HP _; exists 0, ((-1)%Z, st); split; [reflexivity|]; split; [reflexivity|]; split; [exact HP|exact HI]).
  assert (W : forall o b l, incl (nodes_i (IChoose ((o, b) :: l))) N /\ simple_i (IChoose ((o, b) :: l)) = true ->
    (incl (match o with Some c => nodes_c c | None => [] end) N /\ match o with Some c => simple_c c | None => true end = true) /\
    (incl (flat_map nodes_i b) N /\ forallb simple_i b = true) /\ (incl (nodes_i (IChoose l)) N /\ simple_i (IChoose l) = true)).
  { intros o b l [Hn Hs]. cbn [nodes_i simple_i flat_map forallb fst snd] in Hn, Hs |- *. apply incl_app_inv in Hn as [Hn1 Hn2]; apply incl_app_inv in Hn1 as [Hn0 Hn1]; apply andb_prop in Hs as [Hs1 Hs2]; apply andb_prop in Hs1 as [Hs0 Hs1].
    split; [split; assumption|]. split; split; assumption. }
  assert (E22 : forall c b l s z s1, holds c s = Some true -> Seq b s z s1 -> C_seq b s z s1 -> C_choose ((Some c, b) :: l) s z s1).
  { intros c b l s z s1 T _ IH st HI HP H. destruct (W _ _ _ H) as ([Hn0 Hs0] & Wb & Wl). assert (TT := test_holds c st HI Hn0 Hs0). rewrite HP, T in TT. destruct TT as (st1 & TT & P1 & I1).
    destruct (IH st1 I1 (eq_trans P1 HP) Wb) as (f0 & x & K & X). exists f0, x. split; [|exact X]. intros f Hf. cbn [TransferRules.run_opts]. rewrite TT. apply K, Hf. }
  assert (E23 : forall c b l s z s1, holds c s = Some false -> Choose l s z s1 -> C_choose l s z s1 -> C_choose ((Some c, b) :: l) s z s1).
  { intros c b l s z s1 T _ IH st HI HP H. destruct (W _ _ _ H) as ([Hn0 Hs0] & Wb & Wl). assert (TT := test_holds c st HI Hn0 Hs0). rewrite HP, T in TT. destruct TT as (st1 & TT & P1 & I1).
    destruct (IH st1 I1 (eq_trans P1 HP) Wl) as (f0 & x & K & X). exists f0, x. split; [|exact X]. intros f Hf. cbn [TransferRules.run_opts]. rewrite TT. apply K, Hf. }
  assert (E24 : forall b l s z s1, Seq b s z s1 -> C_seq b s z s1 -> z <> (-1)%Z -> C_choose ((None, b) :: l) s z s1).
  { intros b l s z s1 _ IH Hz st HI HP H. destruct (W _ _ _ H) as (_ & Wb & Wl). destruct (IH st HI HP Wb) as (f0 & [z1 st1] & K & Z1 & X). cbn [fst] in Z1. subst z1. exists f0, (z, st1). split; [|split; [reflexivity|exact X]].
    intros f Hf. cbn [TransferRules.run_opts]. rewrite K by exact Hf. rewrite (proj2 (Z.eqb_neq _ _) Hz). reflexivity. }
  assert (E25 : forall b l s s1 z s2, Seq b s (-1) s1 -> C_seq b s (-1) s1 -> Choose l s1 z s2 -> C_choose l s1 z s2 -> C_choose ((None, b) :: l) s z s2).
  { intros b l s s1 z s2 _ IH1 _ IH2 st HI HP H. destruct (W _ _ _ H) as (_ & Wb & Wl). destruct (IH1 st HI HP Wb) as (f1 & [z1 st1] & K1 & Z1 & P1 & I1). cbn [fst snd] in *. subst z1.
    destruct (IH2 st1 I1 P1 Wl) as (f2 & x & K2 & X). exists (Nat.max f1 f2), x. split; [|exact X]. intros f Hf. cbn [TransferRules.run_opts]. rewrite K1 by lia. rewrite Z.eqb_refl. apply K2. lia. }
  assert (E26 : forall s, C_body [] s s) by (intros s st HI HP _; exists 0, st; split; [reflexivity|]; split; [exact I|]; split; [exact HP|exact HI]).
  assert (E27 : forall i l s z s1 s2, Exec i s z s1 -> C_exec i s z s1 -> Body l s1 s2 -> C_body l s1 s2 -> C_body (i :: l) s s2).
  { intros i l s z s1 s2 _ IH1 _ IH2 st HI HP [Hn Hs]. cbn [flat_map forallb] in Hn, Hs. apply incl_app_inv in Hn as [Hn1 Hn2]. apply andb_prop in Hs as [Hs1 Hs2].
    destruct (IH1 st HI HP (conj Hn1 Hs1)) as (f1 & [z1 st1] & K1 & Z1 & P1 & I1). cbn [fst snd] in *. subst z1.
    destruct (IH2 st1 I1 P1 (conj Hn2 Hs2)) as (f2 & x & K2 & X). exists (Nat.max f1 f2), x. split; [|exact X].
    intros f Hf. cbn [TransferRules.run_macro]. rewrite K1 by lia. apply K2. lia. }
  split.
  - apply (Exec_mi attr_match attr_replace copy_case case_from get_case lower lists dict_case macros macro_map
      C_exec (fun n l s s' => f_append n l s = Some s') (fun l s s' => f_out l s = Some s') C_seq C_choose C_body); assumption.
  - apply (Seq_mi attr_match attr_replace copy_case case_from get_case lower lists dict_case macros macro_map
      C_exec (fun n l s s' => f_append n l s = Some s') (fun l s s' => f_out l s = Some s') C_seq C_choose C_body); assumption.
Qed.
(** a rule *)
Notation process_rule := (process_rule attr_match attr_replace copy_case case_from get_case lower lists dict_case macros macro_map).
Notation Rule := (Rule attr_match attr_replace copy_case case_from get_case lower lists dict_case macros macro_map).
Lemma flush_spec l : flush l = concat (filter (fun b => negb (str_eqb b [cSP])) l).
Proof. induction l as [|b l IH]; [reflexivity|]. cbn. destruct (str_eqb b [cSP]); cbn; rewrite <- IH; reflexivity. Qed.
Theorem rule_correct body st : Inv plain st -> incl (flat_map nodes_i body) N -> forallb simple_i body = true ->
  (forall f z st', process_rule f body st = Some (z, st') -> Rule body (proj st) z (proj st') /\ Inv plain st') /\
  (forall z s', Rule body (proj st) z s' -> exists f0 st', (forall f, f0 <= f -> process_rule f body st = Some (z, st')) /\ proj st' = s' /\ Inv plain st').
Proof.
  intros HI Hn Hs. split.
  - intros f z st' E. unfold TransferRules.process_rule in E. destruct (run_list (call f) body st) as [[z1 st1]|] eqn:E1; [|discriminate]. injection E as <- <-.
    assert (SS : Forall (sound (call f)) body) by (apply Forall_forall; intros x _; apply sound_run, sound_fuel).
    destruct (sound_list _ body SS _ _ _ HI Hn Hs E1) as [X I1]. split; [|exact I1]. exists (proj st1). split; [exact X|]. rewrite flush_spec. reflexivity.
  - intros z s' (s1 & X & ->). destruct (proj2 complete_all _ _ _ _ X st HI eq_refl (conj Hn Hs)) as (f0 & [z1 st1] & K & Z1 & P1 & I1). cbn [fst snd] in *. subst z1.
    exists f0, (with_bq (with_out st1 (r_out st1 ++ flush (r_bq st1))) []). split; [|split; [rewrite flush_spec, <- P1; reflexivity|exact I1]].
    intros f Hf. unfold TransferRules.process_rule. rewrite K by exact Hf. reflexivity.
Qed.
End Ref.
