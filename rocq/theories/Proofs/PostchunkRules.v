From Coq Require Import String ZArith.
From Verif Require Import Model.Base Proofs.Base Model.TransferRules Spec.TransferRules Proofs.TransferRules Model.Interchunk Model.PostchunkRules Spec.PostchunkRules.

Section ExprInd.
Variable P : pexpr -> Prop.
Hypothesis H1 : forall id part pos, P (QClip id part pos).
Hypothesis H2 : forall id v, P (QLit id v).
Hypothesis H2t : forall id v, P (QLitTag id v).
Hypothesis H3 : forall id, P (QB id).
Hypothesis H4 : forall id n, P (QVar id n).
Hypothesis H4c : forall id, P (QCount id).
Hypothesis H5 : forall id part pos, P (QCaseOf id part pos).
Hypothesis H6 : forall id pos e, P e -> P (QCaseFrom id pos e).
Hypothesis H7 : forall l, Forall P l -> P (QConcat l).
Hypothesis H8 : forall l, Forall P l -> P (QLu l).
Hypothesis H9 : forall l, Forall (Forall P) l -> P (QMlu l).
Hypothesis H10 : P QOther.
Fixpoint pexpr_ind2 (e : pexpr) : P e :=
  let fl := fix fl (l : list pexpr) : Forall P l := match l with [] => Forall_nil _ | x :: r => Forall_cons _ (pexpr_ind2 x) (fl r) end in
  let fll := fix fll (l : list (list pexpr)) : Forall (Forall P) l := match l with [] => Forall_nil _ | x :: r => Forall_cons _ (fl x) (fll r) end in
  match e with
  | QClip id part pos => H1 id part pos
  | QLit id v => H2 id v
  | QLitTag id v => H2t id v
  | QB id => H3 id
  | QVar id n => H4 id n
  | QCount id => H4c id
  | QCaseOf id part pos => H5 id part pos
  | QCaseFrom id pos x => H6 id pos x (pexpr_ind2 x)
  | QConcat l => H7 l (fl l)
  | QLu l => H8 l (fl l)
  | QMlu l => H9 l (fll l)
  | QOther => H10
  end.
End ExprInd.
Section CondInd.
Variable P : pcond -> Prop.
Hypothesis H1 : forall cl a b, P (EEqual cl a b).
Hypothesis H2 : forall cl a b, P (EBegins cl a b).
Hypothesis H3 : forall cl a b, P (EEnds cl a b).
Hypothesis H4 : forall cl a b, P (EContains cl a b).
Hypothesis H5 : forall cl a b, P (EBeginsList cl a b).
Hypothesis H6 : forall cl a b, P (EEndsList cl a b).
Hypothesis H7 : forall cl a b, P (EIn cl a b).
Hypothesis H8 : forall l, Forall P l -> P (EAnd l).
Hypothesis H9 : forall l, Forall P l -> P (EOr l).
Hypothesis H10 : forall c, P c -> P (ENot c).
Fixpoint pcond_ind2 (c : pcond) : P c :=
  let fl := fix fl (l : list pcond) : Forall P l := match l with [] => Forall_nil _ | x :: r => Forall_cons _ (pcond_ind2 x) (fl r) end in
  match c with
  | EEqual cl a b => H1 cl a b | EBegins cl a b => H2 cl a b | EEnds cl a b => H3 cl a b | EContains cl a b => H4 cl a b
  | EBeginsList cl a b => H5 cl a b | EEndsList cl a b => H6 cl a b | EIn cl a b => H7 cl a b
  | EAnd l => H8 l (fl l) | EOr l => H9 l (fl l) | ENot c => H10 c (pcond_ind2 c)
  end.
End CondInd.
Section InstrInd.
Variable P : pinstr -> Prop.
Hypothesis H1 : forall l e, P (PLet l e).
Hypothesis H2 : forall n l, P (PAppend n l).
Hypothesis H3 : forall l, P (POut l).
Hypothesis H4 : forall l e, P (PModCase l e).
Hypothesis H5 : forall n a, P (PCall n a).
Hypothesis H6 : forall z, P (PReject z).
Hypothesis H7 : forall l, Forall (fun o => Forall P (snd o)) l -> P (PChoose l).
Fixpoint pinstr_ind2 (i : pinstr) : P i :=
  let fl := fix fl (l : list pinstr) : Forall P l := match l with [] => Forall_nil _ | x :: r => Forall_cons _ (pinstr_ind2 x) (fl r) end in
  let fo := fix fo (l : list (option pcond * list pinstr)) : Forall (fun o => Forall P (snd o)) l :=
    match l with [] => Forall_nil _ | x :: r => Forall_cons x (match x as y return Forall P (snd y) with (a, b) => fl b end) (fo r) end in
  match i with
  | PLet l e => H1 l e | PAppend n l => H2 n l | POut l => H3 l | PModCase l e => H4 l e | PCall n a => H5 n a | PReject z => H6 z
  | PChoose l => H7 l (fo l)
  end.
End InstrInd.


Lemma p_mlu_first ws : forall v, exists f, fold_left (fun a w => p_mlu_add (fst a) (snd a) w) ws (v, true) = (v ++ join ws, f).
Proof.
  assert (K : forall ws v, fst (fold_left (fun a w => p_mlu_add (fst a) (snd a) w) ws (v, false)) =
     v ++ flat_map (fun x => match x with c :: _ => if c =?c cHASH then x else cPLUS :: x | [] => [] end) (filter (fun w : str => match w with [] => false | _ => true end) ws)).
  { clear. induction ws as [|w ws IH]; intros v; cbn [fold_left filter flat_map]; [rewrite app_nil_r; reflexivity|]. unfold p_mlu_add at 2. cbn [fst snd].
    destruct w as [|c w]; [rewrite app_nil_r; apply IH|]. rewrite IH. cbn [flat_map]. destruct (c =?c cHASH); rewrite <- ?app_assoc; reflexivity. }
  induction ws as [|w ws IH]; intros v; [exists true; cbn; rewrite app_nil_r; reflexivity|]. cbn [fold_left]. unfold p_mlu_add at 2. cbn [fst snd].
  destruct w as [|c w]; [destruct (IH (v ++ [])) as [f E]; exists f; rewrite app_nil_r in E |- *; exact E|].
  assert (E := K ws (v ++ c :: w)). eexists. rewrite (surjective_pairing (fold_left _ ws (v ++ c :: w, false))).
  refine (f_equal2 pair (eq_trans E _) eq_refl). unfold join. cbn [filter]. rewrite <- app_assoc. reflexivity.
Qed.

(** ** the interpreter agrees with the specification *)
Section Ref.
Variable attr_match : str -> str -> str.
Variable attr_replace : str -> str -> str -> str.
Variable copy_case case_from : str -> str -> str.
Variable get_case lower : str -> str.
Variable itoa : nat -> str.
Variable lists : str -> list str.
Variable dict_case : bool.
Variable macros : str -> nat.
Variable macro_map : list (nat * list pinstr).
Variable N : list (nat * qinstr).
Hypothesis HN : pfunctional N.
Notation peval := (peval attr_match case_from get_case itoa).
Notation peval_list := (peval_list attr_match case_from get_case itoa).
Notation pden := (pden attr_match case_from get_case itoa).
Notation pden_list := (pden_list attr_match case_from get_case itoa).
Notation ptest := (ptest attr_match case_from get_case lower itoa lists).
Notation pholds := (pholds attr_match case_from get_case lower itoa lists).
Notation peval_mlu := (peval_mlu attr_match case_from get_case itoa).
Notation pvalue := (pvalue attr_match case_from get_case itoa).

Definition pproj (st : pst) : qst := mkq (p_words st) (p_frame st) (p_n st) (p_vars st) (p_vwb st) (p_bq st) (p_out st).
Definition pgoods (st : pst) : Prop := Forall (fun w => good_wb (pw_wb w)) (p_words st) /\ (forall n, good_wb (p_vwb st n)) /\ good_wb (p_owb st).
Definition pcache_ok (st : pst) : Prop := forall id t, p_cache st id = Some t -> In (id, t) N.
Definition pagree (c : ctx) (st : pst) : Prop :=
  p_in_lu st = c_lu c /\ p_in_out st = c_out c /\ match c_let c with Some n => p_in_let st = true /\ p_vv st = n | None => p_in_let st = false end.
Definition PInv (c : ctx) (st : pst) : Prop := pagree c st /\ pcache_ok st /\ pgoods st.

Fixpoint pden_parts (c : ctx) (l : list (list pexpr)) (s : qst) {struct l} : option (list str * list str * qst) :=
    match l with
    | [] => Some ([], [], s)
    | x :: r => match pden_list c x s with
                | Some (w, b1, s1) => match pden_parts c r s1 with Some (ws, b2, s2) => Some (w :: ws, b1 ++ b2, s2) | None => None end
                | None => None
                end
    end.
Lemma peval_concat l st : peval (QConcat l) st = peval_list l st.
Proof. reflexivity. Qed.
Lemma peval_lu l st : peval (QLu l) st =
  match peval_list l (pset_owb (pset_lu st true) []) with
  | Some (w, st1) => match p_single (pset_lu st1 false) with Some st2 => Some (p_unit (p_owb st2) w, st2) | None => None end
  | None => None
  end.
Proof. reflexivity. Qed.
Lemma peval_mlu_eq l st : peval (QMlu l) st =
  match peval_mlu l [] true (pset_owb (pset_lu st true) []) with
  | Some (w, st1) => match p_single (pset_lu st1 false) with Some st2 => Some (p_unit (p_owb st2) w, st2) | None => None end
  | None => None
  end.
Proof. reflexivity. Qed.
Lemma pden_concat c l s : pden c (QConcat l) s = pden_list c l s.
Proof. reflexivity. Qed.
Lemma pden_lu c l s : pden c (QLu l) s =
  match pden_list (mkc true (c_let c) (c_out c)) l s with
  | Some (w, bl, s1) => match own_wb s1 bl with Some wb => Some (unit_text wb w, [], s1) | None => None end
  | None => None
  end.
Proof. reflexivity. Qed.
Lemma pden_mlu c l s : pden c (QMlu l) s =
  match pden_parts (mkc true (c_let c) (c_out c)) l s with
  | Some (ws, bl, s1) => match own_wb s1 bl with Some wb => Some (unit_text wb (join ws), [], s1) | None => None end
  | None => None
  end.
Proof. reflexivity. Qed.

(* fetching a node's instruction *)
Lemma fetch_ok c st id ti : PInv c st -> In (id, ti) N -> exists st1, p_fetch st id ti = (ti, st1) /\ pproj st1 = pproj st /\ PInv c st1 /\ p_owb st1 = p_owb st.
Proof.
  intros [A [C G]] HI. unfold p_fetch. destruct (p_cache st id) as [t|] eqn:E.
  - rewrite (HN _ _ _ (C _ _ E) HI). exists st. split; [reflexivity|]. split; [reflexivity|]. split; [split; [exact A|split; [exact C|exact G]]|reflexivity].
  - exists (pcache_add st id ti). split; [reflexivity|]. split; [reflexivity|]. split; [|reflexivity]. split; [exact A|]. split; [|exact G].
    intros i t H. cbn in H. destruct (Nat.eqb_spec i id); [injection H as <-; subst; exact HI|apply C, H].
Qed.
Definition pstep_ok (c : ctx) (st : pst) (r : option (str * pst)) (d : option (str * list str * qst)) : Prop :=
  match d with
  | None => r = None
  | Some (t, bl, s') => exists st', r = Some (t, st') /\ pproj st' = s' /\ PInv c st' /\ (c_lu c = true -> p_owb st' = fold_left merge bl (p_owb st))
  end.
Lemma step_here c st t : PInv c st -> pstep_ok c st (Some (t, st)) (Some (t, [], pproj st)).
Proof. intros H. exists st. split; [reflexivity|]. split; [reflexivity|]. split; [exact H|reflexivity]. Qed.
Lemma step_eq c st st1 r d : p_owb st1 = p_owb st -> pstep_ok c st1 r d -> pstep_ok c st r d.
Proof. intros E H. unfold pstep_ok in *. destruct d as [[[t bl] s]|]; [|exact H]. rewrite <- E. exact H. Qed.

Lemma list_ok c l : Forall (fun e => forall st, PInv c st -> incl (pnodes_e e) N -> psimple_e (c_lu c) e = true -> pstep_ok c st (peval e st) (pden c e (pproj st))) l ->
  forall st, PInv c st -> incl (flat_map pnodes_e l) N -> forallb (psimple_e (c_lu c)) l = true -> pstep_ok c st (peval_list l st) (pden_list c l (pproj st)).
Proof.
  induction 1 as [|e l He H IH]; intros st HI Hn Hs.
  - apply step_here, HI.
  - cbn [flat_map forallb] in *. apply andb_prop in Hs as [Hs1 Hs2]. apply incl_app_inv in Hn as [Hn1 Hn2].
    specialize (He st HI Hn1 Hs1). cbn [PostchunkRules.peval_list PostchunkRules.pden_list]. destruct (pden c e (pproj st)) as [[[a b1] s1]|]; [|cbn in He |- *; rewrite He; reflexivity].
    destruct He as (st1 & E1 & P1 & I1 & O1). rewrite E1. specialize (IH st1 I1 Hn2 Hs2). rewrite P1 in IH.
    destruct (pden_list c l s1) as [[[b b2] s2]|]; [|cbn in IH |- *; rewrite IH; reflexivity].
    destruct IH as (st2 & E2 & P2 & I2 & O2). rewrite E2. exists st2. split; [reflexivity|]. split; [exact P2|]. split; [exact I2|].
    intros K. rewrite fold_left_app, <- (O1 K). apply O2, K.
Qed.
Lemma ptr_named st pos : p_ptr st pos = named (pproj st) pos.
Proof. reflexivity. Qed.
Lemma check_out st pos : p_check st pos = if outside (pproj st) pos then Some None else match named (pproj st) pos with Some i => Some (Some i) | None => None end.
Proof. unfold p_check, outside. rewrite <- ptr_named, orb_comm. change (last_pos (pproj st)) with (lword st). destruct (_ || _); [reflexivity|]. destruct (p_ptr st pos); reflexivity. Qed.
Lemma at_ok c st pos (f : pword -> option (str * pst)) g : PInv c st -> (forall w, good_wb (pw_wb w) -> pstep_ok c st (f w) (g w)) ->
  pstep_ok c st (p_at st pos f) (at_pos (pproj st) pos ([], [], pproj st) g).
Proof.
  intros HI H. unfold p_at, at_pos. rewrite check_out. destruct (outside (pproj st) pos); [apply step_here, HI|]. destruct (named (pproj st) pos) as [i|]; [|reflexivity].
  unfold p_obj. cbn [pproj q_words]. destruct (nth_error (p_words st) i) as [w|] eqn:E; [|reflexivity]. apply H. destruct HI as [_ [_ [G1 _]]]. rewrite Forall_forall in G1. apply G1, (nth_error_In _ _ E).
Qed.
Lemma parts_ok c l : Forall (Forall (fun e => forall st, PInv c st -> incl (pnodes_e e) N -> psimple_e (c_lu c) e = true -> pstep_ok c st (peval e st) (pden c e (pproj st)))) l ->
  forall st v fi, PInv c st -> incl (flat_map (flat_map pnodes_e) l) N -> forallb (forallb (psimple_e (c_lu c))) l = true ->
  match pden_parts c l (pproj st) with
  | None => peval_mlu l v fi st = None
  | Some (ws, bl, s') => exists st', peval_mlu l v fi st = Some (fst (fold_left (fun a w => p_mlu_add (fst a) (snd a) w) ws (v, fi)), st') /\ pproj st' = s' /\ PInv c st' /\
                                     (c_lu c = true -> p_owb st' = fold_left merge bl (p_owb st))
  end.
Proof.
  induction 1 as [|x l Hx H IH]; intros st v fi HI Hn Hs; cbn [pden_parts PostchunkRules.peval_mlu].
  - exists st. split; [reflexivity|]. split; [reflexivity|]. split; [exact HI|reflexivity].
  - cbn [flat_map forallb] in *. apply andb_prop in Hs as [Hs1 Hs2]. apply incl_app_inv in Hn as [Hn1 Hn2].
    assert (L := list_ok c x Hx st HI Hn1 Hs1). destruct (pden_list c x (pproj st)) as [[[w b1] s1]|]; [|cbn in L |- *; rewrite L; reflexivity].
    destruct L as (st1 & E1 & P1 & I1 & O1). rewrite E1. destruct (p_mlu_add v fi w) as [v2 f2] eqn:EM. specialize (IH st1 v2 f2 I1 Hn2 Hs2). rewrite P1 in IH.
    destruct (pden_parts c l s1) as [[[ws b2] s2]|]; [|exact IH]. destruct IH as (st2 & E2 & P2 & I2 & O2). exists st2. cbn [fold_left fst snd]. rewrite EM. split; [exact E2|]. split; [exact P2|]. split; [exact I2|].
    intros K. rewrite fold_left_app, <- (O1 K). apply O2, K.
Qed.
Lemma single_ok c st bl : PInv c st -> p_owb st = merges bl ->
  match own_wb (pproj st) bl with
  | None => p_single st = None
  | Some wb => exists st2, p_single st = Some st2 /\ p_owb st2 = wb /\ pproj st2 = pproj st /\ PInv c st2
  end.
Proof.
  intros [A [C G]] Ho. unfold own_wb, p_single. change (last_pos (pproj st)) with (lword st).
  destruct (Nat.eqb (lword st) 1); [|exists st; split; [reflexivity|split; [exact Ho|split; [reflexivity|split; [exact A|split; assumption]]]]].
  rewrite ptr_named. destruct (named (pproj st) 1) as [i|]; [|reflexivity].
  unfold p_obj. cbn [pproj q_words]. destruct (nth_error (p_words st) i) as [w|] eqn:E; [|reflexivity]. exists (pset_owb st (pw_wb w)). split; [reflexivity|]. split; [reflexivity|]. split; [reflexivity|].
  split; [exact A|]. split; [exact C|]. destruct G as (G1 & G2 & G3). split; [exact G1|]. split; [exact G2|]. cbn. apply nth_error_In in E. rewrite Forall_forall in G1. apply G1, E.
Qed.
Lemma take_ok c st part wb t : PInv c st -> good_wb wb ->
  pstep_ok c st (match p_take_wb st part wb with Some st' => Some (t, st') | None => None end)
   (if is_lemma part && (1 <? last_pos (pproj st)) then
                 if c_lu c then Some (t, [wb], pproj st)
                 else match c_let c with
                      | Some n => Some (t, [], q_set_vwb (pproj st) (upd (q_vwb (pproj st)) n (merge (q_vwb (pproj st) n) wb)))
                      | None => Some (t, [], pproj st)
                      end
               else Some (t, [], pproj st)).
Proof.
  intros HI Hwb. assert (HI0 := HI). destruct HI as [[A1 [A2 A3]] [C [G1 [G2 G3]]]]. unfold p_take_wb. change (last_pos (pproj st)) with (lword st). cbn [pproj q_vwb]. destruct (is_lemma part && (1 <? lword st)); [|apply step_here, HI0].
  rewrite A1. destruct (c_lu c) eqn:CL.
  - rewrite (combine_merge _ _ G3). eexists. split; [reflexivity|]. split; [reflexivity|]. split; [|reflexivity]. split; [split; [exact (eq_trans A1 (eq_sym CL))|split; assumption]|]. split; [exact C|].
    split; [exact G1|]. split; [exact G2|]. cbn. apply merge_good; assumption.
  - destruct (c_let c) as [n|] eqn:CT.
    + destruct A3 as [A3 A4]. rewrite A3, A4, (combine_merge _ _ (G2 n)). eexists. split; [reflexivity|]. split; [reflexivity|]. split; [|congruence].
      split; [split; [cbn; congruence|split; [exact A2|rewrite CT; split; assumption]]|]. split; [exact C|]. split; [exact G1|]. split; [|exact G3].
      intros m. cbn. unfold upd. destruct (str_eqb m n); [apply merge_good; [apply G2|exact Hwb]|apply G2].
    + rewrite A3. apply step_here, HI0.
Qed.

Lemma peval_den e : forall c st, PInv c st -> incl (pnodes_e e) N -> psimple_e (c_lu c) e = true -> pstep_ok c st (peval e st) (pden c e (pproj st)).
Proof.
  assert (UT : forall wb w, p_unit wb w = unit_text wb w) by (intros wb [|]; reflexivity).
  induction e as [id part pos|id v|id v|id|id n|id|id part pos|id pos e IH|l IH|l IH|l IH|] using pexpr_ind2; intros c st HI Hn Hs.
  - destruct (fetch_ok c st id (QiClip part pos) HI) as (st1 & E1 & P1 & I1 & O1); [apply Hn; left; reflexivity|]. cbn [PostchunkRules.peval]. rewrite E1. apply (step_eq c st st1 _ _ O1). rewrite <- P1.
    cbn [p_instr PostchunkRules.pden]. apply at_ok; [exact I1|]. intros w Hw. apply (take_ok c st1 part (pw_wb w) _ I1 Hw).
  - destruct (fetch_ok c st id (QiLit v) HI) as (st1 & E1 & P1 & I1 & O1); [apply Hn; left; reflexivity|]. cbn [PostchunkRules.peval]. rewrite E1. apply (step_eq c st st1 _ _ O1). rewrite <- P1. apply step_here, I1.
  - destruct (fetch_ok c st id (QiLit (lit_tags v)) HI) as (st1 & E1 & P1 & I1 & O1); [apply Hn; left; reflexivity|]. cbn [PostchunkRules.peval]. rewrite E1. apply (step_eq c st st1 _ _ O1). rewrite <- P1. apply step_here, I1.
  - destruct (fetch_ok c st id QiB HI) as (st1 & E1 & P1 & I1 & O1); [apply Hn; left; reflexivity|]. cbn [PostchunkRules.peval]. rewrite E1. apply (step_eq c st st1 _ _ O1). rewrite <- P1.
    cbn [p_instr PostchunkRules.pden]. cbn [pproj q_bq]. destruct (p_bq st1) as [|b0 bq] eqn:E; [apply step_here, I1|].
    assert (A2 : p_in_out st1 = c_out c) by apply I1. rewrite A2. destruct (c_out c) eqn:CO.
    + exists (pset_bq st1 bq). split; [reflexivity|]. split; [reflexivity|]. split; [|reflexivity]. destruct I1 as [[A1 [_ A3]] [C G]]. split; [split; [exact A1|split; [cbn; congruence|exact A3]]|split; assumption].
    + apply (step_here c st1 b0 I1).
  - destruct (fetch_ok c st id (QiVar n) HI) as (st1 & E1 & P1 & I1 & O1); [apply Hn; left; reflexivity|]. cbn [PostchunkRules.peval]. rewrite E1. apply (step_eq c st st1 _ _ O1). rewrite <- P1.
    cbn [p_instr PostchunkRules.pden]. change (last_pos (pproj st1)) with (lword st1). cbn [pproj q_vars q_vwb]. destruct (1 <? lword st1); [|apply (step_here c st1 _ I1)].
    assert (I2 := I1). destruct I2 as [A [C [G1 [G2 G3]]]]. rewrite (combine_merge _ _ G3). eexists. split; [reflexivity|]. split; [reflexivity|]. split; [|reflexivity].
    split; [exact A|]. split; [exact C|]. split; [exact G1|]. split; [exact G2|]. cbn. apply merge_good; [exact G3|apply G2].
  - destruct (fetch_ok c st id QiCount HI) as (st1 & E1 & P1 & I1 & O1); [apply Hn; left; reflexivity|]. cbn [PostchunkRules.peval]. rewrite E1. apply (step_eq c st st1 _ _ O1). rewrite <- P1. apply (step_here c st1 _ I1).
  - destruct (fetch_ok c st id (QiCaseOf part pos) HI) as (st1 & E1 & P1 & I1 & O1); [apply Hn; left; reflexivity|]. cbn [PostchunkRules.peval]. rewrite E1. apply (step_eq c st st1 _ _ O1). rewrite <- P1.
    cbn [p_instr PostchunkRules.pden]. apply at_ok; [exact I1|]. intros w _. apply (step_here c st1 _ I1).
  - destruct (fetch_ok c st id (QiCaseFrom pos) HI) as (st1 & E1 & P1 & I1 & O1); [apply Hn; left; reflexivity|]. cbn [PostchunkRules.peval]. rewrite E1. apply (step_eq c st st1 _ _ O1). rewrite <- P1.
    cbn [p_instr PostchunkRules.pden]. apply at_ok; [exact I1|]. intros w _.
    assert (IH' := IH c st1 I1 (fun x Hx => Hn x (or_intror Hx)) Hs). destruct (pden c e (pproj st1)) as [[[d bl] s1]|]; [|cbn in IH' |- *; rewrite IH'; reflexivity].
    destruct IH' as (st2 & E2 & P2 & I2 & O2). rewrite E2. exists st2. split; [reflexivity|]. split; [exact P2|]. split; [exact I2|exact O2].
  - rewrite peval_concat, pden_concat. apply list_ok; try assumption. apply Forall_forall. intros x Hx st0 HI0 Hn0 Hs0. rewrite Forall_forall in IH. apply (IH x Hx); assumption.
  - rewrite peval_lu, pden_lu. cbn [psimple_e] in Hs. apply andb_prop in Hs as [Hs1 Hs2]. apply negb_true_iff in Hs1.
    set (c' := mkc true (c_let c) (c_out c)) in *. set (st0 := pset_owb (pset_lu st true) []).
    assert (I0 : PInv c' st0). { destruct HI as [[A1 [A2 A3]] [C [G1 [G2 G3]]]]. split; [split; [reflexivity|split; [exact A2|exact A3]]|]. split; [exact C|]. split; [exact G1|]. split; [exact G2|]. apply good_nil. }
    assert (L := list_ok c' l). specialize (L ltac:(apply Forall_forall; intros x Hx st1 HI1 Hn1 Hs1'; rewrite Forall_forall in IH; apply (IH x Hx); assumption) st0 I0 Hn Hs2).
    change (pproj st) with (pproj st0). destruct (pden_list c' l (pproj st0)) as [[[w bl] s1]|]; [|cbn in L |- *; rewrite L; reflexivity].
    destruct L as (st1 & E1 & P1 & I1 & O1). rewrite E1.
    assert (I2 : PInv c (pset_lu st1 false)). { destruct I1 as [[A1 [A2 A3]] [C G]]. split; [split; [cbn; congruence|split; [exact A2|exact A3]]|]. split; [exact C|exact G]. }
    assert (S := single_ok c (pset_lu st1 false) bl I2 (O1 eq_refl)). change (pproj (pset_lu st1 false)) with (pproj st1) in S. rewrite P1 in S.
    destruct (own_wb s1 bl) as [wb|]; [|rewrite S; reflexivity]. destruct S as (st2 & E2 & W2 & P2 & I2'). rewrite E2, W2, UT. exists st2. split; [reflexivity|]. split; [exact P2|]. split; [exact I2'|]. congruence.
  - rewrite peval_mlu_eq, pden_mlu. cbn [psimple_e] in Hs. apply andb_prop in Hs as [Hs1 Hs2]. apply negb_true_iff in Hs1.
    set (c' := mkc true (c_let c) (c_out c)) in *. set (st0 := pset_owb (pset_lu st true) []).
    assert (I0 : PInv c' st0). { destruct HI as [[A1 [A2 A3]] [C [G1 [G2 G3]]]]. split; [split; [reflexivity|split; [exact A2|exact A3]]|]. split; [exact C|]. split; [exact G1|]. split; [exact G2|]. apply good_nil. }
    assert (L := parts_ok c' l). specialize (L ltac:(eapply Forall_impl; [|exact IH]; intros k Hk; eapply Forall_impl; [|exact Hk]; intros x Hx st1 HI1 Hn1 Hs1'; apply Hx; assumption) st0 [] true I0 Hn Hs2).
    change (pproj st) with (pproj st0). destruct (pden_parts c' l (pproj st0)) as [[[ws bl] s1]|]; [|rewrite L; reflexivity].
    destruct L as (st1 & E1 & P1 & I1 & O1). destruct (p_mlu_first ws []) as [ff EJ]. rewrite EJ in E1. cbn [fst app] in E1. rewrite E1.
    assert (I2 : PInv c (pset_lu st1 false)). { destruct I1 as [[A1 [A2 A3]] [C G]]. split; [split; [cbn; congruence|split; [exact A2|exact A3]]|]. split; [exact C|exact G]. }
    assert (S := single_ok c (pset_lu st1 false) bl I2 (O1 eq_refl)). change (pproj (pset_lu st1 false)) with (pproj st1) in S. rewrite P1 in S.
    destruct (own_wb s1 bl) as [wb|]; [|rewrite S; reflexivity]. destruct S as (st2 & E2 & W2 & P2 & I2'). rewrite E2, W2, UT. exists st2. split; [reflexivity|]. split; [exact P2|]. split; [exact I2'|]. congruence.
  - reflexivity.
Qed.

(* outside <out> and the value of a variable, evaluating changes nothing *)
Lemma pden_pure e : forall c s t bl s', c_let c = None -> c_out c = false -> pden c e s = Some (t, bl, s') -> s' = s.
Proof.
  assert (L : forall l, Forall (fun e => forall c s t bl s', c_let c = None -> c_out c = false -> pden c e s = Some (t, bl, s') -> s' = s) l ->
     forall c s t bl s', c_let c = None -> c_out c = false -> pden_list c l s = Some (t, bl, s') -> s' = s).
  { induction 1 as [|x l Hx H IH]; intros c s t bl s' H1 H2 E; cbn in E; [injection E as <- <- <-; reflexivity|].
    destruct (pden c x s) as [[[a b1] s1]|] eqn:E1; [|discriminate]. destruct (pden_list c l s1) as [[[b b2] s2]|] eqn:E2; [|discriminate]. injection E as <- <- <-.
    rewrite (IH _ _ _ _ _ H1 H2 E2). apply (Hx _ _ _ _ _ H1 H2 E1). }
  assert (ML : forall l, Forall (Forall (fun e => forall c s t bl s', c_let c = None -> c_out c = false -> pden c e s = Some (t, bl, s') -> s' = s)) l ->
     forall c s t bl s', c_let c = None -> c_out c = false -> pden_parts c l s = Some (t, bl, s') -> s' = s).
  { induction 1 as [|x l Hx H IH]; intros c s t bl s' H1 H2 E; cbn in E; [injection E as <- <- <-; reflexivity|].
    destruct (pden_list c x s) as [[[a b1] s1]|] eqn:E1; [|discriminate]. destruct (pden_parts c l s1) as [[[b b2] s2]|] eqn:E2; [|discriminate]. injection E as <- <- <-.
    rewrite (IH _ _ _ _ _ H1 H2 E2). apply (L x Hx _ _ _ _ _ H1 H2 E1). }
  assert (AP : forall (s : qst) pos (g : pword -> option (str * list str * qst)) t bl s', (forall w t bl s', g w = Some (t, bl, s') -> s' = s) -> at_pos s pos ([], [], s) g = Some (t, bl, s') -> s' = s).
  { intros s pos g t bl s' Hg E. unfold at_pos in E. destruct (outside s pos); [injection E as <- <- <-; reflexivity|]. destruct (named s pos) as [i|]; [|discriminate].
    destruct (nth_error (q_words s) i) as [w|]; [|discriminate]. apply (Hg _ _ _ _ E). }
  induction e as [id part pos|id v|id v|id|id n|id|id part pos|id pos e IH|l IH|l IH|l IH|] using pexpr_ind2; intros c s t bl s' H1 H2 E.
  - cbn [PostchunkRules.pden] in E. apply (AP _ _ _ _ _ _) in E; [exact E|]. intros w t1 bl1 s1 E1. rewrite H1 in E1. destruct (is_lemma part && (1 <? last_pos s)), (c_lu c); injection E1 as <- <- <-; reflexivity.
  - injection E as <- <- <-. reflexivity.
  - injection E as <- <- <-. reflexivity.
  - cbn in E. rewrite H2 in E. destruct (q_bq s); injection E as <- <- <-; reflexivity.
  - injection E as <- <- <-. reflexivity.
  - injection E as <- <- <-. reflexivity.
  - cbn [PostchunkRules.pden] in E. apply (AP _ _ _ _ _ _) in E; [exact E|]. intros w t1 bl1 s1 E1. injection E1 as <- <- <-; reflexivity.
  - cbn [PostchunkRules.pden] in E. apply (AP _ _ _ _ _ _) in E; [exact E|]. intros w t1 bl1 s1 E1.
    destruct (pden c e s) as [[[d b1] s2]|] eqn:E2; [|discriminate]. injection E1 as <- <- <-. apply (IH _ _ _ _ _ H1 H2 E2).
  - rewrite pden_concat in E. apply (L l IH _ _ _ _ _ H1 H2 E).
  - rewrite pden_lu in E. destruct (pden_list (mkc true (c_let c) (c_out c)) l s) as [[[w b1] s1]|] eqn:E1; [|discriminate]. destruct (own_wb s1 b1); [|discriminate]. injection E as <- <- <-.
    apply (L l IH (mkc true (c_let c) (c_out c)) _ _ _ _ H1 H2 E1).
  - rewrite pden_mlu in E. destruct (pden_parts (mkc true (c_let c) (c_out c)) l s) as [[[w b1] s1]|] eqn:E1; [|discriminate]. destruct (own_wb s1 b1); [|discriminate]. injection E as <- <- <-.
    apply (ML l IH (mkc true (c_let c) (c_out c)) _ _ _ _ H1 H2 E1).
  - discriminate.
Qed.
Lemma peval_plain e st : PInv plain st -> incl (pnodes_e e) N -> psimple_e false e = true ->
  match pvalue e (pproj st) with
  | None => peval e st = None
  | Some t => exists st', peval e st = Some (t, st') /\ pproj st' = pproj st /\ PInv plain st'
  end.
Proof.
  intros HI Hn Hs. assert (H := peval_den e plain st HI Hn Hs). unfold PostchunkRules.pvalue. destruct (pden plain e (pproj st)) as [[[t bl] s']|] eqn:E; [|exact H].
  destruct H as (st' & H1 & H2 & H3 & _). exists st'. split; [exact H1|]. split; [|exact H3]. rewrite H2. apply (pden_pure e plain _ _ _ _ eq_refl eq_refl E).
Qed.
(* tests *)
Definition test_ok (st : pst) (r : option (bool * pst)) (d : option bool) : Prop :=
  match d with None => r = None | Some b => exists st', r = Some (b, st') /\ pproj st' = pproj st /\ PInv plain st' end.
Lemma two_ok f a b st : PInv plain st -> incl (pnodes_e a ++ pnodes_e b) N -> psimple_e false a && psimple_e false b = true ->
  test_ok st (ptwo attr_match case_from get_case itoa a b f st) (pcmp attr_match case_from get_case itoa f a b (pproj st)).
Proof.
  intros HI Hn Hs. apply andb_prop in Hs as [Hs1 Hs2]. apply incl_app_inv in Hn as [Hn1 Hn2]. unfold ptwo, pcmp. assert (A := peval_plain a st HI Hn1 Hs1).
  destruct (pvalue a (pproj st)) as [x|]; [|rewrite A; reflexivity]. destruct A as (st1 & -> & P1 & I1). assert (B := peval_plain b st1 I1 Hn2 Hs2). rewrite P1 in B.
  destruct (pvalue b (pproj st)) as [y|]; [|rewrite B; reflexivity]. destruct B as (st2 & -> & P2 & I2). exists st2. split; [reflexivity|]. split; [congruence|exact I2].
Qed.
Lemma one_ok f g a st : (forall x, g x = f x) -> PInv plain st -> incl (pnodes_e a) N -> psimple_e false a = true ->
  test_ok st (pone attr_match case_from get_case itoa a f st) (match pvalue a (pproj st) with Some x => Some (g x) | None => None end).
Proof.
  intros Hfg HI Hn Hs. unfold pone. assert (A := peval_plain a st HI Hn Hs).
  destruct (pvalue a (pproj st)) as [x|]; [|rewrite A; reflexivity]. destruct A as (st1 & -> & P1 & I1). exists st1. rewrite Hfg. split; [reflexivity|]. split; [exact P1|exact I1].
Qed.
Lemma test_holds c : forall st, PInv plain st -> incl (pnodes_c c) N -> psimple_c c = true -> test_ok st (ptest c st) (pholds c (pproj st)).
Proof.
  induction c as [cl a b|cl a b|cl a b|cl a b|cl a l|cl a l|cl a l|l IH|l IH|c IH] using pcond_ind2; intros st HI Hn Hs;
    try (apply two_ok; assumption); try (apply one_ok; [reflexivity|assumption|assumption|assumption]).
  - cbn [PostchunkRules.ptest PostchunkRules.pholds]. cbn [pnodes_c psimple_c] in Hn, Hs.
    match goal with |- test_ok _ (?f l st) _ => set (F := f) end.
    assert (FE : forall x r s0, F (x :: r) s0 = match ptest x s0 with Some (true, st1) => F r st1 | o => o end) by reflexivity.
    assert (FN : forall s0, F [] s0 = Some (true, s0)) by reflexivity. clearbody F.
    revert st HI. induction IH as [|x l Hx H IHl]; intros st HI; [rewrite FN; exists st; split; [reflexivity|split; [reflexivity|exact HI]]|].
    cbn [flat_map forallb map fold_right] in *. apply incl_app_inv in Hn as [Hn1 Hn2]. apply andb_prop in Hs as [Hs1 Hs2]. rewrite FE. assert (T := Hx st HI Hn1 Hs1).
    destruct (pholds x (pproj st)) as [[]|]; [|destruct T as (st1 & -> & P1 & I1); exists st1; split; [reflexivity|split; assumption]|rewrite T; reflexivity].
    destruct T as (st1 & -> & P1 & I1). assert (T2 := IHl Hn2 Hs2 st1 I1). rewrite P1 in T2. unfold test_ok in *.
    destruct (fold_right _ (Some true) (map (fun c => pholds c (pproj st)) l)) as [b|]; [|exact T2]. destruct T2 as (st2 & E2 & P2 & I2). exists st2. split; [exact E2|]. split; [congruence|exact I2].
  - cbn [PostchunkRules.ptest PostchunkRules.pholds]. cbn [pnodes_c psimple_c] in Hn, Hs.
    match goal with |- test_ok _ (?f l st) _ => set (F := f) end.
    assert (FE : forall x r s0, F (x :: r) s0 = match ptest x s0 with Some (false, st1) => F r st1 | o => o end) by reflexivity.
    assert (FN : forall s0, F [] s0 = Some (false, s0)) by reflexivity. clearbody F.
    revert st HI. induction IH as [|x l Hx H IHl]; intros st HI; [rewrite FN; exists st; split; [reflexivity|split; [reflexivity|exact HI]]|].
    cbn [flat_map forallb map fold_right] in *. apply incl_app_inv in Hn as [Hn1 Hn2]. apply andb_prop in Hs as [Hs1 Hs2]. rewrite FE. assert (T := Hx st HI Hn1 Hs1).
    destruct (pholds x (pproj st)) as [[]|]; [destruct T as (st1 & -> & P1 & I1); exists st1; split; [reflexivity|split; assumption]| |rewrite T; reflexivity].
    destruct T as (st1 & -> & P1 & I1). assert (T2 := IHl Hn2 Hs2 st1 I1). rewrite P1 in T2. unfold test_ok in *.
    destruct (fold_right _ (Some false) (map (fun c => pholds c (pproj st)) l)) as [b|]; [|exact T2]. destruct T2 as (st2 & E2 & P2 & I2). exists st2. split; [exact E2|]. split; [congruence|exact I2].
  - cbn [PostchunkRules.ptest PostchunkRules.pholds]. assert (T := IH st HI Hn Hs). destruct (pholds c (pproj st)) as [b|]; [|cbn in *; rewrite T; reflexivity].
    destruct T as (st1 & -> & P1 & I1). exists st1. split; [reflexivity|]. split; assumption.
Qed.

(** ** simple instructions *)
Notation get := (pw_part attr_match).
Notation put := (pw_put attr_replace).
Notation pdo_let := (pdo_let attr_match attr_replace case_from get_case itoa).
Notation pdo_modcase := (pdo_modcase attr_match attr_replace copy_case case_from get_case itoa dict_case).
Notation pdo_append := (pdo_append attr_match case_from get_case itoa).
Notation pdo_out := (pdo_out attr_match case_from get_case itoa).
Notation PExec := (PExec attr_match attr_replace copy_case case_from get_case lower itoa lists dict_case macros macro_map).
Notation PAppended := (PAppended attr_match attr_replace copy_case case_from get_case lower itoa lists dict_case macros macro_map).
Notation PPrinted := (PPrinted attr_match attr_replace copy_case case_from get_case lower itoa lists dict_case macros macro_map).

Definition f_let (l : plhs) (e : pexpr) (s : qst) : option qst :=
  match l with
  | NVar _ n => match pden (in_let n) e (q_set_vwb s (upd (q_vwb s) n [])) with Some (t, _, s1) => Some (q_set_vars s1 (upd (q_vars s1) n t)) | None => None end
  | NClip _ part pos =>
      match pvalue e s, named s pos with
      | Some t, Some i => match nth_error (q_words s) i with Some w => Some (q_set_word s i (put w part t)) | None => None end
      | _, _ => None end
  end.
Definition f_modcase (l : plhs) (e : pexpr) (s : qst) : option qst :=
  if dict_case then Some s else
  match pvalue e s with
  | None => None
  | Some t =>
    match l with
    | NVar _ n => Some (q_set_vars s (upd (q_vars s) n (copy_case t (q_vars s n))))
    | NClip _ part pos =>
        match named s pos with
        | None => None
        | Some i => match nth_error (q_words s) i with
                    | Some w => Some (q_set_word s i (put w part (copy_case t (get w part))))
                    | None => None end
        end
    end
  end.
Fixpoint f_append (n : str) (l : list pexpr) (s : qst) : option qst :=
  match l with
  | [] => Some s
  | e :: r => match pden (in_let n) e s with Some (t, _, s1) => f_append n r (q_set_vars s1 (upd (q_vars s1) n (q_vars s1 n ++ t))) | None => None end
  end.
Fixpoint f_out (l : list pexpr) (s : qst) : option qst :=
  match l with
  | [] => Some s
  | e :: r => match pden in_out e s with Some (t, _, s1) => f_out r (q_set_out s1 (q_out s1 ++ t)) | None => None end
  end.
Definition basic_ok (r : option pst) (d : option qst) : Prop :=
  match d with None => r = None | Some s' => exists st', r = Some st' /\ pproj st' = s' /\ PInv plain st' end.

Lemma let_var_ok n e st : PInv plain st -> incl (pnodes_e e) N -> psimple_e false e = true ->
  basic_ok (plet_var attr_match case_from get_case itoa n e st) (f_let (NVar 0 n) e (pproj st)).
Proof.
  intros HI Hn Hs. unfold plet_var, f_let. set (st0 := pset_vwb (pset_vv (pset_let st true) n) (upd (p_vwb st) n [])).
  assert (I0 : PInv (in_let n) st0).
  { destruct HI as [[A1 [A2 A3]] [C [G1 [G2 G3]]]]. split; [split; [exact A1|split; [exact A2|split; reflexivity]]|]. split; [exact C|]. split; [exact G1|]. split; [|exact G3].
    intros m. cbn. unfold upd. destruct (str_eqb m n); [apply good_nil|apply G2]. }
  assert (H := peval_den e (in_let n) st0 I0 Hn Hs). change (pproj st0) with (q_set_vwb (pproj st) (upd (q_vwb (pproj st)) n [])) in H.
  destruct (pden (in_let n) e (q_set_vwb (pproj st) (upd (q_vwb (pproj st)) n []))) as [[[t bl] s1]|]; [|cbn in H |- *; rewrite H; reflexivity].
  destruct H as (st1 & E1 & P1 & I1 & _). rewrite E1. eexists. split; [reflexivity|]. split; [rewrite <- P1; reflexivity|].
  destruct I1 as [[A1 [A2 A3]] [C G]]. split; [split; [exact A1|split; [exact A2|reflexivity]]|]. split; [exact C|exact G].
Qed.
Lemma pput_inv st i w w' : PInv plain st -> nth_error (p_words st) i = Some w -> pw_wb w' = pw_wb w -> PInv plain (pput st i w').
Proof.
  intros [A [C [G1 [G2 G3]]]] E W. split; [exact A|]. split; [exact C|]. split; [|split; [exact G2|exact G3]]. cbn. apply set_nth_Forall; [|exact G1].
  rewrite W. rewrite Forall_forall in G1. apply G1, (nth_error_In _ _ E).
Qed.
Lemma let_clip_ok id part pos e st : PInv plain st -> incl (pnodes_e e) N -> psimple_e false e = true ->
  basic_ok (plet_clip attr_match attr_replace case_from get_case itoa part pos e st) (f_let (NClip id part pos) e (pproj st)).
Proof.
  intros HI Hn Hs. unfold plet_clip, f_let. assert (H := peval_plain e st HI Hn Hs). destruct (pvalue e (pproj st)) as [t|]; [|rewrite H; reflexivity].
  destruct H as (st1 & -> & P1 & I1). rewrite ptr_named, P1. destruct (named (pproj st) pos) as [i|]; [|reflexivity]. unfold p_obj. rewrite <- P1. cbn [pproj q_words]. destruct (nth_error (p_words st1) i) as [w|] eqn:E; [|reflexivity].
  exists (pput st1 i (put w part t)). split; [reflexivity|]. split; [reflexivity|]. apply (pput_inv st1 i w _ I1 E). reflexivity.
Qed.
Lemma add_inv st id t : PInv plain st -> In (id, t) N -> PInv plain (pcache_add st id t).
Proof.
  intros [A [C G]] HI. split; [exact A|]. split; [|exact G]. intros i x H. cbn in H. destruct (Nat.eqb_spec i id); [injection H as <-; subst; exact HI|apply C, H].
Qed.
Lemma do_let_ok l e st : PInv plain st -> incl (pnodes_l l ++ pnodes_e e) N -> psimple_e false e = true -> basic_ok (pdo_let l e st) (f_let l e (pproj st)).
Proof.
  intros HI Hn Hs2. apply incl_app_inv in Hn as [Hn1 Hn2]. unfold PostchunkRules.pdo_let.
  destruct l as [id n|id part pos]; cbn [pnodes_l] in Hn1.
  - assert (K : In (id, QiVar n) N) by (apply Hn1; left; reflexivity). assert (L := let_var_ok n e st HI Hn2 Hs2). change (f_let (NVar 0 n) e (pproj st)) with (f_let (NVar id n) e (pproj st)) in L.
    destruct (p_cache st id) as [t|] eqn:E.
    + assert (HC : In (id, t) N) by (apply HI, E). rewrite (HN _ _ _ HC K). exact L.
    + destruct (f_let (NVar id n) e (pproj st)) as [s'|]; cbn [basic_ok] in *; [|rewrite L; reflexivity]. destruct L as (st1 & -> & P1 & I1).
      eexists. split; [reflexivity|]. split; [exact P1|]. apply add_inv; assumption.
  - assert (K : In (id, QiClip part pos) N) by (apply Hn1; left; reflexivity). assert (L := let_clip_ok id part pos e st HI Hn2 Hs2).
    destruct (p_cache st id) as [t|] eqn:E.
    + assert (HC : In (id, t) N) by (apply HI, E). rewrite (HN _ _ _ HC K). exact L.
    + destruct (f_let (NClip id part pos) e (pproj st)) as [s'|]; cbn [basic_ok] in *; [|rewrite L; reflexivity]. destruct L as (st1 & -> & P1 & I1).
      eexists. split; [reflexivity|]. split; [exact P1|]. apply add_inv; assumption.
Qed.
Lemma do_modcase_ok l e st : PInv plain st -> incl (pnodes_e e) N -> psimple_e false e = true -> basic_ok (pdo_modcase l e st) (f_modcase l e (pproj st)).
Proof.
  intros HI Hn Hs. unfold PostchunkRules.pdo_modcase, f_modcase. destruct dict_case eqn:DC; [exists st; split; [reflexivity|split; [reflexivity|exact HI]]|].
  assert (H := peval_plain e st HI Hn Hs). destruct (pvalue e (pproj st)) as [t|]; [|rewrite H; reflexivity]. destruct H as (st1 & -> & P1 & I1). destruct l as [id n|id part pos].
  - eexists. split; [reflexivity|]. split; [rewrite <- P1; reflexivity|exact I1].
  - rewrite ptr_named, P1. destruct (named (pproj st) pos) as [i|]; [|reflexivity]. unfold p_obj. rewrite <- P1. change (q_words (pproj st1)) with (p_words st1). destruct (nth_error (p_words st1) i) as [w|] eqn:E; [|reflexivity].
    eexists. split; [reflexivity|]. split; [reflexivity|]. apply (pput_inv st1 i w _ I1 E). reflexivity.
Qed.
Lemma do_append_ok n l : forall st, PInv plain st -> incl (flat_map pnodes_e l) N -> forallb (psimple_e false) l = true -> basic_ok (pdo_append n l st) (f_append n l (pproj st)).
Proof.
  induction l as [|e l IH]; intros st HI Hn Hs; [exists st; split; [reflexivity|split; [reflexivity|exact HI]]|].
  cbn [flat_map forallb] in *. apply incl_app_inv in Hn as [Hn1 Hn2]. apply andb_prop in Hs as [Hs1 Hs2]. cbn [PostchunkRules.pdo_append f_append].
  set (st0 := pset_vv (pset_let st true) n).
  assert (I0 : PInv (in_let n) st0). { destruct HI as [[A1 [A2 A3]] [C G]]. split; [split; [exact A1|split; [exact A2|split; reflexivity]]|]. split; [exact C|exact G]. }
  assert (H := peval_den e (in_let n) st0 I0 Hn1 Hs1). change (pproj st0) with (pproj st) in H.
  destruct (pden (in_let n) e (pproj st)) as [[[t bl] s1]|]; [|cbn in H |- *; rewrite H; reflexivity].
  destruct H as (st1 & E1 & P1 & I1 & _). rewrite E1. set (st2 := pset_let (pset_vars st1 (upd (p_vars st1) n (p_vars st1 n ++ t))) false).
  assert (I2 : PInv plain st2). { destruct I1 as [[A1 [A2 A3]] [C G]]. split; [split; [exact A1|split; [exact A2|reflexivity]]|]. split; [exact C|exact G]. }
  assert (R := IH st2 I2 Hn2 Hs2). replace (q_set_vars s1 (upd (q_vars s1) n (q_vars s1 n ++ t))) with (pproj st2) by (rewrite <- P1; reflexivity). exact R.
Qed.
Lemma do_out_ok l st : PInv plain st -> incl (flat_map pnodes_e l) N -> forallb (psimple_e false) l = true -> basic_ok (pdo_out l st) (f_out l (pproj st)).
Proof.
  intros HI Hn Hs. unfold PostchunkRules.pdo_out.
  assert (K : forall l st, PInv in_out st -> incl (flat_map pnodes_e l) N -> forallb (psimple_e false) l = true ->
    match f_out l (pproj st) with None => pout_list attr_match case_from get_case itoa l st = None
    | Some s' => exists st', pout_list attr_match case_from get_case itoa l st = Some st' /\ pproj st' = s' /\ PInv in_out st' end).
  { clear l st HI Hn Hs. induction l as [|e l IH]; intros st HI Hn Hs; [exists st; split; [reflexivity|split; [reflexivity|exact HI]]|].
    cbn [flat_map forallb] in *. apply incl_app_inv in Hn as [Hn1 Hn2]. apply andb_prop in Hs as [Hs1 Hs2]. cbn [pout_list f_out].
    assert (H := peval_den e in_out st HI Hn1 Hs1). destruct (pden in_out e (pproj st)) as [[[t bl] s1]|]; [|cbn in H |- *; rewrite H; reflexivity].
    destruct H as (st1 & E1 & P1 & I1 & _). rewrite E1. assert (R := IH (pset_out st1 (p_out st1 ++ t)) I1 Hn2 Hs2).
    replace (q_set_out s1 (q_out s1 ++ t)) with (pproj (pset_out st1 (p_out st1 ++ t))) by (rewrite <- P1; reflexivity). exact R. }
  assert (I0 : PInv in_out (pset_inout st true)). { destruct HI as [[A1 [A2 A3]] [C G]]. split; [split; [exact A1|split; [reflexivity|exact A3]]|]. split; [exact C|exact G]. }
  assert (R := K l _ I0 Hn Hs). change (pproj (pset_inout st true)) with (pproj st) in R. destruct (f_out l (pproj st)) as [s'|]; [|rewrite R; reflexivity].
  destruct R as (st1 & -> & P1 & I1). eexists. split; [reflexivity|]. split; [exact P1|]. destruct I1 as [[A1 [A2 A3]] [C G]]. split; [split; [exact A1|split; [reflexivity|exact A3]]|]. split; [exact C|exact G].
Qed.

(** ** control structure *)
Notation prun := (prun attr_match attr_replace copy_case case_from get_case lower itoa lists dict_case).
Notation prun_list := (prun_list attr_match attr_replace copy_case case_from get_case lower itoa lists dict_case).
Notation prun_opts := (prun_opts attr_match attr_replace copy_case case_from get_case lower itoa lists dict_case).
Notation prun_macro := (prun_macro attr_match attr_replace copy_case case_from get_case lower itoa lists dict_case).
Notation pcall := (pcall attr_match attr_replace copy_case case_from get_case lower itoa lists dict_case macros macro_map).
Notation PSeq := (PSeq attr_match attr_replace copy_case case_from get_case lower itoa lists dict_case macros macro_map).
Notation PChoose_ := (PChoose_ attr_match attr_replace copy_case case_from get_case lower itoa lists dict_case macros macro_map).
Notation PBody := (PBody attr_match attr_replace copy_case case_from get_case lower itoa lists dict_case macros macro_map).
Hypothesis HM : Forall (fun m => incl (flat_map pnodes_i (snd m)) N /\ forallb psimple_i (snd m) = true) macro_map.

Lemma run_choose cl l st : prun cl (PChoose l) st = prun_opts cl l st.
Proof. reflexivity. Qed.

Lemma appended_f n l s s1 : PAppended n l s s1 <-> f_append n l s = Some s1.
Proof.
  revert s. induction l as [|e l IH]; intros s; cbn [f_append].
  - split; [intros H; inversion H; reflexivity|intros H; injection H as <-; constructor].
  - split.
    + intros H. inversion H as [|? ? ? ? t bl s' ? D R]; subst. rewrite D. apply IH, R.
    + destruct (pden (in_let n) e s) as [[[t bl] s']|] eqn:D; [|discriminate]. intros H. econstructor; [exact D|]. apply IH, H.
Qed.
Lemma printed_f l s s1 : PPrinted l s s1 <-> f_out l s = Some s1.
Proof.
  revert s. induction l as [|e l IH]; intros s; cbn [f_out].
  - split; [intros H; inversion H; reflexivity|intros H; injection H as <-; constructor].
  - split.
    + intros H. inversion H as [|? ? ? t bl s' ? D R]; subst. rewrite D. apply IH, R.
    + destruct (pden in_out e s) as [[[t bl] s']|] eqn:D; [|discriminate]. intros H. econstructor; [exact D|]. apply IH, H.
Qed.
Lemma let_f l e s s1 : f_let l e s = Some s1 -> PExec (PLet l e) s (-1) s1.
Proof.
  destruct l as [id n|id part pos]; cbn [f_let].
  - destruct (pden (in_let n) e _) as [[[t bl] s']|] eqn:D; [|discriminate]. intros H; injection H as <-. econstructor. exact D.
  - destruct (pvalue e s) as [t|] eqn:V; [|discriminate]. destruct (named s pos) as [i|] eqn:E; [|discriminate]. destruct (nth_error (q_words s) i) as [w|] eqn:W; [|discriminate].
    intros H; injection H as <-. eapply px_let_clip; eassumption.
Qed.
Lemma modcase_f l e s s1 : f_modcase l e s = Some s1 -> PExec (PModCase l e) s (-1) s1.
Proof.
  unfold f_modcase. destruct dict_case eqn:DC; [intros H; injection H as <-; apply px_case_dict; reflexivity|].
  destruct (pvalue e s) as [t|] eqn:V; [|discriminate]. destruct l as [id n|id part pos].
  - intros H; injection H as <-. apply px_case_var; [reflexivity|exact V].
  - destruct (named s pos) as [i|] eqn:E; [|discriminate]. destruct (nth_error (q_words s) i) as [w|] eqn:W; [|discriminate].
    intros H; injection H as <-. eapply px_case_clip; try eassumption. reflexivity.
Qed.
Lemma args_true st l ps : p_args st l = Some (ps, true) <-> Forall2 (gets (pproj st)) l ps.
Proof.
  revert ps. induction l as [|a l IH]; intros ps; cbn [p_args].
  - split; [intros H; injection H as <-; constructor|intros H; inversion H; reflexivity].
  - rewrite check_out. split.
    + destruct (outside (pproj st) a) eqn:O.
      * destruct (p_ptr st 1); [|discriminate]. destruct (p_args st l) as [[l' ok]|]; discriminate.
      * destruct (named (pproj st) a) as [i|] eqn:NM; [|discriminate]. destruct (p_args st l) as [[l' ok]|] eqn:EA; [|discriminate]. cbn [andb]. intros H; injection H as <- ->.
        constructor; [split; assumption|apply IH; reflexivity].
    + intros H. inversion H as [|? i ? l' [O NM] H']; subst. rewrite O, NM, (proj2 (IH l') H'). reflexivity.
Qed.
Lemma args_false st l : (exists ps, p_args st l = Some (ps, false)) <->
  Exists (fun a => outside (pproj st) a = true) l /\ Forall (fun a => outside (pproj st) a = true \/ exists j, gets (pproj st) a j) l /\ exists i, named (pproj st) 1 = Some i.
Proof.
  rewrite <- ptr_named. split.
  - assert (K : forall l ps ok, p_args st l = Some (ps, ok) -> Forall (fun a => outside (pproj st) a = true \/ exists j, gets (pproj st) a j) l /\ (ok = false -> Exists (fun a => outside (pproj st) a = true) l /\ exists i, p_ptr st 1 = Some i)).
    { clear l. induction l as [|a l IH]; intros ps ok; cbn [p_args]; [intros [= <- <-]; split; [constructor|discriminate]|].
      rewrite check_out. destruct (outside (pproj st) a) eqn:O.
      - destruct (p_ptr st 1) as [i|] eqn:P1; [|discriminate]. destruct (p_args st l) as [[l' ok']|] eqn:EA; [|discriminate]. intros [= <- <-]. destruct (IH _ _ eq_refl) as [A B].
        split; [constructor; [left; exact O|exact A]|]. intros _. split; [left; exact O|exists i; reflexivity].
      - destruct (named (pproj st) a) as [i|] eqn:NM; [|discriminate]. destruct (p_args st l) as [[l' ok']|] eqn:EA; [|discriminate]. cbn [andb]. intros [= <- <-]. destruct (IH _ _ eq_refl) as [A B].
        split; [constructor; [right; exists i; split; assumption|exact A]|]. intros E. destruct (B E) as [C D]. split; [right; exact C|exact D]. }
    intros (ps & E). destruct (K _ _ _ E) as [A B]. destruct (B eq_refl) as [C D]. auto.
  - intros (EX & FA & i & P1).
    assert (T : forall l, Forall (fun a => outside (pproj st) a = true \/ exists j, gets (pproj st) a j) l -> exists ps ok, p_args st l = Some (ps, ok) /\ (ok = true -> Forall (fun a => outside (pproj st) a = false) l)).
    { clear l EX FA. induction 1 as [|a l Ha H IH]; cbn [p_args]; [exists [], true; split; [reflexivity|constructor]|]. destruct IH as (ps & ok & E & IH). rewrite check_out.
      destruct (outside (pproj st) a) eqn:O.
      - rewrite P1, E. exists (i :: ps), false. split; [reflexivity|discriminate].
      - destruct Ha as [Ha|(j & _ & NM)]; [discriminate Ha|]. rewrite NM, E. exists (j :: ps), ok. split; [reflexivity|]. intros K. constructor; [exact O|apply IH, K]. }
    destruct (T l FA) as (ps & [|] & E & K); [|exists ps; exact E]. exfalso. specialize (K eq_refl). clear -EX K. induction EX as [a l H|a l H IH]; inversion_clear K; [congruence|auto].
Qed.
Lemma frame_inv st fr : PInv plain st -> PInv plain (pset_frame st fr).
Proof. intros [A [C G]]. split; [exact A|]. split; [exact C|exact G]. Qed.
Lemma macro_wf n npar body : nth_error macro_map n = Some (npar, body) -> incl (flat_map pnodes_i body) N /\ forallb psimple_i body = true.
Proof. intros E. rewrite Forall_forall in HM. apply (HM (npar, body)), (nth_error_In _ _ E). Qed.

(** from the program to the specification *)
Definition sound_call (cl : str -> list Z -> pst -> option pst) : Prop :=
  forall n args st st', PInv plain st -> cl n args st = Some st' -> PExec (PCall n args) (pproj st) (-1) (pproj st') /\ PInv plain st'.
Definition sound (cl : str -> list Z -> pst -> option pst) (i : pinstr) : Prop :=
  forall st z st', PInv plain st -> incl (pnodes_i i) N -> psimple_i i = true -> prun cl i st = Some (z, st') -> PExec i (pproj st) z (pproj st') /\ PInv plain st'.
Lemma sound_list cl l : Forall (sound cl) l -> forall st z st', PInv plain st -> incl (flat_map pnodes_i l) N -> forallb psimple_i l = true ->
  prun_list cl l st = Some (z, st') -> PSeq l (pproj st) z (pproj st') /\ PInv plain st'.
Proof.
  induction 1 as [|x l Hx H IH]; intros st z st' HI Hn Hs E; cbn [PostchunkRules.prun_list] in E; [injection E as <- <-; split; [constructor|exact HI]|].
  cbn [flat_map forallb] in Hn, Hs. apply incl_app_inv in Hn as [Hn1 Hn2]. apply andb_prop in Hs as [Hs1 Hs2]. destruct (prun cl x st) as [[z1 st1]|] eqn:E1; [|discriminate].
  destruct (Hx _ _ _ HI Hn1 Hs1 E1) as [X1 I1]. destruct (Z.eqb_spec z1 (-1)).
  - subst. destruct (IH _ _ _ I1 Hn2 Hs2 E) as [X2 I2]. split; [eapply psq_go; eassumption|exact I2].
  - injection E as <- <-. split; [apply psq_stop; assumption|exact I1].
Qed.
Lemma sound_run cl : sound_call cl -> forall i, sound cl i.
Proof.
  intros HC i. induction i as [l e|n l|l|l e|n args|z0|l IH] using pinstr_ind2; intros st z st' HI Hn Hs E.
  - cbn [PostchunkRules.prun] in E. assert (K := do_let_ok l e st HI Hn Hs). destruct (f_let l e (pproj st)) as [s'|] eqn:F; cbn [basic_ok] in K; [|rewrite K in E; discriminate].
    destruct K as (st1 & K & P & I1). rewrite K in E. injection E as <- <-. split; [rewrite P; apply let_f, F|exact I1].
  - cbn [PostchunkRules.prun] in E. assert (K := do_append_ok n l st HI Hn Hs). destruct (f_append n l (pproj st)) as [s'|] eqn:F; cbn [basic_ok] in K; [|rewrite K in E; discriminate].
    destruct K as (st1 & K & P & I1). rewrite K in E. injection E as <- <-. split; [rewrite P; apply px_append, appended_f, F|exact I1].
  - cbn [PostchunkRules.prun] in E. assert (K := do_out_ok l st HI Hn Hs). destruct (f_out l (pproj st)) as [s'|] eqn:F; cbn [basic_ok] in K; [|rewrite K in E; discriminate].
    destruct K as (st1 & K & P & I1). rewrite K in E. injection E as <- <-. split; [rewrite P; apply px_out, printed_f, F|exact I1].
  - cbn [PostchunkRules.prun] in E. assert (K := do_modcase_ok l e st HI Hn Hs). destruct (f_modcase l e (pproj st)) as [s'|] eqn:F; cbn [basic_ok] in K; [|rewrite K in E; discriminate].
    destruct K as (st1 & K & P & I1). rewrite K in E. injection E as <- <-. split; [rewrite P; apply modcase_f, F|exact I1].
  - cbn [PostchunkRules.prun] in E. destruct (cl n args st) as [st1|] eqn:E1; [|discriminate]. injection E as <- <-. apply (HC _ _ _ _ HI E1).
  - injection E as <- <-. split; [constructor|exact HI].
  - rewrite run_choose in E. cbn [pnodes_i psimple_i] in Hn, Hs.
    assert (K : PChoose_ l (pproj st) z (pproj st') /\ PInv plain st'); [|split; [apply px_choose, K|apply K]].
    revert st HI E. induction IH as [|[[c|] b] l Hb H IHl]; intros st HI E; cbn [PostchunkRules.prun_opts] in E; [injection E as <- <-; split; [constructor|exact HI]| |];
      cbn [flat_map forallb fst snd] in Hn, Hs; apply incl_app_inv in Hn as [Hn1 Hn2]; apply incl_app_inv in Hn1 as [Hn0 Hn1]; apply andb_prop in Hs as [Hs1 Hs2]; apply andb_prop in Hs1 as [Hs0 Hs1].
    + assert (T := test_holds c st HI Hn0 Hs0). destruct (pholds c (pproj st)) as [[]|] eqn:HH; [| |rewrite T in E; discriminate]; destruct T as (st1 & T & P1 & I1); rewrite T in E.
      * destruct (sound_list cl b Hb _ _ _ I1 Hn1 Hs1 E) as [X I2]. rewrite P1 in X. split; [apply pch_when; assumption|exact I2].
      * destruct (IHl Hn2 Hs2 _ I1 E) as [X I2]. rewrite P1 in X. split; [apply pch_skip; assumption|exact I2].
    + destruct (prun_list cl b st) as [[z1 st1]|] eqn:E1; [|discriminate]. destruct (sound_list cl b Hb _ _ _ HI Hn1 Hs1 E1) as [X I1]. destruct (Z.eqb_spec z1 (-1)).
      * subst. destruct (IHl Hn2 Hs2 _ I1 E) as [X2 I2]. split; [eapply pch_other_go; eassumption|exact I2].
      * injection E as <- <-. split; [apply pch_other; assumption|exact I1].
Qed.
Lemma sound_body cl l : sound_call cl -> forall st st', PInv plain st -> incl (flat_map pnodes_i l) N -> forallb psimple_i l = true ->
  prun_macro cl l st = Some st' -> PBody l (pproj st) (pproj st') /\ PInv plain st'.
Proof.
  intros HC. induction l as [|x l IH]; intros st st' HI Hn Hs E; cbn [PostchunkRules.prun_macro] in E; [injection E as <-; split; [constructor|exact HI]|].
  cbn [flat_map forallb] in Hn, Hs. apply incl_app_inv in Hn as [Hn1 Hn2]. apply andb_prop in Hs as [Hs1 Hs2]. destruct (prun cl x st) as [[z1 st1]|] eqn:E1; [|discriminate].
  destruct (sound_run cl HC x _ _ _ HI Hn1 Hs1 E1) as [X1 I1]. destruct (IH _ _ I1 Hn2 Hs2 E) as [X2 I2]. split; [eapply pbd_cons; eassumption|exact I2].
Qed.
Lemma sound_fuel f : sound_call (pcall f).
Proof.
  induction f as [|f IH]; intros n args st st' HI E; [discriminate|]. cbn [PostchunkRules.pcall] in E. destruct (nth_error macro_map (macros n)) as [[npar body]|] eqn:M; [|discriminate].
  destruct (macro_wf _ _ _ M) as [Hn Hs]. destruct ((npar =? 0) || (npar <? List.length args)) eqn:NP; [discriminate|]. apply orb_false_elim in NP as [N0 NL]. apply Nat.eqb_neq in N0. apply Nat.ltb_ge in NL.
  destruct (p_frame st) as [|w0 ws] eqn:EF; [discriminate|]. destruct (p_args st args) as [[l [|]]|] eqn:EA; [| |discriminate].
  - apply args_true in EA. destruct (prun_macro (pcall f) body (pset_frame st (w0 :: map Some l ++ repeat None (npar - List.length l)))) as [st1|] eqn:E1; [|discriminate]. injection E as <-.
    destruct (sound_body _ body IH _ _ (frame_inv st _ HI) Hn Hs E1) as [X I1]. split; [|apply frame_inv, I1]. rewrite <- EF.
    assert (EL : List.length l = List.length args) by (clear -EA; induction EA; cbn; congruence). rewrite EL in X.
    apply (px_call _ _ _ _ _ _ _ _ _ _ _ n args npar body w0 ws l (pproj st) (pproj st1) M N0 NL EF EA X).
  - injection E as <-. split; [|exact HI]. destruct (proj1 (args_false st args) (ex_intro _ l EA)) as (A & B & i & C).
    apply (px_call_outside _ _ _ _ _ _ _ _ _ _ _ n args npar body (pproj st) i M N0 NL); try assumption. cbn [pproj q_frame]. rewrite EF. discriminate.
Qed.

(** from the specification to the program *)
Scheme Exec_mi := Minimality for PostchunkRules.PExec Sort Prop
  with Appended_mi := Minimality for PostchunkRules.PAppended Sort Prop
  with Printed_mi := Minimality for PostchunkRules.PPrinted Sort Prop
  with Seq_mi := Minimality for PostchunkRules.PSeq Sort Prop
  with Choose_mi := Minimality for PostchunkRules.PChoose_ Sort Prop
  with Body_mi := Minimality for PostchunkRules.PBody Sort Prop.

Definition cmpl {A} (wf : Prop) (r : nat -> pst -> option A) (st_of : A -> pst) (res : A -> Prop) (s s' : qst) : Prop :=
  forall st, PInv plain st -> pproj st = s -> wf -> exists f0 x, (forall f, f0 <= f -> r f st = Some x) /\ res x /\ pproj (st_of x) = s' /\ PInv plain (st_of x).
Definition C_exec (i : pinstr) (s : qst) (z : Z) (s' : qst) : Prop :=
  cmpl (incl (pnodes_i i) N /\ psimple_i i = true) (fun f st => prun (pcall f) i st) snd (fun x => fst x = z) s s'.
Definition C_seq (l : list pinstr) (s : qst) (z : Z) (s' : qst) : Prop :=
  cmpl (incl (flat_map pnodes_i l) N /\ forallb psimple_i l = true) (fun f st => prun_list (pcall f) l st) snd (fun x => fst x = z) s s'.
Definition C_choose (l : list (option pcond * list pinstr)) (s : qst) (z : Z) (s' : qst) : Prop :=
  cmpl (incl (pnodes_i (PChoose l)) N /\ psimple_i (PChoose l) = true) (fun f st => prun_opts (pcall f) l st) snd (fun x => fst x = z) s s'.
Definition C_body (l : list pinstr) (s s' : qst) : Prop :=
  cmpl (incl (flat_map pnodes_i l) N /\ forallb psimple_i l = true) (fun f st => prun_macro (pcall f) l st) (fun x => x) (fun _ => True) s s'.

Lemma basic_complete (i : pinstr) (d : pst -> option pst) (f : qst -> option qst) s s' :
  (forall fu st, prun (pcall fu) i st = match d st with Some st1 => Some ((-1)%Z, st1) | None => None end) ->
  (forall st, PInv plain st -> incl (pnodes_i i) N -> psimple_i i = true -> basic_ok (d st) (f (pproj st))) ->
  f s = Some s' -> C_exec i s (-1) s'.
Proof.
  intros HR HB HF st HI HP [Hn Hs]. specialize (HB st HI Hn Hs). rewrite HP, HF in HB. destruct HB as (st' & E & P & I').
  exists 0, ((-1)%Z, st'). split; [intros fu _; rewrite HR, E; reflexivity|]. split; [reflexivity|]. split; [exact P|exact I'].
Qed.
Lemma complete_all : (forall i s z s', PExec i s z s' -> C_exec i s z s') /\ (forall l s z s', PSeq l s z s' -> C_seq l s z s').
Proof.
  assert (E1 : forall id n e s t bl s1, pden (in_let n) e (q_set_vwb s (upd (q_vwb s) n [])) = Some (t, bl, s1) -> C_exec (PLet (NVar id n) e) s (-1) (q_set_vars s1 (upd (q_vars s1) n t))).
  { intros id n e s t bl s1 D. apply (basic_complete _ (pdo_let (NVar id n) e) (f_let (NVar id n) e)); [reflexivity|intros; apply do_let_ok; assumption|]. cbn [f_let]. rewrite D. reflexivity. }
  assert (E2 : forall id part pos e s i w t, pvalue e s = Some t -> named s pos = Some i -> nth_error (q_words s) i = Some w -> C_exec (PLet (NClip id part pos) e) s (-1) (q_set_word s i (put w part t))).
  { intros id part pos e s i w t V E W. apply (basic_complete _ (pdo_let (NClip id part pos) e) (f_let (NClip id part pos) e)); [reflexivity|intros; apply do_let_ok; assumption|].
    cbn [f_let]. rewrite V, E, W. reflexivity. }
  assert (E4 : forall n l s s1, PAppended n l s s1 -> f_append n l s = Some s1 -> C_exec (PAppend n l) s (-1) s1).
  { intros n l s s1 _ A. apply (basic_complete _ (pdo_append n l) (f_append n l)); [reflexivity|intros; apply do_append_ok; assumption|exact A]. }
  assert (E5 : forall l s s1, PPrinted l s s1 -> f_out l s = Some s1 -> C_exec (POut l) s (-1) s1).
  { intros l s s1 _ A. apply (basic_complete _ (pdo_out l) (f_out l)); [reflexivity|intros; apply do_out_ok; assumption|exact A]. }
  assert (E6 : forall l e s, dict_case = true -> C_exec (PModCase l e) s (-1) s).
  { intros l e s DC. apply (basic_complete _ (pdo_modcase l e) (f_modcase l e)); [reflexivity|intros; apply do_modcase_ok; assumption|]. unfold f_modcase. rewrite DC. reflexivity. }
  assert (E7 : forall id part pos e s i w t, dict_case = false -> pvalue e s = Some t -> named s pos = Some i -> nth_error (q_words s) i = Some w ->
    C_exec (PModCase (NClip id part pos) e) s (-1) (q_set_word s i (put w part (copy_case t (get w part))))).
  { intros id part pos e s i w t DC V E W. apply (basic_complete _ (pdo_modcase (NClip id part pos) e) (f_modcase (NClip id part pos) e)); [reflexivity|intros; apply do_modcase_ok; assumption|].
    unfold f_modcase. rewrite DC, V, E, W. reflexivity. }
  assert (E8 : forall id n e s t, dict_case = false -> pvalue e s = Some t -> C_exec (PModCase (NVar id n) e) s (-1) (q_set_vars s (upd (q_vars s) n (copy_case t (q_vars s n))))).
  { intros id n e s t DC V. apply (basic_complete _ (pdo_modcase (NVar id n) e) (f_modcase (NVar id n) e)); [reflexivity|intros; apply do_modcase_ok; assumption|].
    unfold f_modcase. rewrite DC, V. reflexivity. }
  assert (E9 : forall n args npar body w0 ws ps s s1, nth_error macro_map (macros n) = Some (npar, body) -> npar <> 0 -> List.length args <= npar -> q_frame s = w0 :: ws -> Forall2 (gets s) args ps ->
     PBody body (q_set_frame s (w0 :: map Some ps ++ repeat None (npar - List.length args))) s1 -> C_body body (q_set_frame s (w0 :: map Some ps ++ repeat None (npar - List.length args))) s1 ->
     C_exec (PCall n args) s (-1) (q_set_frame s1 (q_frame s))).
  { intros n args npar body w0 ws ps s s1 M Hnp L EF A _ IH st HI HP [Hn Hs]. subst s. destruct (macro_wf _ _ _ M) as [Wn Ws].
    destruct (IH (pset_frame st (w0 :: map Some ps ++ repeat None (npar - List.length args))) (frame_inv _ _ HI) eq_refl (conj Wn Ws)) as (f0 & st1 & K & _ & P & I1).
    exists (S f0), ((-1)%Z, pset_frame st1 (p_frame st)). split; [|split; [reflexivity|]; split; [cbn [snd]; rewrite <- P; reflexivity|apply frame_inv, I1]].
    intros f Hf. destruct f as [|f]; [lia|]. cbn [PostchunkRules.prun PostchunkRules.pcall]. rewrite M. rewrite (proj2 (Nat.eqb_neq _ _) Hnp), (proj2 (Nat.ltb_ge _ _) L). cbn [orb].
    cbn [pproj q_frame] in EF. rewrite EF, (proj2 (args_true st args ps) A). assert (EL : List.length ps = List.length args) by (clear -A; induction A; cbn; congruence). rewrite EL, (K f) by lia. reflexivity. }
  assert (E10 : forall n args npar body s i, nth_error macro_map (macros n) = Some (npar, body) -> npar <> 0 -> List.length args <= npar -> q_frame s <> [] ->
     Exists (fun a => outside s a = true) args -> Forall (fun a => outside s a = true \/ exists j, gets s a j) args -> named s 1 = Some i -> C_exec (PCall n args) s (-1) s).
  { intros n args npar body s i M Hnp L EF A B C st HI HP [Hn Hs]. subst s. exists 1, ((-1)%Z, st). split; [|split; [reflexivity|]; split; [reflexivity|exact HI]].
    intros f Hf. destruct f as [|f]; [lia|]. cbn [PostchunkRules.prun PostchunkRules.pcall]. rewrite M. rewrite (proj2 (Nat.eqb_neq _ _) Hnp), (proj2 (Nat.ltb_ge _ _) L). cbn [orb].
    destruct (proj2 (args_false st args) (conj A (conj B (ex_intro _ i C)))) as (ps & E). cbn [pproj q_frame] in EF. destruct (p_frame st); [contradiction|]. rewrite E. reflexivity. }
  assert (E12 : forall z s, C_exec (PReject z) s z s) by (intros z s st HI HP _; exists 0, (z, st); split; [reflexivity|]; split; [reflexivity|]; split; [exact HP|exact HI]).
  assert (E13 : forall l s z s1, PChoose_ l s z s1 -> C_choose l s z s1 -> C_exec (PChoose l) s z s1).
  { intros l s z s1 _ IH st HI HP W. destruct (IH st HI HP W) as (f0 & x & K & X). exists f0, x. split; [intros f Hf; rewrite run_choose; apply K, Hf|exact X]. }
  assert (E14 : forall n s, f_append n [] s = Some s) by reflexivity.
  assert (E15 : forall n e l s t bl s1 s2, pden (in_let n) e s = Some (t, bl, s1) -> PAppended n l (q_set_vars s1 (upd (q_vars s1) n (q_vars s1 n ++ t))) s2 ->
     f_append n l (q_set_vars s1 (upd (q_vars s1) n (q_vars s1 n ++ t))) = Some s2 -> f_append n (e :: l) s = Some s2) by (intros n e l s t bl s1 s2 D _ IH; cbn [f_append]; rewrite D; exact IH).
  assert (E16 : forall s, f_out [] s = Some s) by reflexivity.
  assert (E17 : forall e l s t bl s1 s2, pden in_out e s = Some (t, bl, s1) -> PPrinted l (q_set_out s1 (q_out s1 ++ t)) s2 -> f_out l (q_set_out s1 (q_out s1 ++ t)) = Some s2 -> f_out (e :: l) s = Some s2)
    by (intros e l s t bl s1 s2 D _ IH; cbn [f_out]; rewrite D; exact IH).
  assert (E18 : forall s, C_seq [] s (-1) s) by (intros s st HI HP _; exists 0, ((-1)%Z, st); split; [reflexivity|]; split; [reflexivity|]; split; [exact HP|exact HI]).
  assert (E19 : forall i l s s1 z s2, PExec i s (-1) s1 -> C_exec i s (-1) s1 -> PSeq l s1 z s2 -> C_seq l s1 z s2 -> C_seq (i :: l) s z s2).
  { intros i l s s1 z s2 _ IH1 _ IH2 st HI HP [Hn Hs]. cbn [flat_map forallb] in Hn, Hs. apply incl_app_inv in Hn as [Hn1 Hn2]. apply andb_prop in Hs as [Hs1 Hs2].
    destruct (IH1 st HI HP (conj Hn1 Hs1)) as (f1 & [z1 st1] & K1 & Z1 & P1 & I1). cbn [fst snd] in *. subst z1.
    destruct (IH2 st1 I1 P1 (conj Hn2 Hs2)) as (f2 & x & K2 & X). exists (Nat.max f1 f2), x. split; [|exact X].
    intros f Hf. cbn [PostchunkRules.prun_list]. rewrite K1 by lia. rewrite Z.eqb_refl. apply K2. lia. }
  assert (E20 : forall i l s z s1, PExec i s z s1 -> C_exec i s z s1 -> z <> (-1)%Z -> C_seq (i :: l) s z s1).
  { intros i l s z s1 _ IH Hz st HI HP [Hn Hs]. cbn [flat_map forallb] in Hn, Hs. apply incl_app_inv in Hn as [Hn1 Hn2]. apply andb_prop in Hs as [Hs1 Hs2].
    destruct (IH st HI HP (conj Hn1 Hs1)) as (f1 & [z1 st1] & K1 & Z1 & X). cbn [fst] in Z1. subst z1. exists f1, (z, st1). split; [|split; [reflexivity|exact X]].
    intros f Hf. cbn [PostchunkRules.prun_list]. rewrite K1 by lia. rewrite (proj2 (Z.eqb_neq _ _) Hz). reflexivity. }
  assert (E21 : forall s, C_choose [] s (-1) s) by (intros s st HI HP _; exists 0, ((-1)%Z, st); split; [reflexivity|]; split; [reflexivity|]; split; [exact HP|exact HI]).
  assert (W : forall o b l, incl (pnodes_i (PChoose ((o, b) :: l))) N /\ psimple_i (PChoose ((o, b) :: l)) = true ->
    (incl (match o with Some c => pnodes_c c | None => [] end) N /\ match o with Some c => psimple_c c | None => true end = true) /\
    (incl (flat_map pnodes_i b) N /\ forallb psimple_i b = true) /\ (incl (pnodes_i (PChoose l)) N /\ psimple_i (PChoose l) = true)).
  { intros o b l [Hn Hs]. cbn [pnodes_i psimple_i flat_map forallb fst snd] in Hn, Hs |- *. apply incl_app_inv in Hn as [Hn1 Hn2]; apply incl_app_inv in Hn1 as [Hn0 Hn1]; apply andb_prop in Hs as [Hs1 Hs2]; apply andb_prop in Hs1 as [Hs0 Hs1].
    split; [split; assumption|]. split; split; assumption. }
  assert (E22 : forall c b l s z s1, pholds c s = Some true -> PSeq b s z s1 -> C_seq b s z s1 -> C_choose ((Some c, b) :: l) s z s1).
  { intros c b l s z s1 T _ IH st HI HP H. destruct (W _ _ _ H) as ([Hn0 Hs0] & Wb & Wl). assert (TT := test_holds c st HI Hn0 Hs0). rewrite HP, T in TT. destruct TT as (st1 & TT & P1 & I1).
    destruct (IH st1 I1 (eq_trans P1 HP) Wb) as (f0 & x & K & X). exists f0, x. split; [|exact X]. intros f Hf. cbn [PostchunkRules.prun_opts]. rewrite TT. apply K, Hf. }
  assert (E23 : forall c b l s z s1, pholds c s = Some false -> PChoose_ l s z s1 -> C_choose l s z s1 -> C_choose ((Some c, b) :: l) s z s1).
  { intros c b l s z s1 T _ IH st HI HP H. destruct (W _ _ _ H) as ([Hn0 Hs0] & Wb & Wl). assert (TT := test_holds c st HI Hn0 Hs0). rewrite HP, T in TT. destruct TT as (st1 & TT & P1 & I1).
    destruct (IH st1 I1 (eq_trans P1 HP) Wl) as (f0 & x & K & X). exists f0, x. split; [|exact X]. intros f Hf. cbn [PostchunkRules.prun_opts]. rewrite TT. apply K, Hf. }
  assert (E24 : forall b l s z s1, PSeq b s z s1 -> C_seq b s z s1 -> z <> (-1)%Z -> C_choose ((None, b) :: l) s z s1).
  { intros b l s z s1 _ IH Hz st HI HP H. destruct (W _ _ _ H) as (_ & Wb & Wl). destruct (IH st HI HP Wb) as (f0 & [z1 st1] & K & Z1 & X). cbn [fst] in Z1. subst z1. exists f0, (z, st1). split; [|split; [reflexivity|exact X]].
    intros f Hf. cbn [PostchunkRules.prun_opts]. rewrite K by exact Hf. rewrite (proj2 (Z.eqb_neq _ _) Hz). reflexivity. }
  assert (E25 : forall b l s s1 z s2, PSeq b s (-1) s1 -> C_seq b s (-1) s1 -> PChoose_ l s1 z s2 -> C_choose l s1 z s2 -> C_choose ((None, b) :: l) s z s2).
  { intros b l s s1 z s2 _ IH1 _ IH2 st HI HP H. destruct (W _ _ _ H) as (_ & Wb & Wl). destruct (IH1 st HI HP Wb) as (f1 & [z1 st1] & K1 & Z1 & P1 & I1). cbn [fst snd] in *. subst z1.
    destruct (IH2 st1 I1 P1 Wl) as (f2 & x & K2 & X). exists (Nat.max f1 f2), x. split; [|exact X]. intros f Hf. cbn [PostchunkRules.prun_opts]. rewrite K1 by lia. rewrite Z.eqb_refl. apply K2. lia. }
  assert (E26 : forall s, C_body [] s s) by (intros s st HI HP _; exists 0, st; split; [reflexivity|]; split; [exact I|]; split; [exact HP|exact HI]).
  assert (E27 : forall i l s z s1 s2, PExec i s z s1 -> C_exec i s z s1 -> PBody l s1 s2 -> C_body l s1 s2 -> C_body (i :: l) s s2).
  { intros i l s z s1 s2 _ IH1 _ IH2 st HI HP [Hn Hs]. cbn [flat_map forallb] in Hn, Hs. apply incl_app_inv in Hn as [Hn1 Hn2]. apply andb_prop in Hs as [Hs1 Hs2].
    destruct (IH1 st HI HP (conj Hn1 Hs1)) as (f1 & [z1 st1] & K1 & Z1 & P1 & I1). cbn [fst snd] in *. subst z1.
    destruct (IH2 st1 I1 P1 (conj Hn2 Hs2)) as (f2 & x & K2 & X). exists (Nat.max f1 f2), x. split; [|exact X].
    intros f Hf. cbn [PostchunkRules.prun_macro]. rewrite K1 by lia. apply K2. lia. }
  split.
  - apply (Exec_mi attr_match attr_replace copy_case case_from get_case lower itoa lists dict_case macros macro_map
      C_exec (fun n l s s' => f_append n l s = Some s') (fun l s s' => f_out l s = Some s') C_seq C_choose C_body); assumption.
  - apply (Seq_mi attr_match attr_replace copy_case case_from get_case lower itoa lists dict_case macros macro_map
      C_exec (fun n l s s' => f_append n l s = Some s') (fun l s s' => f_out l s = Some s') C_seq C_choose C_body); assumption.
Qed.
(** a rule *)
Notation p_process := (p_process attr_match attr_replace copy_case case_from get_case lower itoa lists dict_case macros macro_map).
Notation PRule := (PRule attr_match attr_replace copy_case case_from get_case lower itoa lists dict_case macros macro_map).
Theorem prule_correct body st : PInv plain st -> incl (flat_map pnodes_i body) N -> forallb psimple_i body = true ->
  (forall f z st', p_process f body st = Some (z, st') -> PRule body (pproj st) z (pproj st') /\ PInv plain st') /\
  (forall z s', PRule body (pproj st) z s' -> exists f0 st', (forall f, f0 <= f -> p_process f body st = Some (z, st')) /\ pproj st' = s' /\ PInv plain st').
Proof.
  intros HI Hn Hs. split.
  - intros f z st' E. unfold PostchunkRules.p_process in E. destruct (prun_list (pcall f) body st) as [[z1 st1]|] eqn:E1; [|discriminate]. injection E as <- <-.
    assert (SS : Forall (sound (pcall f)) body) by (apply Forall_forall; intros x _; apply sound_run, sound_fuel).
    destruct (sound_list _ body SS _ _ _ HI Hn Hs E1) as [X I1]. split; [|exact I1]. exists (pproj st1). split; [exact X|]. rewrite flush_spec. reflexivity.
  - intros z s' (s1 & X & ->). destruct (proj2 complete_all _ _ _ _ X st HI eq_refl (conj Hn Hs)) as (f0 & [z1 st1] & K & Z1 & P1 & I1). cbn [fst snd] in *. subst z1.
    exists f0, (pset_bq (pset_out st1 (p_out st1 ++ flush (p_bq st1))) []). split; [|split; [rewrite flush_spec, <- P1; reflexivity|exact I1]].
    intros f Hf. unfold PostchunkRules.p_process. rewrite K by exact Hf. reflexivity.
Qed.
End Ref.
