(** C45: the meaning of transfer rules does not depend on what was evaluated before. *)
From Coq Require Import String ZArith.
From Verif Require Import Model.Base Proofs.Base Model.TransferRules Spec.TransferRules Proofs.TransferRules Proofs.TransferSeq Proofs.TransferNoMlu.

Section C45.
Variable attr_match : str -> str -> str.
Variable attr_replace : str -> str -> str -> str.
Variable copy_case case_from : str -> str -> str.
Variable get_case lower : str -> str.
Variable lists : str -> list str.
Variable dict_case : bool.
Variable macros : str -> nat.
Variable macro_map : list (nat * list instr).
(** the nodes of the file; macros without units inside units, and without units in tests and in what is written into words (simple_i) *)
Variable N : list (nat * tinstr).
Hypothesis HN : functional N.
Hypothesis HM : Forall (fun m => incl (flat_map nodes_i (snd m)) N /\ forallb simple_i (snd m) = true) macro_map.
Notation apply_rules := (apply_rules attr_match attr_replace copy_case case_from get_case lower lists dict_case macros macro_map).
Notation Rules := (Rules attr_match attr_replace copy_case case_from get_case lower lists dict_case macros macro_map).

(** any sequence of rule applications does what the specification says, which has no caches and no accumulators, and of the
    program's flags only the one that an <mlu> leaves set: what the interpreter
    computes is what the rules mean, and what the rules mean is what the interpreter computes (with enough stack) *)
Theorem C45_rules_partial : forall l st, Forall (app_ok N) l -> Inv N plain st -> r_bq st = [] ->
  (forall f zs st', apply_rules f l st = Some (zs, st') -> Rules l (proj st) zs (proj st')) /\
  (forall zs s', Rules l (proj st) zs s' -> exists f0 st', proj st' = s' /\ forall f, f0 <= f -> apply_rules f l st = Some (zs, st')).
Proof.
  intros l st HL HI HB. split.
  - intros f zs st' E. exact (proj1 (rules_sound _ _ _ _ _ _ _ _ _ _ N HN HM f l HL st zs st' HI HB E)).
  - intros zs s' R. destruct (rules_complete _ _ _ _ _ _ _ _ _ _ N HN HM l HL st zs s' HI HB R) as (f0 & st' & A & B & _). exists f0, st'. split; [exact B|exact A].
Qed.
(** hence the same words, variables and blanks give the same result whatever is in the cache and in the accumulators *)
Theorem C45_history_partial : forall l st1 st2 f zs st1', Forall (app_ok N) l -> Inv N plain st1 -> Inv N plain st2 -> r_bq st1 = [] ->
  proj st1 = proj st2 -> apply_rules f l st1 = Some (zs, st1') ->
  exists f0 st2', proj st2' = proj st1' /\ forall f', f0 <= f' -> apply_rules f' l st2 = Some (zs, st2').
Proof.
  intros l st1 st2 f zs st1' HL I1 I2 HB P E. assert (R := proj1 (C45_rules_partial l st1 HL I1 HB) _ _ _ E). rewrite P in R.
  assert (HB2 : r_bq st2 = []) by (change (r_bq st2) with (s_bq (proj st2)); rewrite <- P; exact HB).
  destruct (proj2 (C45_rules_partial l st2 HL I2 HB2) _ _ R) as (f0 & st2' & A & B). exists f0, st2'. split; [exact A|exact B].
Qed.
(** and if no rule and no macro has an <mlu>, that flag is never set after a rule: what the rules do depends on the words, the variables with their blanks
    and the blanks between the words only *)
Theorem C45_no_mlu : Forall (fun m => forallb no_mlu_i (snd m) = true) macro_map -> forall l st f zs st', Forall (app_ok N) l -> Forall (fun a => forallb no_mlu_i (snd a) = true) l ->
  Inv N plain st -> r_bq st = [] -> r_in_lu st = false -> apply_rules f l st = Some (zs, st') -> r_in_lu st' = false.
Proof.
  intros HM2 l st f zs st' HL HL2 HI HB HU E. exact (calm_rules _ _ _ _ _ _ _ _ _ _ HM2 l _ _ _ (proj1 (C45_rules_partial l st HL HI HB) _ _ _ E) HL2 HU).
Qed.
(** a fresh interpreter meets the hypotheses *)
Theorem C45_initial : forall vars, Inv N plain (mkr [] None 0 vars (fun _ => []) [] false false false [] [] [] (fun _ => None)).
Proof. intros vars. split; [split; reflexivity|]. split; [discriminate|]. split; [constructor|]. split; [intros n; apply good_nil|apply good_nil]. Qed.
End C45.
Print Assumptions C45_rules_partial.
Print Assumptions C45_history_partial.
Print Assumptions C45_no_mlu.
Print Assumptions C45_initial.

(** ** examples: "whole" is the whole word, "lem" the text before the first tag, anything else the first tag *)
Fixpoint upto (s : str) : str := match s with [] => [] | c :: r => if c =?c cLT then [] else c :: upto r end.
Fixpoint from (s : str) : str := match s with [] => [] | c :: r => if c =?c cLT then s else from r end.
Definition amatch (p s : str) : str := if str_eqb p (u "whole") then s else if str_eqb p (u "lem") then upto s else from s.
Definition areplace (p s v : str) : str := if str_eqb p (u "whole") then v else if str_eqb p (u "lem") then v ++ from s else upto s ++ v.
Definition ex_apply (mac : list (nat * list instr)) :=
  apply_rules amatch areplace (fun _ s => s) (fun _ s => s) (fun s => s) (fun s => s) (fun _ => []) false (fun n => if str_eqb n (u "m1") then 1 else 0) mac 5.
Definition st0 : rst := mkr [] None 0 (fun _ => []) (fun _ => []) [] false false false [] [] [] (fun _ => None).
(* what is consumed and written *)
Definition seen (o : option (list Z * rst)) : option (list Z * str) := match o with Some (zs, st) => Some (zs, r_out st) | None => None end.
Definition wd (s t wb : str) : tword := mkw s t [] wb 0.
Definition two_words : list tword := [wd (u "big<adj>") (u "gros<adj>") (u "[[b]]"); wd (u "dog<n>") (u "chien<n>") (u "[[i]]")].
(* the noun's lemma through a variable, then the adjective agreeing with the noun *)
Definition swap_rule : list instr :=
  [ILet (LVar 0 (u "v")) (XClip 1 TL (u "lem") 1 true []);
   ILet (LClip 2 TL (u "tag") 0 true) (XClip 3 TL (u "tag") 1 true []);
   IOut [XLu [XVar 4 (u "v"); XClip 5 TL (u "tag") 1 true []]; XB 6; XLu [XClip 7 TL (u "whole") 0 true []]]].
Definition swap_app := (two_words, [u "[<i>]"], swap_rule).
Example C45_example : seen (ex_apply [] [swap_app; swap_app] st0) =
  Some ([-1; -1]%Z, u "[[i]]^chien<n>$[<i>][[b]]^gros<n>$[[i]]^chien<n>$[<i>][[b]]^gros<n>$").
Proof. vm_compute. reflexivity. Qed.
Example C45_example_ok : Forall (app_ok (flat_map nodes_i swap_rule)) [swap_app; swap_app] /\ functional (flat_map nodes_i swap_rule).
Proof.
  split.
  - assert (A : app_ok (flat_map nodes_i swap_rule) swap_app).
    { split; [repeat constructor; cbn; intros [|c b]; discriminate|]. split; [reflexivity|]. split; [apply incl_refl|reflexivity]. }
    constructor; [exact A|constructor; [exact A|constructor]].
  - assert (G : forall l, NoDup (map fst l) -> functional l).
    { intros l. induction l as [|[i x] l IH]; intros ND id t t' H1 H2; [destruct H1|]. inversion ND as [|? ? NI ND']; subst.
      destruct H1 as [H1|H1]; destruct H2 as [H2|H2].
      - congruence.
      - injection H1 as -> ->. destruct (NI (in_map fst _ _ H2)).
      - injection H2 as -> ->. destruct (NI (in_map fst _ _ H1)).
      - apply (IH ND' id); assumption. }
    apply G. cbn. repeat constructor; cbn; intuition discriminate.
Qed.
(* an <mlu>: the parts joined by +, the blanks of both words on the unit *)
Definition mlu_rule : list instr := [IOut [XMlu [[XClip 0 TL (u "whole") 1 true []]; [XClip 1 TL (u "lem") 0 true []; XLit 2 (u "<x>")]]; XB 3]].
Example C45_mlu_example : seen (ex_apply [] [(two_words, [u "[<i>]"], mlu_rule)] st0) = Some ([-1]%Z, u "[[i; b]]^chien<n>+gros<x>$[<i>]") /\ forallb simple_i mlu_rule = true.
Proof. vm_compute. split; reflexivity. Qed.
(** FINDING: after an <mlu> (transfer.cc:340-381 never resets in_lu; postchunk.cc:211 does) a variable loses the word-bound blank of its value *)
Definition let_rule : list instr := [ILet (LVar 0 (u "v")) (XClip 1 TL (u "lem") 1 true []); IOut [XLu [XVar 4 (u "v")]]].
Theorem C45_mlu_leak_refuted :
  seen (ex_apply [] [(two_words, [u " "], let_rule)] st0) = Some ([(-1)%Z], u "[[i]]^chien$") /\
  seen (ex_apply [] [(two_words, [u " "], IOut [XMlu [[XLit 10 (u "x")]]] :: let_rule)] st0) = Some ([(-1)%Z], u "^x$^chien$").
Proof. vm_compute. split; reflexivity. Qed.
(** FINDING: copying a variable drops its word-bound blank *)
Theorem C45_copy_refuted :
  seen (ex_apply [] [(two_words, [u " "], [ILet (LVar 0 (u "v")) (XClip 1 TL (u "lem") 1 true []); ILet (LVar 2 (u "w")) (XVar 3 (u "v")); IOut [XLu [XVar 4 (u "w")]; XLu [XVar 5 (u "v")]]])] st0)
  = Some ([(-1)%Z], u "^chien$[[i]]^chien$").
Proof. vm_compute. reflexivity. Qed.
(** FINDING: tmp_clear (transfer.cc:905-911, called before each document in null-flush mode) resets the variables but not the blanks they carry *)
Definition tmp_clear (defaults : str -> str) (st : rst) : rst := with_vars st defaults.
Theorem C45_documents_refuted :
  (match ex_apply [] [swap_app] st0 with
   | Some (_, st1) => seen (ex_apply [] [(two_words, [u " "], [IOut [XLu [XVar 10 (u "v"); XLit 11 (u "x")]]])] (tmp_clear (fun _ => []) (with_out st1 [])))
   | None => None end) = Some ([(-1)%Z], u "[[i]]^x$").
Proof. vm_compute. reflexivity. Qed.
(** FINDING: reject-current-rule inside a macro is ignored *)
Theorem C45_reject_refuted : seen (ex_apply [(1, [IReject 1])] [(two_words, [u " "], [ICall (u "m0") [0%Z]; IOut [XLit 0 (u "x")]])] st0) = Some ([(-1)%Z], u "x").
Proof. vm_compute. reflexivity. Qed.
(** FINDING: an undefined macro name calls the first macro of the file *)
Theorem C45_undefined_macro_refuted :
  seen (ex_apply [(1, [IOut [XLit 0 (u "first macro")]])] [(two_words, [u " "], [ICall (u "no such macro") [0%Z]])] st0) = Some ([(-1)%Z], u "first macro").
Proof. vm_compute. reflexivity. Qed.
(** FINDING: <mlu> in a macro without parameters dereferences a null pointer when the rule has matched one word *)
Theorem C45_mlu_null_refuted : seen (ex_apply [(0, [IOut [XMlu [[XLit 0 (u "x")]]]])] [([wd (u "a<n>") (u "b<n>") []], [], [ICall (u "m0") []])] st0) = None.
Proof. vm_compute. reflexivity. Qed.
(** FINDING: modify-case with queue="no" reads without the queue but writes with it: part "whole" loses the queue *)
Theorem C45_queue_refuted :
  seen (ex_apply [] [([mkw (u "take<vb># off") (u "take<vb># off") [] [] 5], [], [IModCase (LClip 0 TL (u "whole") 0 false) (XLit 1 (u "aa")); IOut [XClip 2 TL (u "whole") 0 true []]])] st0)
  = Some ([(-1)%Z], u "take<vb>").
Proof. vm_compute. reflexivity. Qed.

(** What reading and writing a part of a word means: without the queue, the part is looked for in the text before the
    queue, and writing leaves the queue, the other sides, the blank and the length of the queue alone. *)
Theorem C45_word_parts : forall attr_match attr_replace sd w part v stem queue,
  w_text sd w = stem ++ queue -> w_q w = length queue ->
  w_get attr_match sd w part true = attr_match part (stem ++ queue) /\
  w_get attr_match sd w part false = attr_match part stem /\
  exists w1 w2, w_put attr_replace sd w part v true = Some w1 /\ w_put attr_replace sd w part v false = Some w2 /\
    w_text sd w1 = attr_replace part (stem ++ queue) v /\ w_text sd w2 = attr_replace part stem v ++ queue /\
    (forall sd', sd' <> sd -> w_text sd' w1 = w_text sd' w /\ w_text sd' w2 = w_text sd' w) /\
    w_wb w1 = w_wb w /\ w_wb w2 = w_wb w /\ w_q w1 = w_q w /\ w_q w2 = w_q w.
Proof.
  intros am ar sd w part v stem queue E Q. unfold w_get, w_put. rewrite E, Q.
  assert (L : (length (stem ++ queue) <? length queue) = false) by (apply Nat.ltb_ge; rewrite app_length; lia).
  assert (D : length (stem ++ queue) - length queue = length stem) by (rewrite app_length; lia).
  assert (S1 : firstn (length stem) (stem ++ queue) = stem) by (rewrite firstn_app, Nat.sub_diag, firstn_all, firstn_O; apply app_nil_r).
  assert (S2 : skipn (length stem) (stem ++ queue) = queue) by (rewrite skipn_app, Nat.sub_diag, skipn_all; reflexivity).
  unfold no_queue. rewrite L, D, S1, S2. split; [reflexivity|]. split; [reflexivity|]. eexists _, _. split; [reflexivity|]. split; [reflexivity|].
  destruct sd; cbn; (split; [reflexivity|]); (split; [reflexivity|]); (split; [intros [] K; try congruence; split; reflexivity|]); repeat split; exact Q.
Qed.
Print Assumptions C45_word_parts.
Example C45_word_parts_ex : w_text TL (mkw (u "take<vb># off") (u "take<vb># off") [] [] 5) = u "take<vb>" ++ u "# off" /\ 5 = length (u "# off").
Proof. split; reflexivity. Qed.
(** the words of an <mlu> are joined by +; empty ones do not count, and there is no + before a # (mlu_add is what the specification above
    uses for the words one after the other) *)
Definition joined (ws : list str) : str :=
  match List.filter (fun w : str => match w with [] => false | _ => true end) ws with
  | [] => []
  | w :: r => w ++ flat_map (fun x : str => match x with c :: _ => if c =?c cHASH then x else cPLUS :: x | [] => [] end) r
  end.
Theorem C45_mlu_words : forall ws, fst (fold_left (fun a w => mlu_add (fst a) (snd a) w) ws ([], true)) = joined ws.
Proof.
  assert (K : forall ws v, fst (fold_left (fun a w => mlu_add (fst a) (snd a) w) ws (v, false)) =
     v ++ flat_map (fun x : str => match x with c :: _ => if c =?c cHASH then x else cPLUS :: x | [] => [] end) (List.filter (fun w : str => match w with [] => false | _ => true end) ws)).
  { induction ws as [|w ws IH]; intros v; cbn [fold_left List.filter flat_map]; [rewrite app_nil_r; reflexivity|]. unfold mlu_add at 2. cbn [fst snd].
    destruct w as [|c w]; [apply IH|]. rewrite IH. cbn [flat_map]. destruct (c =?c cHASH); rewrite <- ?app_assoc; reflexivity. }
  induction ws as [|w ws IH]; [reflexivity|]. cbn [fold_left]. unfold mlu_add at 2. cbn [fst snd]. destruct w as [|c w]; [exact IH|]. rewrite K. reflexivity.
Qed.
Print Assumptions C45_mlu_words.
(** a unit is written with its word-bound blank and in ^ and $, an empty one not at all; a value that already begins with a word-bound blank
    is not given another *)
Theorem C45_unit_text : forall wb w, (lu_text wb w = [] <-> w = []) /\ (mlu_text wb w = [] <-> w = []) /\
  (w <> [] -> mlu_text wb w = wb ++ [cCARET] ++ w ++ [cDOL]) /\
  (w <> [] -> (forall r, w <> cLB :: cLB :: r) -> lu_text wb w = wb ++ [cCARET] ++ w ++ [cDOL]) /\ (forall r, w = cLB :: cLB :: r -> lu_text wb w = w ++ [cDOL]).
Proof.
  intros wb w. unfold lu_text, mlu_text. destruct w as [|c w]; [repeat split; try reflexivity; intros; congruence|].
  assert (B : forall r, c :: w = cLB :: cLB :: r -> begins_with (c :: w) [cLB; cLB] = true) by (intros r H; apply begins_spec; exists r; exact H).
  assert (NB : begins_with (c :: w) [cLB; cLB] = true -> exists r, c :: w = cLB :: cLB :: r).
  { intros H. apply begins_spec in H as [r H]. exists r. exact H. }
  split; [split; [destruct (begins_with _ _); intros H; [discriminate H|apply app_eq_nil in H as [_ H]; discriminate H]|discriminate]|].
  split; [split; [intros H; apply app_eq_nil in H as [_ H]; discriminate H|discriminate]|]. split; [reflexivity|]. split.
  - intros _ H. destruct (begins_with (c :: w) [cLB; cLB]) eqn:E; [destruct (NB eq_refl) as [r K]; destruct (H r K)|reflexivity].
  - intros r H. rewrite (B r H). reflexivity.
Qed.
Print Assumptions C45_unit_text.
