(** apertium-transfer -b: rules on lexical units. *)
From Coq Require Import String ZArith.
From Verif Require Import Model.Base Proofs.Base Model.TransferUnit Model.TransferRules Model.TransferAct Spec.TransferUnit Spec.TransferRules Spec.TransferRun Spec.TransferText Spec.TransferReject
  Proofs.TransferRules Proofs.TransferSeq Proofs.TransferUnit Proofs.TransferLocal.

Lemma twords_units us : Forall lunit_ok us -> twords (map token us) = Some (map word_of us).
Proof. induction 1 as [|x us Hx H IH]; [reflexivity|]. cbn [map twords]. unfold tword_of. rewrite (rule_parts_unit x Hx), IH. reflexivity. Qed.
Lemma unit_good x : good_wb (w_wb (word_of x)).
Proof.
  cbn. unfold wblank. destruct (u_wb x) as [w|]; [|apply good_nil]. unfold wb_str. apply (good_in cLB _ [] (cLB :: flat_map wbitem_str w ++ [cRB; cRB])); [reflexivity|discriminate|]. cbn. rewrite app_length. cbn. lia.
Qed.
Definition glob (st : rst) : tglob := mkg (r_vars st) (r_vwb st) (r_in_lu st).
Definition plen (ps : list (list str)) (r : nat) : nat := length (nth (r - 1) ps []).

Lemma keeps_rej n : forall i, keeps_i i = true -> rej_i n i = true.
Proof.
  induction i as [l e|m l|l|l e|m args|z0|l IH] using instr_ind2; intros H; try reflexivity; [discriminate|]. cbn [keeps_i rej_i] in *. induction IH as [|[c b] l Hb H0 IHl]; [reflexivity|]. cbn [forallb snd] in *.
  apply andb_prop in H as [H1 H2]. rewrite IHl by exact H2. rewrite andb_true_r. clear - Hb H1. cbn [snd] in Hb. induction Hb as [|i b Hi Hb IH]; [reflexivity|]. cbn [forallb] in *. apply andb_prop in H1 as [H1 H2]. rewrite (Hi H1). exact (IH H2).
Qed.
Lemma wf_file_rejecting ps mm bodies : wf_file ps mm bodies -> wf_rejecting ps mm bodies /\ Forall (fun b => forallb keeps_i b = true) bodies.
Proof.
  intros (A & B & C). split.
  - split; [exact A|]. split; [exact B|]. clear A B. induction C as [|p b ps bs (C1 & C2 & C3) C IH]; constructor; [|exact IH]. split; [exact C1|]. split; [exact C2|]. clear -C3. induction b as [|i b IH]; [reflexivity|]. cbn [forallb] in *. apply andb_prop in C3 as [H1 H2]. rewrite (keeps_rej _ i H1). exact (IH H2).
  - clear A B. induction C as [|p b ps bs (C1 & C2 & C3) C IH]; constructor; [exact C3|exact IH].
Qed.

Section Text.
Variable attr_match : str -> str -> str.
Variable attr_replace : str -> str -> str -> str.
Variable copy_case case_from : str -> str -> str.
Variable get_case lower : str -> str.
Variable lists : str -> list str.
Variable dict_case : bool.
Variable macros : str -> nat.
Variable macro_map : list (nat * list instr).
Variable ps : list (list str).
Variable bodies : list (list instr).
Hypothesis ps_nonempty : Forall (fun cs => cs <> []) ps.
Hypothesis WF : wf_rejecting ps macro_map bodies.
Notation N := (file_nodes macro_map bodies).
Notation tact := (tact attr_match attr_replace copy_case case_from get_case lower lists dict_case macros macro_map).
Notation unit_rule := (unit_rule attr_match attr_replace copy_case case_from get_case lower lists dict_case macros macro_map bodies).
Notation run_list := (run_list attr_match attr_replace copy_case case_from get_case lower lists dict_case).
Notation call := (call attr_match attr_replace copy_case case_from get_case lower lists dict_case macros macro_map).
Lemma HN : functional N.
Proof. exact (proj1 WF). Qed.
Lemma HM : Forall (fun m => incl (flat_map nodes_i (snd m)) N /\ forallb simple_i (snd m) = true) macro_map.
Proof.
  destruct WF as (_ & F & _). rewrite Forall_forall in F |- *. intros m Hm. split; [|exact (F m Hm)]. unfold file_nodes. apply incl_appl. intros x Hx. apply in_flat_map. exists m. auto.
Qed.
Lemma body_wf r b : nth_error bodies (r - 1) = Some b -> incl (flat_map nodes_i b) N /\ forallb simple_i b = true /\ forallb (pos_i (Z.of_nat (plen ps r))) b = true /\ forallb (rej_i (Z.of_nat (plen ps r))) b = true /\ 0 < plen ps r.
Proof.
  intros E. destruct WF as (_ & _ & F).
  assert (K : forall j ps0 bs0, Forall2 (fun p b => forallb simple_i b = true /\ forallb (pos_i (Z.of_nat (length p))) b = true /\ forallb (rej_i (Z.of_nat (length p))) b = true) ps0 bs0 -> Forall (fun cs : list str => cs <> []) ps0 -> nth_error bs0 j = Some b ->
    forallb simple_i b = true /\ forallb (pos_i (Z.of_nat (length (nth j ps0 [])))) b = true /\ forallb (rej_i (Z.of_nat (length (nth j ps0 [])))) b = true /\ 0 < length (nth j ps0 [])).
  { clear. intros j ps0 bs0 F. revert j. induction F as [|p b0 ps0 bs0 (A & B & C) F IH]; intros j NE E; [destruct j; discriminate|]. inversion_clear NE as [|? ? N1 N2]. destruct j as [|j]; cbn in E |- *.
    - injection E as ->. split; [exact A|]. split; [exact B|]. split; [exact C|]. destruct p; [congruence|cbn; lia].
    - apply IH; assumption. }
  destruct (K _ _ _ F ps_nonempty E) as (A & B & C & D). split; [|split; [exact A|split; [exact B|split; [exact C|exact D]]]].
  unfold file_nodes. apply incl_appr. intros x Hx. apply in_flat_map. exists b. split; [exact (nth_error_In _ _ E)|exact Hx].
Qed.
(** between rules *)
Definition Clean (st : rst) : Prop := Inv N plain st /\ r_bq st = [] /\ r_out st = [].
Lemma tload_inv us nw bs st : Clean st -> Inv N plain (tload (map word_of us) nw bs st).
Proof.
  intros ((A & C & G1 & G2 & G3) & _). split; [exact A|]. split; [exact C|]. split; [|split; [exact G2|exact G3]]. cbn. apply Forall_map. apply Forall_forall. intros x _. apply unit_good.
Qed.
Lemma tclear_clean st : Inv N plain st -> Clean (tclear st).
Proof. intros (A & C & G1 & G2 & G3). split; [|split; reflexivity]. split; [exact A|]. split; [exact C|]. split; [constructor|]. split; [exact G2|exact G3]. Qed.
Lemma tstart_clean vars : Clean (tstart vars).
Proof. split; [|split; reflexivity]. split; [split; [reflexivity|split; reflexivity]|]. split; [discriminate|]. split; [constructor|]. split; [intros n; apply good_nil|apply good_nil]. Qed.
Lemma run_clean f b st z st1 : Inv N plain st -> incl (flat_map nodes_i b) N -> forallb simple_i b = true -> run_list (call f) b st = Some (z, st1) ->
  Seq attr_match attr_replace copy_case case_from get_case lower lists dict_case macros macro_map b (proj st) z (proj st1) /\ Inv N plain st1.
Proof.
  intros HI Hn Hs E. assert (SS : Forall (sound attr_match attr_replace copy_case case_from get_case lower lists dict_case macros macro_map N (call f)) b)
    by (apply Forall_forall; intros x _; apply sound_run; [exact HN|apply sound_fuel; [exact HN|exact HM]]).
  exact (sound_list attr_match attr_replace copy_case case_from get_case lower lists dict_case macros macro_map N (call f) b SS st z st1 HI Hn Hs E).
Qed.
Lemma firstn_seq n a len : firstn n (seq a len) = seq a (Nat.min n len).
Proof. revert a len. induction n as [|n IH]; intros a len; [reflexivity|]. destruct len as [|len]; [reflexivity|]. cbn. f_equal. apply IH. Qed.
Lemma seq_split n len : n <= len -> seq 0 len = seq 0 n ++ seq n (len - n).
Proof. intros H. replace len with (n + (len - n)) at 1 by lia. rewrite seq_app. reflexivity. Qed.
(** words read beyond the match do not matter *)
Lemma tact_local f r st us bs : Clean st -> Forall lunit_ok us -> tact f bodies r (Some st) (map token us) bs = tact f bodies r (Some st) (firstn (plen ps r) (map token us)) bs.
Proof.
  intros HC HU. unfold TransferAct.tact. destruct (nth_error bodies (r - 1)) as [b|] eqn:B; [|reflexivity]. destruct (body_wf r b B) as (Hn & Hs & Hp & _ & Hl). set (n := plen ps r) in *.
  replace (firstn n (map token us)) with (map token (firstn n us)) by (symmetry; apply firstn_map).
  assert (HU' : Forall lunit_ok (firstn n us)). { apply Forall_forall. intros x Hx. rewrite <- (firstn_skipn n us) in HU. apply Forall_app in HU as [HU _]. exact (proj1 (Forall_forall _ _) HU x Hx). }
  rewrite (twords_units us HU), (twords_units _ HU'). destruct (Nat.le_gt_cases (length us) n) as [L|L]; [rewrite firstn_all2 by exact L; reflexivity|].
  set (st0 := tload (map word_of us) (S (length bs)) bs st). assert (I0 : Inv N plain st0) by (apply tload_inv, HC).
  set (ws := map word_of (firstn n us)). set (fr := Some (map Some (seq 0 (length ws)))).
  assert (LW : length ws = n) by (unfold ws; rewrite map_length, firstn_length; lia).
  assert (V : view (Some n) n st0 ws fr).
  { split.
    - intros i Hi. unfold st0, ws. cbn. replace us with (firstn n us ++ skipn n us) at 1 by apply firstn_skipn. rewrite map_app, nth_error_app1; [reflexivity|]. rewrite map_length, firstn_length. lia.
    - cbn [frames]. exists (map Some (seq 0 n)), (map Some (seq n (length us - n))), []. split; [|split; [|split; [|split; [exact Hl|]]]].
      + unfold st0. cbn. rewrite map_length, (seq_split n (length us)) by lia. rewrite map_app. reflexivity.
      + unfold fr. rewrite LW, app_nil_r. reflexivity.
      + rewrite map_length, seq_length. reflexivity.
      + apply Forall_map. apply Forall_forall. intros i Hi. apply in_seq in Hi. cbn. lia. }
  change (tload ws (S (length bs)) bs st) with (swp ws fr st0).
  assert (K := rule_local attr_match attr_replace copy_case case_from get_case lower lists dict_case macros macro_map N HN HM f n b st0 ws fr n I0 Hn Hs Hp V).
  destruct (run_list (call f) b st0) as [[z st1]|]; [|cbn in K; rewrite K; reflexivity]. destruct K as (ws' & -> & _). reflexivity.
Qed.
(** rules that do not reject themselves *)
Hypothesis KEEP : Forall (fun b => forallb keeps_i b = true) bodies.
Lemma keep r b : nth_error bodies (r - 1) = Some b -> forallb keeps_i b = true.
Proof. intros E. exact (proj1 (Forall_forall _ _) KEEP b (nth_error_In _ _ E)). Qed.
Lemma tact_neg f r g ws bs : (snd (fst (tact f bodies r g ws bs)) < 0)%Z.
Proof.
  unfold TransferAct.tact. destruct g as [st|]; [|reflexivity]. destruct (nth_error bodies (r - 1)) as [b|] eqn:B; [|reflexivity]. assert (Hk := keep r b B).
  destruct (twords ws) as [l|]; [|reflexivity]. destruct (run_list (call f) b _) as [[z st1]|] eqn:E; [|reflexivity].
  assert (Z := keeps_list attr_match attr_replace copy_case case_from get_case lower lists dict_case (call f) b Hk _ _ _ E). subst z. reflexivity.
Qed.
Lemma tact_clean f r st us bs : Clean st -> Forall lunit_ok us -> match snd (tact f bodies r (Some st) (map token us) bs) with Some st1 => Clean st1 | None => True end.
Proof.
  intros HC HU. unfold TransferAct.tact. destruct (nth_error bodies (r - 1)) as [b|] eqn:B; [|exact I]. destruct (body_wf r b B) as (Hn & Hs & _). rewrite (twords_units us HU).
  destruct (run_list (call f) b _) as [[z st1]|] eqn:E; [|exact I]. cbn [snd]. apply tclear_clean. exact (proj2 (run_clean f b _ z st1 (tload_inv us _ bs st HC) Hn Hs E)).
Qed.
(** what a rule does is what it means *)
Lemma start_proj us bs st : Clean st -> length us = S (length bs) ->
  proj (tload (map word_of us) (S (length bs)) bs st) = mkst (map word_of us) (Some (map Some (seq 0 (length us)))) (length us) (r_vars st) (r_vwb st) bs [] (r_in_lu st).
Proof. intros (_ & B & O) L. unfold proj, tload. cbn [r_words r_frame r_ll r_vars r_vwb r_bq r_out]. rewrite B, O, map_length, <- L. rewrite push_all by (cbn; lia). reflexivity. Qed.
Lemma tact_sound f n st us bs o lf z st1 : Clean st -> Forall lunit_ok us -> length us = S (length bs) -> tact f bodies n (Some st) (map token us) bs = (o, lf, z, Some st1) ->
  unit_rule n (glob st) us bs o lf (glob st1).
Proof.
  intros HC HU L E. unfold TransferAct.tact in E. destruct (nth_error bodies (n - 1)) as [b|] eqn:B; [|discriminate]. destruct (body_wf n b B) as (Hn & Hs & _). assert (Hk := keep n b B). rewrite (twords_units us HU) in E.
  destruct (run_list (call f) b _) as [[z1 st2]|] eqn:E1; [|discriminate]. injection E as <- <- <- <-.
  destruct (run_clean f b _ z1 st2 (tload_inv us _ bs st HC) Hn Hs E1) as [X _]. rewrite (start_proj us bs st HC L) in X.
  assert (Z := keeps_list attr_match attr_replace copy_case case_from get_case lower lists dict_case (call f) b Hk _ _ _ E1). subst z1.
  exists b, (proj st2). split; [exact B|]. split; [exact X|]. split; [reflexivity|]. split; reflexivity.
Qed.
Lemma tact_complete n st us bs o lf g1 : Clean st -> Forall lunit_ok us -> length us = S (length bs) -> unit_rule n (glob st) us bs o lf g1 ->
  exists f0 st1, Clean st1 /\ g1 = (glob st1) /\ forall f, f0 <= f -> tact f bodies n (Some st) (map token us) bs = (o, lf, (-1)%Z, Some st1).
Proof.
  intros HC HU L (b & s & B & X & -> & -> & ->). destruct (body_wf n b B) as (Hn & Hs & _). assert (Hk := keep n b B). unfold glob in X. cbn [g_vars g_blanks g_mlu] in X. rewrite <- (start_proj us bs st HC L) in X.
  destruct (proj2 (complete_all attr_match attr_replace copy_case case_from get_case lower lists dict_case macros macro_map N HN HM) _ _ _ _ X _ (tload_inv us _ bs st HC) eq_refl (conj Hn Hs)) as (f0 & [z1 st1] & K & Z1 & P1 & I1).
  cbn [fst snd] in *. subst z1 s. exists f0, (tclear st1). split; [apply tclear_clean, I1|]. split; [reflexivity|]. intros f Hf. unfold TransferAct.tact. rewrite B, (twords_units us HU), (K f Hf). reflexivity.
Qed.

(** ** texts *)
Variable M : nat -> list lunit -> Prop.
Hypothesis M_nonempty : forall n us, M n us -> us <> [].
Variable default : lunit -> str.
Definition app_f (f n : nat) (g : option rst) (us : list lunit) (bs : list str) (o : str) (lf : list str) (g1 : option rst) : Prop := exists z, tact f bodies n g (map token us) bs = (o, lf, z, g1).
Lemma none_stuck f l final o g' : Transferred lunit M (option rst) (app_f f) default None l final o g' -> g' = None.
Proof.
  intros T. assert (K : forall g, Transferred lunit M (option rst) (app_f f) default g l final o g' -> g = None -> g' = None); [|exact (K _ T eq_refl)].
  clear. induction 1 as [g final|g b x l final n k o bs g1 o1 g2 us K MM MX MN AP T IH|g b x l final o g2 NM T IH]; intros E; [exact E| |exact (IH E)].
  apply IH. destruct AP as [z AP]. subst g. unfold TransferAct.tact in AP. injection AP as _ _ _ <-. reflexivity.
Qed.
Lemma lens x (l : list (str * lunit)) n k : k <= length (x :: map snd l) -> M n (firstn k (x :: map snd l)) -> length (firstn k (x :: map snd l)) = S (length (firstn (k - 1) (map fst l))).
Proof.
  intros H MM. assert (k <> 0) by (intros ->; exact (M_nonempty _ _ MM eq_refl)). rewrite !firstn_length. cbn [length] in *. rewrite !map_length in *. lia.
Qed.
Lemma sub_ok x (l : list (str * lunit)) k : Forall lunit_ok (x :: map snd l) -> Forall lunit_ok (firstn k (x :: map snd l)).
Proof. intros H. rewrite <- (firstn_skipn k (x :: map snd l)) in H. apply Forall_app in H. apply H. Qed.
Lemma rest_ok b x (l : list (str * lunit)) k : Forall lunit_ok (x :: map snd l) -> Forall lunit_ok (map snd (skipn k ((b, x) :: l))).
Proof. intros H. rewrite <- skipn_map. cbn [map snd]. rewrite <- (firstn_skipn k (x :: map snd l)) in H. apply Forall_app in H. apply H. Qed.
Lemma to_spec f l final o st st' : Transferred lunit M (option rst) (app_f f) default (Some st) l final o (Some st') -> Clean st -> Forall lunit_ok (map snd l) ->
  Transferred lunit M tglob unit_rule default (glob st) l final o (glob st').
Proof.
  intros T. remember (Some st) as g eqn:E. remember (Some st') as g' eqn:E'. revert st E E'.
  induction T as [g final|g b x l final n k o bs g1 o1 g2 us K MM MX MN AP T IH|g b x l final o g2 NM T IH]; intros st E E' HC HU.
  - subst g. injection E' as <-. constructor.
  - subst g g2. cbn [map snd] in HU. assert (HU1 := sub_ok x l k HU). assert (LN := lens x l n k K MM). destruct AP as [z AP]. destruct g1 as [st1|]; [|apply none_stuck in T; discriminate].
    assert (C1 : Clean st1). { assert (Q := tact_clean f n st _ (firstn (k - 1) (map fst l)) HC HU1). subst us. rewrite AP in Q. exact Q. }
    apply (tr_rule lunit M tglob unit_rule default _ b x l final n k o bs (glob st1)); try assumption.
    + exact (tact_sound f n st _ _ o bs z st1 HC HU1 LN AP).
    + apply IH; [reflexivity|reflexivity|exact C1|]. apply rest_ok, HU.
  - apply tr_default; [exact NM|]. apply IH; [exact E|exact E'|exact HC|]. cbn [map] in HU. inversion_clear HU. assumption.
Qed.
Lemma of_spec g l final o g' : Transferred lunit M tglob unit_rule default g l final o g' -> forall st, g = (glob st) -> Clean st -> Forall lunit_ok (map snd l) ->
  exists f0 st', g' = (glob st') /\ forall f, f0 <= f -> Transferred lunit M (option rst) (app_f f) default (Some st) l final o (Some st').
Proof.
  induction 1 as [g final|g b x l final n k o bs g1 o1 g2 us K MM MX MN AP T IH|g b x l final o g2 NM T IH]; intros st E HC HU.
  - exists 0, st. split; [exact E|]. intros. constructor.
  - subst g. cbn [map snd] in HU. assert (HU1 := sub_ok x l k HU). assert (LN := lens x l n k K MM).
    destruct (tact_complete n st _ _ o bs g1 HC HU1 LN AP) as (f1 & st1 & C1 & -> & K1). destruct (IH st1 eq_refl C1 (rest_ok b x l k HU)) as (f2 & st' & E2 & K2).
    exists (Nat.max f1 f2), st'. split; [exact E2|]. intros f Hf. apply (tr_rule lunit M (option rst) (app_f f) default _ b x l final n k o bs (Some st1)); try assumption.
    + exists (-1)%Z. apply K1. lia.
    + apply K2. lia.
  - cbn [map] in HU. inversion_clear HU. destruct (IH st E HC) as (f0 & st' & E2 & K2); [assumption|]. exists f0, st'. split; [exact E2|]. intros f Hf. apply tr_default; [exact NM|apply K2, Hf].
Qed.
End Text.
