From Verif Require Import Model.Base Proofs.Base Model.ChunkLoop Model.ChunkTokens Model.TransferUnit Spec.TransferMult Spec.ChunkTokens Spec.TransferUnit Proofs.ChunkLoop Proofs.ChunkTokens.

Definition token (x : lunit) : str := match u_wb x with Some w => wb_str w ++ cCARET :: body x | None => body x end.

Ltac nin H := cbn [In] in H; repeat match goal with |- context [?a =?c ?b] =>
  first [ change (a =?c b) with true | change (a =?c b) with false
        | destruct (ceq_spec a b) as [?|?]; [subst; exfalso; apply H; tauto|] ] end.

(** ** word-bound blanks *)
Lemma wbscan_items w : Forall wbitem_ok w -> forall s pre wb,
  wblank_scan false (flat_map wbitem_str w ++ s) pre wb = wblank_scan false s (rev (flat_map wbitem_str w) ++ pre) (wb ++ flat_map wbitem_str w).
Proof.
  induction 1 as [|i w Hi _ IH]; intros s pre wb; cbn [flat_map]; [rewrite app_nil_r; reflexivity|].
  destruct i as [c|c]; cbn [wbitem_str app rev]; cbn [wbitem_ok] in Hi.
  - cbn [wblank_scan]. nin Hi. cbn [andb]. rewrite IH, <- !app_assoc. reflexivity.
  - cbn [wblank_scan]. rewrite ceq_refl, IH, <- !app_assoc. reflexivity.
Qed.
Lemma wbscan w : wb_ok w -> forall s pre wb,
  wblank_scan false (wb_str w ++ cCARET :: s) pre wb = Some (s, cCARET :: rev (wb_str w) ++ pre, wb ++ wb_str w).
Proof.
  intros [H _] s pre wb. unfold wb_str. rewrite <- !app_assoc. cbn [app wblank_scan].
  repeat match goal with |- context [?a =?c ?b] => first [change (a =?c b) with true | change (a =?c b) with false] end. cbn [andb].
  rewrite wbscan_items by exact H. cbn [app wblank_scan after_brackets].
  repeat match goal with |- context [?a =?c ?b] => first [change (a =?c b) with true | change (a =?c b) with false] end. cbn [andb].
  f_equal. f_equal; [f_equal|]; [|appeq]. cbn [rev]. rewrite rev_app_distr. cbn [rev app]. rewrite <- !app_assoc. reflexivity.
Qed.
Lemma wbskip_items w : Forall wbitem_ok w -> forall s pre,
  wblank_skip false (flat_map wbitem_str w ++ s) pre = wblank_skip false s (rev (flat_map wbitem_str w) ++ pre).
Proof.
  induction 1 as [|i w Hi _ IH]; intros s pre; cbn [flat_map]; [reflexivity|].
  destruct i as [c|c]; cbn [wbitem_str app rev]; cbn [wbitem_ok] in Hi.
  - cbn [wblank_skip]. nin Hi. rewrite andb_false_r. cbn [andb]. rewrite IH, <- !app_assoc. reflexivity.
  - cbn [wblank_skip]. rewrite ceq_refl, IH, <- !app_assoc. reflexivity.
Qed.
Lemma wbskip w : wb_ok w -> forall s, wblank_skip false (wb_str w ++ cCARET :: s) [] = Some (s, cCARET :: rev (wb_str w)).
Proof.
  intros [H _] s. unfold wb_str. rewrite <- !app_assoc. cbn [app wblank_skip].
  repeat match goal with |- context [?a =?c ?b] => first [change (a =?c b) with true | change (a =?c b) with false] end. cbn [andb].
  rewrite !andb_false_r. cbn [andb].
  rewrite wbskip_items by exact H. cbn [app wblank_skip after_brackets].
  repeat match goal with |- context [?a =?c ?b] => first [change (a =?c b) with true | change (a =?c b) with false] end. cbn [andb].
  rewrite !andb_false_r. cbn [andb].
  replace (4 <=? _) with true by (symmetry; apply Nat.leb_le; cbn; rewrite app_length; cbn; lia). cbn [andb].
  f_equal. f_equal. cbn [rev]. rewrite rev_app_distr. cbn [rev app]. rewrite <- !app_assoc. reflexivity.
Qed.

(** ** the rule's parts *)
Lemma push_push n p a b : push n (push n p a) b = push n p (a ++ b).
Proof. destruct n as [|[|n]]; cbn; rewrite app_assoc; reflexivity. Qed.
Lemma push_nil n p : push n p [] = p.
Proof. destruct p, n as [|[|n]]; cbn; rewrite app_nil_r; reflexivity. Qed.
Definition tagchar (c : char) : Prop := ~ In c [cBS; cGT; cLT; cLB; cDOL; cCARET; cNUL].
Lemma rsplit_tag t : Forall tagchar t -> forall fuel s pre seen p, length (t ++ cGT :: s) < fuel ->
  exists f' pre', length s < f' /\ rule_split fuel (t ++ cGT :: s) pre seen true p = rule_split f' s pre' seen false (push seen p (t ++ [cGT])).
Proof.
  induction 1 as [|c t Hc _ IH]; intros fuel s pre seen p L; (destruct fuel as [|fuel]; [cbn in L; lia|]); cbn [app length] in L; cbn [app rule_split].
  - exists fuel. eexists. split; [cbn in L; lia|]. reflexivity.
  - unfold tagchar in Hc. cbn [negb]. rewrite andb_false_r. nin Hc.
    destruct (IH fuel s (c :: pre) seen (push seen p [c])) as (f' & pre' & L' & E); [lia|]. exists f', pre'. split; [exact L'|]. etransitivity; [apply E|rewrite push_push; reflexivity].
Qed.
Lemma rsplit_reading r : Forall item_ok r -> forall fuel s pre seen p, length (reading_str r ++ s) < fuel ->
  exists f' pre', length s < f' /\ rule_split fuel (reading_str r ++ s) pre seen false p = rule_split f' s pre' seen false (push seen p (reading_str r)).
Proof.
  induction 1 as [|i r Hi _ IH]; intros fuel s pre seen p L; cbn [reading_str flat_map app] in *.
  - exists fuel, pre. split; [exact L|]. rewrite push_nil. reflexivity.
  - fold (reading_str r) in *. rewrite <- app_assoc in *. destruct i as [c|c|t]; cbn [item_str app] in *; (destruct fuel as [|fuel]; [cbn in L; lia|]); cbn [length] in L; cbn [rule_split].
    + cbn [item_ok] in Hi. nin Hi. cbn [andb].
      replace (if c =?c cGT then false else false) with false by (destruct (c =?c cGT); reflexivity).
      destruct (IH fuel s (c :: pre) seen (push seen p [c])) as (f' & pre' & L' & E); [lia|]. exists f', pre'. split; [exact L'|]. rewrite E, push_push. reflexivity.
    + rewrite ceq_refl. destruct (IH fuel s (c :: cBS :: pre) seen (push seen p [cBS; c])) as (f' & pre' & L' & E); [lia|]. exists f', pre'. split; [exact L'|]. rewrite E, push_push. reflexivity.
    + repeat match goal with |- context [?a =?c ?b] => first [change (a =?c b) with true | change (a =?c b) with false] end. cbn [andb].
      rewrite <- app_assoc in *. cbn [app] in *.
      destruct (rsplit_tag t Hi fuel (reading_str r ++ s) (cLT :: pre) seen (push seen p [cLT])) as (f1 & p1 & L1 & E1); [lia|].
      destruct (IH f1 s p1 seen (push seen (push seen p [cLT]) (t ++ [cGT]))) as (f' & pre' & L' & E); [lia|]. exists f', pre'. split; [exact L'|]. rewrite E1, E, !push_push. cbn [app]. rewrite <- app_assoc. reflexivity.
Qed.
Lemma rsplit_slash f s pre seen p : rule_split (S f) (cSLASH :: s) pre seen false p = rule_split f s (cSLASH :: pre) (S seen) false (mkp (p_sl p) (p_tl p) [] (p_wb p)).
Proof. reflexivity. Qed.
Lemma rsplit_more l : Forall (Forall item_ok) l -> forall fuel pre n a b c w, length (flat_map (fun r => cSLASH :: reading_str r) l) < fuel ->
  rule_split fuel (flat_map (fun r => cSLASH :: reading_str r) l) pre (S n) false (mkp a b c w) =
  Some (mkp a b (match l with [] => c | _ => reading_str (last l []) end) w).
Proof.
  induction 1 as [|r l Hr _ IH]; intros fuel pre n a b c w L; cbn [flat_map] in *; (destruct fuel as [|fuel]; [cbn in L; lia|]).
  - reflexivity.
  - cbn [app length] in L. rewrite <- app_comm_cons, rsplit_slash. cbn [p_sl p_tl p_wb].
    destruct (rsplit_reading r Hr fuel (flat_map (fun r => cSLASH :: reading_str r) l) (cSLASH :: pre) (S (S n)) (mkp a b [] w)) as (f' & pre' & L' & E); [lia|].
    rewrite E. cbn [push p_sl p_tl p_ref p_wb app]. rewrite IH by exact L'. destruct l; reflexivity.
Qed.
Lemma rsplit_body x : lunit_ok x -> forall fuel pre w, length (body x) < fuel ->
  rule_split fuel (body x) pre 0 false (mkp [] [] [] w) = Some (mkp (reading_str (u_sl x)) (reading_str (u_tl x)) (reference x) w).
Proof.
  intros (_ & H1 & H2 & H3) fuel pre w L. unfold body in *.
  destruct (rsplit_reading _ H1 fuel _ pre 0 (mkp [] [] [] w) L) as (f1 & p1 & L1 & E1). rewrite E1. destruct f1 as [|f1]; [lia|]. cbn [length] in L1.
  rewrite rsplit_slash. destruct (rsplit_reading _ H2 f1 (flat_map (fun r => cSLASH :: reading_str r) (u_more x)) (cSLASH :: p1) 1 (mkp (reading_str (u_sl x)) [] [] w)) as (f2 & p2 & L2 & E2); [lia|].
  cbn [push p_sl p_tl p_ref p_wb app] in *. rewrite E2, rsplit_more by assumption. unfold reference. destruct (u_more x); reflexivity.
Qed.
Lemma wb_cons w s : wb_str w ++ cCARET :: s = cLB :: cLB :: (flat_map wbitem_str w ++ [cRB; cRB]) ++ cCARET :: s.
Proof. unfold wb_str. rewrite <- app_assoc. reflexivity. Qed.
Lemma rule_parts_unit x : lunit_ok x -> rule_parts (token x) = Some (mkp (reading_str (u_sl x)) (reading_str (u_tl x)) (reference x) (wblank x)).
Proof.
  intros H. unfold rule_parts, token, wblank. destruct H as [Hw H']. destruct (u_wb x) as [w|] eqn:E.
  - assert (H : lunit_ok x) by (split; [rewrite E; exact Hw|exact H']).
    assert (G : forall fuel, length (wb_str w ++ cCARET :: body x) < fuel ->
      rule_split fuel (wb_str w ++ cCARET :: body x) [] 0 false (mkp [] [] [] []) = Some (mkp (reading_str (u_sl x)) (reading_str (u_tl x)) (reference x) (wb_str w))).
    { intros fuel L. destruct fuel as [|fuel]; [lia|]. rewrite wb_cons. cbn [rule_split next_is]. rewrite <- wb_cons, wbscan by exact Hw.
      change (cLB =?c cBS) with false. change (cLB =?c cLB) with true. cbn [p_wb p_sl p_tl p_ref]. apply rsplit_body; [exact H|].
      rewrite app_length in L. cbn [length] in L. lia. }
    apply G. lia.
  - apply rsplit_body; [|lia]. split; [rewrite E; exact Hw|exact H'].
Qed.

(** ** the default translation's parts *)
Lemma tagscan t : Forall tagchar t -> forall s pre cur, tag_scan false (t ++ cGT :: s) pre cur = Some (cGT :: s, rev t ++ pre, cur ++ t).
Proof.
  induction 1 as [|c t Hc _ IH]; intros s pre cur; cbn [app tag_scan].
  - rewrite ceq_refl, app_nil_r. reflexivity.
  - unfold tagchar in Hc. nin Hc. rewrite IH. cbn [rev]. rewrite <- !app_assoc. reflexivity.
Qed.
Lemma dsplit_reading r : Forall item_ok r -> forall fuel s pre seen cur p, length (reading_str r ++ s) < fuel ->
  exists f' pre', length s < f' /\ default_split fuel (reading_str r ++ s) pre seen cur p = default_split f' s pre' seen (cur ++ reading_str r) p.
Proof.
  induction 1 as [|i r Hi _ IH]; intros fuel s pre seen cur p L; cbn [reading_str flat_map app] in *.
  - exists fuel, pre. split; [exact L|]. rewrite app_nil_r. reflexivity.
  - fold (reading_str r) in *. rewrite <- app_assoc in *. destruct i as [c|c|t]; cbn [item_str app] in *; (destruct fuel as [|fuel]; [cbn in L; lia|]); cbn [length] in L; cbn [default_split].
    + cbn [item_ok] in Hi. nin Hi.
      destruct (IH fuel s (c :: pre) seen (cur ++ [c]) p) as (f' & pre' & L' & E); [lia|]. exists f', pre'. split; [exact L'|]. rewrite E. f_equal. appeq.
    + rewrite ceq_refl. destruct (IH fuel s (c :: cBS :: pre) seen (cur ++ [cBS; c]) p) as (f' & pre' & L' & E); [lia|]. exists f', pre'. split; [exact L'|]. rewrite E. f_equal. appeq.
    + repeat match goal with |- context [?a =?c ?b] => first [change (a =?c b) with true | change (a =?c b) with false] end. cbn [andb].
      rewrite <- app_assoc in *. cbn [app] in *. cbn [tag_scan]. change (cLT =?c cGT) with false. change (cLT =?c cBS) with false. cbn iota. rewrite tagscan by exact Hi.
      destruct (IH fuel s (cGT :: rev t ++ cLT :: pre) seen (((cur ++ [cLT]) ++ t) ++ [cGT]) p) as (f' & pre' & L' & E); [rewrite app_length in L; cbn [length] in L; lia|].
      exists f', pre'. split; [exact L'|]. rewrite E. f_equal. appeq.
Qed.
Lemma dsplit_slash f s pre seen cur p : default_split (S f) (cSLASH :: s) pre seen cur p =
  let (p', cur') := swap_part seen p cur in default_split f s (cSLASH :: pre) (S seen) cur' p'.
Proof. reflexivity. Qed.
Lemma dsplit_more l : Forall (Forall item_ok) l -> forall fuel pre n cur a b c w, length (flat_map (fun r => cSLASH :: reading_str r) l) < fuel ->
  exists c', default_split fuel (flat_map (fun r => cSLASH :: reading_str r) l) pre (S (S n)) cur (mkp a b c w) = Some (mkp a b c' w).
Proof.
  induction 1 as [|r l Hr _ IH]; intros fuel pre n cur a b c w L; cbn [flat_map] in *; (destruct fuel as [|fuel]; [cbn in L; lia|]).
  - destruct cur; eexists; reflexivity.
  - cbn [app length] in L. rewrite <- app_comm_cons, dsplit_slash. cbn [swap_part p_sl p_tl p_wb].
    destruct (dsplit_reading r Hr fuel (flat_map (fun r => cSLASH :: reading_str r) l) (cSLASH :: pre) (S (S (S n))) [] (mkp a b cur w)) as (f' & pre' & L' & E); [lia|].
    rewrite E. apply IH, L'.
Qed.
Lemma dsplit_body x : lunit_ok x -> forall fuel pre w, length (body x) < fuel ->
  exists c, default_split fuel (body x) pre 0 [] (mkp [] [] [] w) = Some (mkp (reading_str (u_sl x)) (reading_str (u_tl x)) c w).
Proof.
  intros (_ & H1 & H2 & H3) fuel pre w L. unfold body in *.
  destruct (dsplit_reading _ H1 fuel _ pre 0 [] (mkp [] [] [] w) L) as (f1 & p1 & L1 & E1). rewrite E1. destruct f1 as [|f1]; [lia|]. cbn [length] in L1.
  rewrite dsplit_slash. cbn [swap_part p_sl p_tl p_ref p_wb app].
  destruct (dsplit_reading _ H2 f1 (flat_map (fun r => cSLASH :: reading_str r) (u_more x)) (cSLASH :: p1) 1 [] (mkp (reading_str (u_sl x)) [] [] w)) as (f2 & p2 & L2 & E2); [lia|].
  rewrite E2. cbn [app]. destruct H3 as [|r l Hr Hl]; cbn [flat_map] in *; (destruct f2 as [|f2]; [cbn in L2; lia|]).
  - cbn [default_split swap_part p_sl p_tl p_ref p_wb]. destruct (reading_str (u_tl x)); eexists; reflexivity.
  - cbn [app length] in L2. rewrite <- app_comm_cons, dsplit_slash. cbn [swap_part p_sl p_tl p_ref p_wb].
    destruct (dsplit_reading r Hr f2 (flat_map (fun r => cSLASH :: reading_str r) l) (cSLASH :: p2) 2 [] (mkp (reading_str (u_sl x)) (reading_str (u_tl x)) [] w)) as (f' & pre' & L' & E); [lia|].
    rewrite E. apply dsplit_more; assumption.
Qed.
Lemma default_parts_unit x : lunit_ok x -> exists c, default_parts (token x) = Some (mkp (reading_str (u_sl x)) (reading_str (u_tl x)) c (wblank x)).
Proof.
  intros H. unfold default_parts, token, wblank. destruct H as [Hw H']. destruct (u_wb x) as [w|] eqn:E.
  - assert (H : lunit_ok x) by (split; [rewrite E; exact Hw|exact H']).
    assert (G : forall fuel, length (wb_str w ++ cCARET :: body x) < fuel -> exists c,
      default_split fuel (wb_str w ++ cCARET :: body x) [] 0 [] (mkp [] [] [] []) = Some (mkp (reading_str (u_sl x)) (reading_str (u_tl x)) c (wb_str w))).
    { intros fuel L. destruct fuel as [|fuel]; [lia|]. rewrite wb_cons. cbn [default_split next_is]. rewrite <- wb_cons, wbscan by exact Hw.
      change (cLB =?c cBS) with false. change (cLB =?c cLB) with true. cbn [p_wb p_sl p_tl p_ref]. apply dsplit_body; [exact H|].
      rewrite app_length in L. cbn [length] in L. lia. }
    apply G. lia.
  - apply dsplit_body; [|lia]. split; [rewrite E; exact Hw|exact H'].
Qed.

(** ** what the matcher sees *)
Section M.
Variable lower : char -> char.
Definition item_sym (i : ritem) : msym := match i with RChar c => MChar (lower c) | REsc c => MChar (lower c) | RTag t => MTag (cLT :: t ++ [cGT]) end.
Lemma findgt t : Forall tagchar t -> forall s acc, find_gt (t ++ cGT :: s) acc = Some (acc ++ t ++ [cGT], s).
Proof.
  induction 1 as [|c t Hc _ IH]; intros s acc; cbn [app find_gt].
  - rewrite ceq_refl. reflexivity.
  - unfold tagchar in Hc. nin Hc. rewrite IH. f_equal. f_equal. appeq.
Qed.
Lemma msyms_reading r : Forall item_ok r -> forall fuel s pre, length (reading_str r ++ s) < fuel ->
  exists f' pre', length s < f' /\ match_syms lower fuel (reading_str r ++ s) pre = option_map (app (map item_sym r)) (match_syms lower f' s pre').
Proof.
  assert (N : forall o : option (list msym), option_map (app []) o = o) by (intros [o|]; reflexivity).
  assert (A : forall a (l : list msym) o, option_map (cons a) (option_map (app l) o) = option_map (app (a :: l)) o) by (intros a l [o|]; reflexivity).
  induction 1 as [|i r Hi _ IH]; intros fuel s pre L; cbn [reading_str flat_map app map] in *.
  - exists fuel, pre. split; [exact L|]. rewrite N. reflexivity.
  - fold (reading_str r) in *. rewrite <- app_assoc in *. destruct i as [c|c|t]; cbn [item_str app] in *; (destruct fuel as [|fuel]; [cbn in L; lia|]); cbn [length] in L; cbn [match_syms item_sym].
    + cbn [item_ok] in Hi. nin Hi.
      destruct (IH fuel s (c :: pre)) as (f' & pre' & L' & E); [lia|]. exists f', pre'. split; [exact L'|]. rewrite E. apply A.
    + rewrite ceq_refl. destruct (IH fuel s (c :: cBS :: pre)) as (f' & pre' & L' & E); [lia|]. exists f', pre'. split; [exact L'|]. rewrite E. apply A.
    + repeat match goal with |- context [?a =?c ?b] => first [change (a =?c b) with true | change (a =?c b) with false] end. cbn [andb].
      rewrite <- app_assoc in *. cbn [app] in *. rewrite findgt by exact Hi.
      destruct (IH fuel s (rev ([cLT] ++ t ++ [cGT]) ++ pre)) as (f' & pre' & L' & E); [rewrite app_length in L; cbn [length] in L; lia|].
      exists f', pre'. split; [exact L'|]. rewrite E. apply A.
Qed.
Lemma msyms_body x : lunit_ok x -> forall fuel pre, length (body x) < fuel -> match_syms lower fuel (body x) pre = Some (map item_sym (u_sl x)).
Proof.
  intros (_ & H1 & _) fuel pre L. unfold body in *. destruct (msyms_reading _ H1 fuel _ pre L) as (f' & pre' & L' & E). rewrite E. destruct f' as [|f']; [lia|].
  cbn. rewrite app_nil_r. reflexivity.
Qed.
Lemma apply_word_unit x : lunit_ok x -> apply_word lower (token x) = Some (MMark cCARET :: map item_sym (u_sl x) ++ [MMark cDOL]).
Proof.
  intros H. unfold apply_word. assert (G : match_syms lower (S (length (token x))) (token x) [] = Some (map item_sym (u_sl x))); [|rewrite G; reflexivity].
  unfold token. destruct H as [Hw H']. destruct (u_wb x) as [w|] eqn:E.
  - assert (H : lunit_ok x) by (split; [rewrite E; exact Hw|exact H']).
    assert (G : forall fuel, length (wb_str w ++ cCARET :: body x) < fuel -> match_syms lower fuel (wb_str w ++ cCARET :: body x) [] = Some (map item_sym (u_sl x))).
    { intros fuel L. destruct fuel as [|fuel]; [lia|]. rewrite wb_cons. cbn [match_syms next_is]. rewrite <- wb_cons, wbskip by exact Hw.
      change (cLB =?c cBS) with false. change (cLB =?c cLB) with true. cbn iota. apply msyms_body; [exact H|].
      rewrite app_length in L. cbn [length] in L. lia. }
    apply G. lia.
  - apply msyms_body; [|lia]. split; [rewrite E; exact Hw|exact H'].
Qed.
End M.

(** ** tokens of a text of units *)
Lemma nodol_app a b : NoDol a -> NoDol b -> NoDol (a ++ b).
Proof. induction 1; intros Hb; cbn [app]; [exact Hb|constructor; auto|apply nd_esc; auto]. Qed.
Lemma nodol_chars s : Forall (fun c => c <> cBS /\ c <> cDOL) s -> NoDol s.
Proof. induction 1 as [|c s [H1 H2] _ IH]; constructor; assumption. Qed.
Lemma nodol_reading r : Forall item_ok r -> NoDol (reading_str r).
Proof.
  induction 1 as [|i r Hi _ IH]; [constructor|]. cbn [reading_str flat_map]. destruct i as [c|c|t]; cbn [item_str app item_ok] in *.
  - constructor; [intros ->; apply Hi; cbn; tauto..|exact IH].
  - apply nd_esc. exact IH.
  - constructor; [discriminate..|]. apply nodol_app; [|exact IH]. apply nodol_app; [|constructor; [discriminate..|constructor]].
    apply nodol_chars. eapply Forall_impl; [|exact Hi]. cbn. intros c Hc. split; intros ->; apply Hc; tauto.
Qed.
Lemma nodol_body x : lunit_ok x -> NoDol (body x).
Proof.
  intros (_ & H1 & H2 & H3). unfold body. apply nodol_app; [apply nodol_reading, H1|]. constructor; [discriminate..|]. apply nodol_app; [apply nodol_reading, H2|].
  induction H3 as [|r l Hr _ IH]; [constructor|]. cbn [flat_map app]. constructor; [discriminate..|]. apply nodol_app; [apply nodol_reading, Hr|exact IH].
Qed.
Lemma btext_app a b : BText a -> BText b -> BText (a ++ b).
Proof. induction 1; intros Hb'; cbn [app]; [exact Hb'|constructor; auto|apply bt_esc; auto|]. rewrite <- app_assoc. cbn [app]. apply bt_sup; auto. Qed.
Lemma btext_reading r : Forall item_ok r -> BText (reading_str r).
Proof.
  induction 1 as [|i r Hi _ IH]; [constructor|]. cbn [reading_str flat_map]. destruct i as [c|c|t]; cbn [item_str app item_ok] in *.
  - constructor; [intros ->; apply Hi; cbn; tauto..|exact IH].
  - apply bt_esc. exact IH.
  - constructor; [discriminate..|]. apply btext_app; [|exact IH]. apply btext_app; [|constructor; [discriminate..|constructor]].
    induction Hi as [|c t Hc _ IHt]; [constructor|]. constructor; [intros ->; apply Hc; cbn; tauto..|exact IHt].
Qed.
Lemma btext_body x : lunit_ok x -> BText (body x).
Proof.
  intros (_ & H1 & H2 & H3). unfold body. apply btext_app; [apply btext_reading, H1|]. constructor; [discriminate..|]. apply btext_app; [apply btext_reading, H2|].
  induction H3 as [|r l Hr _ IH]; [constructor|]. cbn [flat_map app]. constructor; [discriminate..|]. apply btext_app; [apply btext_reading, Hr|exact IH].
Qed.
Lemma nodol_wbitems w : Forall wbitem_ok w -> NoDol (flat_map wbitem_str w).
Proof.
  induction 1 as [|i w Hi _ IH]; [constructor|]. cbn [flat_map]. destruct i as [c|c]; cbn [wbitem_str app wbitem_ok] in *.
  - constructor; [intros ->; apply Hi; cbn; tauto..|exact IH].
  - apply nd_esc. exact IH.
Qed.
Lemma tlex_unit nf b x r : BText b -> lunit_ok x ->
  tlex nf TTop (b ++ unit_str x ++ r) [] = kcons (KBlank b) (kcons (KWord (token x)) (tlex nf TTop r [])).
Proof.
  intros Hb Hx. rewrite t_btext by exact Hb. cbn [app]. unfold unit_str, token, wblank. assert (Hx' := Hx). destruct Hx' as [Hw _]. destruct (u_wb x) as [w|].
  - destruct Hw as [Hw Hf]. unfold wb_str. rewrite <- !app_assoc. cbn [app].
    transitivity (kcons (KBlank (removelast (b ++ [cLB]))) (tlex nf TWb0 (flat_map wbitem_str w ++ cRB :: cRB :: cCARET :: body x ++ cDOL :: r) [])).
    { cbn [tlex]. change (cLB =?c cNUL) with false. rewrite andb_false_r.
      repeat match goal with |- context [?a =?c ?b] => first [change (a =?c b) with true | change (a =?c b) with false] end. cbn iota. rewrite <- app_assoc. reflexivity. }
    rewrite removelast_last. f_equal.
    assert (ND : NoDol (flat_map wbitem_str w ++ cRB :: cRB :: cCARET :: body x)).
    { apply nodol_app; [apply nodol_wbitems, Hw|]. constructor; [discriminate..|]. constructor; [discriminate..|]. constructor; [discriminate..|]. apply nodol_body, Hx. }
    assert (G : forall c s, c <> cNUL -> NoDol s -> tlex nf TWb0 (c :: s ++ cDOL :: r) [] = kcons (KWord (cLB :: cLB :: c :: s)) (tlex nf TTop r [])).
    { intros c s Hc Hs. cbn [tlex]. destruct (ceq_spec c cNUL); [contradiction|]. rewrite andb_false_r. rewrite t_wb by exact Hs. reflexivity. }
    destruct w as [|[c|c] w]; cbn [flat_map wbitem_str app] in *.
    + apply (G cRB (cRB :: cCARET :: body x)); [discriminate|]. constructor; [discriminate..|]. constructor; [discriminate..|]. apply nodol_body, Hx.
    + inversion_clear Hw as [|? ? Hc Hw']. inversion ND as [| ? ? N1 N2 N3|]; subst; [|exfalso; apply Hc; cbn; tauto].
       specialize (G c (flat_map wbitem_str w ++ cRB :: cRB :: cCARET :: body x)).
      rewrite <- !app_assoc in G. cbn [app] in G. apply G; [|exact N3]. intros ->. apply Hc; cbn; tauto.
    + destruct Hf.
  - cbn [app]. transitivity (kcons (KBlank b) (tlex nf TTop ((body x ++ [cDOL]) ++ r) [])).
    { cbn [tlex]. change (cCARET =?c cNUL) with false. rewrite andb_false_r. reflexivity. }
    rewrite <- app_assoc. cbn [app]. f_equal. rewrite t_btext by apply btext_body, Hx. cbn [app tlex]. change (cDOL =?c cNUL) with false. rewrite andb_false_r. reflexivity.
Qed.
Lemma tlex_units nf l final : Forall (fun bx => BText (fst bx) /\ lunit_ok (snd bx)) l -> BText final ->
  tlex nf TTop (units_text l final) [] = Some (map ktok (stream_items (map (fun bx => (fst bx, token (snd bx))) l)) ++ [KEof final], None).
Proof.
  intros H HF. induction H as [|[b x] l [Hb Hx] _ IH]; cbn [units_text map stream_items flat_map fst snd app].
  - rewrite <- (app_nil_r final) at 1. rewrite t_btext by exact HF. reflexivity.
  - cbn [fst snd] in *. rewrite tlex_unit by assumption. rewrite IH. reflexivity.
Qed.
