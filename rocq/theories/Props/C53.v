(** C53: the features the perceptron tagger computes from a compiled .mtx file are those the file describes. *)
From Coq Require Import String.
From Verif Require Import Model.Base Model.Serialiser Model.Stream Model.FeatureVec Model.PerceptronVM Model.Mtx Spec.Mtx Proofs.Mtx Proofs.MtxVals Proofs.MtxParse Proofs.MtxDoc Proofs.MtxDet.
Open Scope nat_scope.

(** For every document without macros, every sentence and position: if the compiler accepts the document, then the byte
    code computes its meaning (no failed assertion, no undefined behaviour) and nothing else, provided the expressions
    evaluated avoid the defects below ([safe_doc]) and there are at most 255 string constants.  [ltr], the order in which
    the operands of a comparison are evaluated, is left open by C++; [meaning] exchanges the operands when it is true. *)
Theorem C53_features_partial u8 show cof ltr d tagged untagged ti wi ctr0 fuel sp :
  compile ctr0 fuel (print_doc d) = Some sp -> wf_doc d -> List.length (sp_strs sp) <= 255 ->
  safe_doc u8 cof ltr (d_strs d) tagged untagged ti wi d ->
  forall r, get_features u8 show (if d_coarse d then Some cof else None) ltr sp tagged untagged ti wi r <->
            r = Some (meaning u8 show cof ltr (d_strs d) tagged untagged ti wi d).
Proof.
  intros H W L S r. pose proof (compile_ok u8 show cof ltr d tagged untagged ti wi ctr0 fuel sp H W L S) as R. split.
  - intros R'. eapply gfs_det; eassumption.
  - intros ->. exact R.
Qed.
(** whatever the byte code, there is at most one result *)
Theorem C53_deterministic u8 show co ltr sp tagged untagged ti wi r1 r2 :
  get_features u8 show co ltr sp tagged untagged ti wi r1 -> get_features u8 show co ltr sp tagged untagged ti wi r2 -> r1 = r2.
Proof. apply gfs_det. Qed.

(** ** A document like those of apertium's taggers: the word, its lemma, the tags of the word before, its ambiguity class *)
Definition n (k : nat) : num := mknum false [k].
Definition m1 : num := mknum true [1].
Definition tags_of (w : ex (TEl BWrd)) : ex (TEl BStr) := EJoin None (ETags w).
Definition before1 : ex TAddr := EClamp (EAdj (EAddA EAddr (EAddrOf (EInt (n 0)) (EInt m1)))).
Definition sample : doc := mkdoc true [(u "noun", u "n")]
  (Some (ENary All (ERel Rneq ESentlen (EInt (n 0))) (ECons (ENot (EStreq (Lit (u "x")) (ESurf ETokaddr))) ENil)))
  [ [SOutS (ESurf ETokaddr); SOutS (ELemma (EWord EAddr))];
    [SPred (EStreq (Named (u "noun")) (ESub BStr (n 0) (ETags (EWord before1)))); SOutS (tags_of (EWord before1))];
    [SMany (EAmbg ETokaddr); SOutI EWrdidx];
    [SMany (ESliceA BStr None (Some (n 1)) (EForW BStr (u "w") ETokaddr (ECoarse (EVar BWrd (u "w")))));
     SOutB (EAny (u "n v") (EForS BStr (u "t") (ETags (EWord EAddr)) (EVar BStr (u "t"))))] ].
Definition first_tag (m : morpheme) : str := match m_tags m with t :: _ => t | [] => [] end.
Definition shw (z : Z) : str := if (z =? 0)%Z then u "0" else u "?".
Definition dog := mkm (u "dog") [u "n"; u "sg"].
Definition runs_w := mkm (u "run") [u "v"; u "p3"].
Definition tagged0 : list (option (list morpheme)) := [Some [dog]; Some [runs_w]].
Definition untagged0 : list lexunit := [mklex (u "dog") [mkan [dog]]; mklex (u "runs") [mkan [mkm (u "run") [u "n"; u "pl"]]; mkan [runs_w]]].
Definition sample_spec : spec := Eval vm_compute in match compile 7 100 (print_doc sample) with Some s => s | None => mkspec [] [] [] [] [] end.
Example C53_accepted : compile 7 100 (print_doc sample) = Some sample_spec.
Proof. vm_compute. reflexivity. Qed.
Lemma num1 k : k < 10 -> num_ok (n k). Proof. intros H. split; [discriminate|]. constructor; [exact H|constructor]. Qed.
Example C53_wf : wf_doc sample.
Proof.
  assert (num_ok m1) as Hm by (split; [discriminate|repeat constructor]). pose proof (num1 0 ltac:(lia)). pose proof (num1 1 ltac:(lia)).
  repeat split; auto; try (repeat constructor; cbn; auto; try discriminate; try tauto; fail); try discriminate; try (cbn; tauto).
Qed.
Example C53_safe : safe_doc id first_tag false (d_strs sample) tagged0 untagged0 1 0 sample.
Proof.
  split; [vm_compute; auto|]. intros _. repeat constructor; try discriminate; try (vm_compute; intuition discriminate).
Qed.
Example C53_meaning : meaning id shw first_tag false (d_strs sample) tagged0 untagged0 1 0 sample =
  [ [[0%N]; u "runs"; u "run"]; [[1%N]; u "n.sg"]; [[2%N]; u "n"; u "0"]; [[2%N]; u "v"; u "0"]; [[3%N]; u "v"; u "t"] ].
Proof. vm_compute. reflexivity. Qed.
Example C53_computed r : get_features id shw (Some first_tag) false sample_spec tagged0 untagged0 1 0 r <->
  r = Some [ [[0%N]; u "runs"; u "run"]; [[1%N]; u "n.sg"]; [[2%N]; u "n"; u "0"]; [[2%N]; u "v"; u "0"]; [[3%N]; u "v"; u "t"] ].
Proof.
  rewrite (C53_features_partial id shw first_tag false sample tagged0 untagged0 1 0 7 100 sample_spec C53_accepted C53_wf ltac:(vm_compute; lia) C53_safe r).
  rewrite C53_meaning. reflexivity.
Qed.

(** ** What is not true of every accepted document (why [safe_doc]) *)
Definition doc_of (f : list stmt) : doc := mkdoc true [] None [f].
Definition T_ : ex TBool := ERel Req (EInt (n 0)) (EInt (n 0)).
Definition F_ : ex TBool := ERel Rneq (EInt (n 0)) (EInt (n 0)).
Definition word_out : stmt := SOutS (ESurf ETokaddr).
Definition result ltr d := match compile 0 100 (print_doc d) with Some sp => features_of id shw (Some first_tag) ltr tagged0 untagged0 1 0 sp 1000 | None => None end.
Lemma result_ok ltr d r : result ltr d = Some r -> exists sp, compile 0 100 (print_doc d) = Some sp /\ get_features id shw (Some first_tag) ltr sp tagged0 untagged0 1 0 r.
Proof. unfold result. destruct (compile _ _ _) as [sp|]; [|discriminate]. intros H. exists sp. split; [reflexivity|]. eapply features_of_ok. exact H. Qed.
Definition says d := meaning id shw first_tag false (d_strs d) tagged0 untagged0 1 0 d.
Ltac gives := split; [vm_compute; reflexivity|apply result_ok; vm_compute; reflexivity].
(** <or> and <and> do not pop their other operands when the last one decides: the program is aborted at the end of the
    feature, although <or> of false and true is true *)
Theorem C53_or_refuted : let d := doc_of [SPred (ENary Some_of F_ (ECons T_ ENil)); word_out] in
  says d = [[[0%N]; u "runs"]] /\ exists sp, compile 0 100 (print_doc d) = Some sp /\ get_features id shw (Some first_tag) false sp tagged0 untagged0 1 0 None.
Proof. gives. Qed.
(** or the value of the wrong operand is taken: the condition true and (false or true) fails *)
Theorem C53_and_or_refuted : let d := doc_of [SPred (ENary All T_ (ECons (ENary Some_of F_ (ECons T_ ENil)) ENil)); word_out] in
  says d = [[[0%N]; u "runs"]] /\ exists sp, compile 0 100 (print_doc d) = Some sp /\ get_features id shw (Some first_tag) false sp tagged0 untagged0 1 0 (Some []).
Proof. gives. Qed.
(** when the left operand of the comparison in the machine is evaluated first, <lt> is greater-than *)
Theorem C53_lt_refuted : let d := doc_of [SPred (ERel Rlt (EInt (n 1)) (EInt (n 2))); word_out] in
  says d = [[[0%N]; u "runs"]] /\ exists sp, compile 0 100 (print_doc d) = Some sp /\ get_features id shw (Some first_tag) true sp tagged0 untagged0 1 0 (Some []).
Proof. gives. Qed.
(** a loop over nothing is the number 0, not an empty list: aborted *)
Theorem C53_empty_loop_refuted : let d := doc_of [SOutS (EJoin None (EForS BStr (u "t") (ETags (EWord (EAddrOf (EInt (n 1)) (EInt (n 0))))) (EVar BStr (u "t"))))] in
  meaning id shw first_tag false [] [Some [dog]; Some [mkm (u "run") []]] untagged0 1 0 d = [[[0%N]; []]] /\
  exists sp, compile 0 100 (print_doc d) = Some sp /\ get_features id shw (Some first_tag) false sp [Some [dog]; Some [mkm (u "run") []]] untagged0 1 0 None.
Proof.
  split; [vm_compute; reflexivity|]. set (d := doc_of _). destruct (compile 0 100 (print_doc d)) as [sp|] eqn:E; [|vm_compute in E; discriminate]. exists sp. split; [reflexivity|].
  apply (features_of_ok id shw (Some first_tag) false [Some [dog]; Some [mkm (u "run") []]] untagged0 1 0 sp 1000).
  vm_compute in E. injection E as <-. vm_compute. reflexivity.
Qed.
(** a slice that begins after the last element gives the last element *)
Theorem C53_slice_refuted : let d := doc_of [SMany (ESliceA BStr (Some (n 5)) None (ETags (EWord EAddr)))] in
  says d = [] /\ exists sp, compile 0 100 (print_doc d) = Some sp /\ get_features id shw (Some first_tag) false sp tagged0 untagged0 1 0 (Some [[[0%N]; u "p3"]]).
Proof. gives. Qed.
(** a <join> leaves out the separator after empty strings *)
Theorem C53_join_refuted : let d := doc_of [SOutS (EJoin None (EForS BStr (u "t") (ETags (EWord EAddr)) (ESliceS None (Some m1) (ESliceS None (Some (n 1)) (EVar BStr (u "t"))))))] in
  says d = [[[0%N]; u "."]] /\ exists sp, compile 0 100 (print_doc d) = Some sp /\ get_features id shw (Some first_tag) false sp tagged0 untagged0 1 0 (Some [[[0%N]; []]]).
Proof. gives. Qed.
(** features 0 and 256 have the same key *)
Theorem C53_keys_refuted : let d := mkdoc true [] None (repeat [word_out] 257) in
  exists f0 f1, nth_error (all_features id shw first_tag false [] tagged0 untagged0 1 0 0 (d_feats d)) 0 = Some f0 /\
                nth_error (all_features id shw first_tag false [] tagged0 untagged0 1 0 0 (d_feats d)) 256 = Some f1 /\ f0 = f1.
Proof. eexists _, _. split; [vm_compute; reflexivity|]. split; [vm_compute; reflexivity|reflexivity]. Qed.

(** the 256th string constant is read as "." *)
Theorem C53_constant_255_refuted : let names := map (fun i => ([N.of_nat (i + 1)], if i =? 255 then u "runs" else u "a")) (seq 0 256) in
  let d := mkdoc true names None [[SPred (EStreq (Named [256%N]) (ESurf ETokaddr)); word_out]] in
  says d = [[[0%N]; u "runs"]] /\ exists sp, compile 0 300 (print_doc d) = Some sp /\ get_features id shw (Some first_tag) false sp tagged0 untagged0 1 0 (Some []).
Proof.
  intros names d. split; [vm_compute; reflexivity|]. destruct (compile 0 300 (print_doc d)) as [sp|] eqn:E; [|vm_compute in E; discriminate]. exists sp. split; [reflexivity|].
  apply (features_of_ok id shw (Some first_tag) false tagged0 untagged0 1 0 sp 1000). vm_compute in E. injection E as <-. vm_compute. reflexivity.
Qed.

(** ** Documents that the format allows and the compiler rejects (or crashes on), whatever they contain besides *)
Lemma bnd_none {A B} (m : P A) (k : A -> P B) s : m s = None -> bnd m k s = None.
Proof. intros H. unfold bnd. rewrite H. reflexivity. Qed.
(** a <def-set> with members *)
Lemma no_def_set fuel p x a r : toks p = Op Xdef_set [(Aname, x)] :: Op Xset_member a :: r -> proc_set_def fuel p = None.
Proof.
  intros T. destruct (proc_set_def fuel p) as [[[] q]|] eqn:H; [exfalso|reflexivity]. unfold proc_set_def in H. go H T.
  apply bnd_inv in H as (l & s1 & Hm & H). assert (x = u "set-member") as ->.
  { destruct fuel as [|k]; cbn [set_members] in Hm; go Hm T; cbn [closes] in Hm; [discriminate|]. destruct (str_eqb x (u "set-member")) eqn:Ex; [apply Proofs.Base.str_eqb_eq; exact Ex|discriminate]. }
  apply bnd_inv in H as (i & s2 & _ & H). apply bnd_inv in H as (v & s3 & _ & H). apply p_guard in H as [H _]. vm_compute in H. discriminate.
Qed.
Theorem C53_def_set_refuted ctr0 fuel x a r : compile ctr0 fuel (Op Xmetatag [] :: Op Xdefns [] :: Op Xdef_set [(Aname, x)] :: Op Xset_member a :: r) = None.
Proof.
  unfold compile. destruct (parse_doc fuel _) as [[sp q]|] eqn:H; [exfalso|reflexivity]. unfold parse_doc in H. set (p := mkpst _ _ _ _ _ _ _ _ _) in H.
  assert (toks p = Op Xmetatag [] :: Op Xdefns [] :: Op Xdef_set [(Aname, x)] :: Op Xset_member a :: r) as T by reflexivity. clearbody p. go H T. apply p_guard in H as [_ H]. go H T.
  eapply p_opt_no in H; [|exact T|discriminate]. eapply p_opt_yes in H; [|exact T|reflexivity]. apply bnd_inv in H as ([] & s1 & H1 & _). unfold proc_defns in H1. go H1 T.
  apply bnd_inv in H1 as ([] & s2 & H2 & _). destruct fuel as [|k]; cbn [until_close] in H2; go H2 T; cbn [closes] in H2; [discriminate|]. apply bnd_inv in H2 as ([] & s3 & H3 & _).
  unfold proc_defn in H3. go H3 T. rewrite (no_def_set _ _ _ _ _ T) in H3. discriminate.
Qed.
(** a <beam-width> *)
Theorem C53_beam_width_refuted ctr0 fuel a r : compile ctr0 fuel (Op Xmetatag [] :: Op Xbeam_width a :: r) = None.
Proof.
  unfold compile. destruct (parse_doc fuel _) as [[sp q]|] eqn:H; [exfalso|reflexivity]. unfold parse_doc in H. set (p := mkpst _ _ _ _ _ _ _ _ _) in H.
  assert (toks p = Op Xmetatag [] :: Op Xbeam_width a :: r) as T by reflexivity. clearbody p. go H T. apply p_guard in H as [_ H]. go H T.
  eapply p_opt_no in H; [|exact T|discriminate]. eapply p_opt_no in H; [|exact T|discriminate].
  apply bnd_inv in H as (g & s1 & H1 & H). unfold opt in H1. go H1 T. destruct (el_dec Xbeam_width Xglobal_pred); [congruence|]. apply ret_inv in H1 as [_ ->].
  apply bnd_inv in H as (f & s2 & H1 & H). unfold opt in H1. go H1 T. destruct (el_dec Xbeam_width Xfeats); [congruence|]. apply ret_inv in H1 as [_ ->].
  apply bnd_inv in H as (x & s2 & H1 & _). unfold at_end in H1. go H1 T. vm_compute in H1. discriminate.
Qed.
(** <toklen> calls itself without end, <strlen> and <arrlen> are not followed into *)
Theorem C53_lengths_refuted fuel e a r af p : In e [Xtoklen; Xstrlen; Xarrlen] -> toks p = Op e a :: r -> proc fuel KInt af p = None.
Proof.
  intros He T. revert af. induction fuel as [|k IH]; intros af; [reflexivity|]. change (proc (S k) KInt af p) with (proc_int (proc k) af p). unfold proc_int.
  match goal with |- ?x = None => destruct x as [[b q]|] eqn:H; [exfalso|reflexivity] end.
  destruct He as [<-|[<-|[<-|[]]]]; go H T; apply p_one in H as (b1 & s1 & H1 & _).
  - rewrite IH in H1. discriminate.
  - destruct k as [|k]; [discriminate|]. change (proc_str (proc k) false p = Some (b1, s1)) in H1. unfold proc_str in H1. go H1 T. discriminate.
  - destruct k as [|k]; [discriminate|]. change (proc_str_arr (proc k) false p = Some (b1, s1)) in H1. unfold proc_str_arr in H1. go H1 T. discriminate.
Qed.
(** a variable may be rejected because the types of the loops before it in the file are counted too: the same feature is
    accepted first and rejected after a loop over words *)
Definition loop_s : stmt := SMany (EForS BStr (u "t") (ETags (EWord EAddr)) (EVar BStr (u "t"))).
Definition loop_w : stmt := SMany (EForW BStr (u "w") ETokaddr (ELemma (EVar BWrd (u "w")))).
Theorem C53_slot_types_refuted : compile 0 100 (print_doc (doc_of [loop_s])) <> None /\ compile 0 100 (print_doc (doc_of [loop_w])) <> None /\
  wf_doc (mkdoc true [] None [[loop_w]; [loop_s]]) /\ compile 0 100 (print_doc (mkdoc true [] None [[loop_w]; [loop_s]])) = None.
Proof.
  split; [vm_compute; discriminate|]. split; [vm_compute; discriminate|]. split; [|vm_compute; reflexivity].
  repeat split; auto; try (repeat constructor; cbn; auto; try discriminate; try tauto; fail).
Qed.
