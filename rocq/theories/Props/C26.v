(** C26: multiple translations.  [bil] is the bilingual dictionary lookup.  A dictionary answer is an optional @ followed by
    pieces (translations) separated by / *)
From Coq Require Import String Permutation.
From Verif Require Import Model.Base Proofs.Base Model.TransferMult Spec.TransferMult Proofs.TransferMult.

(** a rule on words ws separated by blanks bs: one alternative per choice of a translation of each word, first word varying
    slowest, each rendered with the blanks; bracketed when there are several *)
Theorem C26_rule : forall bil ws bs o, length ws <= S (length bs) ->
  applyRule bil ws bs = Some o <->
  exists Ts, Forall2 (fun w t => acceptions (bil w) = Some t) ws Ts /\
    let s := alternatives (map (fun c => sentence c bs) (choices Ts)) in
    (2 <= length (choices Ts) \/ Occurs sep s -> o = bracketed s) /\
    (length (choices Ts) = 1 -> ~ Occurs sep s -> o = s).
Proof. intros bil ws bs o H. apply (applyRule_spec bil ws bs H o). Qed.
Print Assumptions C26_rule.

(** the choices are all the combinations, each as often as its components are repeated, and none else *)
Theorem C26_choices : forall Ts c,
  (In c (choices Ts) <-> Forall2 (fun w ws => In w ws) c Ts) /\
  length (choices Ts) = fold_right (fun ws n => length ws * n) 1 Ts /\
  (Forall (@NoDup str) Ts -> NoDup (choices Ts)).
Proof.
  intros Ts c. split; [apply choices_spec|]. split; [apply choices_length|].
  induction 1 as [|ws Ts Hn HN IH]; [repeat constructor; intros []|]. cbn [choices].
  induction Hn as [|w ws Hw Hn IHw]; [constructor|]. cbn [flat_map]. 
  assert (A : NoDup (map (cons w) (choices Ts))).
  { clear -IH. induction IH as [|x l H1 H2 IH]; [constructor|]. cbn. constructor; [|exact IH].
    intros K. apply in_map_iff in K as [y [K1 K2]]. injection K1 as ->. contradiction. }
  clear Hn. remember (map (cons w) (choices Ts)) as l eqn:El.
  assert (D : forall x, In x l -> ~ In x (flat_map (fun w => map (cons w) (choices Ts)) ws)).
  { intros x H1 H2. rewrite El in H1. apply in_map_iff in H1 as [x1 [<- _]]. apply in_flat_map in H2 as [v [Hv H2]]. apply in_map_iff in H2 as [x2 [E _]].
    injection E as -> _. contradiction. }
  clear El HN IH. induction A as [|x l H1 H2 IHA]; [exact IHw|]. cbn. constructor.
  - rewrite in_app_iff. intros [K|K]; [contradiction|]. apply (D x); [left; reflexivity|exact K].
  - apply IHA. intros y Hy. apply D. right. exact Hy.
Qed.
Print Assumptions C26_choices.

(** the translations of a word: a permutation of the pieces, restricted to the marked ones when at least two are marked *)
Theorem C26_acceptions : forall (at_ : bool) l, l <> [] -> Forall Piece l -> (at_ = false -> hd 0%N (slash_join l) <> cAT) ->
  exists l', Permutation l l' /\
    exists r, acceptions ((if at_ then [cAT] else []) ++ slash_join l) = Some r /\
      (r = l' /\ length (filter sense l) < 2 \/ r = filter sense l' /\ 2 <= length (filter sense l)) /\
      forall w, sense w = true <-> Marked w.
Proof.
  intros at_ l Hne H Ha. exists (arrange [] l). assert (P := arrange_perm l []). cbn in P. split; [symmetry; exact P|].
  eexists. split; [apply acceptions_join; assumption|]. split; [|apply sense_spec]. unfold keep_senses.
  assert (LF : length (filter sense (arrange [] l)) = length (filter sense l)).
  { clear -P. induction P as [|x l l' P IH|x y l|l l' l'' P1 IH1 P2 IH2]; cbn; [reflexivity|destruct (sense x); cbn; congruence|destruct (sense x), (sense y); reflexivity|congruence]. }
  assert (LL : length (filter sense (arrange [] l)) <= length (arrange [] l)).
  { generalize (arrange [] l). intros m. induction m as [|x m IH]; cbn; [lia|]. destruct (sense x); cbn; lia. }
  destruct ((2 <=? length (arrange [] l)) && (2 <=? length (filter sense (arrange [] l)))) eqn:E.
  - right. split; [reflexivity|]. apply andb_prop in E as [_ E]. apply Nat.leb_le in E. lia.
  - left. split; [reflexivity|]. apply andb_false_iff in E as [E|E]; apply Nat.leb_gt in E; lia.
Qed.
Print Assumptions C26_acceptions.

(** A translation marked as default (" D<") exchanges places with the first one, wherever it is except in second place of
    three or more; with no marked translation the order is kept *)
Theorem C26_default_first : forall a l1 d l2, Forall Piece ((a :: l1) ++ d :: l2) -> Forall (fun p => ~ Default p) (a :: l1 ++ l2) -> Default d ->
  hd 0%N (slash_join ((a :: l1) ++ d :: l2)) <> cAT -> Forall (fun p => ~ Marked p) ((a :: l1) ++ d :: l2) ->
  l1 <> [] \/ l2 = [] ->
  acceptions (slash_join ((a :: l1) ++ d :: l2)) = Some (d :: l1 ++ a :: l2).
Proof.
  intros a l1 d l2 HP HN HD Ha HM Hc. assert (Ne : (a :: l1) ++ d :: l2 <> []) by discriminate. assert (K := acceptions_join false _ Ne HP (fun _ => Ha)).
  refine (eq_trans K _). f_equal.
  rewrite arrange_one; [|eapply Forall_impl; [|exact HN]; cbn; intros p Hp; destruct (isDefaultWord p) eqn:E; [apply isDefault_spec in E; contradiction|reflexivity]|apply isDefault_spec, HD|exact Hc].
  unfold keep_senses. assert (F : filter sense (d :: l1 ++ a :: l2) = []).
  { assert (Q : forall l, Forall (fun p => ~ Marked p) l -> filter sense l = []).
    { induction 1 as [|x l Hx Hl IH]; [reflexivity|]. cbn. destruct (sense x) eqn:E; [apply sense_spec in E; contradiction|exact IH]. }
    apply Q. apply Forall_app in HM as [M1 M2]. inversion M1; inversion M2; subst. constructor; [assumption|]. apply Forall_app. split; [assumption|constructor; assumption]. }
  rewrite F. rewrite andb_false_r. reflexivity.
Qed.
Print Assumptions C26_default_first.
Theorem C26_order_kept : forall l, l <> [] -> Forall Piece l -> Forall (fun p => ~ Default p) l -> hd 0%N (slash_join l) <> cAT ->
  exists r, acceptions (slash_join l) = Some r /\ (r = l \/ r = filter sense l).
Proof.
  intros l Hne HP HN Ha. assert (K := acceptions_join false l Hne HP (fun _ => Ha)). cbn [app] in K. eexists. split; [exact K|].
  rewrite arrange_nodef. 2: { eapply Forall_impl; [|exact HN]; cbn; intros p Hp; destruct (isDefaultWord p) eqn:E; [apply isDefault_spec in E; contradiction|reflexivity]. }
  unfold keep_senses. cbn [app]. destruct (_ && _); [right|left]; reflexivity.
Qed.
Print Assumptions C26_order_kept.
(** FINDING: a default in second place of three is not moved (the test is size > 1 instead of size > 0) *)
Theorem C26_default_second_refuted : acceptions (u "a<n>/b D<n>/c<n>") = Some [u "a<n>"; u "b D<n>"; u "c<n>"].
Proof. vm_compute. reflexivity. Qed.
Print Assumptions C26_default_second_refuted.

(** only a dictionary answer ending inside an escape is not handled (out-of-bounds read) *)
Theorem C26_acceptions_total : forall l, l <> [] -> Forall Piece l -> forall at_ : bool, (at_ = false -> hd 0%N (slash_join l) <> cAT) -> acceptions ((if at_ then [cAT] else []) ++ slash_join l) <> None.
Proof. intros l Hne HP at_ Ha. rewrite (acceptions_join at_ l Hne HP Ha). discriminate. Qed.
Print Assumptions C26_acceptions_total.
Theorem C26_trailing_backslash_refuted : acceptions (u "a\") = None.
Proof. vm_compute. reflexivity. Qed.
Print Assumptions C26_trailing_backslash_refuted.

(** Case *)
Definition exbil (w : str) : str := if str_eqb w (u "gat<n>") then u "cat<n>/tom<n>" else if str_eqb w (u "blau<adj>") then u "@blue<adj>/azure<adj>/navy D<adj>" else u "x".
Example C26_case : applyRule exbil [u "gat<n>"; u "blau<adj>"] [u " "] =
  Some (u "[{]^cat<n>$ ^navy D<adj>$[|]^cat<n>$ ^azure<adj>$[|]^cat<n>$ ^blue<adj>$[|]^tom<n>$ ^navy D<adj>$[|]^tom<n>$ ^azure<adj>$[|]^tom<n>$ ^blue<adj>$.[][}]").
Proof. vm_compute. reflexivity. Qed.
Example C26_case_pieces : Forall Piece [u "cat<n>"; u "a\/b"].
Proof. repeat constructor; discriminate. Qed.
Example C26_case_marked : acceptions (u "a__1<n>/b<n>/c__2<n>") = Some [u "a__1<n>"; u "c__2<n>"].
Proof. vm_compute. reflexivity. Qed.
