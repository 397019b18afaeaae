(** Segments: filter and xmlize against Spec/TmxBuild.v. *)
From Coq Require Import String Lia.
From Verif Require Import Model.Base Model.TmxAlign Model.TmxBuild Spec.TmxAlign Spec.TmxBuild Proofs.Base.
Open Scope N_scope.

Section Segment.
Variables oa od os op : char -> bool.
Notation isalpha := (u_isalpha oa).
Notation isalnum := (u_isalnum oa od).
Notation isspace' := (u_isspace os).
Notation ispunct := (u_ispunct op).
Notation junk' := (junk oa od op).
Notation empty' := (empty_tok isalnum ispunct).

(** ** The escaping loop *)
Lemma starts_ph s : starts (u "<ph/>") s = true <-> exists r, s = u "<ph/>" ++ r.
Proof.
  unfold starts. rewrite str_eqb_eq. change (List.length (u "<ph/>")) with 5%nat. split.
  - intros E. exists (skipn 5 s). rewrite <- E. symmetry. apply firstn_skipn.
  - intros (r & ->). reflexivity.
Qed.

Lemma tokens_ph r : tokens (u "<ph/>" ++ r) = Ph :: tokens r.
Proof. reflexivity. Qed.
Lemma tokens_ch c s : starts (u "<ph/>") (c :: s) = false -> tokens (c :: s) = Ch c :: tokens s.
Proof.
  intros H.
  destruct (N.eq_dec c 60) as [->|N]; [|destruct c as [|p]; [reflexivity|]; repeat (destruct p as [p|p|]; try reflexivity); congruence].
  destruct s as [|c2 s]; [reflexivity|].
  destruct (N.eq_dec c2 112) as [->|N]; [|destruct c2 as [|p]; [reflexivity|]; repeat (destruct p as [p|p|]; try reflexivity); congruence].
  destruct s as [|c3 s]; [reflexivity|].
  destruct (N.eq_dec c3 104) as [->|N]; [|destruct c3 as [|p]; [reflexivity|]; repeat (destruct p as [p|p|]; try reflexivity); congruence].
  destruct s as [|c4 s]; [reflexivity|].
  destruct (N.eq_dec c4 47) as [->|N]; [|destruct c4 as [|p]; [reflexivity|]; repeat (destruct p as [p|p|]; try reflexivity); congruence].
  destruct s as [|c5 s]; [reflexivity|].
  destruct (N.eq_dec c5 62) as [->|N]; [|destruct c5 as [|p]; [reflexivity|]; repeat (destruct p as [p|p|]; try reflexivity); congruence].
  discriminate H.
Qed.

Lemma escape_ok : forall fuel s, (List.length s <= fuel)%nat -> escape fuel s = xml (tokens s).
Proof.
  induction fuel as [|f IH]; intros s L; [destruct s; [reflexivity|cbn in L; lia]|].
  destruct s as [|c s]; [reflexivity|]. cbn [List.length] in L.
  destruct (starts (u "<ph/>") (c :: s)) eqn:S.
  - apply starts_ph in S. destruct S as (r & E). rewrite E, tokens_ph.
    change (escape (Datatypes.S f) (u "<ph/>" ++ r)) with (u "<ph/>" ++ escape f r).
    unfold xml. cbn [map concat xml_tok]. f_equal. apply IH.
    apply (f_equal (@List.length char)) in E. rewrite app_length in E. cbn in E. lia.
  - rewrite tokens_ch by exact S. unfold xml. cbn [map concat xml_tok]. cbn [escape]. rewrite S.
    destruct (c =? cLT); [f_equal; apply IH; lia|].
    destruct (c =? cGT); [f_equal; apply IH; lia|].
    destruct (c =? 38); [f_equal; apply IH; lia|]. cbn [app]. f_equal. apply IH. lia.
Qed.

(** Every string is the text of its tokens, and has no remnants. *)
Definition whole (t : tok) : bool := match t with Ph | Ch _ => true | _ => false end.
Lemma tokens_whole s : forallb whole (tokens s) = true.
Proof.
  assert (H : forall n s, (List.length s <= n)%nat -> forallb whole (tokens s) = true).
  { clear. induction n as [|n IH]; intros s L; [destruct s; [reflexivity|cbn in L; lia]|].
    destruct s as [|c s]; [reflexivity|]. cbn [List.length] in L.
    destruct (starts (u "<ph/>") (c :: s)) eqn:S.
    - apply starts_ph in S. destruct S as (r & E). rewrite E, tokens_ph. cbn [forallb whole].
      apply IH. injection E as -> ->. cbn in L. lia.
    - rewrite tokens_ch by exact S. apply IH. lia. }
  eapply H; eauto.
Qed.

(** ** Leading part *)
Lemma xml_cons t l : xml (t :: l) = xml_tok t ++ xml l.
Proof. reflexivity. Qed.
Lemma xml_ch c : c <> cLT -> c <> cGT -> c <> 38 -> xml_tok (Ch c) = [c].
Proof.
  intros A B C. cbn. destruct (N.eqb_spec c cLT); [congruence|].
  destruct (N.eqb_spec c cGT); [congruence|]. destruct (N.eqb_spec c 38); congruence.
Qed.
Lemma empty_ch c : empty' (Ch c) = true -> c <> cLT /\ c <> cGT /\ c <> 38 /\ junk' c = true.
Proof.
  cbn [empty_tok]. rewrite !andb_true_iff, !negb_true_iff. intros ((M & A) & B).
  assert (X : ~ In c [cLT; cGT; 38]) by (apply mem_nIn; exact M).
  unfold junk. rewrite A, B. cbn in X. repeat split; try reflexivity; intros ->; apply X; auto.
Qed.
Lemma nonempty_ch c : empty' (Ch c) = false -> exists d s, xml_tok (Ch c) = d :: s /\ junk' d = false /\ d <> cLT.
Proof.
  cbn [empty_tok xml_tok]. destruct (N.eqb_spec c cLT) as [->|A]; [intros _; exists 38, [108; 116; 59]; repeat split; discriminate|].
  destruct (N.eqb_spec c cGT) as [->|B]; [intros _; exists 38, [103; 116; 59]; repeat split; discriminate|].
  destruct (N.eqb_spec c 38) as [->|C]; [intros _; exists 38, [97; 109; 112; 59]; repeat split; discriminate|].
  intros E. exists c, []. split; [reflexivity|]. split; [|exact A].
  assert (M : mem c [cLT; cGT; 38] = false) by (apply mem_nIn; cbn; intuition congruence).
  rewrite M in E. cbn [negb andb] in E. unfold junk. exact E.
Qed.

Lemma starts_xml l : forallb whole l = true ->
  starts (u "<ph/>") (xml l) = match l with Ph :: _ => true | _ => false end.
Proof.
  destruct l as [|[|c| |] l]; intros W; try discriminate W; [reflexivity|apply starts_ph; eexists; reflexivity|].
  destruct (starts (u "<ph/>") (xml (Ch c :: l))) eqn:S; [|reflexivity].
  apply starts_ph in S. destruct S as (r & E). rewrite xml_cons in E. cbn [xml_tok] in E.
  destruct (N.eqb_spec c cLT) as [->|A]; [discriminate|].
  destruct (N.eqb_spec c cGT) as [->|B]; [discriminate|].
  destruct (N.eqb_spec c 38) as [->|C]; [discriminate|]. injection E as E1 _. exact (False_rect _ (A E1)).
Qed.

Lemma xml_length l : (List.length l <= List.length (xml l))%nat.
Proof.
  induction l as [|t l IH]; [cbn; lia|]. rewrite xml_cons, app_length. cbn [List.length].
  enough (1 <= List.length (xml_tok t))%nat by lia.
  destruct t as [|c| |]; cbn; try lia. destruct (c =? cLT), (c =? cGT), (c =? 38); cbn; lia.
Qed.

Lemma skip_while_whole f l : forallb whole l = true -> forallb whole (skip_while f l) = true.
Proof.
  induction l as [|t l IH]; [auto|]. cbn. intros H. pose proof H as H'. apply andb_prop in H. destruct H as (A & B).
  destruct (f t); auto.
Qed.

Lemma drop_ph_xml : forall fuel l, forallb whole l = true -> (List.length l <= fuel)%nat ->
  drop_ph fuel (xml l) = xml (skip_while is_ph l).
Proof.
  induction fuel as [|f IH]; intros l W L; [destruct l; [reflexivity|cbn in L; lia]|].
  cbn [drop_ph]. rewrite starts_xml by exact W.
  destruct l as [|[|c| |] l]; try reflexivity; try discriminate W.
  cbn [skip_while is_ph]. change (skipn 5 (xml (Ph :: l))) with (xml l). apply IH; [exact W|cbn in L; lia].
Qed.

Definition left_result (l : list tok) : list tok :=
  match l with Ph :: r => [Ch 112; Ch 104; Ch 47; Gt] ++ r | l' => l' end.
Lemma drop_junk_xml : forall l, forallb whole l = true ->
  drop_while junk' (xml l) = xml (left_result (skip_while empty' l)).
Proof.
  induction l as [|t l IH]; intros W; [reflexivity|]. cbn in W. apply andb_prop in W. destruct W as (Wt & W).
  destruct t as [|c| |]; try discriminate Wt.
  - reflexivity.
  - rewrite xml_cons. cbn [skip_while]. destruct (empty' (Ch c)) eqn:E.
    + apply empty_ch in E. destruct E as (A & B & C & J). rewrite xml_ch by assumption.
      cbn [app drop_while]. rewrite J. apply IH. exact W.
    + cbn [left_result]. rewrite xml_cons. apply nonempty_ch in E. destruct E as (d & s & -> & J & _).
      cbn [app drop_while]. now rewrite J.
Qed.

Lemma skip_head {A} (f : A -> bool) l : match skip_while f l with [] => True | x :: _ => f x = false end.
Proof. induction l as [|x l IH]; cbn; [auto|]. destruct (f x) eqn:E; auto. Qed.

(** A string that begins with something that is kept. *)
Definition firm (s : str) : Prop := match s with [] => True | c :: _ => junk' c = false /\ c <> cLT end.
Lemma firm_fix s fuel : firm s -> lead_loop oa od op fuel s = s.
Proof.
  intros F. destruct fuel as [|f]; [reflexivity|]. cbn [lead_loop].
  assert (D : drop_ph (List.length s) s = s).
  { destruct s as [|c s]; [reflexivity|]. cbn [List.length drop_ph].
    destruct (starts (u "<ph/>") (c :: s)) eqn:S; [|reflexivity].
    apply starts_ph in S. destruct S as (r & E). injection E as E1 _. destruct F as (_ & F). exact (False_rect _ (F E1)). }
  rewrite D. assert (J : drop_while junk' s = s).
  { destruct s as [|c s]; [reflexivity|]. destruct F as (J & _). cbn. now rewrite J. }
  rewrite J, Nat.eqb_refl. reflexivity.
Qed.

Lemma cleaned_left_eq l : cleaned_left isalnum ispunct l = left_result (skip_while empty' (skip_while is_ph l)).
Proof. unfold cleaned_left. destruct (skip_while empty' (skip_while is_ph l)) as [|[|c| |] r]; reflexivity. Qed.

Lemma cleaned_left_head l : forallb whole l = true ->
  match cleaned_left isalnum ispunct l with [] => True | t :: _ => is_ph t = false /\ empty' t = false /\ whole t = true end.
Proof.
  intros W. rewrite cleaned_left_eq.
  pose proof (skip_head empty' (skip_while is_ph l)) as H.
  pose proof (skip_while_whole empty' _ (skip_while_whole is_ph _ W)) as W'.
  destruct (skip_while empty' (skip_while is_ph l)) as [|[|c| |] r]; cbn [left_result app] in *; auto; try discriminate.
Qed.
Lemma cleaned_left_firm l : forallb whole l = true -> firm (xml (cleaned_left isalnum ispunct l)).
Proof.
  intros W. pose proof (cleaned_left_head l W) as H.
  destruct (cleaned_left isalnum ispunct l) as [|[|c| |] r]; [exact I|destruct H; discriminate|..];
    try (destruct H as (_ & _ & H); discriminate).
  destruct H as (_ & E & _). apply nonempty_ch in E. destruct E as (d & s & E & J & N).
  rewrite xml_cons, E. split; assumption.
Qed.

Lemma lead_ok l fuel : forallb whole l = true ->
  lead_loop oa od op (S fuel) (xml l) = xml (cleaned_left isalnum ispunct l).
Proof.
  intros W. cbn [lead_loop]. rewrite drop_ph_xml by (auto using xml_length).
  rewrite drop_junk_xml by (apply skip_while_whole; exact W). rewrite <- cleaned_left_eq.
  destruct (Nat.eqb_spec (List.length (xml (cleaned_left isalnum ispunct l))) (List.length (xml l))); [reflexivity|].
  apply firm_fix, cleaned_left_firm, W.
Qed.

(** ** Trailing part, on reversed lists *)
Definition rxml (r : list tok) : str := concat (map (fun t => rev (xml_tok t)) r).
Lemma rev_xml l : rev (xml l) = rxml (rev l).
Proof.
  induction l as [|t l IH]; [reflexivity|]. rewrite xml_cons, rev_app_distr, IH. cbn [rev].
  unfold rxml. rewrite map_app, concat_app. cbn. now rewrite app_nil_r.
Qed.
Lemma rxml_rev r : rev (rxml r) = xml (rev r).
Proof. rewrite <- (rev_involutive r) at 1. rewrite <- rev_xml, rev_involutive. reflexivity. Qed.
Lemma rxml_cons t r : rxml (t :: r) = rev (xml_tok t) ++ rxml r.
Proof. reflexivity. Qed.

Definition nocut (t : tok) : bool := match t with Cut => false | _ => true end.
(** the last character of a token *)
Lemma last_char c : exists d s, rev (xml_tok (Ch c)) = d :: s /\ d <> cLT /\ d <> cGT /\
  (empty' (Ch c) = false -> junk' d = false) /\ (empty' (Ch c) = true -> s = [] /\ junk' d = true) /\
  (d = cDOT <-> c = cDOT) /\ (c = cDOT -> s = []) /\ (d <> c -> d = cSEMI).
Proof.
  cbn [xml_tok]. destruct (N.eqb_spec c cLT) as [->|A].
  { exists cSEMI, [116; 108; 38]. repeat split; try discriminate; try reflexivity. }
  destruct (N.eqb_spec c cGT) as [->|B].
  { exists cSEMI, [116; 103; 38]. repeat split; try discriminate; try reflexivity. }
  destruct (N.eqb_spec c 38) as [->|C].
  { exists cSEMI, [112; 109; 97; 38]. repeat split; try discriminate; try reflexivity. }
  exists c, []. split; [reflexivity|]. split; [exact A|]. split; [exact B|].
  assert (M : mem c [cLT; cGT; 38] = false) by (apply mem_nIn; cbn; intuition congruence).
  cbn [empty_tok]. rewrite M. cbn [negb andb]. unfold junk. repeat split; auto; congruence.
Qed.

Lemma starts_gen p s : starts p s = true <-> exists r, s = p ++ r.
Proof.
  unfold starts. rewrite str_eqb_eq. split.
  - intros E. exists (skipn (List.length p) s). rewrite <- E at 1. symmetry. apply firstn_skipn.
  - intros (r & ->). rewrite firstn_app, Nat.sub_diag, firstn_all. cbn. apply app_nil_r.
Qed.

Lemma starts_rxml r : forallb nocut r = true ->
  starts (rev (u "<ph/>")) (rxml r) = match r with Ph :: _ => true | _ => false end.
Proof.
  destruct r as [|[|c| |] r]; intros W; try discriminate W; [reflexivity|apply starts_gen; eexists; reflexivity|..].
  - destruct (starts _ _) eqn:S; [|reflexivity]. apply starts_gen in S. destruct S as (x & E).
    rewrite rxml_cons in E. destruct (last_char c) as (d & s & Ed & _ & N & _). rewrite Ed in E.
    injection E as E _. exact (False_rect _ (N E)).
  - destruct (starts _ _) eqn:S; [|reflexivity]. apply starts_gen in S. destruct S as (x & E).
    rewrite rxml_cons in E. change (rev (xml_tok Gt)) with [cGT] in E. injection E as E. exfalso.
    cbn in W.
    (* the characters / h p < cannot precede *)
    assert (One : forall r c y, forallb nocut r = true -> rxml r = c :: y -> c <> cGT -> c <> cSEMI ->
                  c <> cLT /\ exists r', r = Ch c :: r' /\ y = rxml r').
    { clear - oa od os op. intros [|[|c'| |] r] c y W E N1 N2; try discriminate; try (exfalso; injection E as E0 _; exact (N1 (eq_sym E0))).
      rewrite rxml_cons in E. destruct (last_char c') as (d & s & Ed & N3 & _ & _ & _ & _ & _ & Hd). rewrite Ed in E.
      injection E as -> E. split; [exact N3|]. exists r. destruct (N.eq_dec c c') as [->|N]; [|exfalso; auto].
      split; [reflexivity|]. assert (s = []).
      { cbn [xml_tok] in Ed. destruct (c' =? cLT) eqn:X; [exfalso; injection Ed as Ed0 _; exact (N2 (eq_sym Ed0))|].
        destruct (c' =? cGT) eqn:Y; [exfalso; injection Ed as Ed0 _; exact (N2 (eq_sym Ed0))|].
        destruct (c' =? 38) eqn:Z; [exfalso; injection Ed as Ed0 _; exact (N2 (eq_sym Ed0))|]. injection Ed; congruence. }
      subst s. symmetry. exact E. }
    destruct (One r _ _ W E ltac:(discriminate) ltac:(discriminate)) as (_ & r1 & -> & E1). cbn in W.
    destruct (One r1 _ _ W (eq_sym E1) ltac:(discriminate) ltac:(discriminate)) as (_ & r2 & -> & E2). cbn in W.
    destruct (One r2 _ _ W (eq_sym E2) ltac:(discriminate) ltac:(discriminate)) as (_ & r3 & -> & E3). cbn in W.
    destruct (One r3 _ _ W (eq_sym E3) ltac:(discriminate) ltac:(discriminate)) as (N & _). exact (N eq_refl).
Qed.

(** The list does not consist of placeholders only. *)
Definition anchored (r : list tok) : Prop := r = [] \/ existsb (fun t => negb (is_ph t)) r = true.

Lemma drop_back_xml : forall fuel r, forallb nocut r = true -> anchored r -> (List.length r <= fuel)%nat ->
  drop_ph_back fuel (rxml r) = rxml (skip_while is_ph r).
Proof.
  induction fuel as [|f IH]; intros r W An L; [destruct r; [reflexivity|cbn in L; lia]|].
  cbn [drop_ph_back]. rewrite starts_rxml by exact W.
  destruct r as [|[|c| |] r]; try (rewrite andb_false_r; reflexivity); try discriminate W.
  destruct An as [An|An]; [discriminate|]. cbn in An.
  assert (Len : (5 < List.length (rxml (Ph :: r)))%nat).
  { rewrite rxml_cons, app_length. change (List.length (rev (xml_tok Ph))) with 5%nat.
    enough (1 <= List.length (rxml r))%nat by lia. destruct r as [|t r]; [discriminate|].
    rewrite rxml_cons, app_length, rev_length.
    assert (1 <= List.length (xml_tok t))%nat; [|lia].
    destruct t as [|c| |]; cbn; try lia. destruct (c =? cLT), (c =? cGT), (c =? 38); cbn; lia. }
  apply Nat.ltb_lt in Len. rewrite Len. cbn [andb].
  change (skipn 5 (rxml (Ph :: r))) with (rxml r). cbn [skip_while is_ph].
  apply IH; [exact W|right; exact An|cbn in L; lia].
Qed.

Definition right_result (r : list tok) : list tok := match r with Ph :: r' => Cut :: r' | r' => r' end.
Lemma drop_junk_rxml : forall r, forallb nocut r = true ->
  drop_while junk' (rxml r) = rxml (right_result (skip_while empty' r)).
Proof.
  induction r as [|t r IH]; intros W; [reflexivity|]. cbn in W. apply andb_prop in W. destruct W as (Wt & W).
  destruct t as [|c| |]; try discriminate Wt.
  - reflexivity.
  - rewrite rxml_cons. cbn [skip_while]. destruct (last_char c) as (d & s & Ed & _ & _ & J0 & J1 & _). rewrite Ed.
    destruct (empty' (Ch c)) eqn:E.
    + destruct (J1 eq_refl) as (-> & J). cbn [app drop_while]. rewrite J. apply IH. exact W.
    + cbn [right_result]. rewrite rxml_cons, Ed. cbn [app drop_while]. now rewrite (J0 eq_refl).
  - rewrite rxml_cons. change (rev (xml_tok Gt)) with [cGT]. cbn [skip_while empty_tok app drop_while].
    change (junk' cGT) with true. apply IH. exact W.
Qed.

Definition firm_back (s : str) : Prop := match s with [] => True | c :: _ => junk' c = false /\ c <> cGT end.
Lemma firm_back_fix s fuel : firm_back s -> trail_loop oa od op fuel s = s.
Proof.
  intros F. destruct fuel as [|f]; [reflexivity|]. cbn [trail_loop].
  assert (D : drop_ph_back (List.length s) s = s).
  { destruct s as [|c s]; [reflexivity|]. cbn [List.length drop_ph_back].
    destruct (starts (rev (u "<ph/>")) (c :: s)) eqn:S; [|rewrite andb_false_r; reflexivity].
    apply starts_gen in S. destruct S as (r & E). injection E as E1 _. destruct F as (_ & F). exact (False_rect _ (F E1)). }
  rewrite D. assert (J : drop_while junk' s = s).
  { destruct s as [|c s]; [reflexivity|]. destruct F as (J & _). cbn. now rewrite J. }
  rewrite J, Nat.eqb_refl. reflexivity.
Qed.

Lemma right_firm r : forallb nocut r = true -> firm_back (rxml (right_result (skip_while empty' r))).
Proof.
  intros W. pose proof (skip_head empty' r) as H.
  destruct (skip_while empty' r) as [|[|c| |] r']; cbn [right_result]; [exact I|split; [reflexivity|discriminate]|..].
  - rewrite rxml_cons. destruct (last_char c) as (d & s & Ed & _ & G & J0 & _). rewrite Ed. split; auto.
  - discriminate.
  - split; [reflexivity|discriminate].
Qed.

Lemma rxml_length r : (List.length r <= List.length (rxml r))%nat.
Proof.
  rewrite <- (rev_length (rxml r)), rxml_rev. rewrite <- (rev_length r). apply xml_length.
Qed.

Lemma skip_while_nocut f l : forallb nocut l = true -> forallb nocut (skip_while f l) = true.
Proof.
  induction l as [|t l IH]; [auto|]. cbn. intros H. pose proof H as H'. apply andb_prop in H. destruct H as (A & B).
  destruct (f t); auto.
Qed.

Lemma trail_ok r fuel : forallb nocut r = true -> anchored r ->
  trail_loop oa od op (S fuel) (rxml r) = rxml (right_result (skip_while empty' (skip_while is_ph r))).
Proof.
  intros W An. cbn [trail_loop]. rewrite drop_back_xml by (auto using rxml_length).
  rewrite drop_junk_rxml by (apply skip_while_nocut; exact W).
  match goal with |- context [Nat.eqb ?a ?b] => destruct (Nat.eqb a b) end; [reflexivity|].
  apply firm_back_fix, right_firm, skip_while_nocut, W.
Qed.

(** ** Full stops *)
Lemma dots_same b : drop_while (fun c => c =? cDOT) (match last_nondot b with Some b' => b' | None => b end)
                    = drop_while (fun c => c =? cDOT) b.
Proof.
  assert (H : forall b b', last_nondot b = Some b' -> drop_while (fun c => c =? cDOT) b' = drop_while (fun c => c =? cDOT) b).
  { clear. induction b as [|c [|d b] IH]; intros b' E; [discriminate|discriminate|].
    change (last_nondot (c :: d :: b)) with (if c =? cDOT then last_nondot (d :: b) else Some (c :: d :: b)) in E.
    destruct (c =? cDOT) eqn:Ec; [|now injection E as <-].
    rewrite (IH b' E). cbn [drop_while]. now rewrite Ec. }
  destruct (last_nondot b) eqn:E; [apply H; exact E|reflexivity].
Qed.
Lemma dots_rxml r : drop_while (fun c => c =? cDOT) (rxml r) = rxml (skip_while is_dot r).
Proof.
  induction r as [|t r IH]; [reflexivity|]. rewrite rxml_cons. destruct t as [|c| |]; try reflexivity.
  cbn [skip_while is_dot]. destruct (last_char c) as (d & s & Ed & _ & _ & _ & _ & D & S & _).
  destruct (N.eqb_spec c cDOT) as [->|N].
  - rewrite Ed, (S eq_refl). rewrite (proj2 D eq_refl). cbn. exact IH.
  - rewrite rxml_cons, Ed. cbn [app drop_while]. destruct (N.eqb_spec d cDOT) as [->|]; [|reflexivity].
    exfalso. apply N, D. reflexivity.
Qed.

(** ** xmlize *)
Lemma cleaned_left_nocut l : forallb whole l = true -> forallb nocut (cleaned_left isalnum ispunct l) = true.
Proof.
  intros W. rewrite cleaned_left_eq.
  pose proof (skip_while_whole empty' _ (skip_while_whole is_ph _ W)) as W'.
  assert (N : forall l, forallb whole l = true -> forallb nocut l = true).
  { clear. induction l as [|[|c| |] l IH]; cbn; auto; discriminate. }
  destruct (skip_while empty' (skip_while is_ph l)) as [|[|c| |] r]; cbn [left_result app forallb nocut andb] in *; auto;
    try (apply N; exact W'); discriminate W'.
Qed.

Lemma xmlize_ok s : xmlize oa od op s = xml (cleaned isalnum ispunct (tokens s)).
Proof.
  unfold xmlize. cbv zeta. rewrite escape_ok by lia.
  set (l := tokens s). pose proof (tokens_whole s) as W. fold l in W.
  rewrite (Nat.add_1_r (List.length (xml l))), lead_ok by exact W.
  set (l1 := cleaned_left isalnum ispunct l).
  pose proof (cleaned_left_nocut l W) as N1. fold l1 in N1.
  rewrite rev_xml, Nat.add_1_r, trail_ok.
  - rewrite dots_same, dots_rxml, rxml_rev. unfold cleaned, skip_back, cleaned_right. fold l1. rewrite rev_involutive. destruct (skip_while empty' (skip_while is_ph (rev l1))) as [|[|c| |] r]; reflexivity.
  - rewrite forallb_forall in *. intros t Ht. apply N1. now apply in_rev.
  - pose proof (cleaned_left_head l W) as H. fold l1 in H. destruct l1 as [|t l1]; [left; reflexivity|right].
    apply existsb_exists. exists t. split; [apply in_rev; rewrite rev_involutive; now left|].
    destruct H as (-> & _). reflexivity.
Qed.

(** ** filter *)
Lemma count_fold s n :
  fold_left (fun st c => let (has, n) := st : bool * nat in
     if isalpha c then (true, n) else if has && isspace' c then (has, S n) else (has, n)) s (true, n)
  = (true, (n + blank_count isalpha isspace' s)%nat).
Proof.
  revert n. induction s as [|c s IH]; intros n; cbn [fold_left]; [now rewrite Nat.add_0_r|].
  unfold blank_count. cbn [List.filter]. destruct (isalpha c); cbn [negb andb]; [apply IH|].
  destruct (isspace' c); cbn [List.length]; rewrite IH; unfold blank_count; f_equal; lia.
Qed.
Lemma first_fold s :
  fold_left (fun st c => let (has, n) := st : bool * nat in
     if isalpha c then (true, n) else if has && isspace' c then (has, S n) else (has, n)) s (false, O)
  = match skip_while (fun c => negb (isalpha c)) s with
    | [] => (false, O)
    | _ :: b => (true, blank_count isalpha isspace' b)
    end.
Proof.
  induction s as [|c s IH]; [reflexivity|]. cbn [fold_left skip_while andb]. destruct (isalpha c); cbn [negb]; [|exact IH].
  apply count_fold.
Qed.

Lemma enough_iff s : enough isalpha isspace' s <->
  match skip_while (fun c => negb (isalpha c)) s with
  | [] => False
  | _ :: b => (2 < blank_count isalpha isspace' b)%nat
  end.
Proof.
  split.
  - intros (a & c & b & -> & Ha & Hc & Hb).
    assert (E : skip_while (fun c => negb (isalpha c)) (a ++ c :: b) = c :: b).
    { clear Hb. induction a as [|x a IH]; cbn [app skip_while]; [rewrite Hc; reflexivity|].
      rewrite (Ha x) by (now left). cbn. apply IH. intros y Hy. apply Ha. now right. }
    rewrite E. exact Hb.
  - intros H.
    assert (G : exists a, s = a ++ skip_while (fun c => negb (isalpha c)) s /\ forall x, In x a -> isalpha x = false).
    { clear H. induction s as [|x s (a & E & F)]; [exists []; split; [reflexivity|intros ? []]|]. cbn [skip_while].
      destruct (isalpha x) eqn:Ex; cbn [negb].
      - exists []. split; [reflexivity|intros ? []].
      - exists (x :: a). split; [cbn; congruence|]. intros y [<-|Hy]; auto. }
    destruct G as (a & E & F). pose proof (skip_head (fun c => negb (isalpha c)) s) as Hh.
    destruct (skip_while (fun c => negb (isalpha c)) s) as [|c b]; [destruct H|].
    exists a, c, b. apply negb_false_iff in Hh. auto.
Qed.

Theorem filter_ok s : segment isalpha isalnum isspace' ispunct s (TmxBuild.filter oa od os op s).
Proof.
  unfold TmxBuild.filter. rewrite first_fold. pose proof (enough_iff s) as E.
  destruct (skip_while (fun c => negb (isalpha c)) s) as [|c b] eqn:Es.
  - cbn [negb orb]. apply seg_none. rewrite E. auto.
  - cbn [negb orb]. destruct (Nat.leb_spec (blank_count isalpha isspace' b) 2) as [L|L]; cbn [orb].
    + apply seg_none. rewrite E. lia.
    + destruct s as [|c' s]; [discriminate|]. cbn [List.length Nat.eqb]. rewrite xmlize_ok. apply seg_some. rewrite E. exact L.
Qed.

Lemma segment_fun s a b : segment isalpha isalnum isspace' ispunct s a ->
  segment isalpha isalnum isspace' ispunct s b -> a = b.
Proof. intros [N|Y] [N'|Y']; try reflexivity; contradiction. Qed.
End Segment.
