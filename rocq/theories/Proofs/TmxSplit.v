(** Cutting a document into sentences: nextTU, sentenceList. *)
From Coq Require Import String Lia.
From Verif Require Import Model.Base Model.TmxAlign Model.TmxBuild Spec.TmxAlign Spec.TmxBuild Proofs.Base.
Open Scope N_scope.

Lemma rest_ok b x : blank_text b -> restOfBlank (b ++ cRB :: x) = Some (b ++ [cRB], x).
Proof.
  induction 1 as [|c b H IH|c b N1 N2 H IH]; cbn [app restOfBlank].
  - reflexivity.
  - change (cBS =? cBS) with true. cbn iota. now rewrite IH.
  - destruct (N.eqb_spec c cBS); [congruence|]. destruct (N.eqb_spec c cRB); [congruence|]. now rewrite IH.
Qed.

Lemma raw_cons i d : raw (i :: d) = raw_item i ++ raw d.
Proof. reflexivity. Qed.
Lemma text_cons i d : text (i :: d) = text_item i ++ text d.
Proof. reflexivity. Qed.
Lemma raw_app a b : raw (a ++ b) = raw a ++ raw b.
Proof. unfold raw. now rewrite map_app, concat_app. Qed.

Lemma skipn_last2 (tmp : str) (y z : char) : skipn (List.length (tmp ++ [y; z]) - 2) (tmp ++ [y; z]) = [y; z].
Proof.
  rewrite app_length. cbn [List.length]. replace (List.length tmp + 2 - 2)%nat with (List.length tmp) by lia.
  rewrite skipn_app, skipn_all, Nat.sub_diag. reflexivity.
Qed.

Lemma eqb_first (a b x : char) : str_eqb [a; b] [x; b] = (a =? x).
Proof.
  destruct (N.eqb_spec a x) as [->|N]; [apply str_eqb_refl|]. destruct (str_eqb [a; b] [x; b]) eqn:E; [|reflexivity].
  apply str_eqb_eq in E. congruence.
Qed.
Lemma eqb_second (a b x : char) : str_eqb [a; b] [a; x] = (b =? x).
Proof.
  destruct (N.eqb_spec b x) as [->|N]; [apply str_eqb_refl|]. destruct (str_eqb [a; b] [a; x]) eqn:E; [|reflexivity].
  apply str_eqb_eq in E. congruence.
Qed.
Lemma blank_ends b : str_eqb (skipn (List.length (cLB :: b ++ [cRB]) - 2) (cLB :: b ++ [cRB])) [cSP; cRB]
  = match rev b with c :: _ => c =? cSP | [] => false end.
Proof.
  destruct (rev b) as [|c r] eqn:E.
  - rewrite <- (rev_involutive b), E. reflexivity.
  - rewrite <- (rev_involutive b), E. cbn [rev].
    replace (cLB :: (rev r ++ [c]) ++ [cRB]) with ((cLB :: rev r) ++ [c; cRB])
      by (cbn [app]; now rewrite <- app_assoc).
    rewrite skipn_last2. apply eqb_first.
Qed.
Lemma blank_starts b : str_eqb (firstn 2 (cLB :: b ++ [cRB])) [cLB; cSP]
  = match b with c :: _ => c =? cSP | [] => false end.
Proof. destruct b as [|c b]; [reflexivity|]. cbn [app firstn]. apply eqb_second. Qed.

Lemma u16_small c : c < 65536 -> u16 c = c.
Proof. intros H. unfold u16. apply N.mod_small. exact H. Qed.

Section Split.
Variable os : char -> bool.
Notation sp := (u_isspace os).

(** One item that does not end the sentence. *)
Lemma step_more i d f cur : item_ok i -> Forall item_ok d -> ~ ends sp i d ->
  nextTU os (S f) (raw (i :: d)) cur = nextTU os f (raw d) (cur ++ text_item i).
Proof.
  intros Hi Hd Ne. rewrite raw_cons. destruct i as [c|c|b| |c]; cbn [raw_item text_item app].
  - destruct Hi as ((C0 & C1) & Ni). cbn in Ni.
    cbn [nextTU]. destruct (N.eqb_spec c cBS); [exfalso; apply Ni; auto|].
    destruct (N.eqb_spec c cLB); [exfalso; apply Ni; auto|].
    destruct (N.eqb_spec c cDOT); [exfalso; apply Ni; auto|].
    destruct (N.eqb_spec c cQM); [exfalso; apply Ni; auto 6|].
    destruct (N.eqb_spec c 33); [exfalso; apply Ni; auto 6|]. cbn [orb]. now rewrite u16_small.
  - cbn [nextTU]. change (cBS =? cBS) with true. cbn iota. destruct Hi. now rewrite u16_small.
  - cbn [nextTU]. change (cLB =? cBS) with false. change (cLB =? cLB) with true. cbn iota.
    rewrite <- app_assoc. cbn [app]. rewrite rest_ok by exact Hi. cbv zeta.
    rewrite blank_starts, blank_ends.
    destruct b as [|c b']; [|].
    + cbn [rev app]. reflexivity.
    + f_equal. destruct (c =? cSP), (rev (c :: b')) as [|z r]; try (destruct (z =? cSP));
        rewrite ?app_nil_r, <- ?app_assoc; reflexivity.
  - cbn [nextTU]. change (cDOT =? cBS) with false. change (cDOT =? cLB) with false. change (cDOT =? cDOT) with true. cbn iota.
    destruct d as [|j d]; [reflexivity|]. inversion Hd as [|? ? Hj Hd' Eq]. subst. rewrite raw_cons.
    destruct j as [c|c|b| |c]; cbn [raw_item app].
    + destruct Hj as (_ & Ni). cbn in Ni. destruct (N.eqb_spec c cLB); [exfalso; apply Ni; auto|].
      cbn in Ne. destruct (sp c); [congruence|]. reflexivity.
    + reflexivity.
    + exfalso. apply Ne. exact I.
    + reflexivity.
    + destruct Hj as [->| ->]; reflexivity.
  - exfalso. apply Ne. exact I.
Qed.

(** One item that ends it. *)
Lemma step_end i d f cur : item_ok i -> Forall item_ok d -> ends sp i d ->
  nextTU os (S f) (raw (i :: d)) cur = Some (cur ++ text_item i, raw d, false).
Proof.
  intros Hi Hd E. rewrite raw_cons. destruct i as [c|c|b| |c]; cbn in E; try contradiction; cbn [raw_item text_item app nextTU].
  - change (cDOT =? cBS) with false. change (cDOT =? cLB) with false. change (cDOT =? cDOT) with true. cbn iota.
    destruct d as [|j d]; [contradiction|]. inversion Hd as [|? ? Hj Hd' Eq]. subst. rewrite raw_cons.
    destruct j as [c|c|b| |c]; try contradiction; cbn [raw_item app].
    + rewrite E. rewrite andb_false_r. reflexivity.
    + reflexivity.
  - destruct Hi as [-> | ->]; reflexivity.
Qed.

Lemma sentence_ok s rest : sentence sp s rest -> Forall item_ok (s ++ rest) ->
  forall f cur, (List.length s <= f)%nat ->
  nextTU os f (raw (s ++ rest)) cur = Some (cur ++ text s, raw rest, false).
Proof.
  induction 1 as [i rest E|i s rest N H IH]; intros F f cur L; cbn [List.length] in L; (destruct f as [|f]; [lia|]);
    cbn [app] in *; inversion F as [|? ? Hi F' Eq]; subst.
  - cbn [app]. rewrite step_end by assumption. rewrite text_cons. cbn. now rewrite app_nil_r.
  - rewrite step_more by assumption. rewrite IH by (auto; lia). rewrite text_cons, <- app_assoc. reflexivity.
Qed.

Lemma unfinished_ok d : unfinished sp d -> Forall item_ok d ->
  forall f cur, (List.length d < f)%nat ->
  nextTU os f (raw d) cur = Some (cur ++ text d, [], true).
Proof.
  induction 1 as [|i d N H IH]; intros F f cur L; (destruct f as [|f]; [lia|]).
  - cbn. now rewrite app_nil_r.
  - inversion F as [|? ? Hi F' Eq]. subst. rewrite step_more by assumption.
    rewrite IH by (auto; cbn in L; lia). rewrite text_cons, <- app_assoc. reflexivity.
Qed.

Lemma raw_length d : (List.length d <= List.length (raw d))%nat.
Proof.
  induction d as [|i d IH]; [cbn; lia|]. rewrite raw_cons, app_length. cbn [List.length].
  destruct i; cbn [raw_item app List.length]; lia.
Qed.

Lemma sentences_ok d l : sentences sp d l -> Forall item_ok d ->
  forall f, (List.length (raw d) < f)%nat -> sentenceList os f (raw d) = Some (map text l).
Proof.
  induction 1 as [d U|s rest l S H IH]; intros F f L; (destruct f as [|f]; [lia|]); cbn [sentenceList].
  - rewrite unfinished_ok by (auto; pose proof (raw_length d); lia). reflexivity.
  - rewrite sentence_ok; [|assumption|assumption|rewrite raw_app, app_length; pose proof (raw_length s); lia].
    cbn [app]. rewrite raw_app, app_length in L. rewrite IH; [reflexivity|apply Forall_app in F; tauto|].
    assert (1 <= List.length (raw s))%nat; [|lia]. pose proof (raw_length s). inversion S; subst; cbn [List.length] in *; lia.
Qed.

(** Every document has its sentences. *)
Lemma ends_dec i d : {ends sp i d} + {~ ends sp i d}.
Proof. destruct i; cbn; auto. destruct d as [|[]]; cbn; auto. apply bool_dec. Qed.
Lemma sentence_or_rest d : (exists s rest, d = s ++ rest /\ sentence sp s rest) \/ unfinished sp d.
Proof.
  induction d as [|i d IH]; [right; constructor|]. destruct (ends_dec i d) as [E|E].
  - left. exists [i], d. split; [reflexivity|now constructor].
  - destruct IH as [(s & rest & -> & H)|H].
    + left. exists (i :: s), rest. split; [reflexivity|now constructor].
    + right. now constructor.
Qed.
Lemma sentences_exist d : exists l, sentences sp d l.
Proof.
  assert (H : forall n d, (List.length d <= n)%nat -> exists l, sentences sp d l).
  { induction n as [|n IH]; intros e L.
    - destruct e; [exists []; repeat constructor|cbn in L; lia].
    - destruct (sentence_or_rest e) as [(s & rest & -> & H)|H]; [|exists []; now constructor].
      destruct (IH rest) as (l & Hl).
      { rewrite app_length in L. inversion H; subst; cbn [List.length] in L; lia. }
      exists (s :: l). now constructor. }
  eapply H. reflexivity.
Qed.
Lemma sentences_prefix d l : sentences sp d l -> exists tail, d = concat l ++ tail /\ unfinished sp tail.
Proof.
  induction 1 as [d U|s rest l S H (t & -> & U)]; [exists d; auto|]. exists t. cbn. now rewrite app_assoc.
Qed.

(** A sentence ends with its mark. *)
Lemma sentence_last s rest : sentence sp s rest -> exists s' i, s = s' ++ [i] /\ (i = Dot \/ exists c, i = Mark c).
Proof.
  induction 1 as [i rest E|i s rest N H (s' & j & -> & J)].
  - exists [], i. split; [reflexivity|]. destruct i; cbn in E; try contradiction; eauto.
  - exists (i :: s'), j. auto.
Qed.
End Split.
