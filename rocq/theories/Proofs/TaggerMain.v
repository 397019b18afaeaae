From Coq Require Import Permutation.
From Verif Require Import Model.Base Model.TaggerMain Spec.TaggerMain Proofs.Base.
Open Scope nat_scope.

(** ** numbers *)
Lemma digit_spec c : digit c = true <-> (48 <= c <= 57)%N.
Proof. unfold digit. rewrite Bool.andb_true_iff, !N.leb_le. tauto. Qed.
Lemma space_spec c : space c = true <-> (c = 32 \/ 9 <= c <= 13)%N.
Proof. unfold space. rewrite Bool.orb_true_iff, Bool.andb_true_iff, !N.leb_le, N.eqb_eq. tauto. Qed.
Lemma skip_app sp s : Forall (fun c => c = 32 \/ 9 <= c <= 13)%N sp -> skip_spaces (sp ++ s) = skip_spaces s.
Proof. induction 1 as [|c sp H F IH]; [reflexivity|]. cbn [app skip_spaces]. apply space_spec in H. rewrite H. exact IH. Qed.
Lemma skip_id c s : ~ (c = 32 \/ 9 <= c <= 13)%N -> skip_spaces (c :: s) = c :: s.
Proof. intros H. cbn [skip_spaces]. destruct (space c) eqn:E; [apply space_spec in E; contradiction|reflexivity]. Qed.
Lemma skip_split s : exists sp, s = sp ++ skip_spaces s /\ Forall (fun c => c = 32 \/ 9 <= c <= 13)%N sp.
Proof.
  induction s as [|c s (sp & E & F)]; [exists []; auto|]. cbn [skip_spaces]. destruct (space c) eqn:S; [|exists []; auto]. apply space_spec in S. exists (c :: sp). split; [cbn; congruence|auto].
Qed.
Lemma digits_all ds : Forall (fun c => 48 <= c <= 57)%N ds -> forall a, digits ds a = (fold_left (fun a c => 10 * a + (c - 48))%N ds a, []).
Proof. induction 1 as [|c ds H F IH]; intros a; [reflexivity|]. cbn [digits fold_left]. apply digit_spec in H. rewrite H. apply IH. Qed.
Lemma digits_inv s : forall a v, digits s a = (v, []) -> Forall (fun c => 48 <= c <= 57)%N s /\ v = fold_left (fun a c => 10 * a + (c - 48))%N s a.
Proof. induction s as [|c s IH]; intros a v; cbn [digits fold_left]; [intros [= <-]; auto|]. destruct (digit c) eqn:E; [|discriminate]. apply digit_spec in E. intros H. apply IH in H as [H1 H2]. auto. Qed.
Lemma two64_eq : two64 = (2 ^ 64)%N. Proof. reflexivity. Qed.
Lemma strtoul_sign s neg c r : take_sign (skip_spaces s) = (neg, c :: r) -> strtoul s = if digit c then let '(v, rest) := digits (c :: r) 0%N in if (v <? two64)%N then Val (if neg then (two64 - v) mod two64 else v)%N rest else Range rest else NoConv.
Proof. intros E. unfold strtoul. rewrite E. reflexivity. Qed.
Lemma iterations_spec s n : iterations s = Some n <-> number s n.
Proof.
  unfold number. split.
  - unfold iterations. destruct (take_sign (skip_spaces s)) as [neg [|c r]] eqn:T; [unfold strtoul; rewrite T; discriminate|]. rewrite (strtoul_sign _ _ _ _ T). destruct (digit c) eqn:D; [|discriminate].
    destruct (digits (c :: r) 0) as [v rest] eqn:G. destruct (v <? two64)%N eqn:L; [|discriminate]. destruct rest; [|discriminate]. intros H. apply digits_inv in G as [G1 G2].
    destruct (skip_split s) as (sp & ES & FS). apply N.ltb_lt in L. rewrite two64_eq in L. set (rest := skip_spaces s) in *. clearbody rest. unfold take_sign in T. destruct rest as [|c0 r0]; [discriminate|].
    destruct (c0 =?c cDASH) eqn:E1; [|destruct (c0 =?c cPLUS) eqn:E2].
    + apply ceq_eq in E1. injection T as T1 T2. subst neg r0 c0. exists sp, [cDASH], (c :: r). split; [exact ES|]. split; [exact FS|]. split; [discriminate|]. split; [exact G1|]. unfold value. rewrite <- G2. split; [exact L|]. right. split; [reflexivity|]. rewrite two64_eq in H. congruence.
    + apply ceq_eq in E2. injection T as T1 T2. subst neg r0 c0. exists sp, [cPLUS], (c :: r). split; [exact ES|]. split; [exact FS|]. split; [discriminate|]. split; [exact G1|]. unfold value. rewrite <- G2. split; [exact L|]. left. split; [auto|]. congruence.
    + injection T as T1 T2 T3. subst neg r0 c0. exists sp, [], (c :: r). split; [exact ES|]. split; [exact FS|]. split; [discriminate|]. split; [exact G1|]. unfold value. rewrite <- G2. split; [exact L|]. left. split; [auto|]. congruence.
  - intros (sp & sg & ds & -> & FS & ND & FD & L & H). destruct ds as [|c r]; [congruence|]. assert (DC : (48 <= c <= 57)%N) by (inversion FD; assumption).
    assert (R : forall neg, take_sign (skip_spaces (sp ++ sg ++ c :: r)) = (neg, c :: r) -> iterations (sp ++ sg ++ c :: r) = Some (if neg then ((2 ^ 64 - value (c :: r)) mod 2 ^ 64)%N else value (c :: r))).
    { intros neg T. unfold iterations. rewrite (strtoul_sign _ _ _ _ T). rewrite (proj2 (digit_spec c) DC). rewrite (digits_all _ FD). fold (value (c :: r)). replace (value (c :: r) <? two64)%N with true by (symmetry; apply N.ltb_lt; exact L).
      destruct neg; reflexivity. }
    destruct H as [[[-> | ->] ->]|[-> ->]].
    + apply (R false). rewrite skip_app by exact FS. cbn [app]. rewrite skip_id by lia. cbn [take_sign]. replace (c =?c cDASH) with false by (symmetry; apply ceq_neq; unfold cDASH; lia). replace (c =?c cPLUS) with false by (symmetry; apply ceq_neq; unfold cPLUS; lia). reflexivity.
    + apply (R false). rewrite skip_app by exact FS. reflexivity.
    + apply (R true). rewrite skip_app by exact FS. reflexivity.
Qed.
Lemma model_spec s k : model_of s = Some k <-> model_named s k.
Proof.
  unfold model_of, model_named. destruct s as [|c r]; [split; [discriminate|intros (r & H & _); discriminate]|]. split.
  - destruct (N.eqb_spec c 49) as [->|]; [intros [= <-]; exists r; split; [reflexivity|lia]|]. destruct (N.eqb_spec c 50) as [->|]; [intros [= <-]; exists r; split; [reflexivity|lia]|].
    destruct (N.eqb_spec c 51) as [->|]; [intros [= <-]; exists r; split; [reflexivity|lia]|discriminate].
  - intros (r' & [= -> _] & H). assert (K : k = 1 \/ k = 2 \/ k = 3) by lia. destruct K as [->|[->| ->]]; reflexivity.
Qed.

(** ** the loop *)
Definition desc (opts : list opt) (s : st) : Prop :=
  match filter is_alg opts with [] => s_alg s = None | [OAlg a x] => s_alg s = Some a /\ (a = Unigram -> model_of x = Some (s_model s)) | _ => False end /\
  match filter is_fun opts with [] => s_fun s = None | [OFun f x] => s_fun s = Some f /\ (f <> Tagger -> iterations x = Some (s_iter s)) | _ => False end /\
  flags_are opts (s_flags s).
Definition s0 : st := mkst None 0 None 0%N (flags_init false false).
Lemma loop_snoc l o : forall s, loop s (l ++ [o]) = match loop s l with Continue s' => step s' o | x => x end.
Proof. induction l as [|x l IH]; intros s; cbn [loop app]; [destruct (step s o); reflexivity|]. destruct (step s x); [apply IH|reflexivity|reflexivity]. Qed.
Lemma filter_alg opts o : In o (filter is_alg opts) -> exists a x, o = OAlg a x.
Proof. intros H. apply filter_In in H as [_ H]. destruct o; try discriminate. eauto. Qed.
Lemma filter_fun opts o : In o (filter is_fun opts) -> exists f x, o = OFun f x.
Proof. intros H. apply filter_In in H as [_ H]. destruct o; try discriminate. eauto. Qed.
Lemma flag_eqb_spec a b : flag_eqb a b = true <-> a = b.
Proof. destruct a, b; cbn; split; intros; try reflexivity; discriminate. Qed.
Lemma get_set f g fl : get_flag f (set_flag g fl) = flag_eqb f g || get_flag f fl.
Proof. destruct fl, f, g; cbn; reflexivity. Qed.
Lemma wf_prefix l k : well_formed (l ++ k) -> well_formed l.
Proof.
  intros []. assert (A : forall P, at_most_one P (l ++ k) -> at_most_one P l) by (intros P; unfold at_most_one; rewrite filter_app, app_length; lia). constructor; auto.
  - intros H. apply wf_known. apply in_or_app. auto.
  - intros H. apply wf_help. apply in_or_app. auto.
  - intros x H. apply (wf_model x). apply in_or_app. auto.
  - intros f x H. apply (wf_iter f x). apply in_or_app. auto.
Qed.
Lemma wf_snoc l o : well_formed (l ++ [o]) <-> well_formed l /\ match o with
  | OFlag f => ~ In (OFlag f) l | OAlg a x => filter is_alg l = [] /\ (a = Unigram -> exists k, model_named x k) | OFun f x => filter is_fun l = [] /\ (f <> Tagger -> exists n, number x n)
  | OHelp => False | OBad => False end.
Proof.
  assert (IL : In o (l ++ [o])) by (apply in_or_app; right; left; reflexivity). split.
  - intros W. split; [exact (wf_prefix _ _ W)|]. destruct W. unfold at_most_one in *. destruct o as [f|a x|f x| |].
    + intros H. specialize (wf_flags f). rewrite filter_app, app_length in wf_flags. cbn [filter is_flag] in wf_flags. rewrite (proj2 (flag_eqb_spec f f) eq_refl) in wf_flags. cbn [length] in wf_flags.
      assert (K : In (OFlag f) (filter (is_flag f) l)) by (apply filter_In; split; [exact H|apply flag_eqb_spec; reflexivity]). destruct (filter (is_flag f) l); [destruct K|cbn in wf_flags; lia].
    + rewrite filter_app, app_length in wf_alg. cbn in wf_alg. split; [destruct (filter is_alg l); [reflexivity|cbn in wf_alg; lia]|]. intros ->. exact (wf_model x IL).
    + rewrite filter_app, app_length in wf_fun. cbn in wf_fun. split; [destruct (filter is_fun l); [reflexivity|cbn in wf_fun; lia]|]. intros H. exact (wf_iter f x IL H).
    + contradiction.
    + contradiction.
  - intros [[] H]. unfold at_most_one in *. constructor.
    + intros K. apply in_app_or in K as [K|[->|[]]]; [contradiction|exact H].
    + intros K. apply in_app_or in K as [K|[->|[]]]; [contradiction|exact H].
    + intros f. unfold at_most_one. rewrite filter_app, app_length. destruct (is_flag f o) eqn:E; cbn [filter]; rewrite E; cbn [length]; [|rewrite Nat.add_0_r; apply wf_flags]. destruct o; try discriminate. cbn in E. apply flag_eqb_spec in E. subst f0.
      destruct (filter (is_flag f) l) as [|o r] eqn:F; [cbn; lia|]. exfalso. assert (K : In o (filter (is_flag f) l)) by (rewrite F; left; reflexivity). apply filter_In in K as [K1 K2]. destruct o; try discriminate. cbn in K2. apply flag_eqb_spec in K2. subst f0. contradiction.
    + unfold at_most_one. rewrite filter_app, app_length. cbn [filter]. destruct (is_alg o) eqn:E; cbn [length]; [|rewrite Nat.add_0_r; exact wf_alg]. destruct o; try discriminate. destruct H as [-> _]. cbn. lia.
    + unfold at_most_one. rewrite filter_app, app_length. cbn [filter]. destruct (is_fun o) eqn:E; cbn [length]; [|rewrite Nat.add_0_r; exact wf_fun]. destruct o; try discriminate. destruct H as [-> _]. cbn. lia.
    + intros x K. apply in_app_or in K as [K|[->|[]]]; [exact (wf_model x K)|]. apply H. reflexivity.
    + intros f x K. apply in_app_or in K as [K|[->|[]]]; [exact (wf_iter f x K)|]. apply H.
Qed.
Lemma wf_nil : well_formed [].
Proof. constructor; try (intros; unfold at_most_one; cbn; lia); intros; try contradiction; intros []. Qed.
Theorem loop_spec opts : match loop s0 opts with
  | Continue s => well_formed opts /\ desc opts s
  | Help => exists a b, opts = a ++ OHelp :: b /\ well_formed a
  | Fail => exists a o b, opts = a ++ o :: b /\ well_formed a /\ ~ well_formed (a ++ [o]) /\ o <> OHelp end.
Proof.
  induction opts as [|o l IH] using rev_ind.
  - split; [apply wf_nil|]. unfold desc. cbn [filter]. split; [reflexivity|]. split; [reflexivity|]. intros f. cbn [In]. split; [destruct f; discriminate|intros []].
  - rewrite loop_snoc. destruct (loop s0 l) as [s| |].
    2:{ destruct IH as (a & b & -> & W). exists a, (b ++ [o]). rewrite <- app_assoc. auto. }
    2:{ destruct IH as (a & o' & b & -> & W). exists a, o', (b ++ [o]). rewrite <- app_assoc. auto. }
    destruct IH as [W (D1 & D2 & D3)]. unfold flags_are in D3.
    assert (FAIL : ~ well_formed (l ++ [o]) -> o <> OHelp -> exists a o' b, l ++ [o] = a ++ o' :: b /\ well_formed a /\ ~ well_formed (a ++ [o']) /\ o' <> OHelp) by (intros N NH; exists l, o, []; auto).
    unfold desc. rewrite !filter_app. destruct o as [f|a x|f x| |]; cbn [step].
    + destruct (get_flag f (s_flags s)) eqn:G.
      * apply FAIL; [|discriminate]. rewrite wf_snoc. intros [_ H]. apply H, D3, G.
      * cbn [s_alg s_model s_fun s_iter s_flags filter is_alg is_fun]. rewrite !app_nil_r. assert (NI : ~ In (OFlag f) l) by (intros H; apply D3 in H; congruence). split; [apply wf_snoc; auto|]. split; [exact D1|]. split; [exact D2|].
        intros g. rewrite get_set, Bool.orb_true_iff, D3, flag_eqb_spec, in_app_iff. cbn [In]. split; [intros [->|H]; auto|]. intros [H|[[= ->]|[]]]; auto.
    + assert (FL : flags_are (l ++ [OAlg a x]) (s_flags s)) by (intros g; rewrite D3, in_app_iff; cbn [In]; split; [auto|intros [H|[H|[]]]; [exact H|discriminate]]).
      destruct (filter is_alg l) as [|y r] eqn:FA.
      2:{ destruct (filter_alg l y) as (a' & x' & ->); [rewrite FA; left; reflexivity|]. destruct r; [|contradiction]. destruct D1 as [-> _]. apply FAIL; [|discriminate]. rewrite wf_snoc. intros [_ [H _]]. congruence. }
      rewrite D1. cbn [filter is_alg is_fun app]. rewrite app_nil_r. destruct a.
      * destruct (model_of x) as [k|] eqn:M.
        -- cbn [s_alg s_model s_fun s_iter s_flags]. split; [apply wf_snoc; split; [exact W|split; [exact FA|intros _; exists k; apply model_spec, M]]|]. split; [split; [reflexivity|intros _; reflexivity || exact M]|]. auto.
        -- apply FAIL; [|discriminate]. rewrite wf_snoc. intros [_ [_ H]]. destruct (H eq_refl) as [k K]. apply model_spec in K. congruence.
      * cbn [s_alg s_model s_fun s_iter s_flags]. split; [apply wf_snoc; split; [exact W|split; [exact FA|discriminate]]|]. split; [split; [reflexivity|discriminate]|]. auto.
      * cbn [s_alg s_model s_fun s_iter s_flags]. split; [apply wf_snoc; split; [exact W|split; [exact FA|discriminate]]|]. split; [split; [reflexivity|discriminate]|]. auto.
    + assert (FL : flags_are (l ++ [OFun f x]) (s_flags s)) by (intros g; rewrite D3, in_app_iff; cbn [In]; split; [auto|intros [H|[H|[]]]; [exact H|discriminate]]).
      destruct (filter is_fun l) as [|y r] eqn:FA.
      2:{ destruct (filter_fun l y) as (a' & x' & ->); [rewrite FA; left; reflexivity|]. destruct r; [|contradiction]. destruct D2 as [-> _]. apply FAIL; [|discriminate]. rewrite wf_snoc. intros [_ [H _]]. congruence. }
      rewrite D2. cbn [filter is_alg is_fun app]. rewrite app_nil_r.
      assert (IT : f <> Tagger -> match iterations x with Some n => well_formed (l ++ [OFun f x]) /\ desc (l ++ [OFun f x]) (mkst (s_alg s) (s_model s) (Some f) n (s_flags s)) | None => ~ well_formed (l ++ [OFun f x]) end).
      { intros NT. destruct (iterations x) as [n|] eqn:M.
        - split; [apply wf_snoc; split; [exact W|split; [exact FA|intros _; exists n; apply iterations_spec, M]]|]. unfold desc. rewrite !filter_app, FA. cbn [filter is_alg is_fun app s_alg s_model s_fun s_iter s_flags]. rewrite app_nil_r. split; [exact D1|]. split; [split; [reflexivity|intros _; reflexivity || exact M]|exact FL].
        - rewrite wf_snoc. intros [_ [_ H]]. destruct (H NT) as [n K]. apply iterations_spec in K. congruence. }
      unfold desc in IT. rewrite !filter_app, FA in IT. cbn [filter is_alg is_fun app] in IT. rewrite app_nil_r in IT.
      destruct f.
      * cbn [s_alg s_model s_fun s_iter s_flags]. split; [apply wf_snoc; split; [exact W|split; [exact FA|intros H; congruence]]|]. split; [exact D1|]. split; [split; [reflexivity|intros H; congruence]|]. auto.
      * specialize (IT ltac:(discriminate)). destruct (iterations x); [exact IT|apply FAIL; [exact IT|discriminate]].
      * specialize (IT ltac:(discriminate)). destruct (iterations x); [exact IT|apply FAIL; [exact IT|discriminate]].
      * specialize (IT ltac:(discriminate)). destruct (iterations x); [exact IT|apply FAIL; [exact IT|discriminate]].
    + exists l, []. auto.
    + apply FAIL; [|discriminate]. rewrite wf_snoc. tauto.
Qed.

(** ** what is done *)
Lemma one_alg opts s : well_formed opts -> desc opts s ->
  (s_alg s = None /\ no_alg opts) \/ exists a x, s_alg s = Some a /\ (a = Unigram -> model_named x (s_model s)) /\ forall b y, In (OAlg b y) opts <-> b = a /\ y = x.
Proof.
  intros _ (D & _ & _). assert (I : forall b y, In (OAlg b y) opts <-> In (OAlg b y) (filter is_alg opts)) by (intros b y; rewrite filter_In; cbn; tauto).
  destruct (filter is_alg opts) as [|o r] eqn:F; [left; split; [exact D|intros a x H; apply I in H; exact H]|]. right. destruct (filter_alg opts o) as (a & x & ->); [rewrite F; left; reflexivity|]. destruct r; [|contradiction]. destruct D as [D1 D2].
  exists a, x. split; [exact D1|]. split; [intros E; apply model_spec, D2, E|]. intros b y. rewrite I. cbn [In]. split; [intros [[= <- <-]|[]]; auto|intros [-> ->]; auto].
Qed.
Lemma one_fun opts s : well_formed opts -> desc opts s ->
  (s_fun s = None /\ forall f x, ~ In (OFun f x) opts) \/ exists f x, s_fun s = Some f /\ (f <> Tagger -> number x (s_iter s)) /\ forall g y, In (OFun g y) opts <-> g = f /\ y = x.
Proof.
  intros _ (_ & D & _). assert (I : forall b y, In (OFun b y) opts <-> In (OFun b y) (filter is_fun opts)) by (intros b y; rewrite filter_In; cbn; tauto).
  destruct (filter is_fun opts) as [|o r] eqn:F; [left; split; [exact D|intros a x H; apply I in H; exact H]|]. right. destruct (filter_fun opts o) as (a & x & ->); [rewrite F; left; reflexivity|]. destruct r; [|contradiction]. destruct D as [D1 D2].
  exists a, x. split; [exact D1|]. split; [intros E; apply iterations_spec, D2, E|]. intros b y. rewrite I. cbn [In]. split; [intros [[= <- <-]|[]]; auto|intros [-> ->]; auto].
Qed.
Lemma number_fun x n m : number x n -> number x m -> n = m.
Proof. intros H K. apply iterations_spec in H, K. congruence. Qed.
Lemma model_fun x n m : model_named x n -> model_named x m -> n = m.
Proof. intros H K. apply model_spec in H, K. congruence. Qed.
Lemma flags_fun opts a b : flags_are opts a -> flags_are opts b -> a = b.
Proof.
  intros H K. assert (E : forall f, get_flag f a = get_flag f b). { intros f. specialize (H f). specialize (K f). destruct (get_flag f a), (get_flag f b); try reflexivity; exfalso; intuition discriminate. }
  destruct a, b. pose proof (E FSentSeg). pose proof (E FDebug). pose proof (E FSkip). pose proof (E FFirst). pose proof (E FMark). pose proof (E FShow). pose proof (E FNull). cbn in *. congruence.
Qed.
Lemma picks_spec opts s : well_formed opts -> desc opts s -> forall f t, picks opts f t <->
  match s_alg s, f with
  | None, Tagger => t = TPerceptronOrHmm | None, _ => t = THmm
  | Some Window, Supervised => False | Some Window, _ => t = TWindow
  | Some Unigram, (Tagger | Supervised) => t = TUnigram (s_model s)
  | Some Perceptron, (Tagger | Supervised) => t = TPerceptron
  | _, _ => False end.
Proof.
  intros W D f t. destruct (one_alg opts s W D) as [[E N]|(a & x & E & M & I)]; rewrite E.
  - split.
    + intros H. inversion H as [H1|f' H1 H2|f' y H1 H2|f' y k H1 H2 H3|f' y H1 H2]; subst; try reflexivity; try (destruct (N _ _ H1)). destruct f; congruence.
    + destruct f; intros ->; [apply picks_any; exact N|..]; apply picks_hmm; try exact N; discriminate.
  - split.
    + intros H. inversion H as [H1|f' H1 H2|f' y H1 H2|f' y k H1 H2 H3|f' y H1 H2]; subst; try (destruct (H1 a x); apply I; auto; fail).
      * apply I in H1 as [<- _]. destruct f; congruence.
      * apply I in H1 as [<- ->]. rewrite (model_fun _ _ _ H2 (M eq_refl)). destruct H3 as [-> | ->]; reflexivity.
      * apply I in H1 as [<- _]. destruct H2 as [-> | ->]; reflexivity.
    + assert (IX : In (OAlg a x) opts) by (apply I; auto). destruct a, f; intros H; try contradiction; subst t;
        first [eapply picks_u; [exact IX|exact (M eq_refl)|auto]|eapply picks_w; [exact IX|discriminate]|eapply picks_x; [exact IX|auto]].
Qed.
Theorem dispatch_spec opts s files a : well_formed opts -> desc opts s -> (dispatch s files = Run a <-> asks opts files a).
Proof.
  intros W D. pose proof (picks_spec opts s W D) as P. assert (FL : flags_are opts (s_flags s)) by apply D. unfold dispatch.
  destruct (one_fun opts s W D) as [[E N]|(f & x & E & M & I)]; rewrite E.
  - split; [discriminate|]. intros H. inversion H; subst; match goal with K : In (OFun _ _) opts |- _ => destruct (N _ _ K) end.
  - assert (IX : In (OFun f x) opts) by (apply I; auto). split.
    + destruct f; cbn match in *.
      * assert (G : forall t, picks opts Tagger t -> g_tagger t s files = Run a -> asks opts files a).
        { intros t Ht. unfold g_tagger. destruct files as [|m [|i [|o [|? ?]]]]; intros H; try discriminate; injection H as <-; [eapply asks_tag|eapply asks_tag_in|eapply asks_tag_out]; eauto. }
        destruct (s_alg s) as [[]|]; apply G; apply P; reflexivity.
      * assert (G : forall t, picks opts Retrain t -> r_tagger t s files = Run a -> asks opts files a).
        { intros t Ht. unfold r_tagger. destruct files as [|m [|i [|? ?]]]; intros H; try discriminate; injection H as <-. eapply asks_retrain; eauto. apply M. discriminate. }
        destruct (s_alg s) as [[]|]; try discriminate; apply G; apply P; reflexivity.
      * specialize (M ltac:(discriminate)). destruct (s_alg s) as [[]|]; try discriminate.
        -- unfold s_unigram. destruct (s_iter s =? 0)%N eqn:Z; [|discriminate]. apply N.eqb_eq in Z. rewrite Z in M. destruct files as [|m [|i [|? ?]]]; intros H; try discriminate; injection H as <-. eapply asks_uni; eauto. apply P. reflexivity.
        -- unfold s_perceptron. destruct files as [|? [|? [|? [|? [|? ?]]]]]; intros H; try discriminate; injection H as <-. eapply asks_perc; eauto. apply P. reflexivity.
        -- unfold s_tagger. destruct files as [|? [|? [|? [|? [|? [|? [|? ?]]]]]]]; intros H; try discriminate.
           ++ destruct (s_iter s =? 0)%N eqn:Z; [|discriminate]. apply N.eqb_eq in Z. rewrite Z in M. injection H as <-. eapply asks_sup0; eauto. apply P. reflexivity.
           ++ injection H as <-. eapply asks_sup; eauto. apply P. reflexivity.
      * assert (G : forall t, picks opts Train t -> t_tagger t s files = Run a -> asks opts files a).
        { intros t Ht. unfold t_tagger. destruct files as [|? [|? [|? [|? [|? ?]]]]]; intros H; try discriminate; injection H as <-. eapply asks_train; eauto. apply M. discriminate. }
        destruct (s_alg s) as [[]|]; try discriminate; apply G; apply P; reflexivity.
    + intros H. inversion H as [y t fl m H1 H2 H3|y t fl m i H1 H2 H3|y t fl m i o H1 H2 H3|y n t c m H1 H2 H3|y n d c sp m tg un H1 H2 H3|y d sp m tg un H1 H2 H3|y k m tg H1 H2 H3|y n fl m tg un sp H1 H2 H3 H4|y n t d c sp m H1 H2 H3];
        subst files a; apply I in H1 as [<- ->]; cbn match in *; try (specialize (M ltac:(discriminate)); try rewrite (number_fun _ _ _ H2 M) in *).
      * rewrite (flags_fun _ _ _ H3 FL). apply P in H2. destruct (s_alg s) as [[]|]; try contradiction; subst t; reflexivity.
      * rewrite (flags_fun _ _ _ H3 FL). apply P in H2. destruct (s_alg s) as [[]|]; try contradiction; subst t; reflexivity.
      * rewrite (flags_fun _ _ _ H3 FL). apply P in H2. destruct (s_alg s) as [[]|]; try contradiction; subst t; reflexivity.
      * apply P in H3. destruct (s_alg s) as [[]|]; try contradiction; subst t; reflexivity.
      * apply P in H3. destruct (s_alg s) as [[]|]; try contradiction; try discriminate; reflexivity.
      * apply P in H3. assert (Z : s_iter s = 0%N) by exact (number_fun _ _ _ M H2). destruct (s_alg s) as [[]|]; try contradiction; try discriminate. unfold s_tagger. rewrite Z. reflexivity.
      * apply P in H3. assert (Z : s_iter s = 0%N) by exact (number_fun _ _ _ M H2). destruct (s_alg s) as [[]|]; try contradiction; try discriminate. injection H3 as ->. unfold s_unigram. rewrite Z. reflexivity.
      * rewrite (flags_fun _ _ _ H4 FL). apply P in H3. destruct (s_alg s) as [[]|]; try contradiction; try discriminate; reflexivity.
      * apply P in H3. destruct (s_alg s) as [[]|]; try contradiction; subst t; reflexivity.
Qed.
Ltac files_split H files s := try discriminate; destruct files as [|? [|? [|? [|? [|? [|? [|? ?]]]]]]]; try discriminate; destruct (s_iter s =? 0)%N; discriminate.
Lemma run_not_alone opts s files : well_formed opts -> desc opts s ->
  (dispatch s files = OutHelp <-> forall f x, ~ In (OFun f x) opts) /\
  (dispatch s files = OutAbort <-> (exists x, In (OAlg Perceptron x) opts) /\ exists f x, In (OFun f x) opts /\ (f = Retrain \/ f = Train)).
Proof.
  intros W D. unfold dispatch, g_tagger, r_tagger, s_tagger, t_tagger, s_unigram, s_perceptron. destruct (one_fun opts s W D) as [[E N]|(f & x & E & M & I)]; rewrite E.
  - split; [split; [intros _; exact N|reflexivity]|]. split; [discriminate|]. intros [_ (f & x & H & _)]. destruct (N f x H).
  - assert (IX : In (OFun f x) opts) by (apply I; auto). split.
    + split; [|intros H; destruct (H f x IX)]. intros H. exfalso. destruct f, (s_alg s) as [[]|]; files_split H files s.
    + destruct (one_alg opts s W D) as [[E' N]|(a & y & E' & M' & I')]; rewrite E'.
      * split; [|intros [[y H] _]; destruct (N _ _ H)]. intros H. exfalso. destruct f; files_split H files s.
      * split.
        -- intros H. destruct f, a; try (exfalso; files_split H files s; fail); (split; [exists y; apply I'; auto|eexists; exists x; split; [exact IX|auto]]).
        -- intros [[z Hz] (g & w & Hg & Hf)]. apply I' in Hz as [<- _]. apply I in Hg as [<- _]. destruct Hf as [-> | ->]; reflexivity.
Qed.
Theorem main_spec opts files :
  (forall a, main false false opts files = Run a <-> well_formed opts /\ asks opts files a) /\
  (main false false opts files = OutHelp <-> (exists a b, opts = a ++ OHelp :: b /\ well_formed a) \/ (well_formed opts /\ forall f x, ~ In (OFun f x) opts)) /\
  (main false false opts files = OutAbort <-> well_formed opts /\ (exists x, In (OAlg Perceptron x) opts) /\ exists f x, In (OFun f x) opts /\ (f = Retrain \/ f = Train)).
Proof.
  unfold main. change (mkst None 0 None 0%N (flags_init false false)) with s0. pose proof (loop_spec opts) as L.
  assert (NH : forall a b, opts = a ++ OHelp :: b -> ~ well_formed opts). { intros a b -> H. destruct H as [_ H _ _ _ _ _]. apply H. apply in_or_app. right. left. reflexivity. }
  destruct (loop s0 opts) as [s| |].
  - destruct L as [W D]. split; [|split].
    + intros a. rewrite (dispatch_spec opts s files a W D). tauto.
    + rewrite (proj1 (run_not_alone opts s files W D)). split; [auto|]. intros [(a & b & E & _)|[_ H]]; [destruct (NH a b E W)|exact H].
    + rewrite (proj2 (run_not_alone opts s files W D)). tauto.
  - destruct L as (a & b & E & W). pose proof (NH a b E) as N. split; [|split].
    + intros c. split; [discriminate|tauto].
    + split; [intros _; left; exists a, b; auto|reflexivity].
    + split; [discriminate|tauto].
  - destruct L as (a & o & b & E & W & NW & NO). assert (N : ~ well_formed opts). { intros H. apply NW. rewrite E in H. replace (a ++ o :: b) with ((a ++ [o]) ++ b) in H by (rewrite <- app_assoc; reflexivity). exact (wf_prefix _ _ H). }
    split; [|split].
    + intros c. split; [discriminate|tauto].
    + split; [discriminate|]. intros [(a' & b' & E' & W')|[H _]]; [|tauto]. exfalso. rewrite E in E'. clear - E' W W' NW NO.
      revert a W NW E'. assert (G : forall a a' b b' : list opt, a ++ o :: b = a' ++ OHelp :: b' -> (exists k, a' = a ++ [o] ++ k) \/ In OHelp a \/ o = OHelp).
      { clear. induction a as [|z a IH]; intros a' b b' E'; destruct a' as [|z' a']; cbn in E'; injection E' as -> E'.
        - right. right. reflexivity.
        - left. exists a'. reflexivity.
        - right. left. left. reflexivity.
        - destruct (IH _ _ _ E') as [(k & ->)|[H|H]]; [left; exists k; reflexivity|right; left; right; exact H|right; right; exact H]. }
      intros a W NW E'. destruct (G _ _ _ _ E') as [(k & ->)|[H|H]]; [|destruct W; contradiction|contradiction]. apply NW. rewrite app_assoc in W'. exact (wf_prefix _ _ W').
    + split; [discriminate|tauto].
Qed.
(** the order of the options does not matter *)
Lemma perm_filter (P : opt -> bool) a b : Permutation a b -> Permutation (filter P a) (filter P b).
Proof.
  induction 1 as [|x a b H IH|x y a|a b c H1 IH1 H2 IH2]; cbn [filter]; [constructor|destruct (P x); [constructor; exact IH|exact IH]| |econstructor; eauto].
  destruct (P x), (P y); try apply Permutation_refl. apply perm_swap.
Qed.
Lemma wf_perm a b : Permutation a b -> well_formed a -> well_formed b.
Proof.
  intros H []. assert (A : forall P, at_most_one P a -> at_most_one P b) by (intros P; unfold at_most_one; rewrite (Permutation_length (perm_filter P _ _ H)); auto).
  assert (I : forall o, In o b -> In o a) by (intros o; apply Permutation_in, Permutation_sym, H). constructor; auto. intros f x Hx. apply (wf_iter f x). auto.
Qed.
Lemma asks_ext a b files act : (forall o, In o a <-> In o b) -> asks a files act -> asks b files act.
Proof.
  intros I. assert (N : no_alg a -> no_alg b) by (intros H x y K; apply (H x y), I, K). assert (P : forall f t, picks a f t -> picks b f t).
  { intros f t H. inversion H; subst; [apply picks_any|apply picks_hmm|eapply picks_w|eapply picks_u|eapply picks_x]; eauto; eapply I; eauto. }
  assert (F : forall fl, flags_are a fl -> flags_are b fl) by (intros fl H f; rewrite (H f); apply I).
  intros H. inversion H; subst; [eapply asks_tag|eapply asks_tag_in|eapply asks_tag_out|eapply asks_retrain|eapply asks_sup|eapply asks_sup0|eapply asks_uni|eapply asks_perc|eapply asks_train]; eauto; eapply I; eauto.
Qed.
Theorem main_order a b files : Permutation a b -> ~ In OHelp a -> main false false a files = main false false b files.
Proof.
  intros H NH. assert (I : forall o, In o a <-> In o b) by (intros o; split; apply Permutation_in; [exact H|apply Permutation_sym, H]).
  assert (WF : well_formed a <-> well_formed b) by (split; apply wf_perm; [exact H|apply Permutation_sym, H]).
  destruct (main_spec a files) as (A1 & A2 & A3), (main_spec b files) as (B1 & B2 & B3).
  assert (HH : forall l, ~ In OHelp l -> forall x y, l <> x ++ OHelp :: y) by (intros l Hl x y ->; apply Hl; apply in_or_app; right; left; reflexivity).
  assert (HP : main false false a files = OutHelp <-> main false false b files = OutHelp).
  { rewrite A2, B2, WF. split; (intros [(x & y & E & _)|[W N]]; [exfalso|right; split; [exact W|intros f x K; apply (N f x), I, K]]); [exact (HH a NH x y E)|]. apply (HH b) in E; [exact E|]. intros K. apply NH, I, K. }
  assert (AB : main false false a files = OutAbort <-> main false false b files = OutAbort).
  { rewrite A3, B3, WF. split; intros (W & (x & Hx) & f & y & Hy & Hf); (split; [exact W|]); (split; [exists x; apply I, Hx|exists f, y; split; [apply I, Hy|exact Hf]]). }
  assert (RU : forall c, main false false a files = Run c <-> main false false b files = Run c).
  { intros c. rewrite A1, B1, WF. split; intros [W K]; (split; [exact W|]); (eapply asks_ext; [|exact K]); intros o; [apply I|symmetry; apply I]. }
  destruct (main false false a files) eqn:EA, (main false false b files) eqn:EB; try reflexivity; try (destruct (proj1 HP eq_refl); fail); try (discriminate (proj1 HP eq_refl)); try (discriminate (proj2 HP eq_refl)); try (discriminate (proj1 AB eq_refl)); try (discriminate (proj2 AB eq_refl)).
  - discriminate (proj2 (RU a0) eq_refl).
  - discriminate (proj1 (RU a0) eq_refl).
  - symmetry. apply RU. reflexivity.
Qed.
