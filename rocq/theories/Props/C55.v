(** C55: the rule transfer chooses for words that follow each other.  Spec/TrxPatterns.v: what a pattern means.  The rule file is
    compiled by trx_reader.cc / transfer_data.cc (Model/TrxPatterns.v), the words are fed to the machine by transfer.cc applyWord
    (Model/TransferUnit.v). *)
From Coq Require Import String.
From Verif Require Import Model.Base Proofs.Base Model.TransferUnit Model.TrxPatterns Spec.TransferUnit Spec.TrxPatterns Spec.TrxReject
  Proofs.TrxPatterns Proofs.TrxRules Proofs.TrxMatch Proofs.TransferUnit Proofs.TrxReject Props.C54.

(** what the machine is fed for these tokens: each word as applyWord feeds it, a space mark for each blank between them *)
Fixpoint input_of (lower : char -> char) (toks : list str) : option (list msym) :=
  match toks with
  | [] => Some []
  | [w] => apply_word lower w
  | w :: r => match apply_word lower w, input_of lower r with Some a, Some b => Some (a ++ MMark cSP :: b) | _, _ => None end
  end.
Definition well_formed (defs : list (str * list cat_item)) : Prop := forall c items, lookup_cat defs c = Some items -> Forall item_wf items.
(** the word has no (escaped) dollar *)
Definition dollar_free (lower : char -> char) (r : reading) : Prop := ~ In cDOL (map lower (word_chars r)).

(** a rule file compiles exactly if the categories of its patterns are defined and have items *)
Theorem C55_compiles : forall defs ps,
  compile defs ps <> None <-> forall cs c, In cs ps -> In c cs -> exists items, lookup_cat defs c = Some items /\ items <> [].
Proof.
  intros defs ps. rewrite compile_defined. unfold usable. split.
  - intros H cs c H1 H2. exact (proj1 (Forall_forall _ _) (proj1 (Forall_forall _ _) H cs H1) c H2).
  - intros H. apply Forall_forall. intros cs H1. apply Forall_forall. intros c H2. exact (H cs c H1 H2).
Qed.
Print Assumptions C55_compiles.
(** the meaning of a category is its last definition *)
Theorem C55_last_definition : forall defs c items,
  lookup_cat defs c = Some items <-> exists a b, defs = a ++ (c, items) :: b /\ forall items', ~ In (c, items') b.
Proof.
  intros defs c items. induction defs as [|[m i] r IH]; cbn [lookup_cat].
  - split; [discriminate|]. intros (a & b & E & _). destruct a; discriminate.
  - assert (NONE : lookup_cat r c = None -> forall j, ~ In (c, j) r).
    { clear. induction r as [|[m i] r IH]; cbn [lookup_cat]; [intros _ j []|]. destruct (lookup_cat r c) as [x|]; [discriminate|]. destruct (str_eqb m c) eqn:E; [discriminate|].
      intros _ j [[= -> ->]|H]; [rewrite str_eqb_refl in E; discriminate|exact (IH eq_refl j H)]. }
    assert (SOME : forall x, lookup_cat r c = Some x -> exists j, In (c, j) r).
    { clear. induction r as [|[m i] r IH]; cbn [lookup_cat]; intros x; [discriminate|]. destruct (lookup_cat r c) as [y|].
      - intros _. destruct (IH y eq_refl) as [j H]. exists j. right. exact H.
      - destruct (str_eqb m c) eqn:E; [|discriminate]. intros _. apply str_eqb_eq in E as ->. exists i. left. reflexivity. }
    destruct (lookup_cat r c) as [x|] eqn:L; [split|].
    + intros [= ->]. destruct (proj1 IH eq_refl) as (a & b & -> & N). exists ((m, i) :: a), b. auto.
    + intros ([|[m' i'] a] & b & E & N).
      * injection E as -> -> ->. destruct (SOME x eq_refl) as [j H]. destruct (N j H).
      * injection E as -> -> ->. apply IH. eauto.
    + destruct (str_eqb m c) eqn:E.
      * apply str_eqb_eq in E as ->. split; [intros [= ->]; exists [], r; split; [reflexivity|apply NONE; reflexivity]|].
        intros ([|[m' i'] a] & b & E' & N); [injection E' as -> _; reflexivity|]. injection E' as -> -> ->. destruct (NONE eq_refl items). apply in_or_app. right. left. reflexivity.
      * split; [discriminate|]. intros ([|[m' i'] a] & b & E' & N); [injection E' as -> _ _; rewrite str_eqb_refl in E; discriminate|]. injection E' as -> -> ->. destruct (NONE eq_refl items). apply in_or_app. right. left. reflexivity.
Qed.
Print Assumptions C55_last_definition.
Lemma input_fed lower us : Forall lunit_ok us -> input_of lower (map token us) = Some (fed lower (map u_sl us)).
Proof.
  intros H. induction us as [|x us IH]; [reflexivity|]. inversion_clear H as [|? ? Hx Hu]. destruct us as [|y us]; [exact (C54_matched_side lower x Hx)|].
  change (input_of lower (map token (x :: y :: us))) with (match apply_word lower (token x), input_of lower (map token (y :: us)) with Some a, Some b => Some (a ++ MMark cSP :: b) | _, _ => None end).
  rewrite (C54_matched_side lower x Hx), (IH Hu). reflexivity.
Qed.
(** the rule chosen for these units is the first rule of the file whose pattern matches their source readings *)
Theorem C55_first_matching_rule : forall lower defs ps t us,
  compile defs ps = Some t -> well_formed defs -> Forall lunit_ok us -> Forall (fun x => dollar_free lower (u_sl x)) us ->
  exists x, input_of lower (map token us) = Some x /\
    forall n, classifies t x [] n <-> rule_matches lower defs ps n (map u_sl us) /\ forall m, rule_matches lower defs ps m (map u_sl us) -> n <= m.
Proof.
  intros lower defs ps t us HC HW HU HD. exists (fed lower (map u_sl us)). split; [apply input_fed, HU|]. intros n. apply chosen; try assumption.
  apply Forall_map. exact HD.
Qed.
Print Assumptions C55_first_matching_rule.
(** no rule is chosen exactly if none matches *)
Theorem C55_no_rule : forall lower defs ps t us x,
  compile defs ps = Some t -> well_formed defs -> Forall lunit_ok us -> Forall (fun x => dollar_free lower (u_sl x)) us -> input_of lower (map token us) = Some x ->
  (forall n, ~ classifies t x [] n) <-> (forall n, ~ rule_matches lower defs ps n (map u_sl us)).
Proof.
  intros lower defs ps t us x HC HW HU HD HX. rewrite input_fed in HX by exact HU. injection HX as <-. apply none_chosen; try assumption. apply Forall_map. exact HD.
Qed.
Print Assumptions C55_no_rule.
(** the words have no (escaped) backslash *)
Definition backslash_free (lower : char -> char) (r : reading) : Prop := ~ In cBS (map lower (word_chars r)).
(** while some rules are rejected: the first rule that is seen (Spec/TrxReject.v: not hidden behind an earlier rule that matches with its
    stars in the same places) and not rejected *)
Theorem C55_rejected_rules : forall lower defs ps t us banned,
  compile defs ps = Some t -> well_formed defs -> Forall lunit_ok us -> Forall (fun x => dollar_free lower (u_sl x)) us -> Forall (fun x => backslash_free lower (u_sl x)) us ->
  exists x, input_of lower (map token us) = Some x /\
    forall n, classifies t x banned n <-> seen lower defs ps (map u_sl us) n /\ ~ In n banned /\ forall m, seen lower defs ps (map u_sl us) m -> ~ In m banned -> n <= m.
Proof.
  intros lower defs ps t us banned HC HW HU HD HB. exists (fed lower (map u_sl us)). split; [apply input_fed, HU|]. intros n. apply chosen_banned; try assumption; apply Forall_map; assumption.
Qed.
Print Assumptions C55_rejected_rules.
(** a rule that is seen matches; a rule that matches and is not seen is hidden, whatever its stars match, behind an earlier one *)
Theorem C55_seen : forall lower defs ps ws n,
  (seen lower defs ps ws n -> rule_matches lower defs ps n ws) /\
  (rule_matches lower defs ps n ws -> (forall m, rule_matches lower defs ps m ws -> n <= m) -> seen lower defs ps ws n) /\
  (rule_matches lower defs ps n ws -> ~ seen lower defs ps ws n -> forall ms, rule_uses lower defs ps n ws ms -> ~ forall m, rule_uses lower defs ps m ws ms -> n <= m).
Proof.
  intros lower defs ps ws n. split; [|split].
  - intros (ms & H & _). apply rule_uses_matches. eauto.
  - intros H L. apply rule_uses_matches in H as [ms H]. exists ms. split; [exact H|]. intros m Hm. apply L, rule_uses_matches. eauto.
  - intros _ N ms H L. apply N. exists ms. auto.
Qed.
Print Assumptions C55_seen.
(** a rule whose pattern is that of an earlier rule is never chosen *)
Theorem C55_later_duplicate_dead : forall lower defs ps t us x i j cs,
  compile defs ps = Some t -> well_formed defs -> Forall lunit_ok us -> Forall (fun x => dollar_free lower (u_sl x)) us -> input_of lower (map token us) = Some x ->
  nth_error ps i = Some cs -> nth_error ps j = Some cs -> i < j -> ~ classifies t x [] (S j).
Proof.
  intros lower defs ps t us x i j cs HC HW HU HD HX Hi Hj L C. rewrite input_fed in HX by exact HU. injection HX as <-. apply (chosen lower defs ps t HW HC) in C as [(cs' & E & _ & F) M]; [|apply Forall_map; exact HD].
  cbn in E. rewrite Nat.sub_0_r, Hj in E. injection E as <-. assert (S j <= S i); [|lia]. apply M. exists cs. cbn. rewrite Nat.sub_0_r. split; [exact Hi|]. split; [lia|exact F].
Qed.
Print Assumptions C55_later_duplicate_dead.

(** ** Findings *)
Definition S1 (s : string) : str := u s.
Definition one (i : cat_item) : list (str * list cat_item) := [(u "c", [i])].
Lemma one_wf i : item_wf i -> well_formed (one i).
Proof. intros H c items. unfold one. cbn [lookup_cat]. destruct (str_eqb (u "c") c); [intros [= <-]; repeat constructor; apply H|discriminate]. Qed.
(** a lemma with a letter that is no lower-case letter never matches: the text is lowered, the pattern is not *)
Theorem C55_uppercase_lemma_refuted : forall lower i c t us x n,
  item_wf i -> ci_tags i <> [] -> In c (ci_lemma i) -> c <> cSTAR -> (forall d, lower d <> c) ->
  compile (one i) [[u "c"]] = Some t -> Forall lunit_ok us -> Forall (fun x => dollar_free lower (u_sl x)) us -> input_of lower (map token us) = Some x -> ~ classifies t x [] n.
Proof.
  intros lower i c t us x n W N HI NS NL HC HU HD HX C. rewrite input_fed in HX by exact HU. injection HX as <-.
  apply (chosen lower (one i) _ t (one_wf i W) HC) in C as [(cs & E & _ & F) _]; [|apply Forall_map; exact HD].
  destruct (n - 1) as [|k]; [|destruct k; discriminate]. injection E as <-. inversion F as [|? r ? ? M F' Ec Er]; subst. destruct M as (_ & items & j & L & Hj & M & _).
  cbn in L. injection L as <-. destruct Hj as [<-|[]]. destruct (ci_tags i); [contradiction|].
  destruct (ci_lemma i) as [|c0 s0]; [destruct HI|].
  assert (G : forall s w, lemma_matches s w -> In c s -> In c w).
  { clear - NS. intros s1 w1 H. induction H as [|d p w N H IH|v p w N H IH]; intros HI; [exact HI| |].
    - destruct HI as [->|HI]; [left; reflexivity|right; apply IH, HI].
    - destruct HI as [<-|HI]; [contradiction|]. apply in_or_app. right. apply IH, HI. }
  apply (G _ _ M) in HI. apply in_map_iff in HI as (d & E & _). exact (NL d E).
Qed.
Print Assumptions C55_uppercase_lemma_refuted.
(** an item with a lemma but without tags: the lemma is ignored *)
Theorem C55_lemma_without_tags_refuted : forall lemma t, compile (one (mkci lemma [] [])) [[u "c"]] = Some t -> item_wf (mkci lemma [] []) ->
  classifies t (fed (fun c => c) [ch "other"]) [] 1.
Proof.
  intros lemma t HC W. apply (chosen (fun c => c) _ _ t (one_wf _ W) HC).
  - repeat constructor. unfold no_dollar. rewrite <- mem_nIn. reflexivity.
  - split; [|intros m (cs & _ & L & _); exact L]. exists [u "c"]. split; [reflexivity|]. split; [lia|]. constructor; [|constructor].
    split; [exists (ch "other"), []; split; [reflexivity|split; reflexivity]|]. do 2 eexists. split; [reflexivity|]. split; [left; reflexivity|]. split; [discriminate|constructor].
Qed.
Print Assumptions C55_lemma_without_tags_refuted.
(** a backslash in a lemma, as if to escape a character: the text so escaped is not matched, since applyWord drops the backslash *)
Lemma bs_key s : In cBS s -> forall x, sem (lemma_key s) x -> In (MChar cBS) x \/ In (MMark cBS) x.
Proof.
  induction s as [|c s IH]; intros H x; [destruct H|]. cbn [lemma_key]. destruct (ceq_spec c cBS) as [->|N].
  - assert (G : forall k, sem (bsk :: k) x -> In (MChar cBS) x \/ In (MMark cBS) x).
    { intros k (m & x' & -> & T & _). destruct m as [d|d|g]; cbn in T; [right; left; subst; reflexivity|left; left; subst; reflexivity|destruct T]. }
    destruct s; apply G.
  - destruct H as [->|H]; [contradiction|]. specialize (IH H). destruct (c =?c cSTAR); cbn [sem].
    + intros (v & x' & -> & _ & _ & S). destruct (IH _ S); [left|right]; apply in_or_app; auto.
    + intros (m & x' & -> & _ & S). destruct (IH _ S); [left|right]; right; assumption.
Qed.
Theorem C55_backslash_lemma_refuted : forall lower i t r n,
  key_ok (item_key i) -> ci_tags i <> [] -> In cBS (ci_lemma i) -> compile (one i) [[u "c"]] = Some t ->
  ~ In cBS (map lower (word_chars r)) -> ~ classifies t (fed lower [r]) [] n.
Proof.
  intros lower i t r n K N HB HC NB (V & _). apply visible_matched in V.
  assert (DK : forall c items, lookup_cat (one i) c = Some items -> Forall (fun i => key_ok (item_key i)) items).
  { intros c items. unfold one. cbn [lookup_cat]. destruct (str_eqb (u "c") c); [intros [= <-]; repeat constructor; apply K|discriminate]. }
  destruct (compile_correct (one i) _ DK t HC _ (fed_no_bs lower [r])) as [S _]. destruct (S n V) as (_ & cs & E & Q).
  destruct (n - 1) as [|k]; [|destruct k; discriminate]. injection E as <-. inversion Q as [|cs0 c0 x v m1 w m2 S0 V0 T1 C T2 Ec Ex].
  change [u "c"] with ([] ++ [u "c"]) in Ec. apply app_inj_tail in Ec as [-> ->]. inversion S0 as [Ex0|cs' c' ? ? ? ? ? ? ? ? ? ? E']; [|destruct cs'; discriminate]. subst x.
  destruct V0 as [->|[V0 _]]; [|contradiction]. cbn in Ex. injection Ex as -> Ex. apply app_inj_tail in Ex as [Ew _].
  destruct C as (items & L & j & Hj & C). cbn in L. injection L as <-. destruct Hj as [<-|[]]. unfold item_key, used_lemma in C.
  destruct (ci_tags i); [contradiction|]. apply sem_app in C as (a & b & Eab & C & _). destruct (ci_lemma i) as [|d0 l0] eqn:EL; [destruct HB|]. change (lemma_or_any (d0 :: l0)) with (lemma_key (d0 :: l0)) in C.
  apply bs_key in C; [|exact HB]. assert (IN : In (MChar cBS) w \/ In (MMark cBS) w) by (subst w; destruct C; [left|right]; apply in_or_app; auto).
  rewrite Ew in IN. destruct IN as [IN|IN]; apply in_map_iff in IN as (it & E & Hit); destruct it; try discriminate; injection E as E;
    (apply NB; apply in_map_iff; eexists; split; [exact E|]; apply in_flat_map; eexists; split; [exact Hit|left; reflexivity]).
Qed.
Print Assumptions C55_backslash_lemma_refuted.

(** two stars in a lemma: one character is enough *)
Definition ex2 : cat_item := mkci (u "a**b") [u "n"] [].
Ltac concrete_edge H := vm_compute in H; repeat (destruct H as [H|H]; [try discriminate H; injection H; intros; subst|]); try destruct H.
Fixpoint follow (E : list edge) (p : nat) (steps : list (lab * nat)) : bool :=
  match steps with
  | [] => true
  | (l, q) :: r => (if in_dec edge_eq_dec (p, l, q) E then true else false) && match l with LRule _ => false | _ => true end && follow E q r
  end.
Definition labels (steps : list (lab * nat)) : list lab := flat_map (fun s => match fst s with LEps => [] | l => [l] end) steps.
Lemma follow_spath E steps : forall y p, spath E 0 y p -> follow E p steps = true -> spath E 0 (y ++ labels steps) (last (map snd steps) p).
Proof.
  induction steps as [|[l q] r IH]; intros y p P H; [cbn; rewrite app_nil_r; exact P|]. cbn [follow] in H. apply andb_prop in H as [H H3]. apply andb_prop in H as [H1 H2].
  destruct (in_dec _ _ _) as [I|]; [|discriminate]. assert (G : spath E 0 (y ++ match l with LEps => [] | _ => [l] end) q).
  { destruct l; try discriminate; try (eapply sp_sym; [exact P|exact I|discriminate|intros; discriminate]). rewrite app_nil_r. eapply sp_eps; eauto. }
  specialize (IH _ q G H3). rewrite <- app_assoc in IH. replace (labels ((l, q) :: r)) with ((match l with LEps => [] | _ => [l] end) ++ labels r) by (destruct l; reflexivity).
  replace (last (map snd ((l, q) :: r)) p) with (last (map snd r) q); [exact IH|]. clear. cbn [map]. revert p q. generalize (map snd r). clear. intros x. induction x as [|a x IH]; intros p q; [reflexivity|]. cbn in *. destruct x; [reflexivity|]. apply (IH p q).
Qed.
Theorem C55_double_star_refuted : exists t, compile (one ex2) [[u "c"]] = Some t /\ classifies t (fed (fun c => c) [ch "axb" ++ [RTag (u "n")]]) [] 1 /\
  ~ rule_matches (fun c => c) (one ex2) [[u "c"]] 1 [ch "axb" ++ [RTag (u "n")]].
Proof.
  eexists. split; [vm_compute; reflexivity|].
  set (t := mkt _ _ _). assert (LR : forall y n, has_rule t y n -> 1 <= n) by (intros y n (s & f & _ & H & _); concrete_edge H; lia).
  split; [split; [|split; [intros []|]]|].
  - set (steps := [(LChar cCARET, 1); (LEps, 2); (LChar 97%N, 3); (LAnyChar, 4); (LChar 98%N, 5); (LTag (u "<n>"), 6); (LChar cDOL, 7)]).
    exists (labels steps). split; [repeat constructor|]. split; [|intros m; apply LR]. exists 7, 8.
    split; [apply (follow_spath (t_edges t) steps [] 0); [constructor|vm_compute; reflexivity]|]. vm_compute. tauto.
  - intros m (y & _ & H & _) _. exact (LR y m H).
  - intros (cs & E & _ & F). injection E as <-. inversion F as [|? r ? ? M F' Ec Er]; subst. destruct M as (_ & items & j & L & Hj & M & _). cbn in L. injection L as <-. destruct Hj as [<-|[]].
    cbn in M. inversion M as [|? ? ? _ M1|]; subst. inversion M1 as [|? ? ? N|v p w Nv M2 E1 E2]; subst.
    inversion M2 as [|? ? ? N|v' p' w' Nv' M3 E3 E4]; subst; [destruct N; reflexivity|]. inversion M3 as [|? ? ? _ M4 E5 E6|]; subst. inversion M4; subst.
    apply (f_equal (@List.length _)) in E2. rewrite !app_length in E2. destruct v, v'; try contradiction. cbn in E2. lia.
Qed.
Print Assumptions C55_double_star_refuted.
(** a word with an escaped dollar, space and caret is taken for two words *)
Definition defs2 : list (str * list cat_item) := [(u "c", [mkci [] [] (u "a")]); (u "d", [mkci [] [] (u "b")])].
Theorem C55_escaped_boundary_refuted : exists t w, lunit_ok w /\ unit_str w = u "^a\$ \^b/x$" /\ compile defs2 [[u "c"; u "d"]] = Some t /\ well_formed defs2 /\
  (exists x, input_of (fun c => c) [token w] = Some x /\ classifies t x [] 1) /\ ~ rule_matches (fun c => c) defs2 [[u "c"; u "d"]] 1 [u_sl w].
Proof.
  eexists. exists (mku None [RChar 97%N; REsc cDOL; RChar cSP; REsc cCARET; RChar 98%N] (ch "x") []).
  split; [unfold lunit_ok; cbn; repeat split; repeat constructor; cbn; intuition discriminate|]. split; [reflexivity|]. split; [vm_compute; reflexivity|]. split; [|split].
  - intros c items. unfold defs2. cbn [lookup_cat]. assert (W : forall s, ~ In cSTAR s -> ~ In cDOL s -> ~ In cBS s -> item_wf (mkci [] [] s)).
    { intros s H1 H2 H3. unfold item_wf. cbn. repeat split; try tauto; intros a b E; try (destruct a; discriminate). apply H1. rewrite E. apply in_or_app. right. left. reflexivity. }
    destruct (str_eqb (u "d") c); [intros [= <-]|destruct (str_eqb (u "c") c); [intros [= <-]|discriminate]]; repeat (apply Forall_cons || apply Forall_nil); apply W; rewrite <- mem_nIn; reflexivity.
  - eexists. split; [vm_compute; reflexivity|]. set (t := mkt _ _ _). assert (LR : forall y n, has_rule t y n -> 1 <= n) by (intros y n (s & f & _ & H & _); concrete_edge H; lia).
    split; [|split; [intros []|intros m (y & _ & H & _) _; exact (LR y m H)]].
    set (steps := [(LChar cCARET, 1); (LEps, 2); (LChar 97%N, 3); (LChar cDOL, 4); (LChar cSP, 6); (LChar cCARET, 5); (LEps, 7); (LChar 98%N, 8); (LChar cDOL, 9)]).
    exists (labels steps). split; [repeat constructor|]. split; [|intros m; apply LR]. exists 9, 10.
    split; [apply (follow_spath (t_edges t) steps [] 0); [constructor|vm_compute; reflexivity]|]. vm_compute. tauto.
  - intros (cs & E & _ & F). injection E as <-. inversion F as [|? ? ? ? _ F']. inversion F'.
Qed.
Print Assumptions C55_escaped_boundary_refuted.
(** reject-current-rule: if an earlier rule with another category but the same strings is rejected, the later one is not tried,
    although it matches *)
Definition defs3 : list (str * list cat_item) := [(u "c", [mkci (u "a") [u "n"] []]); (u "d", [mkci (u "a") [u "n"] []])].
Definition word3 : reading := [RChar 97%N; RTag (u "n")].
Theorem C55_rejected_hides_refuted : exists t, compile defs3 [[u "c"]; [u "d"]] = Some t /\ rule_matches (fun c => c) defs3 [[u "c"]; [u "d"]] 2 [word3] /\
  forall n, ~ classifies t (fed (fun c => c) [word3]) [1] n.
Proof.
  eexists. split; [vm_compute; reflexivity|]. split.
  - exists [u "d"]. split; [reflexivity|]. split; [lia|]. constructor; [|constructor]. split; [exists [RChar 97%N], [RTag (u "n")]; repeat split|].
    do 2 eexists. split; [reflexivity|]. split; [left; reflexivity|]. split; [apply lm_char; [discriminate|constructor]|apply tm_tag; [discriminate|constructor]].
  - set (t := mkt _ _ _). intros n ((y & F & H & L) & NB & _).
    set (y0 := [LChar cCARET; LChar 97%N; LTag (u "<n>"); LChar cDOL]).
    assert (INV : forall z y s, spath (t_edges t) z y s -> z = 0 -> match s with 0 => y = [] | 1 | 2 | 7 => y = firstn 1 y0 | 3 | 8 => y = firstn 2 y0 | 4 | 9 => y = firstn 3 y0 | 5 | 10 => y = y0 | _ => False end).
    { intros z y1 s P Z. induction P as [s|s y1 q r P IH I|s y1 q l r P IH I N1 N2]; [rewrite Z; reflexivity|..]; specialize (IH Z); clear P Z; concrete_edge I; cbn in IH; subst; try reflexivity; try contradiction; exfalso; eapply N2; reflexivity. }
    assert (H1 : has_rule t y0 1).
    { set (steps := [(LChar cCARET, 1); (LEps, 2); (LChar 97%N, 3); (LTag (u "<n>"), 4); (LChar cDOL, 5)]). exists 5, 6.
      split; [apply (follow_spath (t_edges t) steps [] 0); [constructor|vm_compute; reflexivity]|]. vm_compute. tauto. }
    assert (EY : y = y0) by (destruct H as (s & f & P & I & _); apply INV in P; [|reflexivity]; concrete_edge I; exact P).
    subst y. specialize (L 1 H1). destruct H as (s & f & _ & I & _). concrete_edge I; [apply NB; left; reflexivity|lia].
Qed.
Print Assumptions C55_rejected_hides_refuted.

(** Case: two rules over two categories with stars, three units; the second rule matches the first two units *)
Definition cdefs : list (str * list cat_item) :=
  [(u "adj", [mkci [] [u "adj"; [cSTAR]] []]); (u "nom", [mkci [] [u "n"; [cSTAR]] []; mkci (u "ca*") [u "np"] []]); (u "det", [mkci (u "the") [u "det"] []])].
Definition cps : list (list str) := [[u "det"; u "nom"]; [u "adj"; u "nom"]; [u "nom"]].
Definition cunits : list lunit :=
  [mku None (ch "Big" ++ [RTag (u "adj"); RTag (u "sint")]) (ch "gran" ++ [RTag (u "adj")]) []; mku None (ch "Cats" ++ [RTag (u "np")]) (ch "gats" ++ [RTag (u "n")]) []].
Definition low (c : char) : char := if (65 <=? c)%N && (c <=? 90)%N then (c + 32)%N else c.
Example C55_case_hyps : compile cdefs cps <> None /\ well_formed cdefs /\ Forall lunit_ok cunits /\ Forall (fun x => dollar_free low (u_sl x)) cunits.
Proof.
  split; [vm_compute; discriminate|]. split; [|split].
  - assert (W : forall s ts, ~ In cDOL s -> ~ In cBS s -> (forall a b, s <> a ++ cSTAR :: cSTAR :: b) -> (forall a b, ts <> a ++ [cSTAR] :: [cSTAR] :: b) -> item_wf (mkci s ts [])).
    { intros s ts H1 H2 H3 H4. unfold item_wf. cbn. repeat split; try tauto; try assumption; intros a b E; destruct a; discriminate. }
    intros c items. unfold cdefs. cbn [lookup_cat].
    destruct (str_eqb (u "det") c); [intros [= <-]|destruct (str_eqb (u "nom") c); [intros [= <-]|destruct (str_eqb (u "adj") c); [intros [= <-]|discriminate]]];
      repeat (apply Forall_cons || apply Forall_nil); apply W; try (rewrite <- mem_nIn; reflexivity); intros a b E; repeat (destruct a as [|? a]; try discriminate; injection E; clear E; intros E; intros; subst; try discriminate).
  - repeat constructor; unfold item_ok; cbn; intuition discriminate.
  - repeat constructor; unfold dollar_free; rewrite <- mem_nIn; reflexivity.
Qed.
Example C55_case : rule_matches low cdefs cps 2 (map u_sl cunits) /\ forall m, rule_matches low cdefs cps m (map u_sl cunits) -> 2 <= m.
Proof.
  split.
  - exists [u "adj"; u "nom"]. split; [reflexivity|]. split; [lia|]. constructor; [|constructor; [|constructor]].
    + split; [exists (ch "Big"), [RTag (u "adj"); RTag (u "sint")]; repeat split|]. do 2 eexists. split; [reflexivity|]. split; [left; reflexivity|]. split; [discriminate|].
      apply tm_tag; [discriminate|]. apply (tm_star [u "sint"] [] []); [discriminate|constructor].
    + split; [exists (ch "Cats"), [RTag (u "np")]; repeat split|]. do 2 eexists. split; [reflexivity|]. split; [right; left; reflexivity|]. split; [|apply tm_tag; [discriminate|constructor]].
      cbn. apply lm_char; [discriminate|]. apply lm_char; [discriminate|]. apply (lm_star [116%N; 115%N] [] []); [discriminate|constructor].
  - intros m (cs & E & L & F). destruct m as [|[|m]]; [lia| |lia]. exfalso. injection E as <-. inversion F as [|? ? ? ? M _]. destruct M as (_ & items & i & E & I & _ & T). cbn in E. injection E as <-. destruct I as [<-|[]]. inversion T; subst; try discriminate.
Qed.
(** Case: rule 1 the noun "a", rule 2 any noun.  When rule 1 rejects itself on "a", rule 2 takes its place *)
Definition defs4 : list (str * list cat_item) := [(u "c", [mkci (u "a") [u "n"] []]); (u "d", [mkci [] [u "n"] []])].
Example C55_case_rejected : seen (fun c => c) defs4 [[u "c"]; [u "d"]] [word3] 1 /\ seen (fun c => c) defs4 [[u "c"]; [u "d"]] [word3] 2.
Proof.
  assert (P : plain word3) by (exists [RChar 97%N], [RTag (u "n")]; repeat split). split.
  - exists [[false; false]]. split.
    + exists [u "c"]. split; [reflexivity|]. split; [lia|]. split; [reflexivity|]. constructor; [|constructor]. split; [exact P|]. do 2 eexists. split; [reflexivity|]. split; [left; reflexivity|].
      exists [false], [false]. split; [reflexivity|]. split; [apply lu_char; [discriminate|constructor]|apply tu_tag; [discriminate|constructor]].
    + intros m (cs & _ & L & _). exact L.
  - exists [[true; false]]. split.
    + exists [u "d"]. split; [reflexivity|]. split; [lia|]. split; [reflexivity|]. constructor; [|constructor]. split; [exact P|]. do 2 eexists. split; [reflexivity|]. split; [left; reflexivity|].
      exists [true], [false]. split; [reflexivity|]. split; [split; [discriminate|reflexivity]|apply tu_tag; [discriminate|constructor]].
    + intros m (cs & E & L & _ & F). destruct m as [|[|m]]; [lia| |lia]. exfalso. injection E as <-. inversion F as [|? ? ? ? M _]. destruct M as (_ & items & i & E & I & (m1 & m2 & E2 & Lu & Tu)).
      cbn in E. injection E as <-. destruct I as [<-|[]]. cbn in Lu. inversion Lu; subst. discriminate E2.
Qed.
