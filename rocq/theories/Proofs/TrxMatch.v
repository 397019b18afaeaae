From Verif Require Import Model.Base Proofs.Base Model.TransferUnit Model.TrxPatterns Spec.TransferUnit Spec.TrxPatterns Proofs.TrxPatterns Proofs.TrxRules.

Definition sy (lower : char -> char) (i : ritem) : msym := match i with RChar c | REsc c => MChar (lower c) | RTag t => MTag (cLT :: t ++ [cGT]) end.
Definition ismark (m : msym) : Prop := exists c, m = MMark c.

(** ** well-formed items *)
Lemma lemma_key_plain s : ~ In cBS s -> lemma_key s = map (fun c => if c =?c cSTAR then KPlus LAnyChar else KLit (LChar c)) s.
Proof.
  induction s as [|c s IH]; intros H; [reflexivity|]. cbn [lemma_key map]. destruct (ceq_spec c cBS) as [->|N]; [destruct H; left; reflexivity|].
  rewrite IH by (intros X; apply H; right; exact X). destruct (c =?c cSTAR); reflexivity.
Qed.
Lemma item_wf_key i : item_wf i -> key_ok (item_key i).
Proof.
  intros (W1 & W2 & W3 & W4 & W5 & W6 & W7). unfold item_key.
  assert (U : (forall a b, used_lemma i <> a ++ cSTAR :: cSTAR :: b) /\ ~ In cDOL (used_lemma i) /\ ~ In cBS (used_lemma i)) by (unfold used_lemma; destruct (ci_tags i); auto).
  destruct U as (U1 & U2 & U3). set (s := used_lemma i) in *.
  set (f := fun c => if c =?c cSTAR then KPlus LAnyChar else KLit (LChar c)).
  assert (K : lemma_or_any s = map f s \/ (s = [] /\ lemma_or_any s = [KPlus LAnyChar])) by (destruct s as [|c r] eqn:E; [right; auto|left; apply (lemma_key_plain (c :: r)), U3]).
  assert (FK : forall c, f c = KPlus LAnyChar -> c = cSTAR) by (intros c; unfold f; destruct (ceq_spec c cSTAR); [auto|discriminate]).
  assert (FT : forall c, f c <> KPlus LAnyTag) by (intros c; unfold f; destruct (c =?c cSTAR); discriminate).
  assert (FB : forall c, In c s -> f c <> bsk) by (intros c Hc; unfold f; destruct (c =?c cSTAR); [discriminate|intros [= ->]; contradiction]).
  assert (TG : forall g, tag_key g <> KPlus LAnyChar /\ tag_key g <> bsk /\ kok (tag_key g) /\ (tag_key g = KPlus LAnyTag -> g = [cSTAR])).
  { intros g. unfold tag_key. destruct (str_eqb g [cSTAR]) eqn:E; [apply str_eqb_eq in E as ->|]; repeat split; try discriminate; auto. }
  assert (LK : Forall kok (lemma_or_any s)).
  { destruct K as [->|[_ ->]]; [|repeat constructor; discriminate]. apply Forall_forall. intros x H. apply in_map_iff in H as (c & <- & Hc). unfold f. destruct (c =?c cSTAR); [discriminate|]. intros [= ->]. contradiction. }
  assert (TAIL : forall a b l, map tag_key (ci_tags i) <> a ++ KPlus l :: KPlus l :: b).
  { intros a b l E. apply map_eq_app in E as (x & y & E & _ & E2). destruct y as [|g1 [|g2 y]]; try discriminate. cbn in E2. injection E2 as E3 E4 _.
    destruct (TG g1) as (T1 & _ & _ & T2). destruct (TG g2) as (_ & _ & _ & T3). destruct l; try (unfold tag_key in E3; destruct (str_eqb _ _); discriminate).
    rewrite (T2 E3), (T3 E4) in E. exact (W3 _ _ E). }
  assert (TB : forall g, In g (map tag_key (ci_tags i)) -> g <> bsk) by (intros g H; apply in_map_iff in H as (x & <- & _); apply TG).
  assert (LB : forall g, In g (lemma_or_any s) -> g <> bsk).
  { intros g H. destruct K as [K|[_ K]]; rewrite K in H; [apply in_map_iff in H as (c & <- & Hc); apply FB, Hc|destruct H as [<-|[]]; discriminate]. }
  split; [|split].
  - apply Forall_app. split; [exact LK|]. apply Forall_forall. intros x H. apply in_map_iff in H as (g & <- & _). apply TG.
  - intros a b l E. assert (LN : forall k1 l k2, lemma_or_any s = k1 ++ KPlus l :: k2 -> l = LAnyChar).
    { intros k1 l0 k2 E0. assert (H : In (KPlus l0) (lemma_or_any s)) by (rewrite E0; apply in_or_app; right; left; reflexivity).
      destruct K as [K|[_ K]]; rewrite K in H; [apply in_map_iff in H as (c & H & _); unfold f in H; destruct (c =?c cSTAR); [injection H; auto|discriminate]|destruct H as [H|[]]; injection H; auto]. }
    apply app_eq_app in E as (m & [[E1 E2]|[E1 E2]]).
    + destruct m as [|m1 m]; [exact (TAIL [] b l (eq_sym E2))|]. injection E2 as <- E2. assert (l = LAnyChar) as -> by (eapply LN; exact E1). destruct m as [|m2 m].
      * cbn in E2. destruct (ci_tags i) as [|g ts]; [discriminate|]. injection E2 as E2 _. destruct (TG g) as [T _]. congruence.
      * injection E2 as <- E2. destruct K as [K|[-> K]]; rewrite K in E1; [|destruct a as [|? [|? ?]]; discriminate].
        apply map_eq_app in E1 as (x & y & E & _ & E3). destruct y as [|g1 [|g2 y]]; try discriminate. injection E3 as E3 E4 _. rewrite (FK _ E3), (FK _ E4) in E. exact (U1 _ _ E).
    + exact (TAIL m b l E2).
  - intros a b l E. assert (H : In bsk (lemma_or_any s ++ map tag_key (ci_tags i))) by (rewrite E; apply in_or_app; right; left; reflexivity).
    apply in_app_or in H as [H|H]; [exact (LB _ H eq_refl)|exact (TB _ H eq_refl)].
Qed.

(** ** what a well-formed item matches *)
Definition mt (t : str) : msym := MTag (cLT :: t ++ [cGT]).
Lemma mt_inj a b : cLT :: a ++ [cGT] = cLT :: b ++ [cGT] -> a = b.
Proof. intros [= H]. apply app_inj_tail in H. tauto. Qed.
Lemma map_app_inv (A B : Type) (f : A -> B) l x y : map f l = x ++ y -> exists a b, l = a ++ b /\ map f a = x /\ map f b = y.
Proof. intros H. apply map_eq_app in H as (a & b & H1 & H2 & H3). eauto. Qed.
Lemma sem_tags ts : forall gs, sem (map tag_key ts) (map mt gs) <-> tags_match ts gs.
Proof.
  induction ts as [|t ts IH]; intros gs; cbn [map].
  - cbn. split; [destruct gs; [constructor|discriminate]|intros H; inversion H; reflexivity].
  - unfold tag_key at 1. destruct (str_eqb t [cSTAR]) eqn:E.
    + apply str_eqb_eq in E as ->. cbn [sem]. split.
      * intros (v & x & H & N & F & S). apply map_app_inv in H as (a & b & -> & <- & <-). constructor; [intros ->; apply N; reflexivity|apply IH, S].
      * intros H. inversion H as [|? ? ? N|v p w N H' E1 E2]; [destruct N; reflexivity|]. subst. exists (map mt v), (map mt w). rewrite map_app. split; [reflexivity|].
        split; [destruct v; [contradiction|discriminate]|]. split; [|apply IH, H']. apply Forall_forall. intros x Hx. apply in_map_iff in Hx as (g & <- & _). exact I.
    + assert (N : t <> [cSTAR]) by (intros ->; rewrite str_eqb_refl in E; discriminate). cbn [sem]. split.
      * intros (m & x & H & T & S). destruct gs as [|g gs]; [discriminate|]. injection H as <- <-. cbn in T. apply mt_inj in T as <-. constructor; [exact N|apply IH, S].
      * intros H. inversion H as [|? ? w _ H' E1 E2|]; [|subst; destruct N; reflexivity]. subst. exists (mt t), (map mt w). split; [reflexivity|]. split; [reflexivity|apply IH, H'].
Qed.
Lemma sem_tags_only ts : forall x, sem (map tag_key ts) x -> Forall (fun m => exists t, m = MTag t) x.
Proof.
  induction ts as [|t ts IH]; intros x; cbn [map]; [intros ->; constructor|]. unfold tag_key at 1. destruct (str_eqb t [cSTAR]); cbn [sem].
  - intros (v & x' & -> & _ & F & S). apply Forall_app. split; [|apply IH, S]. eapply Forall_impl; [|exact F]. intros [c|c|g]; cbn; try tauto. eauto.
  - intros (m & x' & -> & T & S). constructor; [|apply IH, S]. destruct m; cbn in T; try tauto. eauto.
Qed.
Definition lk (c : char) : kstep := if c =?c cSTAR then KPlus LAnyChar else KLit (LChar c).
Lemma sem_chars s : forall w, sem (map lk s) (map MChar w) <-> lemma_matches s w.
Proof.
  induction s as [|c s IH]; intros w; cbn [map].
  - cbn. split; [destruct w; [constructor|discriminate]|intros H; inversion H; reflexivity].
  - unfold lk at 1. destruct (ceq_spec c cSTAR) as [->|N]; cbn [sem].
    + split.
      * intros (v & x & H & N & F & S). apply map_app_inv in H as (a & b & -> & <- & <-). constructor; [intros ->; apply N; reflexivity|apply IH, S].
      * intros H. inversion H as [|? ? ? N|v p w' N H' E1 E2]; [destruct N; reflexivity|]. subst. exists (map MChar v), (map MChar w'). rewrite map_app. split; [reflexivity|].
        split; [destruct v; [contradiction|discriminate]|]. split; [|apply IH, H']. apply Forall_forall. intros x Hx. apply in_map_iff in Hx as (g & <- & _). exact I.
    + split.
      * intros (m & x & H & T & S). destruct w as [|g gs]; [discriminate|]. injection H as <- <-. cbn in T. subst g. constructor; [exact N|apply IH, S].
      * intros H. inversion H as [|? ? w' _ H' E1 E2|]; [|subst; destruct N; reflexivity]. subst. exists (MChar c), (map MChar w'). split; [reflexivity|]. split; [reflexivity|apply IH, H'].
Qed.
Lemma sem_chars_only s : forall x, (forall m, In m x -> ~ ismark m) -> sem (map lk s) x -> Forall (fun m => exists c, m = MChar c) x.
Proof.
  induction s as [|c s IH]; intros x NM; cbn [map]; [intros ->; constructor|]. unfold lk at 1. destruct (c =?c cSTAR); cbn [sem].
  - intros (v & x' & -> & _ & F & S). apply Forall_app. split; [|apply IH, S]; [eapply Forall_impl; [|exact F]; intros [d|d|g]; cbn; try tauto; eauto|]. intros m H. apply NM, in_or_app. auto.
  - intros (m & x' & -> & T & S). constructor; [|apply IH, S; intros m' H; apply NM; right; exact H]. destruct m as [d|d|g]; cbn in T; [destruct (NM (MMark d)); [left; reflexivity|eexists; reflexivity]|eauto|destruct T].
Qed.
Lemma used_lemma_wf i : item_wf i -> ~ In cBS (used_lemma i).
Proof. intros (W1 & W2 & W3 & W4 & W5 & W6 & W7). unfold used_lemma. destruct (ci_tags i); auto. Qed.
Lemma sem_used lower s a : ~ In cBS s -> (sem (lemma_or_any s) (map (sy lower) a) <-> word_tags a = [] /\ match s with [] => map lower (word_chars a) <> [] | _ => lemma_matches s (map lower (word_chars a)) end).
Proof.
  intros NB.
  assert (CH : Forall (fun m => exists c, m = MChar c) (map (sy lower) a) <-> word_tags a = []).
  { induction a as [|i a IH]; [split; [reflexivity|constructor]|]. cbn [map]. split.
    - intros H. inversion_clear H as [|? ? [c E] H']. destruct i as [d|d|t]; [apply IH, H'|apply IH, H'|discriminate].
    - intros H. destruct i as [d|d|t]; [constructor; [eexists; reflexivity|apply IH, H]..|discriminate]. }
  assert (MC : word_tags a = [] -> map (sy lower) a = map MChar (map lower (word_chars a))).
  { clear. induction a as [|i a IH]; intros H; [reflexivity|]. destruct i as [d|d|t]; cbn; [f_equal; apply IH, H..|discriminate]. }
  assert (NM : forall m, In m (map (sy lower) a) -> ~ ismark m) by (intros m H [c ->]; apply in_map_iff in H as ([| |] & [=] & _)).
  destruct s as [|c s].
  - cbn [lemma_or_any]. rewrite sem_plus. split.
    + intros [N F]. assert (T : word_tags a = []) by (apply CH; eapply Forall_impl; [|exact F]; intros [d|d|g]; cbn; try tauto; eauto). split; [exact T|]. rewrite (MC T) in N. intros E. rewrite E in N. apply N. reflexivity.
    + intros [T N]. rewrite (MC T). split; [destruct (map lower (word_chars a)); [contradiction|discriminate]|]. apply Forall_forall. intros m H. apply in_map_iff in H as (d & <- & _). exact I.
  - change (lemma_or_any (c :: s)) with (lemma_key (c :: s)). rewrite lemma_key_plain by exact NB. change (fun c0 => if c0 =?c cSTAR then KPlus LAnyChar else KLit (LChar c0)) with lk. split.
    + intros H. assert (T : word_tags a = []) by (apply CH; eapply sem_chars_only; eauto). split; [exact T|]. apply sem_chars. rewrite <- (MC T). exact H.
    + intros [T H]. rewrite (MC T). apply sem_chars, H.
Qed.
Lemma sem_mtags lower ts b : sem (map tag_key ts) (map (sy lower) b) <-> word_chars b = [] /\ tags_match ts (word_tags b).
Proof.
  assert (MC : word_chars b = [] -> map (sy lower) b = map mt (word_tags b)).
  { clear. induction b as [|i a IH]; intros H; [reflexivity|]. destruct i as [d|d|t]; cbn; [discriminate..|f_equal; apply IH, H]. }
  split.
  - intros H. assert (T : word_chars b = []).
    { apply sem_tags_only in H. clear MC. induction b as [|i b IH]; [reflexivity|]. inversion_clear H as [|? ? [t E] H']. destruct i; [discriminate..|apply IH, H']. }
    split; [exact T|]. apply sem_tags. rewrite <- (MC T). exact H.
  - intros [T H]. rewrite (MC T). apply sem_tags, H.
Qed.
Lemma word_chars_app a b : word_chars (a ++ b) = word_chars a ++ word_chars b.
Proof. apply flat_map_app. Qed.
Lemma word_tags_app a b : word_tags (a ++ b) = word_tags a ++ word_tags b.
Proof. apply flat_map_app. Qed.
Lemma sem_item lower i r : item_wf i -> (sem (item_key i) (map (sy lower) r) <-> plain r /\ item_matches i (map lower (word_chars r)) (word_tags r)).
Proof.
  intros W. assert (NB := used_lemma_wf i W). unfold item_key. rewrite sem_app. unfold item_matches. fold (used_lemma i). split.
  - intros (x & y & E & S1 & S2). apply map_app_inv in E as (a & b & -> & <- & <-). apply sem_used in S1 as [T1 S1]; [|exact NB]. apply sem_mtags in S2 as [T2 S2].
    rewrite word_chars_app, word_tags_app, T1, T2, app_nil_r. split; [exists a, b; auto|]. cbn. auto.
  - intros [(a & b & -> & T1 & T2) [S1 S2]]. rewrite word_chars_app, word_tags_app, T1, T2, app_nil_r in *. exists (map (sy lower) a), (map (sy lower) b). rewrite map_app. split; [reflexivity|].
    split; [apply sem_used; [exact NB|]; auto|apply sem_mtags; auto].
Qed.

(** ** sequences of words *)
Section Seq.
Variable lower : char -> char.
Variable defs : list (str * list cat_item).
Hypothesis wf : forall c items, lookup_cat defs c = Some items -> Forall item_wf items.
Lemma defs_key_ok c items : lookup_cat defs c = Some items -> Forall (fun i => key_ok (item_key i)) items.
Proof. intros H. eapply Forall_impl; [|exact (wf c items H)]. intros i. apply item_wf_key. Qed.
Lemma in_cat_word c r : in_cat defs c (map (sy lower) r) <-> word_matches lower defs c r.
Proof.
  unfold in_cat, word_matches, cat_lang. split.
  - intros (items & L & i & Hi & S). apply sem_item in S as [P M]; [|exact (proj1 (Forall_forall _ _) (wf c items L) i Hi)]. split; [exact P|]. exists items, i. auto.
  - intros [P (items & i & L & Hi & M)]. exists items. split; [exact L|]. exists i. split; [exact Hi|]. apply sem_item; [exact (proj1 (Forall_forall _ _) (wf c items L) i Hi)|auto].
Qed.
(** no category takes a dollar mark *)
Lemma sem_no_dollar k : Forall (fun s => s <> KLit (LChar cDOL) /\ forall l, s = KPlus l -> isany l = true) k -> forall x, sem k x -> ~ In (MMark cDOL) x.
Proof.
  induction 1 as [|s k [K1 K2] _ IH]; intros x; [intros ->; intros []|]. destruct s as [l|l]; cbn [sem].
  - intros (m & x' & -> & T & S) [->|H]; [|exact (IH _ S H)]. destruct l; cbn in T; try tauto. subst c. apply K1. reflexivity.
  - intros (v & x' & -> & _ & F & S) H. apply in_app_or in H as [H|H]; [|exact (IH _ S H)]. apply (proj1 (Forall_forall _ _) F) in H. specialize (K2 l eq_refl). destruct l; cbn in H, K2; try tauto; discriminate.
Qed.
Lemma item_no_dollar i x : item_wf i -> sem (item_key i) x -> ~ In (MMark cDOL) x.
Proof.
  intros W. apply sem_no_dollar. destruct (item_wf_key i W) as [K _]. apply Forall_forall. intros s Hs. split; [exact (proj1 (Forall_forall _ _) K s Hs)|].
  intros l ->. unfold item_key in Hs. apply in_app_or in Hs as [Hs|Hs].
  - assert (NB := used_lemma_wf i W). destruct (used_lemma i) as [|c r]; [destruct Hs as [[= <-]|[]]; reflexivity|]. change (lemma_or_any (c :: r)) with (lemma_key (c :: r)) in Hs. rewrite lemma_key_plain in Hs by exact NB.
    apply in_map_iff in Hs as (d & Hd & _). destruct (d =?c cSTAR); [injection Hd as <-; reflexivity|discriminate].
  - apply in_map_iff in Hs as (g & Hg & _). unfold tag_key in Hg. destruct (str_eqb g [cSTAR]); [injection Hg as <-; reflexivity|discriminate].
Qed.
Lemma in_cat_no_dollar c w : in_cat defs c w -> ~ In (MMark cDOL) w.
Proof. intros (items & L & i & Hi & S). apply (item_no_dollar i w (proj1 (Forall_forall _ _) (wf c items L) i Hi) S). Qed.

Lemma fed_snoc ws w : fed lower (ws ++ [w]) = (match ws with [] => [] | _ => fed lower ws ++ [MMark cSP] end) ++ MMark cCARET :: map (sy lower) w ++ [MMark cDOL].
Proof.
  induction ws as [|a ws IH]; [reflexivity|]. destruct ws as [|b ws]; [cbn [app fed]; unfold symbols; repeat (rewrite <- app_assoc; cbn [app]); reflexivity|]. change (fed lower ((a :: b :: ws) ++ [w])) with (symbols lower a ++ MMark cSP :: fed lower ((b :: ws) ++ [w])).
  rewrite IH. change (fed lower (a :: b :: ws)) with (symbols lower a ++ MMark cSP :: fed lower (b :: ws)). repeat (rewrite <- app_assoc; cbn [app]). reflexivity.
Qed.
(** the last symbol of a sequence of words is a dollar *)
Lemma seqm_last cs x : seqm defs cs x -> cs = [] /\ x = [] \/ exists x' m, x = x' ++ [m] /\ takes (LChar cDOL) m.
Proof. intros [|cs' c x' v m1 w m2 S V T1 C T2]; [auto|]. right. exists (x' ++ v ++ m1 :: w), m2. split; [appeq|exact T2]. Qed.
Lemma seqm_nil cs : seqm defs cs [] -> cs = [].
Proof. intros H. inversion H as [|? ? x v m1 w m2 S V T1 C T2 E1 E2]; [reflexivity|]. destruct x, v; discriminate. Qed.
Definition no_dollar (r : reading) : Prop := ~ In cDOL (map lower (word_chars r)).
Lemma no_dollar_take r m : no_dollar r -> In m (map (sy lower) r) -> ~ takes (LChar cDOL) m.
Proof.
  intros N H T. apply N. apply in_map_iff in H as (i & <- & Hi). unfold word_chars.  apply in_map_iff.
  destruct i as [c|c|t]; cbn in T; [exists c|exists c|destruct T]; (split; [auto|]); apply in_flat_map; eexists; (split; [exact Hi|left; reflexivity]).
Qed.
Lemma snoc_eq (A : Type) (a b : list A) x y : a ++ [x] = b ++ [y] -> a = b /\ x = y.
Proof. apply app_inj_tail. Qed.
Lemma fed_nonempty ws w : fed lower (ws ++ [w]) <> [].
Proof. rewrite fed_snoc. intros H. apply app_eq_nil in H as [_ H]. discriminate. Qed.
(** the words found are the words of the text: a dollar can only be the one ending a word *)
Lemma last_word (A : list msym) v m1 w B r :
  no_dollar r -> ~ In (MMark cDOL) w -> takes (LChar cCARET) m1 ->
  (A = [] /\ v = [] \/ (exists A' d, A = A' ++ [d] /\ takes (LChar cDOL) d) /\ (v = [] \/ exists b, v = [b] /\ takes (LChar cSP) b)) ->
  (B = [] \/ exists B', B = B' ++ [MMark cDOL; MMark cSP]) ->
  A ++ v ++ m1 :: w = B ++ MMark cCARET :: map (sy lower) r ->
  w = map (sy lower) r /\ A ++ v = B.
Proof.
  intros ND NW T1 HA HB E. rewrite app_assoc in E. apply app_eq_app in E as (u & [[E1 E2]|[E1 E2]]).
  - (* the caret of the pattern is inside or at the last word *)
    destruct u as [|k u]; [injection E2 as _ E2; rewrite app_nil_r in E1; auto|]. exfalso. injection E2 as <- E2.
    assert (NU : forall m, In m u -> ~ takes (LChar cDOL) m) by (intros m Hm; apply (no_dollar_take r); [exact ND|rewrite E2; apply in_or_app; auto]).
    destruct HA as [[-> ->]|[(A' & d & -> & Td) [->|(b & -> & Tb)]]].
    + destruct B; discriminate.
    + rewrite app_nil_r in E1. destruct u as [|z u] using rev_ind; [apply snoc_eq in E1 as [_ ->]; discriminate|].
      change (MMark cCARET :: u ++ [z]) with ((MMark cCARET :: u) ++ [z]) in E1. rewrite app_assoc in E1. apply snoc_eq in E1 as [_ ->]. apply (NU z); [apply in_or_app; right; left; reflexivity|exact Td].
    + destruct u as [|z u _] using rev_ind; [apply snoc_eq in E1 as [_ ->]; discriminate|].
      change (MMark cCARET :: u ++ [z]) with ((MMark cCARET :: u) ++ [z]) in E1. rewrite app_assoc in E1. apply snoc_eq in E1 as [E1 _].
      destruct u as [|y u _] using rev_ind; [apply snoc_eq in E1 as [_ ->]; discriminate|].
      change (MMark cCARET :: u ++ [y]) with ((MMark cCARET :: u) ++ [y]) in E1. rewrite app_assoc in E1. apply snoc_eq in E1 as [_ ->]. apply (NU y); [rewrite !in_app_iff; cbn; tauto|exact Td].
  - (* it is before the last word *)
    destruct u as [|k u]; [rewrite app_nil_r in E1; injection E2 as _ E2; auto|]. exfalso. injection E2 as <- E2.
    destruct HB as [->|(B' & ->)]; [destruct (A ++ v); discriminate|].
    destruct u as [|z u _] using rev_ind.
    { change [MMark cDOL; MMark cSP] with ([MMark cDOL] ++ [MMark cSP]) in E1. rewrite app_assoc in E1. apply snoc_eq in E1 as [_ <-]. discriminate. }
    change [MMark cDOL; MMark cSP] with ([MMark cDOL] ++ [MMark cSP]) in E1. change (m1 :: u ++ [z]) with ((m1 :: u) ++ [z]) in E1. rewrite !app_assoc in E1. apply snoc_eq in E1 as [E1 _].
    destruct u as [|y u _] using rev_ind; [apply snoc_eq in E1 as [_ <-]; discriminate|].
    change (m1 :: u ++ [y]) with ((m1 :: u) ++ [y]) in E1. rewrite app_assoc in E1. apply snoc_eq in E1 as [_ <-]. apply NW. rewrite E2, !in_app_iff. cbn. tauto.
Qed.
Lemma seqm_fed cs : forall ws, Forall no_dollar ws -> (seqm defs cs (fed lower ws) <-> Forall2 (word_matches lower defs) cs ws).
Proof.
  induction cs as [|c cs IH] using rev_ind; intros ws ND.
  - destruct ws as [|w ws _] using rev_ind; [split; constructor|]. split.
    + intros H. inversion H as [E|cs' ? ? ? ? ? ? ? ? ? ? ? E]; [|destruct cs'; discriminate]. symmetry in H0. destruct (fed_nonempty _ _ H0).
    + intros H. inversion H as [E|]. destruct ws; discriminate.
  - split.
    + intros H. inversion H as [E|cs0 c0 x v m1 w m2 S V T1 C T2 Ec Ex]; [destruct cs; discriminate|]. apply snoc_eq in Ec as [-> ->].
      destruct ws as [|r ws _] using rev_ind; [cbn in Ex; destruct x, v; discriminate|]. apply Forall_app in ND as [ND NR]. inversion_clear NR as [|? ? NR' _].
      set (B := match ws with [] => [] | _ => fed lower ws ++ [MMark cSP] end).
      assert (EX : (x ++ v ++ m1 :: w) ++ [m2] = (B ++ MMark cCARET :: map (sy lower) r) ++ [MMark cDOL]).
      { rewrite fed_snoc in Ex. fold B in Ex. repeat (rewrite <- app_assoc; cbn [app]). exact Ex. }
      apply snoc_eq in EX as [EX _]. assert (NW := in_cat_no_dollar c w C).
      destruct (last_word x v m1 w B r NR' NW T1) as [Ew EB]; [| |exact EX|].
      { destruct (seqm_last _ _ S) as [[-> ->]|L]; [left; split; [reflexivity|]; destruct V as [->|[V _]]; [reflexivity|contradiction]|]. right. split; [exact L|]. destruct V as [->|[_ V]]; [left; reflexivity|right; exact V]. }
      { unfold B. destruct ws as [|w1 ws _] using rev_ind; [left; reflexivity|right]. 
        exists (match ws with [] => [] | _ => fed lower ws ++ [MMark cSP] end ++ MMark cCARET :: map (sy lower) w1).
        destruct (ws ++ [w1]) as [|w2 ws2] eqn:E2; [destruct ws; discriminate|]. rewrite <- E2, fed_snoc. destruct ws; repeat (rewrite <- app_assoc; cbn [app]); reflexivity. }
      subst w. apply Forall2_app; [|constructor; [apply in_cat_word, C|constructor]]. apply IH; [exact ND|].
      destruct ws as [|w1 ws _] using rev_ind; [subst B; apply app_eq_nil in EB as [-> ->]; exact S|].
      assert (EB' : x ++ v = fed lower (ws ++ [w1]) ++ [MMark cSP]) by (rewrite EB; unfold B; destruct (ws ++ [w1]) eqn:E2; [destruct ws; discriminate|reflexivity]).
      destruct V as [->|[_ (b & -> & _)]]; [|apply snoc_eq in EB' as [<- _]; exact S].
      exfalso. rewrite app_nil_r in EB'. destruct (seqm_last _ _ S) as [[_ ->]|(x' & m & -> & T)]; [destruct (fed lower (ws ++ [w1])); discriminate|]. apply snoc_eq in EB' as [_ ->]. discriminate.
    + intros H. apply Forall2_app_inv_l in H as (ws1 & ws2 & H1 & H2 & ->). inversion H2 as [|? r ? l2 M H3]; subst. inversion H3; subst. apply Forall_app in ND as [ND _].
      assert (G : exists v, sep cs v /\ (match ws1 with [] => [] | _ => fed lower ws1 ++ [MMark cSP] end) = fed lower ws1 ++ v).
      { destruct ws1 as [|w1 ws1]; [exists []; split; [left; reflexivity|reflexivity]|]. exists [MMark cSP]. split; [|reflexivity]. right. split; [|exists (MMark cSP); split; reflexivity].
        intros ->. inversion H1. }
      destruct G as (v & V & EV). rewrite fed_snoc, EV, <- app_assoc. apply sq_snoc; [apply IH; assumption|exact V|reflexivity|apply in_cat_word, M|reflexivity].
Qed.
End Seq.

(** ** the rule chosen *)
Lemma fed_no_bs lower ws : ~ In (MMark cBS) (fed lower ws).
Proof.
  induction ws as [|w ws IH] using rev_ind; [intros []|]. rewrite fed_snoc. intros H. apply in_app_or in H as [H|[H|H]].
  - destruct ws; [destruct H|]. apply in_app_or in H as [H|[H|[]]]; [exact (IH H)|discriminate].
  - discriminate.
  - apply in_app_or in H as [H|[H|[]]]; [|discriminate]. apply in_map_iff in H as ([| |] & [=] & _).
Qed.
Section Chosen.
Variable lower : char -> char.
Variable defs : list (str * list cat_item).
Variable ps : list (list str).
Variable t : trans.
Hypothesis wf : forall c items, lookup_cat defs c = Some items -> Forall item_wf items.
Hypothesis comp : compile defs ps = Some t.
Variable ws : list reading.
Hypothesis nd : Forall (no_dollar lower) ws.
Lemma matched_sound n : matched t (fed lower ws) n -> rule_matches lower defs ps n ws.
Proof.
  intros M. destruct (compile_correct defs ps (defs_key_ok defs wf) t comp (fed lower ws) (fed_no_bs lower ws)) as [S _].
  destruct (S n M) as (L & cs & N & Q). exists cs. split; [exact N|]. split; [exact L|]. apply (seqm_fed lower defs wf cs ws nd), Q.
Qed.
Lemma matched_complete n : rule_matches lower defs ps n ws -> exists m, m <= n /\ matched t (fed lower ws) m.
Proof.
  intros (cs & N & L & F). destruct (compile_correct defs ps (defs_key_ok defs wf) t comp (fed lower ws) (fed_no_bs lower ws)) as [_ C].
  destruct (C (n - 1) cs N) as (m & Lm & M); [apply (seqm_fed lower defs wf cs ws nd), F|]. exists m. split; [lia|exact M].
Qed.
Lemma visible_matched n : visible t (fed lower ws) n -> matched t (fed lower ws) n.
Proof. intros (y & F & H & _). apply has_rule_matched. exists y. auto. Qed.
Lemma visible_below n : (forall m, visible t (fed lower ws) m -> n <= m) -> forall k, matched t (fed lower ws) k -> n <= k.
Proof.
  intros LV k M. apply has_rule_matched in M as (y & F & H). revert H. induction k as [k IH] using lt_wf_ind. intros H.
  destruct (le_lt_dec n k) as [|Lt]; [assumption|]. apply LV. exists y. split; [exact F|]. split; [exact H|]. intros m Hm.
  destruct (le_lt_dec k m) as [|Lm]; [assumption|]. specialize (IH m Lm Hm). lia.
Qed.
Theorem chosen n : classifies t (fed lower ws) [] n <-> rule_matches lower defs ps n ws /\ forall m, rule_matches lower defs ps m ws -> n <= m.
Proof.
  split.
  - intros (V & _ & L). split; [apply matched_sound, visible_matched, V|]. intros m R. apply matched_complete in R as (k & Lk & M). apply (visible_below n) in M; [lia|]. intros j Vj. apply L; [exact Vj|intros []].
  - intros [R L]. apply matched_complete in R as (k & Lk & M). assert (k = n) as -> by (apply matched_sound in M as M'; specialize (L _ M'); lia).
    split; [|split; [intros []|intros m Vm _; apply L, matched_sound, visible_matched, Vm]].
    apply has_rule_matched in M as (y & F & H). exists y. split; [exact F|]. split; [exact H|]. intros m Hm. apply L, matched_sound, has_rule_matched. exists y. auto.
Qed.
Theorem chosen_sound banned n : classifies t (fed lower ws) banned n -> rule_matches lower defs ps n ws /\ ~ In n banned.
Proof. intros (V & B & _). split; [apply matched_sound, visible_matched, V|exact B]. Qed.
(** nothing found exactly if no rule matches *)
Theorem none_chosen : (forall n, ~ classifies t (fed lower ws) [] n) <-> forall n, ~ rule_matches lower defs ps n ws.
Proof.
  split.
  - intros H n. induction n as [n IH] using lt_wf_ind. intros R. apply (H n), chosen. split; [exact R|]. intros m Rm. destruct (le_lt_dec n m) as [|L]; [assumption|]. destruct (IH m L Rm).
  - intros H n C. apply chosen in C as [C _]. exact (H n C).
Qed.
End Chosen.

(** ** the compiler fails exactly on undefined or empty categories *)
Lemma finals_cat_item t l ts : t_finals (insert_cat_item t l ts) <> [].
Proof.
  unfold insert_cat_item. destruct (match l with [] => _ | _ => _ end) as [t1 p]. destruct (insert_tags t1 p ts) as [t2 q]. unfold set_final.
  destruct (in_dec _ _ _) as [H|H]; [intros E; rewrite E in H; destruct H|]. cbn. intros E. apply app_eq_nil in E as [_ E]. discriminate.
Qed.
Lemma join_def_cat items : join_finals (def_cat items) <> None <-> items <> [].
Proof.
  assert (F : items <> [] -> t_finals (def_cat items) <> []).
  { intros H. destruct items as [|i items _] using rev_ind; [contradiction|]. unfold def_cat. rewrite fold_left_app. cbn [fold_left]. unfold add_item. destruct (ci_tags i); apply finals_cat_item. }
  split.
  - intros H ->. apply H. reflexivity.
  - intros H. specialize (F H). unfold join_finals. destruct (t_finals (def_cat items)) as [|a [|b l]]; [contradiction|discriminate..].
Qed.
Definition usable (defs : list (str * list cat_item)) (c : str) : Prop := exists items, lookup_cat defs c = Some items /\ items <> [].
Lemma pattern_item_usable defs r s c : (forall s' c' q, look_state (r_states r) s' c' = Some q -> usable defs c') ->
  match pattern_item defs r s c with Some (r', _) => usable defs c /\ (forall s' c' q, look_state (r_states r') s' c' = Some q -> usable defs c') /\ r_count r' = r_count r /\ r_seen r' = r_seen r | None => ~ usable defs c end.
Proof.
  intros H. unfold pattern_item. destruct (look_state (r_states r) s c) as [q|] eqn:L; [split; [eapply H; eauto|auto]|].
  destruct (lookup_cat defs c) as [items|] eqn:LC; [|intros (i & E & _); congruence].
  destruct (insert1 (r_t r) (LChar cCARET) s) as [t1 tmp]. set (t2 := if s =? 0 then t1 else _). unfold insert_trans.
  assert (J := join_def_cat items). destruct (join_finals (def_cat items)) as [[cm f]|].
  - assert (U : usable defs c) by (exists items; split; [exact LC|apply J; discriminate]). destruct (insert1 _ (LChar cDOL) _) as [t4 q]. split; [exact U|]. cbn. split; [|auto].
    intros s' c' q' L'. unfold look_state in L'. cbn [find fst snd] in L'. destruct ((s =? s') && str_eqb c c') eqn:B; [apply andb_prop in B as [_ B]; apply str_eqb_eq in B as <-; exact U|]. eapply H. exact L'.
  - intros (i & E & N). rewrite LC in E. injection E as <-. apply J in N. contradiction.
Qed.
Lemma pattern_usable defs cs : forall r s, (forall s' c' q, look_state (r_states r) s' c' = Some q -> usable defs c') ->
  match pattern defs r s cs with Some (r', _) => Forall (usable defs) cs /\ (forall s' c' q, look_state (r_states r') s' c' = Some q -> usable defs c') | None => ~ Forall (usable defs) cs end.
Proof.
  induction cs as [|c cs IH]; intros r s H; cbn [pattern]; [auto|]. assert (P := pattern_item_usable defs r s c H). destruct (pattern_item defs r s c) as [[r1 q]|].
  - destruct P as (U & H1 & _). specialize (IH r1 q H1). destruct (pattern defs r1 q cs) as [[r2 q2]|]; [destruct IH; auto|]. intros F. inversion F. contradiction.
  - intros F. inversion F. contradiction.
Qed.
Lemma rules_usable defs ps : forall r, (forall s' c' q, look_state (r_states r) s' c' = Some q -> usable defs c') ->
  (rules defs r ps <> None <-> Forall (Forall (usable defs)) ps).
Proof.
  induction ps as [|cs ps IH]; intros r H; cbn [rules]; [split; [constructor|discriminate]|].
  unfold rule. assert (P := pattern_usable defs cs (mkrst (r_t r) (r_states r) (r_seen r) (S (r_count r))) 0 H). destruct (pattern _ _ _ _) as [[r1 s]|].
  - destruct P as [U H1]. assert (X : Forall (Forall (usable defs)) (cs :: ps) <-> Forall (Forall (usable defs)) ps) by (split; [intros F; inversion F; assumption|auto]). rewrite X.
    destruct (existsb _ _); [apply IH, H1|]. destruct (insert1 _ _ _) as [t1 f]. apply IH. exact H1.
  - split; [intros N; contradiction|]. intros F. inversion F. contradiction.
Qed.
Theorem compile_defined defs ps : compile defs ps <> None <-> Forall (Forall (usable defs)) ps.
Proof.
  unfold compile. rewrite <- (rules_usable defs ps (mkrst no_trans [] [] 0)) by (intros s' c' q E; discriminate). destruct (rules _ _ _); cbn; split; congruence.
Qed.
