(** The compiled patterns with exact symbols: Proofs/TrxPatterns.v and Proofs/TrxRules.v over strings of symbols along the transitions
    (any_char and any_tag being symbols) instead of input symbols. *)
From Verif Require Import Model.Base Proofs.Base Model.TransferUnit Model.TrxPatterns Spec.TransferUnit Spec.TrxPatterns Proofs.TrxPatterns.

Definition tkx (l m : lab) : Prop := l = m /\ l <> LEps /\ forall n, l <> LRule n.
(** ** paths *)
Inductive path (E : list edge) : nat -> list lab -> nat -> Prop :=
| p_nil s : path E s [] s
| p_eps s x q r : path E s x q -> In (q, LEps, r) E -> path E s x r
| p_sym s x q l m r : path E s x q -> In (q, l, r) E -> tkx l m -> path E s (x ++ [m]) r.
Lemma path_mono E E' s x r : (forall e, In e E -> In e E') -> path E s x r -> path E' s x r.
Proof. intros H P. induction P; [constructor|eapply p_eps; eauto|eapply p_sym; eauto]. Qed.
Lemma path_app E s x q y r : path E s x q -> path E q y r -> path E s (x ++ y) r.
Proof.
  intros P Q. induction Q; [rewrite app_nil_r; exact P|eapply p_eps; eauto|]. rewrite app_assoc. eapply p_sym; eauto.
Qed.
Lemma path_one E s l m r : In (s, l, r) E -> tkx l m -> path E s [m] r.
Proof. intros H T. apply (p_sym E s [] s l m r); [constructor|exact H|exact T]. Qed.
Fixpoint sem (k : list kstep) (x : list lab) : Prop :=
  match k with
  | [] => x = []
  | KLit l :: k' => exists m x', x = m :: x' /\ tkx l m /\ sem k' x'
  | KPlus l :: k' => exists v x', x = v ++ x' /\ v <> [] /\ Forall (tkx l) v /\ sem k' x'
  end.
Lemma sem_app a b x : sem (a ++ b) x <-> exists u v, x = u ++ v /\ sem a u /\ sem b v.
Proof.
  revert x. induction a as [|[l|l] a IH]; intros x; cbn [app sem].
  - split; [intros H; exists [], x; auto|intros (u & v & -> & -> & H); exact H].
  - split.
    + intros (m & x' & -> & T & H). apply IH in H as (u & v & -> & H1 & H2). exists (m :: u), v. split; [reflexivity|]. split; [|exact H2]. exists m, u. auto.
    + intros (u & v & -> & (m & x' & -> & T & H) & H2). exists m, (x' ++ v). split; [reflexivity|]. split; [exact T|]. apply IH. eauto.
  - split.
    + intros (w & x' & -> & N & F & H). apply IH in H as (u & v & -> & H1 & H2). exists (w ++ u), v. split; [apply app_assoc|]. split; [|exact H2]. exists w, u. auto.
    + intros (u & v & -> & (w & x' & -> & N & F & H) & H2). exists w, (x' ++ v). split; [rewrite <- app_assoc; reflexivity|]. split; [exact N|]. split; [exact F|]. apply IH. eauto.
Qed.
Lemma sem_lit l x : sem [KLit l] x <-> exists m, x = [m] /\ tkx l m.
Proof. cbn. split; [intros (m & x' & -> & T & ->); eauto|intros (m & -> & T); exists m, []; auto]. Qed.
Lemma sem_plus l x : sem [KPlus l] x <-> x <> [] /\ Forall (tkx l) x.
Proof.
  cbn. split; [intros (v & x' & -> & N & F & ->); rewrite app_nil_r; auto|intros [N F]; exists x, []; rewrite app_nil_r; auto].
Qed.
Lemma sem_step k l x m : sem k x -> tkx l m -> sem (k ++ [step_of l]) (x ++ [m]).
Proof.
  intros H T. apply sem_app. exists x, [m]. split; [reflexivity|]. split; [exact H|]. unfold step_of. destruct (isany l).
  - apply sem_plus. split; [discriminate|auto].
  - apply sem_lit. eauto.
Qed.
Lemma sem_more k l x m : sem (k ++ [KPlus l]) x -> tkx l m -> sem (k ++ [KPlus l]) (x ++ [m]).
Proof.
  intros H T. apply sem_app in H as (u & v & -> & H1 & H2). apply sem_app. exists u, (v ++ [m]). split; [rewrite app_assoc; reflexivity|]. split; [exact H1|].
  apply sem_plus in H2 as [N F]. apply sem_plus. split; [destruct v; discriminate|]. apply Forall_app. auto.
Qed.

Record CInv (key : nat -> list kstep) (t : trans) : Prop := {
  ci_zero : key 0 = []; ci_pos : 0 < t_next t;
  ci_bound : forall p l q, In (p, l, q) (t_edges t) -> p < t_next t /\ q < t_next t;
  ci_edge : forall e, In e (t_edges t) -> cedge key e;
  ci_okl : forall p l q, In (p, l, q) (t_edges t) -> okl l;
  ci_complete : forall q x, q < t_next t -> sem (key q) x -> path (t_edges t) 0 x q;
  ci_fbound : forall f, In f (t_finals t) -> f < t_next t }.
Lemma cinv_no : CInv (fun _ => []) no_trans.
Proof.
  constructor; cbn; try tauto; try lia.
  intros q x Hq ->. replace q with 0 by lia. constructor.
Qed.
Lemma cinv_sound key t : CInv key t -> forall x q, ~ In (LChar cBS) x -> path (t_edges t) 0 x q -> sem (key q) x.
Proof.
  intros I x q NB P. remember 0 as z. induction P as [s|s x q r P IH H|s x q l m r P IH H T]; subst.
  - rewrite (ci_zero _ _ I). reflexivity.
  - destruct (ci_okl _ _ I _ _ _ H) as [N _]. contradiction.
  - assert (NB' : ~ In (LChar cBS) x) by (intros B; apply NB, in_or_app; auto).
    specialize (IH NB' eq_refl). destruct (ci_edge _ _ I _ H) as [E|[(-> & A & k' & E)|(-> & E & k' & E2)]].
    + rewrite E. apply sem_step; assumption.
    + rewrite E in *. apply sem_more; assumption.
    + rewrite E in IH. apply sem_app in IH as (u & v & -> & H1 & H2). apply sem_lit in H2 as (b & -> & Tb). rewrite E2 in *.
      apply sem_more; [|exact T]. apply sem_more; [assumption|]. exfalso. destruct Tb as [<- _]. apply NB'. apply in_or_app. right. left. reflexivity.
Qed.

Lemma insert1_lit key t l p t' q : CInv key t -> p < t_next t -> isany l = false -> okl l -> insert1 t l p = (t', q) ->
  exists key', CInv key' t' /\ ext (t_next t) key key' /\ Grows t t' /\ q < t_next t' /\ key' q = key p ++ [KLit l].
Proof.
  intros I Hp Hl Ho E. apply insert1_spec in E as [[-> H]|(-> & -> & H)].
  - exists key. split; [exact I|]. split; [intros s _; reflexivity|]. split; [apply grows_refl|]. split; [apply (ci_bound _ _ I _ _ _ H)|].
    destruct (ci_edge _ _ I _ H) as [E|[(_ & A & _)|(-> & _)]]; [|congruence|discriminate]. rewrite E. unfold step_of. rewrite Hl. reflexivity.
  - exists (fun s => if s =? t_next t then key p ++ [KLit l] else key s).
    assert (X : ext (t_next t) key (fun s => if s =? t_next t then key p ++ [KLit l] else key s)) by (intros s Hs; apply upd_key, Hs).
    split; [|split; [exact X|split; [constructor; cbn; [lia|intros e He; apply in_or_app; auto|reflexivity]|split; [cbn; lia|rewrite Nat.eqb_refl; reflexivity]]]].
    assert (HB := ci_bound _ _ I). constructor; cbn [t_next t_edges t_finals].
    + rewrite upd_key by apply (ci_pos _ _ I). apply (ci_zero _ _ I).
    + lia.
    + intros a m b Hin. apply in_app_or in Hin as [Hin|[[= <- <- <-]|[]]]; [specialize (HB _ _ _ Hin); lia|lia].
    + intros e Hin. apply in_app_or in Hin as [Hin|[<-|[]]].
      * apply cedge_upd; [|apply (ci_edge _ _ I), Hin]. destruct e as [[a m] b]. apply (HB _ _ _ Hin).
      * left. rewrite Nat.eqb_refl, upd_key by exact Hp. unfold step_of. rewrite Hl. reflexivity.
    + intros a m b Hin. apply in_app_or in Hin as [Hin|[[= <- <- <-]|[]]]; [apply (ci_okl _ _ I _ _ _ Hin)|exact Ho].
    + intros s x Hs Hx. destruct (Nat.eqb_spec s (t_next t)) as [->|Hn].
      * apply sem_app in Hx as (v & w & -> & H1 & H2). apply sem_lit in H2 as (m & -> & T).
        eapply p_sym; [|apply in_or_app; right; left; reflexivity|exact T]. eapply path_mono; [|apply (ci_complete _ _ I); [exact Hp|exact H1]]. intros e He; apply in_or_app; auto.
      * eapply path_mono; [|apply (ci_complete _ _ I); [lia|exact Hx]]. intros e He; apply in_or_app; auto.
    + intros f Hf. specialize (ci_fbound _ _ I f Hf). lia.
Qed.
(** adding a transition the language of whose target already has it *)
Lemma link_inv key t p q l : CInv key t -> p < t_next t -> q < t_next t -> okl l -> cedge key (p, l, q) -> CInv key (link t p q l) /\ Grows t (link t p q l).
Proof.
  intros I Hp Hq Ho Hc. split; [|constructor; [rewrite link_next; lia|intros e He; apply link_in; auto|apply link_finals]].
  constructor; rewrite ?link_next, ?link_finals.
  - apply (ci_zero _ _ I).
  - apply (ci_pos _ _ I).
  - intros a m b H. apply link_in in H as [H|[= -> -> ->]]; [apply (ci_bound _ _ I _ _ _ H)|auto].
  - intros e H. apply link_in in H as [H| ->]; [apply (ci_edge _ _ I), H|exact Hc].
  - intros a m b H. apply link_in in H as [H|[= -> -> ->]]; [apply (ci_okl _ _ I _ _ _ H)|auto].
  - intros s x Hs Hx. eapply path_mono; [|apply (ci_complete _ _ I); eassumption]. intros e He; apply link_in; auto.
  - apply (ci_fbound _ _ I).
Qed.
Lemma loop_path E p q l v : In (p, l, q) E -> In (q, l, q) E -> v <> [] -> Forall (tkx l) v -> path E p v q.
Proof.
  intros H1 H2 N F. induction v as [|m v IH] using rev_ind; [contradiction|]. apply Forall_app in F as [F1 F2]. inversion_clear F2 as [|? ? T _].
  destruct v as [|m' v]; [apply (path_one E p l m q H1 T)|]. eapply p_sym; [apply IH; [discriminate|exact F1]|exact H2|exact T].
Qed.
Lemma insert_plus_inv key t l p t' q : CInv key t -> p < t_next t -> isany l = true -> may (key p) l -> insert_plus t l p = (t', q) ->
  exists key', CInv key' t' /\ ext (t_next t) key key' /\ Grows t t' /\ q < t_next t' /\ key' q = key p ++ [KPlus l].
Proof.
  intros I Hp Hl Hm. unfold insert_plus. destruct (insert1 t l p) as [t1 q1] eqn:E. intros [= <- <-].
  assert (Ho : okl l) by (destruct l; cbn in Hl; try discriminate; repeat split; intros; discriminate).
  apply insert1_spec in E as [[-> H]|(-> & -> & H)].
  - assert (K : key q1 = key p ++ [KPlus l]).
    { destruct (Hm Hl) as [M1 M2]. destruct (ci_edge _ _ I _ H) as [E|[(<- & _ & E)|(-> & E & _)]].
      - rewrite E. unfold step_of. rewrite Hl. reflexivity.
      - contradiction.
      - destruct M2. eexists. exact E. }
    assert (Hq := proj2 (ci_bound _ _ I _ _ _ H)).
    destruct (link_inv key t q1 q1 l I Hq Hq Ho) as [I' G]; [right; left; split; [reflexivity|split; [exact Hl|eexists; exact K]]|].
    exists key. split; [exact I'|]. split; [intros s _; reflexivity|]. split; [exact G|]. split; [rewrite link_next; exact Hq|exact K].
  - set (n := t_next t) in *. set (t1 := mkt (S n) (t_edges t ++ [(p, l, n)]) (t_finals t)).
    exists (fun s => if s =? n then key p ++ [KPlus l] else key s).
    assert (X : ext n key (fun s => if s =? n then key p ++ [KPlus l] else key s)) by (intros s Hs; apply upd_key, Hs).
    assert (IN : forall e, In e (t_edges (link t1 n n l)) <-> In e (t_edges t) \/ e = (p, l, n) \/ e = (n, l, n)).
    { intros e. rewrite link_in. cbn. rewrite in_app_iff. cbn. intuition congruence. }
    assert (HB := ci_bound _ _ I).
    split; [|split; [exact X|split; [constructor; [rewrite link_next; cbn; lia|intros e He; apply IN; auto|rewrite link_finals; reflexivity]|split; [rewrite link_next; cbn; lia|rewrite Nat.eqb_refl; reflexivity]]]].
    constructor; rewrite ?link_next, ?link_finals; cbn [t1 t_next t_finals].
    + rewrite upd_key by apply (ci_pos _ _ I). apply (ci_zero _ _ I).
    + lia.
    + intros a m b Hin. apply IN in Hin as [Hin|[[= -> -> ->]|[= -> -> ->]]]; [specialize (HB _ _ _ Hin); fold n in HB; lia|lia|lia].
    + intros e Hin. apply IN in Hin as [Hin|[->| ->]].
      * apply cedge_upd; [|apply (ci_edge _ _ I), Hin]. destruct e as [[a m] b]. apply (HB _ _ _ Hin).
      * left. rewrite Nat.eqb_refl, upd_key by exact Hp. unfold step_of. rewrite Hl. reflexivity.
      * right. left. split; [reflexivity|]. split; [exact Hl|]. rewrite Nat.eqb_refl. eexists. reflexivity.
    + intros a m b Hin. apply IN in Hin as [Hin|[[= -> -> ->]|[= -> -> ->]]]; [apply (ci_okl _ _ I _ _ _ Hin)|exact Ho|exact Ho].
    + intros s x Hs Hx. destruct (Nat.eqb_spec s n) as [->|Hn].
      * apply sem_app in Hx as (v & w & -> & H1 & H2). apply sem_plus in H2 as [N F]. eapply path_app.
        -- eapply path_mono; [|apply (ci_complete _ _ I); [exact Hp|exact H1]]. intros e He; apply IN; auto.
        -- apply (loop_path _ p n l); [apply IN; auto|apply IN; auto|exact N|exact F].
      * eapply path_mono; [|apply (ci_complete _ _ I); [fold n; lia|exact Hx]]. intros e He; apply IN; auto.
    + intros f Hf. specialize (ci_fbound _ _ I f Hf). fold n. lia.
Qed.
Lemma set_final_inv key t q : CInv key t -> q < t_next t -> CInv key (set_final t q) /\ (forall f, In f (t_finals (set_final t q)) <-> In f (t_finals t) \/ f = q).
Proof.
  intros I Hq. unfold set_final. destruct (in_dec _ _ _) as [H|H].
  - split; [exact I|]. intros f. split; [tauto|intros [?| ->]; assumption].
  - split.
    + destruct I. constructor; cbn; auto. intros f Hf. apply in_app_or in Hf as [Hf|[<-|[]]]; auto.
    + intros f. cbn. rewrite in_app_iff. cbn. intuition congruence.
Qed.

Lemma insert_lemma_inv s : forall key t p k2 t' q, CInv key t -> p < t_next t -> key_ok (key p ++ lemma_key s ++ k2) -> insert_lemma t p s = (t', q) ->
  exists key', CInv key' t' /\ ext (t_next t) key key' /\ Grows t t' /\ q < t_next t' /\ key' q = key p ++ lemma_key s.
Proof.
  assert (L : forall n s, length s <= n -> forall key t p k2 t' q, CInv key t -> p < t_next t -> key_ok (key p ++ lemma_key s ++ k2) -> insert_lemma t p s = (t', q) ->
    exists key', CInv key' t' /\ ext (t_next t) key key' /\ Grows t t' /\ q < t_next t' /\ key' q = key p ++ lemma_key s);
  [|intros; eapply (L (length s) s); eauto].
  clear s. induction n as [|n IH]; intros s Ls key t p k2 t' q I Hp Hk E.
  { destruct s; [|cbn in Ls; lia]. cbn in *. injection E as <- <-. exists key. rewrite app_nil_r. split; [exact I|]. split; [intros x _; reflexivity|]. split; [apply grows_refl|]. auto. }
  destruct s as [|c s]; cbn [insert_lemma lemma_key] in *.
  { injection E as <- <-. exists key. rewrite app_nil_r. split; [exact I|]. split; [intros x _; reflexivity|]. split; [apply grows_refl|]. auto. }
  cbn in Ls. assert (NR : forall c n, LChar c <> LRule n) by discriminate.
  destruct (c =?c cBS).
  - destruct (insert1 t (LChar cBS) p) as [t1 q1] eqn:E1.
    destruct (insert1_lit key t (LChar cBS) p t1 q1 I Hp eq_refl) as (key1 & I1 & X1 & G1 & Q1 & K1); [repeat split; intros; discriminate|exact E1|].
    destruct s as [|d s].
    + destruct (insert1_lit key1 t1 (LChar cNUL) q1 t' q I1 Q1 eq_refl) as (key2 & I2 & X2 & G2 & Q2 & K2); [repeat split; intros; discriminate|exact E|].
      exists key2. split; [exact I2|]. split; [eapply ext_trans; [apply (g_next _ _ G1)|eassumption..]|]. split; [eapply grows_trans; eauto|]. split; [exact Q2|].
      rewrite K2, K1, <- app_assoc. reflexivity.
    + destruct (insert1 t1 (LChar d) q1) as [t2 q2] eqn:E2.
      assert (Ko : key_ok ((key p ++ [bsk]) ++ KLit (LChar d) :: lemma_key s ++ k2)) by (rewrite <- app_assoc; exact Hk).
      destruct (insert1_lit key1 t1 (LChar d) q1 t2 q2 I1 Q1 eq_refl) as (key2 & I2 & X2 & G2 & Q2 & K2); [eapply okl_lit; [exact Ko|discriminate|discriminate]|exact E2|].
      edestruct (IH s) as (key3 & I3 & X3 & G3 & Q3 & K3); [cbn in Ls; lia|exact I2|exact Q2| |exact E|].
      { rewrite K2, K1, <- !app_assoc. cbn [app]. exact Hk. }
      exists key3. split; [exact I3|]. split; [eapply ext_trans; [|eapply ext_trans; [|exact X1|exact X2]|exact X3]; [pose proof (g_next _ _ G1); pose proof (g_next _ _ G2); lia|apply (g_next _ _ G1)]|].
      split; [eapply grows_trans; [eapply grows_trans; eauto|exact G3]|]. split; [exact Q3|]. rewrite K3, K2, K1, <- !app_assoc. reflexivity.
  - destruct (c =?c cSTAR).
    + destruct (insert_plus t LAnyChar p) as [t1 q1] eqn:E1.
      destruct (insert_plus_inv key t LAnyChar p t1 q1 I Hp eq_refl) as (key1 & I1 & X1 & G1 & Q1 & K1); [eapply may_next; exact Hk|exact E1|].
      edestruct (IH s) as (key3 & I3 & X3 & G3 & Q3 & K3); [lia|exact I1|exact Q1| |exact E|].
      { rewrite K1, <- !app_assoc. cbn [app]. exact Hk. }
      exists key3. split; [exact I3|]. split; [eapply ext_trans; [apply (g_next _ _ G1)|eassumption..]|]. split; [eapply grows_trans; eauto|]. split; [exact Q3|].
      rewrite K3, K1, <- app_assoc. reflexivity.
    + destruct (insert1 t (LChar c) p) as [t1 q1] eqn:E1.
      destruct (insert1_lit key t (LChar c) p t1 q1 I Hp eq_refl) as (key1 & I1 & X1 & G1 & Q1 & K1); [eapply okl_lit; [exact Hk|discriminate|discriminate]|exact E1|].
      edestruct (IH s) as (key3 & I3 & X3 & G3 & Q3 & K3); [lia|exact I1|exact Q1| |exact E|].
      { rewrite K1, <- !app_assoc. cbn [app]. exact Hk. }
      exists key3. split; [exact I3|]. split; [eapply ext_trans; [apply (g_next _ _ G1)|eassumption..]|]. split; [eapply grows_trans; eauto|]. split; [exact Q3|].
      rewrite K3, K1, <- app_assoc. reflexivity.
Qed.
Lemma insert_tags_inv s : forall key t p t' q, CInv key t -> p < t_next t -> key_ok (key p ++ map tag_key s) -> insert_tags t p s = (t', q) ->
  exists key', CInv key' t' /\ ext (t_next t) key key' /\ Grows t t' /\ q < t_next t' /\ key' q = key p ++ map tag_key s.
Proof.
  induction s as [|g s IH]; intros key t p t' q I Hp Hk E; cbn [insert_tags map] in *.
  { injection E as <- <-. exists key. rewrite app_nil_r. split; [exact I|]. split; [intros x _; reflexivity|]. split; [apply grows_refl|]. auto. }
  assert (S1 : exists (t1 : trans) (q1 : nat) (key1 : nat -> list kstep), (if str_eqb g [cSTAR] then insert_plus t LAnyTag p else insert1 t (LTag (cLT :: g ++ [cGT])) p) = (t1, q1) /\ CInv key1 t1 /\ ext (t_next t) key key1 /\ Grows t t1 /\ q1 < t_next t1 /\ key1 q1 = key p ++ [tag_key g]).
  { unfold tag_key in *. destruct (str_eqb g [cSTAR]).
    - destruct (insert_plus t LAnyTag p) as [t1 q1] eqn:E1. destruct (insert_plus_inv key t LAnyTag p t1 q1 I Hp eq_refl) as (key1 & H); [eapply may_next; exact Hk|exact E1|]. exists t1, q1, key1. split; [reflexivity|exact H].
    - destruct (insert1 t (LTag (cLT :: g ++ [cGT])) p) as [t1 q1] eqn:E1. destruct (insert1_lit key t (LTag (cLT :: g ++ [cGT])) p t1 q1 I Hp eq_refl) as (key1 & H); [eapply okl_lit; [exact Hk|discriminate|discriminate]|exact E1|]. exists t1, q1, key1. split; [reflexivity|exact H]. }
  destruct S1 as (t1 & q1 & key1 & E1 & I1 & X1 & G1 & Q1 & K1). rewrite E1 in E.
  edestruct (IH key1 t1 q1 t' q) as (key3 & I3 & X3 & G3 & Q3 & K3); [exact I1|exact Q1| |exact E|].
  { rewrite K1, <- app_assoc. exact Hk. }
  exists key3. split; [exact I3|]. split; [eapply ext_trans; [apply (g_next _ _ G1)|eassumption..]|]. split; [eapply grows_trans; eauto|]. split; [exact Q3|].
  rewrite K3, K1, <- app_assoc. reflexivity.
Qed.
Lemma insert_cat_item_inv key t l ts : CInv key t -> key_ok (lemma_or_any l ++ map tag_key ts) ->
  exists key' q, CInv key' (insert_cat_item t l ts) /\ ext (t_next t) key key' /\ t_next t <= t_next (insert_cat_item t l ts) /\ q < t_next (insert_cat_item t l ts) /\ key' q = lemma_or_any l ++ map tag_key ts /\ (forall f, In f (t_finals (insert_cat_item t l ts)) <-> In f (t_finals t) \/ f = q).
Proof.
  intros I Hk. unfold insert_cat_item.
  assert (S1 : exists (t1 : trans) (p : nat) (key1 : nat -> list kstep), (match l with [] => let (t1, q) := insert_plus t LAnyChar 0 in let (t2, a) := insert1 t1 (LChar cBS) q in (link t2 a q LAnyChar, q) | _ => insert_lemma t 0 l end : trans * nat) = (t1, p) /\ CInv key1 t1 /\ ext (t_next t) key key1 /\ Grows t t1 /\ p < t_next t1 /\ key1 p = lemma_or_any l).
  { destruct l as [|c l].
    - destruct (insert_plus t LAnyChar 0) as [t1 q1] eqn:E1. assert (Z := ci_zero _ _ I).
      destruct (insert_plus_inv key t LAnyChar 0 t1 q1 I (ci_pos _ _ I) eq_refl) as (key1 & I1 & X1 & G1 & Q1 & K1); [|exact E1|].
      { rewrite Z. intros _. split; intros [k E]; destruct k; discriminate. }
      rewrite Z in K1. cbn [app] in K1. destruct (insert1 t1 (LChar cBS) q1) as [t2 a] eqn:E2.
      destruct (insert1_lit key1 t1 (LChar cBS) q1 t2 a I1 Q1 eq_refl) as (key2 & I2 & X2 & G2 & Q2 & K2); [repeat split; intros; discriminate|exact E2|].
      assert (Q1' : q1 < t_next t2) by (pose proof (g_next _ _ G2); lia). assert (K1' : key2 q1 = [KPlus LAnyChar]) by (rewrite X2; assumption).
      destruct (link_inv key2 t2 a q1 LAnyChar I2 Q2 Q1') as [I3 G3]; [repeat split; intros; discriminate| |].
      { right. right. split; [reflexivity|]. split; [rewrite K2, K1, K1'; reflexivity|exists []; exact K1']. }
      exists (link t2 a q1 LAnyChar), q1, key2. split; [reflexivity|]. split; [exact I3|]. split; [eapply ext_trans; [apply (g_next _ _ G1)|eassumption..]|].
      split; [eapply grows_trans; [eapply grows_trans; eauto|exact G3]|]. split; [rewrite link_next; exact Q1'|exact K1'].
    - destruct (insert_lemma t 0 (c :: l)) as [t1 q1] eqn:E1. assert (Z := ci_zero _ _ I).
      edestruct (insert_lemma_inv (c :: l) key t 0) as (key1 & H); [exact I|apply (ci_pos _ _ I)| |exact E1|].
      { rewrite Z. exact Hk. }
      rewrite Z in H. exists t1, q1, key1. split; [reflexivity|exact H]. }
  destruct S1 as (t1 & p & key1 & -> & I1 & X1 & G1 & Q1 & K1).
  destruct (insert_tags t1 p ts) as [t2 q] eqn:E2.
  edestruct (insert_tags_inv ts key1 t1 p) as (key2 & I2 & X2 & G2 & Q2 & K2); [exact I1|exact Q1|rewrite K1; exact Hk|exact E2|].
  destruct (set_final_inv key2 t2 q I2 Q2) as [I3 F3].
  assert (N3 : t_next (set_final t2 q) = t_next t2) by (unfold set_final; destruct (in_dec _ _ _); reflexivity).
  exists key2, q. split; [exact I3|]. split; [eapply ext_trans; [apply (g_next _ _ G1)|eassumption..]|]. rewrite N3.
  split; [pose proof (g_next _ _ G1); pose proof (g_next _ _ G2); lia|]. split; [exact Q2|]. split; [rewrite K2, K1; reflexivity|].
  intros f. rewrite F3, (g_finals _ _ G2), (g_finals _ _ G1). reflexivity.
Qed.
Lemma def_cat_inv items : Forall (fun i => key_ok (item_key i)) items ->
  exists key, CInv key (def_cat items) /\ (forall f, In f (t_finals (def_cat items)) -> In (key f) (map item_key items)) /\ (forall i, In i items -> exists f, In f (t_finals (def_cat items)) /\ key f = item_key i).
Proof.
  unfold def_cat. intros H.
  assert (G : forall items done key t, CInv key t -> Forall (fun i => key_ok (item_key i)) items ->
    (forall f, In f (t_finals t) -> In (key f) (map item_key done)) -> (forall i, In i done -> exists f, In f (t_finals t) /\ key f = item_key i) ->
    exists key', CInv key' (fold_left add_item items t) /\ (forall f, In f (t_finals (fold_left add_item items t)) -> In (key' f) (map item_key (done ++ items))) /\ (forall i, In i (done ++ items) -> exists f, In f (t_finals (fold_left add_item items t)) /\ key' f = item_key i)).
  { clear. intros items. induction items as [|i items IH]; intros done key t I H F1 F2; cbn [fold_left].
    - exists key. rewrite app_nil_r. auto.
    - inversion_clear H as [|? ? Hi Hr].
      assert (S1 : exists key' q, CInv key' (add_item t i) /\ ext (t_next t) key key' /\ key' q = item_key i /\ (forall f, In f (t_finals (add_item t i)) <-> In f (t_finals t) \/ f = q)).
      { unfold item_key, used_lemma in Hi. unfold add_item, item_key, used_lemma. destruct (ci_tags i) as [|g ts].
        - destruct (insert_cat_item_inv key t (ci_name i) [] I Hi) as (key' & q & A & B & _ & _ & D & E). exists key', q. auto.
        - destruct (insert_cat_item_inv key t (ci_lemma i) (g :: ts) I Hi) as (key' & q & A & B & _ & _ & D & E). exists key', q. auto. }
      destruct S1 as (key1 & q & I1 & X1 & K1 & FF).
      replace (done ++ i :: items) with ((done ++ [i]) ++ items) by (rewrite <- app_assoc; reflexivity). apply (IH (done ++ [i]) key1); [exact I1|exact Hr| |].
      + intros f Hf. rewrite map_app. apply in_or_app. apply FF in Hf as [Hf| ->]; [left|right; left; symmetry; exact K1].
        rewrite X1 by apply (ci_fbound _ _ I), Hf. apply F1, Hf.
      + intros j Hj. apply in_app_or in Hj as [Hj|[<-|[]]].
        * destruct (F2 j Hj) as (f & Hf & E). exists f. split; [apply FF; auto|]. rewrite X1 by apply (ci_fbound _ _ I), Hf. exact E.
        * exists q. split; [apply FF; auto|exact K1]. }
  destruct (G items [] _ _ cinv_no H) as (key & A & B & D); [intros f []|intros i []|]. exists key. auto.
Qed.
(** the language of a category *)
Definition cat_lang (items : list cat_item) (x : list lab) : Prop := exists i, In i items /\ sem (item_key i) x.
Lemma def_cat_lang items x : Forall (fun i => key_ok (item_key i)) items -> ~ In (LChar cBS) x ->
  (exists f, In f (t_finals (def_cat items)) /\ path (t_edges (def_cat items)) 0 x f) <-> cat_lang items x.
Proof.
  intros H NB. destruct (def_cat_inv items H) as (key & I & F1 & F2). split.
  - intros (f & Hf & P). apply (cinv_sound key _ I _ _ NB) in P. apply F1, in_map_iff in Hf as (i & E & Hi). exists i. rewrite E. auto.
  - intros (i & Hi & S). destruct (F2 i Hi) as (f & Hf & E). exists f. split; [exact Hf|]. apply (ci_complete _ _ I); [apply (ci_fbound _ _ I), Hf|rewrite E; exact S].
Qed.
Section Rules.
Variable defs : list (str * list cat_item).
Variable ps : list (list str).
Hypothesis defs_ok : forall c items, lookup_cat defs c = Some items -> Forall (fun i => key_ok (item_key i)) items.

(** ** the joined machine of a category *)
Definition joined (c : str) (cm : trans) (f : nat) : Prop := exists items, lookup_cat defs c = Some items /\ join_finals (def_cat items) = Some (cm, f).
Lemma joined_fun c cm f cm' f' : joined c cm f -> joined c cm' f' -> cm = cm' /\ f = f'.
Proof. intros (i & A & B) (i' & A' & B'). rewrite A in A'. injection A' as <-. rewrite B in B'. injection B' as <- <-. auto. Qed.
Lemma joined_props c cm f : joined c cm f -> 0 < t_next cm /\ f < t_next cm /\
  (forall p l q, In (p, l, q) (t_edges cm) -> p < t_next cm /\ q < t_next cm /\ (forall n, l <> LRule n) /\ l <> LChar cDOL) /\
  (forall x, ~ In (LChar cBS) x -> (path (t_edges cm) 0 x f <-> exists items, lookup_cat defs c = Some items /\ cat_lang items x)).
Proof.
  intros (items & L & J). assert (K := defs_ok c items L). destruct (def_cat_inv items K) as (key & I & _ & _).
  assert (B := ci_bound _ _ I). assert (O := ci_okl _ _ I). assert (FB := ci_fbound _ _ I). assert (P0 := ci_pos _ _ I).
  assert (LANG := fun x => def_cat_lang items x K).
  assert (UN : forall x, (exists items0, lookup_cat defs c = Some items0 /\ cat_lang items0 x) <-> cat_lang items x).
  { intros x. split; [intros (i & E & H); rewrite L in E; injection E as <-; exact H|intros H; exists items; auto]. }
  set (d := def_cat items) in *. unfold join_finals in J. destruct (t_finals d) as [|f1 [|f2 fs]] eqn:F; [discriminate|..].
  - injection J as <- <-. split; [exact P0|]. split; [apply FB; left; reflexivity|]. split.
    + intros p l q H. destruct (B _ _ _ H). destruct (O _ _ _ H) as (_ & ? & ?). auto.
    + intros x NB. rewrite UN, <- LANG by exact NB. split; [intros P; exists f1; split; [left; reflexivity|exact P]|intros (g & [<-|[]] & P); exact P].
  - injection J as <- <-. cbn [t_next t_edges]. remember (f1 :: f2 :: fs) as fl. change (f1 :: f2 :: fs) with (f1 :: f2 :: fs) in *.
    assert (FB' : forall g, In g fl -> g < t_next d) by (intros g Hg; apply FB; subst fl; exact Hg).
    split; [lia|]. split; [lia|]. split.
    + intros p l q H. replace ((f1, LEps, t_next d) :: (f2, LEps, t_next d) :: map (fun g => (g, LEps, t_next d)) fs) with (map (fun g => (g, LEps, t_next d)) fl) in H by (subst fl; reflexivity).
      apply in_app_or in H as [H|H]; [destruct (B _ _ _ H); destruct (O _ _ _ H) as (_ & ? & ?); repeat split; auto; lia|].
      apply in_map_iff in H as (g & [= <- <- <-] & Hg). specialize (FB' g Hg). repeat split; try lia; intros; discriminate.
    + intros x NB. rewrite UN, <- LANG by exact NB.
      replace ((f1, LEps, t_next d) :: (f2, LEps, t_next d) :: map (fun g => (g, LEps, t_next d)) fs) with (map (fun g => (g, LEps, t_next d)) fl) by (subst fl; reflexivity).
      split.
      * assert (G : forall x q, path (t_edges d ++ map (fun g => (g, LEps, t_next d)) fl) 0 x q -> (q < t_next d /\ path (t_edges d) 0 x q) \/ (q = t_next d /\ exists g, In g fl /\ path (t_edges d) 0 x g)).
        { clear LANG UN P0. intros y q P. remember 0 as z eqn:Z. induction P as [s|s y q r P IH H|s y q l m r P IH H T]; subst s.
          - left. split; [exact (ci_pos _ _ I)|constructor].
          - specialize (IH eq_refl). apply in_app_or in H as [H|H].
            + destruct (B _ _ _ H). destruct IH as [[_ IH]|[E0 _]]; [|lia]. left. split; [assumption|]. eapply p_eps; eauto.
            + apply in_map_iff in H as (g & [= <- <-] & Hg). destruct IH as [[_ IH]|[E _]]; [|specialize (FB' _ Hg); lia]. right. split; [reflexivity|]. exists g. auto.
          - specialize (IH eq_refl). apply in_app_or in H as [H|H].
            + destruct (B _ _ _ H). destruct IH as [[_ IH]|[E0 _]]; [|lia]. left. split; [assumption|]. eapply p_sym; eauto.
            + apply in_map_iff in H as (g & [= <- <- <-] & Hg). destruct T as (_ & T & _). destruct (T eq_refl). }
        intros P. apply G in P as [[? _]|[_ H]]; [lia|exact H].
      * intros (g & Hg & P). eapply p_eps; [eapply path_mono; [|exact P]; intros e He; apply in_or_app; auto|]. apply in_or_app. right. apply in_map_iff. exists g. auto.
Qed.

(** ** sequences of words *)
Definition sep (cs : list str) (v : list lab) : Prop := v = [] \/ (cs <> [] /\ exists m, v = [m] /\ tkx (LChar cSP) m).
Definition in_cat (c : str) (w : list lab) : Prop := exists items, lookup_cat defs c = Some items /\ cat_lang items w.
Inductive seqm : list str -> list lab -> Prop :=
| sq_nil : seqm [] []
| sq_snoc cs c x v m1 w m2 : seqm cs x -> sep cs v -> tkx (LChar cCARET) m1 -> in_cat c w -> tkx (LChar cDOL) m2 ->
    seqm (cs ++ [c]) (x ++ v ++ m1 :: w ++ [m2]).
Inductive ost := OTrie (cs : list str) | OCaret (cs : list str) | OBlank (cs : list str) | OIn (cs : list str) (c : str) (q : nat) | OFin.
Definition osem (o : ost) (x : list lab) : Prop :=
  match o with
  | OTrie cs => seqm cs x
  | OCaret cs => exists x1 v m, x = x1 ++ v ++ [m] /\ seqm cs x1 /\ sep cs v /\ tkx (LChar cCARET) m
  | OBlank cs => cs <> [] /\ exists x1 m, x = x1 ++ [m] /\ seqm cs x1 /\ tkx (LChar cSP) m
  | OIn cs c q => exists x1 x2 cm f, joined c cm f /\ x = x1 ++ x2 /\ path (t_edges cm) 0 x2 q /\
                    exists x0 v m, x1 = x0 ++ v ++ [m] /\ seqm cs x0 /\ sep cs v /\ tkx (LChar cCARET) m
  | OFin => False
  end.
Definition oedge (ok : nat -> ost) (e : edge) : Prop :=
  let '(p, l, q) := e in
  match ok p with
  | OTrie cs => (l = LChar cCARET /\ ok q = OCaret cs) \/ (l = LChar cSP /\ cs <> [] /\ ok q = OBlank cs) \/
                (exists n, l = LRule n /\ ok q = OFin /\ 1 <= n /\ nth_error ps (n - 1) = Some cs)
  | OBlank cs => l = LChar cCARET /\ ok q = OCaret cs
  | OCaret cs => l = LEps /\ exists c, ok q = OIn cs c 0 /\ exists cm f, joined c cm f
  | OIn cs c a => exists cm f, joined c cm f /\ ((exists b, ok q = OIn cs c b /\ In (a, l, b) (t_edges cm)) \/ (a = f /\ l = LChar cDOL /\ ok q = OTrie (cs ++ [c])))
  | OFin => False
  end.
Record EInv (ok : nat -> ost) (t : trans) : Prop := {
  e_zero : ok 0 = OTrie []; e_pos : 0 < t_next t; e_only : forall s, s < t_next t -> ok s = OTrie [] -> s = 0;
  e_bound : forall p l q, In (p, l, q) (t_edges t) -> p < t_next t /\ q < t_next t;
  e_edge : forall e, In e (t_edges t) -> oedge ok e;
  e_complete : forall q cs x, q < t_next t -> ok q = OTrie cs -> ~ In (LChar cBS) x -> seqm cs x -> path (t_edges t) 0 x q }.
Lemma einv_no : EInv (fun _ => OTrie []) no_trans.
Proof.
  constructor; cbn; try tauto; try lia. intros q cs x Hq [= <-] _ H. replace q with 0 by lia. inversion H as [E|cs' c ? ? ? ? ? ? ? ? ? ? E]; [constructor|].
  destruct cs'; discriminate.
Qed.
Lemma einv_sound ok t : EInv ok t -> forall x q, ~ In (LChar cBS) x -> path (t_edges t) 0 x q -> osem (ok q) x.
Proof.
  intros I x q NB P. remember 0 as z. induction P as [s|s x q r P IH H|s x q l m r P IH H T]; subst.
  - rewrite (e_zero _ _ I). constructor.
  - specialize (IH NB eq_refl). assert (E := e_edge _ _ I _ H). cbn in E. destruct (ok q) as [cs|cs|cs|cs c a|]; cbn [osem] in IH.
    + destruct E as [[E _]|[(E & _)|(n & E & _)]]; discriminate.
    + destruct E as (_ & c & -> & cm & f & J). cbn. exists x, [], cm, f. rewrite app_nil_r. split; [exact J|]. split; [reflexivity|]. split; [constructor|exact IH].
    + destruct E; discriminate.
    + destruct E as (cm & f & J & [(b & -> & Hb)|(_ & E & _)]); [|discriminate]. destruct IH as (x1 & x2 & cm' & f' & J' & -> & P' & R).
      destruct (joined_fun _ _ _ _ _ J J') as [<- <-]. cbn. exists x1, x2, cm, f. split; [exact J|]. split; [reflexivity|]. split; [eapply p_eps; eauto|exact R].
    + destruct IH.
  - assert (NB' : ~ In (LChar cBS) x) by (intros B; apply NB, in_or_app; auto).
    specialize (IH NB' eq_refl). assert (E := e_edge _ _ I _ H). cbn in E. destruct (ok q) as [cs|cs|cs|cs c a|] eqn:Eq; cbn [osem] in IH.
    + destruct E as [[-> ->]|[(-> & N & ->)|(n & -> & _)]]; [| |destruct T as (_ & _ & T); destruct (T n eq_refl)].
      * cbn. exists x, [], m. split; [reflexivity|]. split; [exact IH|]. split; [left; reflexivity|exact T].
      * cbn. split; [exact N|]. exists x, m. auto.
    + destruct E as (-> & _). destruct T as (_ & T & _). destruct (T eq_refl).
    + destruct E as [-> ->]. destruct IH as (N & x1 & m' & -> & S & T'). cbn. exists x1, [m'], m. split; [rewrite <- app_assoc; reflexivity|]. split; [exact S|]. split; [|exact T]. right. eauto.
    + destruct E as (cm & f & J & [(b & -> & Hb)|(-> & -> & ->)]); destruct IH as (x1 & x2 & cm' & f' & J' & -> & P' & R); destruct (joined_fun _ _ _ _ _ J J') as [<- <-]; cbn [osem].
      * exists x1, (x2 ++ [m]), cm, f. split; [exact J|]. split; [rewrite app_assoc; reflexivity|]. split; [eapply p_sym; eauto|exact R].
      * destruct R as (x0 & v & m1 & -> & S & V & T1). rewrite <- !app_assoc. cbn [app]. apply sq_snoc; auto.
        destruct (joined_props _ _ _ J) as (_ & _ & _ & LG). apply LG; [|exact P'].
        intros B. apply NB'. apply in_or_app. right. exact B.
    + destruct IH.
Qed.

(** ** growing the machine *)
Definition oext (n : nat) (ok ok' : nat -> ost) : Prop := forall s, s < n -> ok' s = ok s.
Definition oupd (ok : nat -> ost) (n : nat) (o : ost) : nat -> ost := fun s => if s =? n then o else ok s.
Lemma oupd_old ok n o s : s < n -> oupd ok n o s = ok s.
Proof. intros H. unfold oupd. destruct (Nat.eqb_spec s n); [lia|reflexivity]. Qed.
Lemma oupd_new ok n o : oupd ok n o n = o.
Proof. unfold oupd. rewrite Nat.eqb_refl. reflexivity. Qed.
Lemma oedge_ext ok ok' p l q : ok' p = ok p -> ok' q = ok q -> oedge ok (p, l, q) -> oedge ok' (p, l, q).
Proof. intros A B. unfold oedge. rewrite A, B. auto. Qed.
Lemma insert1_o ok t l p t' q o : EInv ok t -> p < t_next t -> insert1 t l p = (t', q) ->
  (forall r, In (p, l, r) (t_edges t) -> ok r = o) ->
  oedge (oupd ok (t_next t) o) (p, l, t_next t) ->
  (forall cs, o = OTrie cs -> cs <> [] /\ forall x E, (forall e, In e (t_edges t) -> In e E) -> In (p, l, t_next t) E -> ~ In (LChar cBS) x -> seqm cs x -> path E 0 x (t_next t)) ->
  exists ok', EInv ok' t' /\ oext (t_next t) ok ok' /\ Grows t t' /\ q < t_next t' /\ ok' q = o /\ In (p, l, q) (t_edges t').
Proof.
  intros I Hp E Ho Hn Hc. apply insert1_spec in E as [[-> H]|(-> & -> & H)].
  - exists ok. split; [exact I|]. split; [intros s _; reflexivity|]. split; [apply grows_refl|]. split; [apply (e_bound _ _ I _ _ _ H)|]. split; [apply Ho, H|exact H].
  - set (n := t_next t) in *. exists (oupd ok n o). assert (B := e_bound _ _ I).
    split; [|split; [intros s Hs; apply oupd_old, Hs|split; [constructor; cbn; [lia|intros e He; apply in_or_app; auto|reflexivity]|split; [cbn; lia|split; [apply oupd_new|cbn; apply in_or_app; right; left; reflexivity]]]]].
    constructor; cbn [t_next t_edges].
    + rewrite oupd_old by apply (e_pos _ _ I). apply (e_zero _ _ I).
    + lia.
    + intros s Hs Es. destruct (Nat.eq_dec s n) as [->|N]; [rewrite oupd_new in Es; destruct (Hc _ Es) as [[] _]; reflexivity|]. rewrite oupd_old in Es by lia. apply (e_only _ _ I); [fold n; lia|exact Es].
    + intros a m b Hin. apply in_app_or in Hin as [Hin|[[= <- <- <-]|[]]]; [specialize (B _ _ _ Hin); fold n in B; lia|lia].
    + intros [[a m] b] Hin. apply in_app_or in Hin as [Hin|[[= <- <- <-]|[]]]; [|exact Hn]. destruct (B _ _ _ Hin).
      eapply oedge_ext; [apply oupd_old; assumption..|]. apply (e_edge _ _ I), Hin.
    + intros s cs x Hs Es NB S. destruct (Nat.eq_dec s n) as [->|N].
      * rewrite oupd_new in Es. destruct (Hc _ Es) as [_ C]. apply C; [intros e He; apply in_or_app; auto|apply in_or_app; right; left; reflexivity|exact NB|exact S].
      * rewrite oupd_old in Es by lia. eapply path_mono; [|eapply (e_complete _ _ I); [fold n; lia|exact Es|exact NB|exact S]]. intros e He; apply in_or_app; auto.
Qed.
Lemma link_o ok t p q l : EInv ok t -> p < t_next t -> q < t_next t -> oedge ok (p, l, q) -> EInv ok (link t p q l) /\ Grows t (link t p q l).
Proof.
  intros I Hp Hq He. split; [|constructor; [rewrite link_next; lia|intros e H; apply link_in; auto|apply link_finals]].
  constructor; rewrite ?link_next; try apply I.
  - intros a m b H. apply link_in in H as [H|[= -> -> ->]]; [apply (e_bound _ _ I _ _ _ H)|auto].
  - intros e H. apply link_in in H as [H| ->]; [apply (e_edge _ _ I), H|exact He].
  - intros s cs x Hs Es NB S. eapply path_mono; [|eapply (e_complete _ _ I); eassumption]. intros e H; apply link_in; auto.
Qed.
Lemma path_shift b E s x q : path E s x q -> path (map (shift b) E) (b + s) x (b + q).
Proof.
  induction 1 as [s|s x q r P IH H|s x q l m r P IH H T]; [constructor|..].
  - eapply p_eps; [exact IH|]. apply in_map_iff. exists (q, LEps, r). auto.
  - eapply p_sym; [exact IH| |exact T]. apply in_map_iff. exists (q, l, r). auto.
Qed.
Lemma insert_trans_o ok t src cs c items t' f : EInv ok t -> src < t_next t -> ok src = OCaret cs -> lookup_cat defs c = Some items -> insert_trans t src (def_cat items) = Some (t', f) ->
  exists ok' cm g, joined c cm g /\ EInv ok' t' /\ oext (t_next t) ok ok' /\ Grows t t' /\ f < t_next t' /\ ok' f = OIn cs c g /\
    (forall x, path (t_edges cm) 0 x g -> path (t_edges t') src x f).
Proof.
  intros I Hs Es L E. unfold insert_trans in E. destruct (join_finals (def_cat items)) as [[cm g]|] eqn:J; [|discriminate]. injection E as <- <-.
  assert (JJ : joined c cm g) by (exists items; auto). destruct (joined_props c cm g JJ) as (P0 & Pg & PE & _).
  set (b := t_next t) in *. exists (fun s => if s <? b then ok s else OIn cs c (s - b)), cm, g.
  assert (OLD : oext b ok (fun s => if s <? b then ok s else OIn cs c (s - b))).
  { intros s H. apply Nat.ltb_lt in H. rewrite H. reflexivity. }
  assert (NEW : forall s, (if b + s <? b then ok (b + s) else OIn cs c (b + s - b)) = OIn cs c s).
  { intros s. destruct (Nat.ltb_spec (b + s) b); [lia|]. f_equal. lia. }
  assert (B := e_bound _ _ I).
  assert (IN : forall e, In e (t_edges t ++ map (shift b) (t_edges cm) ++ [(src, LEps, b)]) -> In e (t_edges t) \/ (exists p l q, In (p, l, q) (t_edges cm) /\ e = (b + p, l, b + q)) \/ e = (src, LEps, b)).
  { intros e H. apply in_app_or in H as [H|H]; [auto|]. apply in_app_or in H as [H|[<-|[]]]; [|auto]. right. left. apply in_map_iff in H as ([[p l] q] & <- & H). exists p, l, q. auto. }
  split; [exact JJ|]. split; [|split; [exact OLD|split; [constructor; cbn; [lia|intros e He; apply in_or_app; auto|reflexivity]|split; [cbn; lia|split; [apply NEW|]]]]].
  - constructor; cbn [t_next t_edges].
    + rewrite OLD by apply (e_pos _ _ I). apply (e_zero _ _ I).
    + lia.
    + intros s Hsn E0. destruct (Nat.ltb_spec s b); [apply (e_only _ _ I); assumption|discriminate].
    + intros p l q H. apply IN in H as [H|[(p' & l' & q' & H & [= -> -> ->])|[= -> -> ->]]]; [specialize (B _ _ _ H); fold b in B; lia|destruct (PE _ _ _ H); lia|lia].
    + intros e H. apply IN in H as [H|[(p' & l' & q' & H & ->)| ->]].
      * destruct e as [[p l] q]. destruct (B _ _ _ H). eapply oedge_ext; [apply OLD; assumption..|]. apply (e_edge _ _ I), H.
      * cbn [oedge]. rewrite !NEW. exists cm, g. split; [exact JJ|]. left. exists q'. auto.
      * cbn [oedge]. rewrite OLD by exact Hs. rewrite Es. split; [reflexivity|]. exists c. split; [|eauto].
        destruct (Nat.ltb_spec b b); [lia|]. rewrite Nat.sub_diag. reflexivity.
    + intros s cs' x Hsn E0 NB S. destruct (Nat.ltb_spec s b) as [L'|]; [|discriminate]. eapply path_mono; [|eapply (e_complete _ _ I); [exact L'|exact E0|exact NB|exact S]]. intros e He; apply in_or_app; auto.
  - intros x P. cbn [t_edges]. change x with ([] ++ x). eapply path_app with (q := b).
    + eapply p_eps; [constructor|]. apply in_or_app. right. apply in_or_app. right. left. reflexivity.
    + apply (path_shift b) in P. rewrite Nat.add_0_r in P. eapply path_mono; [|exact P]. intros e He. apply in_or_app. right. apply in_or_app. auto.
Qed.

(** ** patterns *)
Record RInv (ok : nat -> ost) (r : rst) : Prop := {
  ri_e : EInv ok (r_t r);
  ri_states : forall s c q, look_state (r_states r) s c = Some q -> q < t_next (r_t r) /\ exists cs, s < t_next (r_t r) /\ ok s = OTrie cs /\ ok q = OTrie (cs ++ [c]);
  ri_seen : forall s n, In (s, n) (r_seen r) -> s < t_next (r_t r) /\ exists f, In (s, LRule n, f) (t_edges (r_t r)) /\ In f (t_finals (r_t r)) /\ n <= r_count r;
  ri_finals : forall s n f, In (s, LRule n, f) (t_edges (r_t r)) -> In f (t_finals (r_t r)) }.
Lemma snoc_not_nil (A : Type) (l : list A) a : l ++ [a] <> [].
Proof. destruct l; discriminate. Qed.
Lemma snoc_inj (A : Type) (l l' : list A) a a' : l ++ [a] = l' ++ [a'] -> l = l' /\ a = a'.
Proof. intros H. apply app_inj_tail in H. exact H. Qed.
Definition keeps (r r' : rst) : Prop := Grows (r_t r) (r_t r') /\ r_seen r' = r_seen r /\ r_count r' = r_count r.
Lemma pattern_item_inv ok r s c cs r' q : RInv ok r -> s < t_next (r_t r) -> ok s = OTrie cs -> pattern_item defs r s c = Some (r', q) ->
  exists ok', RInv ok' r' /\ oext (t_next (r_t r)) ok ok' /\ keeps r r' /\ q < t_next (r_t r') /\ ok' q = OTrie (cs ++ [c]).
Proof.
  intros RI Hs Es E. unfold pattern_item in E. destruct (look_state (r_states r) s c) as [q0|] eqn:LS.
  { injection E as <- <-. destruct (ri_states _ _ RI _ _ _ LS) as (Hq & cs' & _ & E1 & E2). rewrite Es in E1. injection E1 as <-.
    exists ok. split; [exact RI|]. split; [intros x _; reflexivity|]. split; [split; [apply grows_refl|auto]|]. auto. }
  destruct (lookup_cat defs c) as [items|] eqn:LC; [|discriminate].
  destruct (insert1 (r_t r) (LChar cCARET) s) as [t1 tmp] eqn:E1. assert (I := ri_e _ _ RI).
  destruct (insert1_o ok (r_t r) (LChar cCARET) s t1 tmp (OCaret cs) I Hs E1) as (ok1 & I1 & X1 & G1 & Q1 & K1 & H1).
  { intros x H. assert (O := e_edge _ _ I _ H). cbn in O. rewrite Es in O. destruct O as [[_ O]|[(O & _)|(n & O & _)]]; [exact O|discriminate..]. }
  { cbn [oedge]. rewrite oupd_new, oupd_old by exact Hs. rewrite Es. left. auto. }
  { discriminate. }
  set (t2 := if s =? 0 then t1 else let (t2, alt) := insert1 t1 (LChar cSP) s in link t2 alt tmp (LChar cCARET)) in E.
  assert (S2 : exists ok2, EInv ok2 t2 /\ oext (t_next t1) ok1 ok2 /\ Grows t1 t2 /\ forall v m, sep cs v -> tkx (LChar cCARET) m -> path (t_edges t2) s (v ++ [m]) tmp).
  { assert (Hs1 : s < t_next t1) by (pose proof (g_next _ _ G1); lia). assert (Es1 : ok1 s = OTrie cs) by (rewrite X1 by exact Hs; exact Es).
    unfold t2. destruct (Nat.eqb_spec s 0) as [->|Ns].
    - exists ok1. split; [exact I1|]. split; [intros x _; reflexivity|]. split; [apply grows_refl|]. intros v m [->|[N _]] T.
      + cbn. eapply path_one; eauto.
      + rewrite (e_zero _ _ I) in Es. injection Es as <-. contradiction.
    - assert (N : cs <> []) by (intros ->; apply Ns, (e_only _ _ I); assumption).
      destruct (insert1 t1 (LChar cSP) s) as [ta alt] eqn:E2.
      destruct (insert1_o ok1 t1 (LChar cSP) s ta alt (OBlank cs) I1 Hs1 E2) as (ok2 & I2 & X2 & G2 & Q2 & K2 & H2).
      { intros x H. assert (O := e_edge _ _ I1 _ H). cbn in O. rewrite Es1 in O. destruct O as [[O _]|[(_ & _ & O)|(n & O & _)]]; [discriminate|exact O|discriminate]. }
      { cbn [oedge]. rewrite oupd_new, oupd_old by exact Hs1. rewrite Es1. right. left. auto. }
      { discriminate. }
      assert (Q1' : tmp < t_next ta) by (pose proof (g_next _ _ G2); lia).
      destruct (link_o ok2 ta alt tmp (LChar cCARET) I2 Q2 Q1') as [I3 G3].
      { cbn [oedge]. rewrite K2. split; [reflexivity|]. rewrite X2 by exact Q1. exact K1. }
      exists ok2. split; [exact I3|]. split; [exact X2|]. split; [eapply grows_trans; eauto|]. intros v m [->|(_ & b & -> & Tb)] T; cbn [app].
      + eapply path_one; [|exact T]. apply (g_edges _ _ G3), (g_edges _ _ G2), H1.
      + change [b; m] with ([b] ++ [m]). eapply path_app with (q := alt); (eapply path_one; [|eassumption]); [apply (g_edges _ _ G3), H2|apply link_in; auto]. }
  destruct S2 as (ok2 & I2 & X2 & G2 & PATH2).
  destruct (insert_trans t2 tmp (def_cat items)) as [[t3 f]|] eqn:E3; [|discriminate].
  assert (Q1' : tmp < t_next t2) by (pose proof (g_next _ _ G2); lia).
  destruct (insert_trans_o ok2 t2 tmp cs c items t3 f I2 Q1') as (ok3 & cm & g & J & I3 & X3 & G3 & Q3 & K3 & PATH3); [rewrite X2 by exact Q1; exact K1|exact LC|exact E3|].
  destruct (insert1 t3 (LChar cDOL) f) as [t4 q4] eqn:E4. injection E as <- <-.
  destruct (joined_props c cm g J) as (_ & _ & PE & LG).
  destruct (insert1_o ok3 t3 (LChar cDOL) f t4 q4 (OTrie (cs ++ [c])) I3 Q3 E4) as (ok4 & I4 & X4 & G4 & Q4 & K4 & H4).
  { intros x H. assert (O := e_edge _ _ I3 _ H). cbn in O. rewrite K3 in O. destruct O as (cm' & g' & J' & [(b & _ & Hb)|(_ & _ & O)]); [|exact O].
    destruct (joined_fun _ _ _ _ _ J J') as [<- <-]. destruct (PE _ _ _ Hb) as (_ & _ & _ & D). contradiction. }
  { cbn [oedge]. rewrite oupd_new, oupd_old by exact Q3. rewrite K3. exists cm, g. split; [exact J|]. right. auto. }
  { intros cs' [= <-]. split; [apply snoc_not_nil|]. intros x E HE HEn NB S. inversion S as [Ee|cs0 c0 x0 v m1 w m2 S0 V T1 C T2 Ec Ex]; [destruct cs; discriminate|].
    apply snoc_inj in Ec as [-> ->]. subst x.
    assert (G03 : Grows (r_t r) t3) by (eapply grows_trans; [eapply grows_trans; eauto|exact G3]).
    eapply path_app with (q := s).
    { eapply path_mono; [|eapply (e_complete _ _ I); [exact Hs|exact Es| |exact S0]]; [intros e He; apply HE, (g_edges _ _ G03), He|]. intros B. apply NB, in_or_app. auto. }
    change (v ++ m1 :: w ++ [m2]) with (v ++ [m1] ++ (w ++ [m2])). rewrite (app_assoc v). eapply path_app with (q := tmp).
    { eapply path_mono; [|apply PATH2; assumption]. intros e He; apply HE, (g_edges _ _ G3), He. }
    eapply p_sym; [|exact HEn|exact T2]. eapply path_mono; [|apply PATH3, LG; [|exact C]]; [intros e He; apply HE, He|]. intros B. apply NB. rewrite !in_app_iff. cbn. rewrite in_app_iff. tauto. }
  assert (G24 : Grows (r_t r) t4) by (eapply grows_trans; [eapply grows_trans; [eapply grows_trans; eauto|exact G3]|exact G4]).
  assert (X04 : oext (t_next (r_t r)) ok ok4).
  { intros x Hx. pose proof (g_next _ _ G1). pose proof (g_next _ _ G2). pose proof (g_next _ _ G3). rewrite X4, X3, X2, X1 by lia. reflexivity. }
  exists ok4. split; [|split; [exact X04|split; [split; [exact G24|auto]|auto]]].
  constructor; cbn [r_t r_states r_seen r_count].
  - exact I4.
  - intros s' c' q' L. unfold look_state in L. cbn [find fst snd] in L. destruct ((s =? s') && str_eqb c c') eqn:B.
    + cbn in L. injection L as <-. apply andb_prop in B as [B1 B2]. apply Nat.eqb_eq in B1 as <-. apply str_eqb_eq in B2 as <-.
      split; [exact Q4|]. exists cs. split; [pose proof (g_next _ _ G24); lia|]. split; [rewrite X04 by exact Hs; exact Es|exact K4].
    + destruct (ri_states _ _ RI s' c' q' L) as (A1 & cs' & A2 & A3 & A4). pose proof (g_next _ _ G24). split; [lia|]. exists cs'. split; [lia|]. rewrite !X04 by assumption. auto.
  - intros s' n H. destruct (ri_seen _ _ RI s' n H) as (A1 & f' & A2 & A3 & A4). pose proof (g_next _ _ G24). split; [lia|]. exists f'. split; [apply (g_edges _ _ G24), A2|]. rewrite (g_finals _ _ G24). auto.
  - intros s' n f' H. assert (O := e_edge _ _ I4 _ H). destruct (e_bound _ _ I4 _ _ _ H) as [Bs _].
    assert (OLDE : In (s', LRule n, f') (t_edges (r_t r))).
    { assert (STEP : forall t l p t' x, insert1 t l p = (t', x) -> l <> LRule n -> In (s', LRule n, f') (t_edges t') -> In (s', LRule n, f') (t_edges t)).
      { intros t l p t' x Ei Nl Hi. apply insert1_spec in Ei as [[-> _]|(-> & _)]; [exact Hi|]. cbn in Hi. apply in_app_or in Hi as [Hi|[[= _ Hi _]|[]]]; [exact Hi|congruence]. }
      apply (STEP _ _ _ _ _ E1); [discriminate|].
      assert (H3 : In (s', LRule n, f') (t_edges t3)) by (eapply STEP; [exact E4|discriminate|exact H]).
      assert (H2 : In (s', LRule n, f') (t_edges t2)).
      { unfold insert_trans in E3. destruct J as (items' & L' & J'). rewrite LC in L'. injection L' as <-. rewrite J' in E3. injection E3 as <- _. cbn in H3.
        apply in_app_or in H3 as [H3|H3]; [exact H3|]. apply in_app_or in H3 as [H3|[H3|[]]]; [|discriminate]. apply in_map_iff in H3 as ([[a l] b] & [= _ El _] & Hin).
        destruct (PE _ _ _ Hin) as (_ & _ & NR & _). destruct (NR n El). }
      unfold t2 in H2. destruct (s =? 0); [exact H2|]. destruct (insert1 t1 (LChar cSP) s) as [ta alt] eqn:E2. apply link_in in H2 as [H2|H2]; [|discriminate]. eapply STEP; [exact E2|discriminate|exact H2]. }
    rewrite (g_finals _ _ G24). apply (ri_finals _ _ RI _ _ _ OLDE).
Qed.
Lemma keeps_trans a b c : keeps a b -> keeps b c -> keeps a c.
Proof. intros (A1 & A2 & A3) (B1 & B2 & B3). split; [eapply grows_trans; eauto|split; congruence]. Qed.
Lemma pattern_inv cs : forall ok r s pre r' q, RInv ok r -> s < t_next (r_t r) -> ok s = OTrie pre -> pattern defs r s cs = Some (r', q) ->
  exists ok', RInv ok' r' /\ oext (t_next (r_t r)) ok ok' /\ keeps r r' /\ q < t_next (r_t r') /\ ok' q = OTrie (pre ++ cs).
Proof.
  induction cs as [|c cs IH]; intros ok r s pre r' q RI Hs Es E; cbn [pattern] in E.
  - injection E as <- <-. exists ok. rewrite app_nil_r. split; [exact RI|]. split; [intros x _; reflexivity|]. split; [split; [apply grows_refl|auto]|]. auto.
  - destruct (pattern_item defs r s c) as [[r1 q1]|] eqn:E1; [|discriminate].
    destruct (pattern_item_inv ok r s c pre r1 q1 RI Hs Es E1) as (ok1 & RI1 & X1 & K1 & Q1 & S1).
    destruct (IH ok1 r1 q1 _ r' q RI1 Q1 S1 E) as (ok2 & RI2 & X2 & K2 & Q2 & S2). exists ok2. split; [exact RI2|].
    split; [|split; [eapply keeps_trans; eauto|split; [exact Q2|]]].
    + intros x Hx. pose proof (g_next _ _ (proj1 K1)). rewrite X2, X1 by lia. reflexivity.
    + rewrite S2, <- app_assoc. reflexivity.
Qed.

(** ** rules *)
(** every rule read so far, or an earlier one with the same pattern, ends where its pattern ends *)
Definition Done (ok : nat -> ost) (r : rst) : Prop :=
  forall i cs, i < r_count r -> nth_error ps i = Some cs -> exists n s f, n <= S i /\ s < t_next (r_t r) /\ ok s = OTrie cs /\ In (s, LRule n, f) (t_edges (r_t r)) /\ In f (t_finals (r_t r)).
Lemma rule_inv ok r cs r' : RInv ok r -> Done ok r -> nth_error ps (r_count r) = Some cs -> rule defs r cs = Some r' ->
  exists ok', RInv ok' r' /\ Done ok' r' /\ r_count r' = S (r_count r).
Proof.
  intros RI D N E. unfold rule in E. set (n := S (r_count r)) in *.
  destruct (pattern defs (mkrst (r_t r) (r_states r) (r_seen r) n) 0 cs) as [[r1 s]|] eqn:EP; [|discriminate].
  assert (RI0 : RInv ok (mkrst (r_t r) (r_states r) (r_seen r) n)).
  { destruct RI as [A B C F]. constructor; cbn; auto. intros x m H. destruct (C x m H) as (C1 & f & C2 & C3 & C4). split; [exact C1|]. exists f. split; [exact C2|]. split; [exact C3|]. unfold n. lia. }
  assert (I := ri_e _ _ RI). destruct (pattern_inv cs ok _ 0 [] r1 s RI0 (e_pos _ _ I) (e_zero _ _ I) EP) as (ok1 & RI1 & X1 & (G1 & SE1 & C1) & Q1 & S1). cbn in X1, G1, SE1, C1, S1.
  assert (D1 : forall i cs0, i < r_count r -> nth_error ps i = Some cs0 -> exists m x f, m <= S i /\ x < t_next (r_t r1) /\ ok1 x = OTrie cs0 /\ In (x, LRule m, f) (t_edges (r_t r1)) /\ In f (t_finals (r_t r1))).
  { intros i cs0 Hi Ni. destruct (D i cs0 Hi Ni) as (m & x & f & A1 & A2 & A3 & A4 & A5). exists m, x, f. pose proof (g_next _ _ G1). split; [exact A1|]. split; [lia|]. split; [rewrite X1 by exact A2; exact A3|]. split; [apply (g_edges _ _ G1), A4|]. rewrite (g_finals _ _ G1). exact A5. }
  destruct (existsb (fun e => fst e =? s) (r_seen r1)) eqn:EX.
  - injection E as <-. exists ok1. split; [exact RI1|]. split; [|rewrite C1; reflexivity].
    apply existsb_exists in EX as ([s' m] & Hin & Es'). cbn in Es'. apply Nat.eqb_eq in Es' as ->. destruct (ri_seen _ _ RI1 s m Hin) as (_ & f & A & B & L).
    intros i cs0 Hi Ni. rewrite C1 in Hi. destruct (Nat.eq_dec i (r_count r)) as [->|]; [|apply D1; [unfold n in Hi; lia|exact Ni]].
    rewrite N in Ni. injection Ni as <-. exists m, s, f. rewrite C1 in L. auto.
  - destruct (insert1 (r_t r1) (LRule n) s) as [t1 f] eqn:E1. injection E as <-. assert (I1 := ri_e _ _ RI1).
    destruct (insert1_o ok1 (r_t r1) (LRule n) s t1 f OFin I1 Q1 E1) as (ok2 & I2 & X2 & G2 & Q2 & K2 & H2).
    { intros x H. assert (O := e_edge _ _ I1 _ H). cbn in O. rewrite S1 in O. destruct O as [[O _]|[(O & _)|(m & _ & O & _)]]; [discriminate..|exact O]. }
    { cbn [oedge]. rewrite oupd_new, oupd_old by exact Q1. rewrite S1. right. right. exists n. split; [reflexivity|]. split; [reflexivity|]. split; [unfold n; lia|]. unfold n. cbn. rewrite Nat.sub_0_r. exact N. }
    { discriminate. }
    assert (SF : t_edges (set_final t1 f) = t_edges t1 /\ t_next (set_final t1 f) = t_next t1 /\ forall x, In x (t_finals (set_final t1 f)) <-> In x (t_finals t1) \/ x = f).
    { unfold set_final. destruct (in_dec _ _ _); [repeat split; auto; intros [?| ->]; auto|]. cbn. repeat split; auto; rewrite in_app_iff; cbn; intuition. }
    destruct SF as (SF1 & SF2 & SF3). pose proof (g_next _ _ G2) as GN.
    exists ok2. split; [|split; [|reflexivity]].
    + constructor; cbn [r_t r_states r_seen r_count]; rewrite ?SF1, ?SF2.
      * destruct I2. constructor; rewrite ?SF1, ?SF2; auto.
      * intros s' c q H. destruct (ri_states _ _ RI1 _ _ _ H) as (A1 & cs' & A2 & A3 & A4). split; [lia|]. exists cs'. split; [lia|]. rewrite !X2 by assumption. auto.
      * intros s' m [[= <- <-]|H].
        -- split; [lia|]. exists f. split; [exact H2|]. split; [apply SF3; auto|apply le_n].
        -- destruct (ri_seen _ _ RI1 _ _ H) as (A1 & f' & A2 & A3 & A4). split; [lia|]. exists f'. split; [apply (g_edges _ _ G2), A2|]. split; [apply SF3; rewrite (g_finals _ _ G2); auto|]. rewrite C1 in A4. exact A4.
      * intros s' m f' H. apply SF3. rewrite (g_finals _ _ G2). apply insert1_spec in E1 as [[-> _]|(-> & -> & _)]; [left; apply (ri_finals _ _ RI1 _ _ _ H)|].
        cbn in H. apply in_app_or in H as [H|[[= _ _ <-]|[]]]; [left; apply (ri_finals _ _ RI1 _ _ _ H)|right; reflexivity].
    + intros i cs0 Hi Ni. cbn [r_t r_count] in *. rewrite SF1, SF2. destruct (Nat.eq_dec i (r_count r)) as [->|].
      * rewrite N in Ni. injection Ni as <-. exists n, s, f. split; [apply le_n|]. split; [lia|]. split; [rewrite X2 by exact Q1; exact S1|]. split; [exact H2|apply SF3; auto].
      * destruct (D1 i cs0) as (m & x & f' & A1 & A2 & A3 & A4 & A5); [unfold n in Hi; lia|exact Ni|]. exists m, x, f'. split; [exact A1|]. split; [lia|]. split; [rewrite X2 by exact A2; exact A3|]. split; [apply (g_edges _ _ G2), A4|]. apply SF3. rewrite (g_finals _ _ G2). auto.
Qed.
Lemma rules_inv l : forall ok r r', RInv ok r -> Done ok r -> (forall i, nth_error l i = nth_error ps (r_count r + i)) -> rules defs r l = Some r' ->
  exists ok', RInv ok' r' /\ Done ok' r' /\ r_count r' = r_count r + length l.
Proof.
  induction l as [|cs l IH]; intros ok r r' RI D N E; cbn [rules] in E.
  - injection E as <-. exists ok. split; [exact RI|]. split; [exact D|]. cbn. lia.
  - destruct (rule defs r cs) as [r1|] eqn:E1; [|discriminate].
    destruct (rule_inv ok r cs r1 RI D) as (ok1 & RI1 & D1 & C1); [rewrite <- (Nat.add_0_r (r_count r)), <- N; reflexivity|exact E1|].
    destruct (IH ok1 r1 r' RI1 D1) as (ok2 & RI2 & D2 & C2); [|exact E|].
    + intros i. rewrite C1. specialize (N (S i)). cbn in N. rewrite N. f_equal. lia.
    + exists ok2. split; [exact RI2|]. split; [exact D2|]. cbn. lia.
Qed.

(** ** the compiled machine *)
Definition matched (t : trans) (x : list lab) (n : nat) : Prop := exists s f, path (t_edges t) 0 x s /\ In (s, LRule n, f) (t_edges t) /\ In f (t_finals t).
Lemma compile_einv t : compile defs ps = Some t -> exists ok, EInv ok t.
Proof.
  unfold compile. destruct (rules defs (mkrst no_trans [] [] 0) ps) as [r|] eqn:E; [|discriminate]. cbn. intros [= <-].
  destruct (rules_inv ps (fun _ => OTrie []) (mkrst no_trans [] [] 0) r) as (ok & RI & _); [|intros i cs Hi; cbn in Hi; lia|reflexivity|exact E|].
  { constructor; cbn; [apply einv_no|discriminate|intros s n []|intros s n f []]. }
  exists ok. exact (ri_e _ _ RI).
Qed.
Theorem compile_correct t : compile defs ps = Some t -> forall x, ~ In (LChar cBS) x ->
  (forall n, matched t x n -> 1 <= n /\ exists cs, nth_error ps (n - 1) = Some cs /\ seqm cs x) /\
  (forall i cs, nth_error ps i = Some cs -> seqm cs x -> exists n, n <= S i /\ matched t x n).
Proof.
  unfold compile. destruct (rules defs (mkrst no_trans [] [] 0) ps) as [r|] eqn:E; [|discriminate]. cbn. intros [= <-] x NB.
  destruct (rules_inv ps (fun _ => OTrie []) (mkrst no_trans [] [] 0) r) as (ok & RI & D & C); [|intros i cs Hi; cbn in Hi; lia|reflexivity|exact E|].
  { constructor; cbn; [apply einv_no|discriminate|intros s n []|intros s n f []]. }
  assert (I := ri_e _ _ RI). split.
  - intros n (s & f & P & H & _). apply (einv_sound ok _ I) in P; [|exact NB]. assert (O := e_edge _ _ I _ H). cbn in O. destruct (ok s) as [cs|cs|cs|cs c a|].
    + destruct O as [[O _]|[(O & _)|(m & [= <-] & _ & L & Nn)]]; [discriminate..|]. split; [exact L|]. exists cs. auto.
    + destruct O; discriminate.
    + destruct O; discriminate.
    + destruct O as (cm & g & J & [(b & _ & Hb)|(_ & O & _)]); [|discriminate]. destruct (joined_props _ _ _ J) as (_ & _ & PE & _). destruct (PE _ _ _ Hb) as (_ & _ & NR & _). destruct (NR n eq_refl).
    + destruct O.
  - intros i cs Ni S. cbn in C. assert (Li : i < r_count r) by (rewrite C; apply nth_error_Some; rewrite Ni; discriminate).
    destruct (D i cs Li Ni) as (n & s & f & A1 & A2 & A3 & A4 & A5). exists n. split; [exact A1|]. exists s, f. split; [|auto]. eapply (e_complete _ _ I); eauto.
Qed.
Lemma spath_exact E s y q : spath E s y q <-> path E s y q.
Proof.
  split.
  - induction 1; [constructor|eapply p_eps; eauto|eapply p_sym; eauto]. split; [reflexivity|]. auto.
  - induction 1 as [s|s x q r P IH H|s x q l m r P IH H (<- & A & B)]; [constructor|eapply sp_eps; eauto|eapply sp_sym; eauto].
Qed.
Lemma has_rule_exact t y n : has_rule t y n <-> matched t y n.
Proof. unfold has_rule, matched. split; intros (s & f & S & H); exists s, f; (split; [apply spath_exact, S|exact H]). Qed.
End Rules.
