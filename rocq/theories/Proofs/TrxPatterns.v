From Verif Require Import Model.Base Proofs.Base Model.TransferUnit Model.TrxPatterns Spec.TransferUnit Spec.TrxPatterns.

(** ** primitives *)
Lemma in_targets t p l q : In q (targets t p l) <-> In (p, l, q) (t_edges t).
Proof.
  unfold targets. rewrite in_flat_map. split.
  - intros ([[a m] r] & H & Hq). destruct (Nat.eqb_spec a p) as [->|]; [|destruct Hq]. destruct (lab_eq_dec m l) as [->|]; [|destruct Hq]. destruct Hq as [->|[]]. exact H.
  - intros H. exists (p, l, q). split; [exact H|]. cbn. rewrite Nat.eqb_refl. destruct (lab_eq_dec l l); [left; reflexivity|contradiction].
Qed.
Lemma insert1_spec t l p t' q : insert1 t l p = (t', q) ->
  (t' = t /\ In (p, l, q) (t_edges t)) \/
  (t' = mkt (S (t_next t)) (t_edges t ++ [(p, l, t_next t)]) (t_finals t) /\ q = t_next t /\ forall r, ~ In (p, l, r) (t_edges t)).
Proof.
  unfold insert1. destruct (targets t p l) as [|a [|b qs]] eqn:T; intros E.
  - injection E as <- <-. right. split; [reflexivity|]. split; [reflexivity|]. intros r H. apply in_targets in H. rewrite T in H. destruct H.
  - injection E as <- <-. left. split; [reflexivity|]. apply in_targets. rewrite T. left. reflexivity.
  - assert (Et : t = t') by congruence.
    assert (Eq : q = match find (fun r => negb (r =? p)) (a :: b :: qs) with Some r => r | None => a end) by congruence.
    subst t' q. clear E. left. split; [reflexivity|]. apply in_targets. rewrite T.
    destruct (find _ (a :: b :: qs)) eqn:F; [apply find_some in F; tauto|left; reflexivity].
Qed.
Lemma link_in t p q l e : In e (t_edges (link t p q l)) <-> In e (t_edges t) \/ e = (p, l, q).
Proof.
  unfold link. destruct (in_dec _ _ _) as [H|H]; [split; [tauto|intros [?| ->]; assumption]|]. cbn. rewrite in_app_iff. cbn. intuition congruence.
Qed.
Lemma link_next t p q l : t_next (link t p q l) = t_next t.
Proof. unfold link. destruct (in_dec _ _ _); reflexivity. Qed.
Lemma link_finals t p q l : t_finals (link t p q l) = t_finals t.
Proof. unfold link. destruct (in_dec _ _ _); reflexivity. Qed.

(** ** paths *)
Inductive path (E : list edge) : nat -> list msym -> nat -> Prop :=
| p_nil s : path E s [] s
| p_eps s x q r : path E s x q -> In (q, LEps, r) E -> path E s x r
| p_sym s x q l m r : path E s x q -> In (q, l, r) E -> takes l m -> path E s (x ++ [m]) r.
Lemma path_mono E E' s x r : (forall e, In e E -> In e E') -> path E s x r -> path E' s x r.
Proof. intros H P. induction P; [constructor|eapply p_eps; eauto|eapply p_sym; eauto]. Qed.
Lemma path_app E s x q y r : path E s x q -> path E q y r -> path E s (x ++ y) r.
Proof.
  intros P Q. induction Q; [rewrite app_nil_r; exact P|eapply p_eps; eauto|]. rewrite app_assoc. eapply p_sym; eauto.
Qed.
Lemma path_one E s l m r : In (s, l, r) E -> takes l m -> path E s [m] r.
Proof. intros H T. apply (p_sym E s [] s l m r); [constructor|exact H|exact T]. Qed.
Lemma spath_path E s y q : spath E s y q -> forall x, Forall2 takes y x -> path E s x q.
Proof.
  induction 1 as [s|s y q r P IH H|s y q l r P IH H H1 H2]; intros x F.
  - inversion F. constructor.
  - eapply p_eps; eauto.
  - apply Forall2_app_inv_l in F as (x1 & x2 & F1 & F2 & ->). inversion F2 as [|? m ? ? T F3]; subst. inversion F3; subst. eapply p_sym; eauto.
Qed.
Lemma path_spath E s x q : path E s x q -> exists y, Forall2 takes y x /\ spath E s y q.
Proof.
  induction 1 as [s|s x q r P (y & F & S) H|s x q l m r P (y & F & S) H T].
  - exists []. split; constructor.
  - exists y. split; [exact F|]. eapply sp_eps; eauto.
  - exists (y ++ [l]). split; [apply Forall2_app; [exact F|constructor; [exact T|constructor]]|]. eapply sp_sym; eauto; destruct l, m; cbn in T; try destruct T; intros; discriminate.
Qed.

(** ** the language of an item *)
Inductive kstep := KLit (l : lab) | KPlus (l : lab).
Definition isany (l : lab) : bool := match l with LAnyChar | LAnyTag => true | _ => false end.
Definition step_of (l : lab) : kstep := if isany l then KPlus l else KLit l.
Fixpoint sem (k : list kstep) (x : list msym) : Prop :=
  match k with
  | [] => x = []
  | KLit l :: k' => exists m x', x = m :: x' /\ takes l m /\ sem k' x'
  | KPlus l :: k' => exists v x', x = v ++ x' /\ v <> [] /\ Forall (takes l) v /\ sem k' x'
  end.
Lemma sem_app a b x : sem (a ++ b) x <-> exists u v, x = u ++ v /\ sem a u /\ sem b v.
Proof.
  revert x. induction a as [|[l|l] a IH]; intros x; cbn [app sem].
  - split; [intros H; exists [], x; auto|intros (u & v & -> & -> & H); exact H].
  - split.
    + intros (m & x' & -> & T & H). apply IH in H as (u & v & -> & H1 & H2). exists (m :: u), v. split; [reflexivity|]. split; [|exact H2]. exists m, u. auto.
    + intros (u & v & -> & (m & x' & -> & T & H) & H2). exists m, (x' ++ v). split; [reflexivity|]. split; [exact T|]. apply IH. eauto.
  - split.
    + intros (w & x' & -> & N & F & H). apply IH in H as (u & v & -> & H1 & H2). exists (w ++ u), v. split; [apply app_assoc|]. split; [|exact H2]. exists w, u. auto.
    + intros (u & v & -> & (w & x' & -> & N & F & H) & H2). exists w, (x' ++ v). split; [rewrite <- app_assoc; reflexivity|]. split; [exact N|]. split; [exact F|]. apply IH. eauto.
Qed.
Lemma sem_lit l x : sem [KLit l] x <-> exists m, x = [m] /\ takes l m.
Proof. cbn. split; [intros (m & x' & -> & T & ->); eauto|intros (m & -> & T); exists m, []; auto]. Qed.
Lemma sem_plus l x : sem [KPlus l] x <-> x <> [] /\ Forall (takes l) x.
Proof.
  cbn. split; [intros (v & x' & -> & N & F & ->); rewrite app_nil_r; auto|intros [N F]; exists x, []; rewrite app_nil_r; auto].
Qed.
Lemma sem_step k l x m : sem k x -> takes l m -> sem (k ++ [step_of l]) (x ++ [m]).
Proof.
  intros H T. apply sem_app. exists x, [m]. split; [reflexivity|]. split; [exact H|]. unfold step_of. destruct (isany l).
  - apply sem_plus. split; [discriminate|auto].
  - apply sem_lit. eauto.
Qed.
Lemma sem_more k l x m : sem (k ++ [KPlus l]) x -> takes l m -> sem (k ++ [KPlus l]) (x ++ [m]).
Proof.
  intros H T. apply sem_app in H as (u & v & -> & H1 & H2). apply sem_app. exists u, (v ++ [m]). split; [rewrite app_assoc; reflexivity|]. split; [exact H1|].
  apply sem_plus in H2 as [N F]. apply sem_plus. split; [destruct v; discriminate|]. apply Forall_app. auto.
Qed.

(** ** the machine of a category *)
Definition ends (k : list kstep) (s : kstep) : Prop := exists k', k = k' ++ [s].
Definition bsk : kstep := KLit (LChar cBS).
Definition okl (l : lab) : Prop := l <> LEps /\ (forall n, l <> LRule n) /\ l <> LChar cDOL.
Definition cedge (key : nat -> list kstep) (e : edge) : Prop :=
  let '(p, l, q) := e in
  key q = key p ++ [step_of l] \/
  (p = q /\ isany l = true /\ ends (key p) (KPlus l)) \/
  (l = LAnyChar /\ key p = key q ++ [bsk] /\ ends (key q) (KPlus LAnyChar)).
Record CInv (key : nat -> list kstep) (t : trans) : Prop := {
  ci_zero : key 0 = []; ci_pos : 0 < t_next t;
  ci_bound : forall p l q, In (p, l, q) (t_edges t) -> p < t_next t /\ q < t_next t;
  ci_edge : forall e, In e (t_edges t) -> cedge key e;
  ci_okl : forall p l q, In (p, l, q) (t_edges t) -> okl l;
  ci_complete : forall q x, q < t_next t -> sem (key q) x -> path (t_edges t) 0 x q;
  ci_fbound : forall f, In f (t_finals t) -> f < t_next t }.
Lemma cinv_no : CInv (fun _ => []) no_trans.
Proof.
  constructor; cbn; try tauto; try lia.
  intros q x Hq ->. replace q with 0 by lia. constructor.
Qed.
Lemma cinv_sound key t : CInv key t -> forall x q, ~ In (MMark cBS) x -> path (t_edges t) 0 x q -> sem (key q) x.
Proof.
  intros I x q NB P. remember 0 as z. induction P as [s|s x q r P IH H|s x q l m r P IH H T]; subst.
  - rewrite (ci_zero _ _ I). reflexivity.
  - destruct (ci_okl _ _ I _ _ _ H) as [N _]. contradiction.
  - assert (NB' : ~ In (MMark cBS) x) by (intros B; apply NB, in_or_app; auto).
    specialize (IH NB' eq_refl). destruct (ci_edge _ _ I _ H) as [E|[(-> & A & k' & E)|(-> & E & k' & E2)]].
    + rewrite E. apply sem_step; assumption.
    + rewrite E in *. apply sem_more; assumption.
    + rewrite E in IH. apply sem_app in IH as (u & v & -> & H1 & H2). apply sem_lit in H2 as (b & -> & Tb). rewrite E2 in *.
      apply sem_more; [|exact T]. apply sem_more; [assumption|]. destruct b; cbn in Tb |- *; [|trivial|contradiction]. subst. apply NB'. apply in_or_app. right. left. reflexivity.
Qed.

(** *** inserting *)
Definition ext (n : nat) (key key' : nat -> list kstep) : Prop := forall s, s < n -> key' s = key s.
(** nothing is lost: states, transitions, final states *)
Record Grows (t t' : trans) : Prop := {
  g_next : t_next t <= t_next t'; g_edges : forall e, In e (t_edges t) -> In e (t_edges t'); g_finals : t_finals t' = t_finals t }.
Lemma grows_refl t : Grows t t. Proof. constructor; auto. Qed.
Lemma grows_trans a b c : Grows a b -> Grows b c -> Grows a c.
Proof. intros [] []. constructor; [lia|auto|congruence]. Qed.
Lemma ext_trans n m k1 k2 k3 : n <= m -> ext n k1 k2 -> ext m k2 k3 -> ext n k1 k3.
Proof. intros L A B s H. rewrite B by lia. apply A, H. Qed.
(** at a state with this key, [l] may be inserted: it is not a loop already there *)
Definition may (k : list kstep) (l : lab) : Prop := isany l = true -> ~ ends k (KPlus l) /\ ~ ends k bsk.

Lemma upd_key (key : nat -> list kstep) n k s : s < n -> (if s =? n then k else key s) = key s.
Proof. intros H. destruct (Nat.eqb_spec s n); [lia|reflexivity]. Qed.
Lemma cedge_upd key n k e : (let '(p, l, q) := e in p < n /\ q < n) -> cedge key e -> cedge (fun s => if s =? n then k else key s) e.
Proof. destruct e as [[p l] q]. intros [Hp Hq]. unfold cedge. rewrite !upd_key by assumption. auto. Qed.

Lemma insert1_lit key t l p t' q : CInv key t -> p < t_next t -> isany l = false -> okl l -> insert1 t l p = (t', q) ->
  exists key', CInv key' t' /\ ext (t_next t) key key' /\ Grows t t' /\ q < t_next t' /\ key' q = key p ++ [KLit l].
Proof.
  intros I Hp Hl Ho E. apply insert1_spec in E as [[-> H]|(-> & -> & H)].
  - exists key. split; [exact I|]. split; [intros s _; reflexivity|]. split; [apply grows_refl|]. split; [apply (ci_bound _ _ I _ _ _ H)|].
    destruct (ci_edge _ _ I _ H) as [E|[(_ & A & _)|(-> & _)]]; [|congruence|discriminate]. rewrite E. unfold step_of. rewrite Hl. reflexivity.
  - exists (fun s => if s =? t_next t then key p ++ [KLit l] else key s).
    assert (X : ext (t_next t) key (fun s => if s =? t_next t then key p ++ [KLit l] else key s)) by (intros s Hs; apply upd_key, Hs).
    split; [|split; [exact X|split; [constructor; cbn; [lia|intros e He; apply in_or_app; auto|reflexivity]|split; [cbn; lia|rewrite Nat.eqb_refl; reflexivity]]]].
    assert (HB := ci_bound _ _ I). constructor; cbn [t_next t_edges t_finals].
    + rewrite upd_key by apply (ci_pos _ _ I). apply (ci_zero _ _ I).
    + lia.
    + intros a m b Hin. apply in_app_or in Hin as [Hin|[[= <- <- <-]|[]]]; [specialize (HB _ _ _ Hin); lia|lia].
    + intros e Hin. apply in_app_or in Hin as [Hin|[<-|[]]].
      * apply cedge_upd; [|apply (ci_edge _ _ I), Hin]. destruct e as [[a m] b]. apply (HB _ _ _ Hin).
      * left. rewrite Nat.eqb_refl, upd_key by exact Hp. unfold step_of. rewrite Hl. reflexivity.
    + intros a m b Hin. apply in_app_or in Hin as [Hin|[[= <- <- <-]|[]]]; [apply (ci_okl _ _ I _ _ _ Hin)|exact Ho].
    + intros s x Hs Hx. destruct (Nat.eqb_spec s (t_next t)) as [->|Hn].
      * apply sem_app in Hx as (v & w & -> & H1 & H2). apply sem_lit in H2 as (m & -> & T).
        eapply p_sym; [|apply in_or_app; right; left; reflexivity|exact T]. eapply path_mono; [|apply (ci_complete _ _ I); [exact Hp|exact H1]]. intros e He; apply in_or_app; auto.
      * eapply path_mono; [|apply (ci_complete _ _ I); [lia|exact Hx]]. intros e He; apply in_or_app; auto.
    + intros f Hf. specialize (ci_fbound _ _ I f Hf). lia.
Qed.
(** adding a transition the language of whose target already has it *)
Lemma link_inv key t p q l : CInv key t -> p < t_next t -> q < t_next t -> okl l -> cedge key (p, l, q) -> CInv key (link t p q l) /\ Grows t (link t p q l).
Proof.
  intros I Hp Hq Ho Hc. split; [|constructor; [rewrite link_next; lia|intros e He; apply link_in; auto|apply link_finals]].
  constructor; rewrite ?link_next, ?link_finals.
  - apply (ci_zero _ _ I).
  - apply (ci_pos _ _ I).
  - intros a m b H. apply link_in in H as [H|[= -> -> ->]]; [apply (ci_bound _ _ I _ _ _ H)|auto].
  - intros e H. apply link_in in H as [H| ->]; [apply (ci_edge _ _ I), H|exact Hc].
  - intros a m b H. apply link_in in H as [H|[= -> -> ->]]; [apply (ci_okl _ _ I _ _ _ H)|auto].
  - intros s x Hs Hx. eapply path_mono; [|apply (ci_complete _ _ I); eassumption]. intros e He; apply link_in; auto.
  - apply (ci_fbound _ _ I).
Qed.
Lemma loop_path E p q l v : In (p, l, q) E -> In (q, l, q) E -> v <> [] -> Forall (takes l) v -> path E p v q.
Proof.
  intros H1 H2 N F. induction v as [|m v IH] using rev_ind; [contradiction|]. apply Forall_app in F as [F1 F2]. inversion_clear F2 as [|? ? T _].
  destruct v as [|m' v]; [apply (path_one E p l m q H1 T)|]. eapply p_sym; [apply IH; [discriminate|exact F1]|exact H2|exact T].
Qed.
Lemma insert_plus_inv key t l p t' q : CInv key t -> p < t_next t -> isany l = true -> may (key p) l -> insert_plus t l p = (t', q) ->
  exists key', CInv key' t' /\ ext (t_next t) key key' /\ Grows t t' /\ q < t_next t' /\ key' q = key p ++ [KPlus l].
Proof.
  intros I Hp Hl Hm. unfold insert_plus. destruct (insert1 t l p) as [t1 q1] eqn:E. intros [= <- <-].
  assert (Ho : okl l) by (destruct l; cbn in Hl; try discriminate; repeat split; intros; discriminate).
  apply insert1_spec in E as [[-> H]|(-> & -> & H)].
  - assert (K : key q1 = key p ++ [KPlus l]).
    { destruct (Hm Hl) as [M1 M2]. destruct (ci_edge _ _ I _ H) as [E|[(<- & _ & E)|(-> & E & _)]].
      - rewrite E. unfold step_of. rewrite Hl. reflexivity.
      - contradiction.
      - destruct M2. eexists. exact E. }
    assert (Hq := proj2 (ci_bound _ _ I _ _ _ H)).
    destruct (link_inv key t q1 q1 l I Hq Hq Ho) as [I' G]; [right; left; split; [reflexivity|split; [exact Hl|eexists; exact K]]|].
    exists key. split; [exact I'|]. split; [intros s _; reflexivity|]. split; [exact G|]. split; [rewrite link_next; exact Hq|exact K].
  - set (n := t_next t) in *. set (t1 := mkt (S n) (t_edges t ++ [(p, l, n)]) (t_finals t)).
    exists (fun s => if s =? n then key p ++ [KPlus l] else key s).
    assert (X : ext n key (fun s => if s =? n then key p ++ [KPlus l] else key s)) by (intros s Hs; apply upd_key, Hs).
    assert (IN : forall e, In e (t_edges (link t1 n n l)) <-> In e (t_edges t) \/ e = (p, l, n) \/ e = (n, l, n)).
    { intros e. rewrite link_in. cbn. rewrite in_app_iff. cbn. intuition congruence. }
    assert (HB := ci_bound _ _ I).
    split; [|split; [exact X|split; [constructor; [rewrite link_next; cbn; lia|intros e He; apply IN; auto|rewrite link_finals; reflexivity]|split; [rewrite link_next; cbn; lia|rewrite Nat.eqb_refl; reflexivity]]]].
    constructor; rewrite ?link_next, ?link_finals; cbn [t1 t_next t_finals].
    + rewrite upd_key by apply (ci_pos _ _ I). apply (ci_zero _ _ I).
    + lia.
    + intros a m b Hin. apply IN in Hin as [Hin|[[= -> -> ->]|[= -> -> ->]]]; [specialize (HB _ _ _ Hin); fold n in HB; lia|lia|lia].
    + intros e Hin. apply IN in Hin as [Hin|[->| ->]].
      * apply cedge_upd; [|apply (ci_edge _ _ I), Hin]. destruct e as [[a m] b]. apply (HB _ _ _ Hin).
      * left. rewrite Nat.eqb_refl, upd_key by exact Hp. unfold step_of. rewrite Hl. reflexivity.
      * right. left. split; [reflexivity|]. split; [exact Hl|]. rewrite Nat.eqb_refl. eexists. reflexivity.
    + intros a m b Hin. apply IN in Hin as [Hin|[[= -> -> ->]|[= -> -> ->]]]; [apply (ci_okl _ _ I _ _ _ Hin)|exact Ho|exact Ho].
    + intros s x Hs Hx. destruct (Nat.eqb_spec s n) as [->|Hn].
      * apply sem_app in Hx as (v & w & -> & H1 & H2). apply sem_plus in H2 as [N F]. eapply path_app.
        -- eapply path_mono; [|apply (ci_complete _ _ I); [exact Hp|exact H1]]. intros e He; apply IN; auto.
        -- apply (loop_path _ p n l); [apply IN; auto|apply IN; auto|exact N|exact F].
      * eapply path_mono; [|apply (ci_complete _ _ I); [fold n; lia|exact Hx]]. intros e He; apply IN; auto.
    + intros f Hf. specialize (ci_fbound _ _ I f Hf). fold n. lia.
Qed.
Lemma set_final_inv key t q : CInv key t -> q < t_next t -> CInv key (set_final t q) /\ (forall f, In f (t_finals (set_final t q)) <-> In f (t_finals t) \/ f = q).
Proof.
  intros I Hq. unfold set_final. destruct (in_dec _ _ _) as [H|H].
  - split; [exact I|]. intros f. split; [tauto|intros [?| ->]; assumption].
  - split.
    + destruct I. constructor; cbn; auto. intros f Hf. apply in_app_or in Hf as [Hf|[<-|[]]]; auto.
    + intros f. cbn. rewrite in_app_iff. cbn. intuition congruence.
Qed.

(** *** items *)
Fixpoint lemma_key (s : str) : list kstep :=
  match s with
  | [] => []
  | c :: r =>
      if c =?c cBS then match r with d :: r' => bsk :: KLit (LChar d) :: lemma_key r' | [] => [bsk; KLit (LChar cNUL)] end
      else if c =?c cSTAR then KPlus LAnyChar :: lemma_key r
      else KLit (LChar c) :: lemma_key r
  end.
Definition tag_key (g : str) : kstep := if str_eqb g [cSTAR] then KPlus LAnyTag else KLit (LTag (cLT :: g ++ [cGT])).
Definition used_lemma (i : cat_item) : str := match ci_tags i with [] => ci_name i | _ => ci_lemma i end.
Definition lemma_or_any (l : str) : list kstep := match l with [] => [KPlus LAnyChar] | _ => lemma_key l end.
Definition item_key (i : cat_item) : list kstep := lemma_or_any (used_lemma i) ++ map tag_key (ci_tags i).
(** no two equal loops in a row, no dollar *)
Definition kok (s : kstep) : Prop := s <> KLit (LChar cDOL).
Definition key_ok (k : list kstep) : Prop :=
  Forall kok k /\ (forall a b l, k <> a ++ KPlus l :: KPlus l :: b) /\ (forall a b l, k <> a ++ bsk :: KPlus l :: b).

Lemma may_next k1 l k2 : key_ok (k1 ++ KPlus l :: k2) -> may k1 l.
Proof.
  intros (_ & H2 & H3) _. split; intros [k E]; rewrite E, <- app_assoc in *; [apply (H2 k k2 l)|apply (H3 k k2 l)]; reflexivity.
Qed.
Lemma okl_lit k1 l k2 : key_ok (k1 ++ KLit l :: k2) -> l <> LEps -> (forall n, l <> LRule n) -> okl l.
Proof. intros (H & _) N1 N2. apply Forall_app in H as [_ H]. inversion_clear H as [|? ? K _]. repeat split; [exact N1|exact N2|]. intros ->. apply K. reflexivity. Qed.

Lemma insert_lemma_inv s : forall key t p k2 t' q, CInv key t -> p < t_next t -> key_ok (key p ++ lemma_key s ++ k2) -> insert_lemma t p s = (t', q) ->
  exists key', CInv key' t' /\ ext (t_next t) key key' /\ Grows t t' /\ q < t_next t' /\ key' q = key p ++ lemma_key s.
Proof.
  assert (L : forall n s, length s <= n -> forall key t p k2 t' q, CInv key t -> p < t_next t -> key_ok (key p ++ lemma_key s ++ k2) -> insert_lemma t p s = (t', q) ->
    exists key', CInv key' t' /\ ext (t_next t) key key' /\ Grows t t' /\ q < t_next t' /\ key' q = key p ++ lemma_key s);
  [|intros; eapply (L (length s) s); eauto].
  clear s. induction n as [|n IH]; intros s Ls key t p k2 t' q I Hp Hk E.
  { destruct s; [|cbn in Ls; lia]. cbn in *. injection E as <- <-. exists key. rewrite app_nil_r. split; [exact I|]. split; [intros x _; reflexivity|]. split; [apply grows_refl|]. auto. }
  destruct s as [|c s]; cbn [insert_lemma lemma_key] in *.
  { injection E as <- <-. exists key. rewrite app_nil_r. split; [exact I|]. split; [intros x _; reflexivity|]. split; [apply grows_refl|]. auto. }
  cbn in Ls. assert (NR : forall c n, LChar c <> LRule n) by discriminate.
  destruct (c =?c cBS).
  - destruct (insert1 t (LChar cBS) p) as [t1 q1] eqn:E1.
    destruct (insert1_lit key t (LChar cBS) p t1 q1 I Hp eq_refl) as (key1 & I1 & X1 & G1 & Q1 & K1); [repeat split; intros; discriminate|exact E1|].
    destruct s as [|d s].
    + destruct (insert1_lit key1 t1 (LChar cNUL) q1 t' q I1 Q1 eq_refl) as (key2 & I2 & X2 & G2 & Q2 & K2); [repeat split; intros; discriminate|exact E|].
      exists key2. split; [exact I2|]. split; [eapply ext_trans; [apply (g_next _ _ G1)|eassumption..]|]. split; [eapply grows_trans; eauto|]. split; [exact Q2|].
      rewrite K2, K1, <- app_assoc. reflexivity.
    + destruct (insert1 t1 (LChar d) q1) as [t2 q2] eqn:E2.
      assert (Ko : key_ok ((key p ++ [bsk]) ++ KLit (LChar d) :: lemma_key s ++ k2)) by (rewrite <- app_assoc; exact Hk).
      destruct (insert1_lit key1 t1 (LChar d) q1 t2 q2 I1 Q1 eq_refl) as (key2 & I2 & X2 & G2 & Q2 & K2); [eapply okl_lit; [exact Ko|discriminate|discriminate]|exact E2|].
      edestruct (IH s) as (key3 & I3 & X3 & G3 & Q3 & K3); [cbn in Ls; lia|exact I2|exact Q2| |exact E|].
      { rewrite K2, K1, <- !app_assoc. cbn [app]. exact Hk. }
      exists key3. split; [exact I3|]. split; [eapply ext_trans; [|eapply ext_trans; [|exact X1|exact X2]|exact X3]; [pose proof (g_next _ _ G1); pose proof (g_next _ _ G2); lia|apply (g_next _ _ G1)]|].
      split; [eapply grows_trans; [eapply grows_trans; eauto|exact G3]|]. split; [exact Q3|]. rewrite K3, K2, K1, <- !app_assoc. reflexivity.
  - destruct (c =?c cSTAR).
    + destruct (insert_plus t LAnyChar p) as [t1 q1] eqn:E1.
      destruct (insert_plus_inv key t LAnyChar p t1 q1 I Hp eq_refl) as (key1 & I1 & X1 & G1 & Q1 & K1); [eapply may_next; exact Hk|exact E1|].
      edestruct (IH s) as (key3 & I3 & X3 & G3 & Q3 & K3); [lia|exact I1|exact Q1| |exact E|].
      { rewrite K1, <- !app_assoc. cbn [app]. exact Hk. }
      exists key3. split; [exact I3|]. split; [eapply ext_trans; [apply (g_next _ _ G1)|eassumption..]|]. split; [eapply grows_trans; eauto|]. split; [exact Q3|].
      rewrite K3, K1, <- app_assoc. reflexivity.
    + destruct (insert1 t (LChar c) p) as [t1 q1] eqn:E1.
      destruct (insert1_lit key t (LChar c) p t1 q1 I Hp eq_refl) as (key1 & I1 & X1 & G1 & Q1 & K1); [eapply okl_lit; [exact Hk|discriminate|discriminate]|exact E1|].
      edestruct (IH s) as (key3 & I3 & X3 & G3 & Q3 & K3); [lia|exact I1|exact Q1| |exact E|].
      { rewrite K1, <- !app_assoc. cbn [app]. exact Hk. }
      exists key3. split; [exact I3|]. split; [eapply ext_trans; [apply (g_next _ _ G1)|eassumption..]|]. split; [eapply grows_trans; eauto|]. split; [exact Q3|].
      rewrite K3, K1, <- app_assoc. reflexivity.
Qed.
Lemma insert_tags_inv s : forall key t p t' q, CInv key t -> p < t_next t -> key_ok (key p ++ map tag_key s) -> insert_tags t p s = (t', q) ->
  exists key', CInv key' t' /\ ext (t_next t) key key' /\ Grows t t' /\ q < t_next t' /\ key' q = key p ++ map tag_key s.
Proof.
  induction s as [|g s IH]; intros key t p t' q I Hp Hk E; cbn [insert_tags map] in *.
  { injection E as <- <-. exists key. rewrite app_nil_r. split; [exact I|]. split; [intros x _; reflexivity|]. split; [apply grows_refl|]. auto. }
  assert (S1 : exists (t1 : trans) (q1 : nat) (key1 : nat -> list kstep), (if str_eqb g [cSTAR] then insert_plus t LAnyTag p else insert1 t (LTag (cLT :: g ++ [cGT])) p) = (t1, q1) /\ CInv key1 t1 /\ ext (t_next t) key key1 /\ Grows t t1 /\ q1 < t_next t1 /\ key1 q1 = key p ++ [tag_key g]).
  { unfold tag_key in *. destruct (str_eqb g [cSTAR]).
    - destruct (insert_plus t LAnyTag p) as [t1 q1] eqn:E1. destruct (insert_plus_inv key t LAnyTag p t1 q1 I Hp eq_refl) as (key1 & H); [eapply may_next; exact Hk|exact E1|]. exists t1, q1, key1. split; [reflexivity|exact H].
    - destruct (insert1 t (LTag (cLT :: g ++ [cGT])) p) as [t1 q1] eqn:E1. destruct (insert1_lit key t (LTag (cLT :: g ++ [cGT])) p t1 q1 I Hp eq_refl) as (key1 & H); [eapply okl_lit; [exact Hk|discriminate|discriminate]|exact E1|]. exists t1, q1, key1. split; [reflexivity|exact H]. }
  destruct S1 as (t1 & q1 & key1 & E1 & I1 & X1 & G1 & Q1 & K1). rewrite E1 in E.
  edestruct (IH key1 t1 q1 t' q) as (key3 & I3 & X3 & G3 & Q3 & K3); [exact I1|exact Q1| |exact E|].
  { rewrite K1, <- app_assoc. exact Hk. }
  exists key3. split; [exact I3|]. split; [eapply ext_trans; [apply (g_next _ _ G1)|eassumption..]|]. split; [eapply grows_trans; eauto|]. split; [exact Q3|].
  rewrite K3, K1, <- app_assoc. reflexivity.
Qed.
Lemma insert_cat_item_inv key t l ts : CInv key t -> key_ok (lemma_or_any l ++ map tag_key ts) ->
  exists key' q, CInv key' (insert_cat_item t l ts) /\ ext (t_next t) key key' /\ t_next t <= t_next (insert_cat_item t l ts) /\ q < t_next (insert_cat_item t l ts) /\ key' q = lemma_or_any l ++ map tag_key ts /\ (forall f, In f (t_finals (insert_cat_item t l ts)) <-> In f (t_finals t) \/ f = q).
Proof.
  intros I Hk. unfold insert_cat_item.
  assert (S1 : exists (t1 : trans) (p : nat) (key1 : nat -> list kstep), (match l with [] => let (t1, q) := insert_plus t LAnyChar 0 in let (t2, a) := insert1 t1 (LChar cBS) q in (link t2 a q LAnyChar, q) | _ => insert_lemma t 0 l end : trans * nat) = (t1, p) /\ CInv key1 t1 /\ ext (t_next t) key key1 /\ Grows t t1 /\ p < t_next t1 /\ key1 p = lemma_or_any l).
  { destruct l as [|c l].
    - destruct (insert_plus t LAnyChar 0) as [t1 q1] eqn:E1. assert (Z := ci_zero _ _ I).
      destruct (insert_plus_inv key t LAnyChar 0 t1 q1 I (ci_pos _ _ I) eq_refl) as (key1 & I1 & X1 & G1 & Q1 & K1); [|exact E1|].
      { rewrite Z. intros _. split; intros [k E]; destruct k; discriminate. }
      rewrite Z in K1. cbn [app] in K1. destruct (insert1 t1 (LChar cBS) q1) as [t2 a] eqn:E2.
      destruct (insert1_lit key1 t1 (LChar cBS) q1 t2 a I1 Q1 eq_refl) as (key2 & I2 & X2 & G2 & Q2 & K2); [repeat split; intros; discriminate|exact E2|].
      assert (Q1' : q1 < t_next t2) by (pose proof (g_next _ _ G2); lia). assert (K1' : key2 q1 = [KPlus LAnyChar]) by (rewrite X2; assumption).
      destruct (link_inv key2 t2 a q1 LAnyChar I2 Q2 Q1') as [I3 G3]; [repeat split; intros; discriminate| |].
      { right. right. split; [reflexivity|]. split; [rewrite K2, K1, K1'; reflexivity|exists []; exact K1']. }
      exists (link t2 a q1 LAnyChar), q1, key2. split; [reflexivity|]. split; [exact I3|]. split; [eapply ext_trans; [apply (g_next _ _ G1)|eassumption..]|].
      split; [eapply grows_trans; [eapply grows_trans; eauto|exact G3]|]. split; [rewrite link_next; exact Q1'|exact K1'].
    - destruct (insert_lemma t 0 (c :: l)) as [t1 q1] eqn:E1. assert (Z := ci_zero _ _ I).
      edestruct (insert_lemma_inv (c :: l) key t 0) as (key1 & H); [exact I|apply (ci_pos _ _ I)| |exact E1|].
      { rewrite Z. exact Hk. }
      rewrite Z in H. exists t1, q1, key1. split; [reflexivity|exact H]. }
  destruct S1 as (t1 & p & key1 & -> & I1 & X1 & G1 & Q1 & K1).
  destruct (insert_tags t1 p ts) as [t2 q] eqn:E2.
  edestruct (insert_tags_inv ts key1 t1 p) as (key2 & I2 & X2 & G2 & Q2 & K2); [exact I1|exact Q1|rewrite K1; exact Hk|exact E2|].
  destruct (set_final_inv key2 t2 q I2 Q2) as [I3 F3].
  assert (N3 : t_next (set_final t2 q) = t_next t2) by (unfold set_final; destruct (in_dec _ _ _); reflexivity).
  exists key2, q. split; [exact I3|]. split; [eapply ext_trans; [apply (g_next _ _ G1)|eassumption..]|]. rewrite N3.
  split; [pose proof (g_next _ _ G1); pose proof (g_next _ _ G2); lia|]. split; [exact Q2|]. split; [rewrite K2, K1; reflexivity|].
  intros f. rewrite F3, (g_finals _ _ G2), (g_finals _ _ G1). reflexivity.
Qed.
Lemma def_cat_inv items : Forall (fun i => key_ok (item_key i)) items ->
  exists key, CInv key (def_cat items) /\ (forall f, In f (t_finals (def_cat items)) -> In (key f) (map item_key items)) /\ (forall i, In i items -> exists f, In f (t_finals (def_cat items)) /\ key f = item_key i).
Proof.
  unfold def_cat. intros H.
  assert (G : forall items done key t, CInv key t -> Forall (fun i => key_ok (item_key i)) items ->
    (forall f, In f (t_finals t) -> In (key f) (map item_key done)) -> (forall i, In i done -> exists f, In f (t_finals t) /\ key f = item_key i) ->
    exists key', CInv key' (fold_left add_item items t) /\ (forall f, In f (t_finals (fold_left add_item items t)) -> In (key' f) (map item_key (done ++ items))) /\ (forall i, In i (done ++ items) -> exists f, In f (t_finals (fold_left add_item items t)) /\ key' f = item_key i)).
  { clear. intros items. induction items as [|i items IH]; intros done key t I H F1 F2; cbn [fold_left].
    - exists key. rewrite app_nil_r. auto.
    - inversion_clear H as [|? ? Hi Hr].
      assert (S1 : exists key' q, CInv key' (add_item t i) /\ ext (t_next t) key key' /\ key' q = item_key i /\ (forall f, In f (t_finals (add_item t i)) <-> In f (t_finals t) \/ f = q)).
      { unfold item_key, used_lemma in Hi. unfold add_item, item_key, used_lemma. destruct (ci_tags i) as [|g ts].
        - destruct (insert_cat_item_inv key t (ci_name i) [] I Hi) as (key' & q & A & B & _ & _ & D & E). exists key', q. auto.
        - destruct (insert_cat_item_inv key t (ci_lemma i) (g :: ts) I Hi) as (key' & q & A & B & _ & _ & D & E). exists key', q. auto. }
      destruct S1 as (key1 & q & I1 & X1 & K1 & FF).
      replace (done ++ i :: items) with ((done ++ [i]) ++ items) by (rewrite <- app_assoc; reflexivity). apply (IH (done ++ [i]) key1); [exact I1|exact Hr| |].
      + intros f Hf. rewrite map_app. apply in_or_app. apply FF in Hf as [Hf| ->]; [left|right; left; symmetry; exact K1].
        rewrite X1 by apply (ci_fbound _ _ I), Hf. apply F1, Hf.
      + intros j Hj. apply in_app_or in Hj as [Hj|[<-|[]]].
        * destruct (F2 j Hj) as (f & Hf & E). exists f. split; [apply FF; auto|]. rewrite X1 by apply (ci_fbound _ _ I), Hf. exact E.
        * exists q. split; [apply FF; auto|exact K1]. }
  destruct (G items [] _ _ cinv_no H) as (key & A & B & D); [intros f []|intros i []|]. exists key. auto.
Qed.
(** the language of a category *)
Definition cat_lang (items : list cat_item) (x : list msym) : Prop := exists i, In i items /\ sem (item_key i) x.
Lemma def_cat_lang items x : Forall (fun i => key_ok (item_key i)) items -> ~ In (MMark cBS) x ->
  (exists f, In f (t_finals (def_cat items)) /\ path (t_edges (def_cat items)) 0 x f) <-> cat_lang items x.
Proof.
  intros H NB. destruct (def_cat_inv items H) as (key & I & F1 & F2). split.
  - intros (f & Hf & P). apply (cinv_sound key _ I _ _ NB) in P. apply F1, in_map_iff in Hf as (i & E & Hi). exists i. rewrite E. auto.
  - intros (i & Hi & S). destruct (F2 i Hi) as (f & Hf & E). exists f. split; [exact Hf|]. apply (ci_complete _ _ I); [apply (ci_fbound _ _ I), Hf|rewrite E; exact S].
Qed.
