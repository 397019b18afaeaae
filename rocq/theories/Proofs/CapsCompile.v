(** The transducer that CapsCompiler builds: which strings of symbols lead to a final state. *)
From Coq Require Import String ZArith.
From Verif Require Import Model.Base Model.CapsRules Proofs.Base.
Open Scope nat_scope.

Notation shift := CapsRules.shift.
Definition stream := list (list isym).
Definition lang := stream -> list str -> Prop.
(** reading: every element of the stream is a set of symbols, one of which must be on the transition *)
Inductive run (E : list edge) : nat -> stream -> list str -> nat -> Prop :=
  | run_nil p : run E p [] [] p
  | run_eps p l q x o r : In (p, l, q) E -> fst l = None -> run E q x o r -> run E p x (outs l ++ o) r
  | run_in p l i a q x o r : In (p, l, q) E -> fst l = Some i -> In i a -> run E q x o r -> run E p (a :: x) (outs l ++ o) r.
Lemma run_mono E E' p x o r : incl E E' -> run E p x o r -> run E' p x o r.
Proof. intros H R. induction R; [constructor|eapply run_eps; eauto|eapply run_in; eauto]. Qed.
Lemma run_app E p x o q y o' r : run E p x o q -> run E q y o' r -> run E p (x ++ y) (o ++ o') r.
Proof. intros R; revert y o' r. induction R; intros y o' rr R'; cbn [app]; [exact R'| |]; rewrite <- app_assoc; [eapply run_eps; eauto|eapply run_in; eauto]. Qed.
Lemma run_sink E p x o r : (forall l b, ~ In (p, l, b) E) -> run E p x o r -> x = [] /\ o = [] /\ r = p.
Proof. intros S R. destruct R; [auto|exfalso; eapply S; eauto|exfalso; eapply S; eauto]. Qed.

Definition acyclic (E : list edge) : Prop := exists rk : nat -> nat, forall a l b, In (a, l, b) E -> fst l = None -> rk a < rk b.
Definition cat (L1 L2 : lang) : lang := fun x o => exists x1 x2 o1 o2, x = x1 ++ x2 /\ o = o1 ++ o2 /\ L1 x1 o1 /\ L2 x2 o2.
Definition unit_l : lang := fun x o => x = [] /\ o = [].
Definition sink (t : trans) (p : nat) : Prop := forall l b, ~ In (p, l, b) (t_edges t).
Definition wft (t : trans) : Prop := t_init t < t_next t /\ (forall a l b, In (a, l, b) (t_edges t) -> a < t_next t /\ b < t_next t) /\ Forall (fun f => f < t_next t) (t_finals t).

Record frag (t : trans) (p : nat) (t' : trans) (q : nat) (E : list edge) (L : lang) : Prop := mkfr {
  f_edges : t_edges t' = t_edges t ++ E;
  f_init : t_init t' = t_init t;
  f_finals : t_finals t' = t_finals t;
  f_next : t_next t <= t_next t';
  f_range : forall a l b, In (a, l, b) E -> (a = p \/ t_next t <= a < t_next t') /\ t_next t <= b < t_next t';
  f_end : q = p \/ t_next t <= q < t_next t';
  f_acyc : acyclic E;
  f_lang : forall x o, run E p x o q <-> L x o }.

Lemma frag_iff t p t' q E L L' : (forall x o, L x o <-> L' x o) -> frag t p t' q E L -> frag t p t' q E L'.
Proof. intros H [A B C D F G I J]. split; auto. intros. rewrite J. apply H. Qed.
Lemma frag_refl t p : frag t p t p [] unit_l.
Proof.
  split; auto; [rewrite app_nil_r; reflexivity|intros a l b []|exists (fun _ => 0); intros a l b []|].
  intros x o. split; [intros R|intros [-> ->]; constructor]. apply run_sink in R; [|intros l b []]. destruct R as (-> & -> & _). split; reflexivity.
Qed.
Lemma frag_wft t p t' q E L : wft t -> p < t_next t -> frag t p t' q E L -> wft t' /\ q < t_next t'.
Proof.
  intros (A & B & C) P F. pose proof (f_next _ _ _ _ _ _ F) as N. split; [split; [|split]|].
  - rewrite (f_init _ _ _ _ _ _ F). lia.
  - intros a l b H. rewrite (f_edges _ _ _ _ _ _ F), in_app_iff in H. destruct H as [H|H]; [destruct (B _ _ _ H); lia|].
    destruct (f_range _ _ _ _ _ _ F _ _ _ H) as [[->|X] Y]; lia.
  - rewrite (f_finals _ _ _ _ _ _ F). eapply Forall_impl; [|exact C]. cbn. intros; lia.
  - destruct (f_end _ _ _ _ _ _ F) as [->|X]; lia.
Qed.
Lemma frag_sink t p t' q E L : wft t -> p < t_next t -> frag t p t' q E L -> forall s, s < t_next t -> s <> p -> sink t s -> sink t' s.
Proof.
  intros W P F s L1 N S l b H. rewrite (f_edges _ _ _ _ _ _ F), in_app_iff in H. destruct H as [H|H]; [exact (S _ _ H)|].
  destruct (f_range _ _ _ _ _ _ F _ _ _ H) as [[->|X] Y]; [congruence|lia].
Qed.

(** ** one fragment after another *)
Lemma run_split E1 E2 n q : (forall a l b, In (a, l, b) E1 -> a < n /\ b < n) -> (forall a l b, In (a, l, b) E2 -> (a = q \/ n <= a) /\ n <= b) -> q < n ->
  forall p x o r, run (E1 ++ E2) p x o r ->
    (n <= p -> n <= r /\ run E2 p x o r) /\
    (p < n -> (r < n /\ run E1 p x o r) \/ (n <= r /\ exists x1 x2 o1 o2, x = x1 ++ x2 /\ o = o1 ++ o2 /\ run E1 p x1 o1 q /\ run E2 q x2 o2 r)).
Proof.
  intros H1 H2 Q p x o r R. induction R as [p|p l m x o r HI Hl R [IA IB]|p l i a m x o r HI Hl Ha R [IA IB]].
  - split; [intros; split; [assumption|constructor]|intros; left; split; [assumption|constructor]].
  - rewrite in_app_iff in HI. split; intros HP.
    + destruct HI as [HI|HI]; [apply H1 in HI; lia|]. destruct (H2 _ _ _ HI) as [_ B]. destruct (IA B) as [C D]. split; [exact C|eapply run_eps; eauto].
    + destruct HI as [HI|HI].
      * destruct (H1 _ _ _ HI) as [_ B]. destruct (IB B) as [[C D]|(C & x1 & x2 & o1 & o2 & -> & -> & D1 & D2)].
        -- left. split; [exact C|eapply run_eps; eauto].
        -- right. split; [exact C|]. exists x1, x2, (outs l ++ o1), o2. rewrite app_assoc. repeat split; auto. eapply run_eps; eauto.
      * destruct (H2 _ _ _ HI) as [[->|A] B]; [|lia]. destruct (IA B) as [C D]. right. split; [exact C|].
        exists [], x, [], (outs l ++ o). repeat split; auto; [constructor|]. eapply run_eps; eauto.
  - rewrite in_app_iff in HI. split; intros HP.
    + destruct HI as [HI|HI]; [apply H1 in HI; lia|]. destruct (H2 _ _ _ HI) as [_ B]. destruct (IA B) as [C D]. split; [exact C|eapply run_in; eauto].
    + destruct HI as [HI|HI].
      * destruct (H1 _ _ _ HI) as [_ B]. destruct (IB B) as [[C D]|(C & x1 & x2 & o1 & o2 & -> & -> & D1 & D2)].
        -- left. split; [exact C|eapply run_in; eauto].
        -- right. split; [exact C|]. exists (a :: x1), x2, (outs l ++ o1), o2. rewrite app_assoc. repeat split; auto. eapply run_in; eauto.
      * destruct (H2 _ _ _ HI) as [[->|A] B]; [|lia]. destruct (IA B) as [C D]. right. split; [exact C|].
        exists [], (a :: x), [], (outs l ++ o). repeat split; auto; [constructor|]. eapply run_in; eauto.
Qed.
Lemma acyclic_app E1 E2 n q : (forall a l b, In (a, l, b) E1 -> a < n /\ b < n) -> (forall a l b, In (a, l, b) E2 -> (a = q \/ n <= a) /\ n <= b) -> q < n ->
  acyclic E1 -> acyclic E2 -> acyclic (E1 ++ E2).
Proof.
  intros H1 H2 Q [r1 A1] [r2 A2]. exists (fun a => if a <? n then r1 a else S (r1 q) + r2 a). intros a l b H Hl. rewrite in_app_iff in H. destruct H as [H|H].
  - destruct (H1 _ _ _ H). rewrite (proj2 (Nat.ltb_lt a n)), (proj2 (Nat.ltb_lt b n)) by lia. eauto.
  - destruct (H2 _ _ _ H) as [X Y]. rewrite (proj2 (Nat.ltb_ge b n)) by lia. specialize (A2 _ _ _ H Hl). destruct (Nat.ltb_spec a n); [|lia].
    destruct X as [->|X]; lia.
Qed.
Lemma frag_seq t p t1 q t2 r E1 E2 L1 L2 : wft t -> p < t_next t -> frag t p t1 q E1 L1 -> frag t1 q t2 r E2 L2 -> frag t p t2 r (E1 ++ E2) (cat L1 L2).
Proof.
  intros W P F1 F2. destruct (frag_wft _ _ _ _ _ _ W P F1) as [W1 Q1].
  pose proof (f_next _ _ _ _ _ _ F1) as N1. pose proof (f_next _ _ _ _ _ _ F2) as N2.
  assert (B1 : forall a l b, In (a, l, b) E1 -> a < t_next t1 /\ b < t_next t1) by (intros a l b H; destruct (f_range _ _ _ _ _ _ F1 _ _ _ H) as [[->|X] Y]; lia).
  assert (B2 : forall a l b, In (a, l, b) E2 -> (a = q \/ t_next t1 <= a) /\ t_next t1 <= b) by (intros a l b H; destruct (f_range _ _ _ _ _ _ F2 _ _ _ H) as [[->|X] Y]; lia).
  split.
  - rewrite (f_edges _ _ _ _ _ _ F2), (f_edges _ _ _ _ _ _ F1), app_assoc. reflexivity.
  - rewrite (f_init _ _ _ _ _ _ F2). apply (f_init _ _ _ _ _ _ F1).
  - rewrite (f_finals _ _ _ _ _ _ F2). apply (f_finals _ _ _ _ _ _ F1).
  - lia.
  - intros a l b H. rewrite in_app_iff in H. destruct H as [H|H].
    + destruct (f_range _ _ _ _ _ _ F1 _ _ _ H) as [[->|X] Y]; split; lia.
    + destruct (f_range _ _ _ _ _ _ F2 _ _ _ H) as [[->|X] Y]; split; try lia. destruct (f_end _ _ _ _ _ _ F1) as [->|Z]; lia.
  - destruct (f_end _ _ _ _ _ _ F2) as [->|X]; [destruct (f_end _ _ _ _ _ _ F1) as [->|Z]; lia|lia].
  - eapply acyclic_app; eauto using f_acyc.
  - intros x o. split.
    + intros R. destruct (run_split _ _ _ _ B1 B2 Q1 _ _ _ _ R) as [_ K]. destruct K as [[C D]|(C & x1 & x2 & o1 & o2 & -> & -> & D1 & D2)]; [lia| |].
      * destruct (f_end _ _ _ _ _ _ F2) as [->|X]; [|lia]. exists x, [], o, []. rewrite !app_nil_r. repeat split; auto; [apply (f_lang _ _ _ _ _ _ F1); exact D|].
        apply (f_lang _ _ _ _ _ _ F2). constructor.
      * exists x1, x2, o1, o2. repeat split; auto; [apply (f_lang _ _ _ _ _ _ F1)|apply (f_lang _ _ _ _ _ _ F2)]; assumption.
    + intros (x1 & x2 & o1 & o2 & -> & -> & D1 & D2). apply (f_lang _ _ _ _ _ _ F1) in D1. apply (f_lang _ _ _ _ _ _ F2) in D2.
      eapply run_app; (eapply run_mono; [|eassumption]); intros e He; rewrite in_app_iff; auto.
Qed.

(** ** single transitions *)
Lemma targets_in t p l b : In b (targets t p l) <-> In (p, l, b) (t_edges t).
Proof.
  unfold targets. rewrite in_flat_map. split.
  - intros ([[a m] q] & H & K). destruct (Nat.eqb_spec a p); [|destruct K]. destruct (lab_eq_dec m l); [|destruct K]. destruct K as [<-|[]]. subst. exact H.
  - intros H. exists (p, l, b). split; [exact H|]. rewrite Nat.eqb_refl. destruct (lab_eq_dec l l); [left; reflexivity|congruence].
Qed.
Lemma insert1_free t p l : (forall b, ~ In (p, l, b) (t_edges t)) -> insert1 t l p = insert_new t l p.
Proof. intros H. unfold insert1. destruct (targets t p l) as [|b bs] eqn:E; [reflexivity|]. exfalso. apply (H b). rewrite <- targets_in, E. left; reflexivity. Qed.
Definition in1 (l : lab) : lang := fun x o => o = outs l /\ match fst l with None => x = [] | Some i => exists a, x = [a] /\ In i a end.
Lemma insert_new_frag t p l : wft t -> p < t_next t -> frag t p (fst (insert_new t l p)) (t_next t) [(p, l, t_next t)] (in1 l) /\ sink (fst (insert_new t l p)) (t_next t).
Proof.
  intros W P. split; [split; cbn; auto|].
  - intros a m b [H|[]]. injection H as <- <- <-. lia.
  - exists (fun a => a). intros a m b [H|[]]. injection H as <- <- <-. lia.
  - intros x o. unfold in1. split.
    + intros R. inversion R as [? E1 E2 E3 E4|p' l' q' x' o' r' H Hl R' E1 E2 E3 E4|p' l' i a q' x' o' r' H Hl Ha R' E1 E2 E3 E4]; subst; [exfalso; lia| |].
      * destruct H as [H|[]]. injection H as <- <-. apply run_sink in R'; [|intros m b [K|[]]; injection K as K _ _; lia].
        destruct R' as (-> & -> & _). rewrite app_nil_r, Hl. auto.
      * destruct H as [H|[]]. injection H as <- <-. apply run_sink in R'; [|intros m b [K|[]]; injection K as K _ _; lia].
        destruct R' as (-> & -> & _). rewrite app_nil_r, Hl. eauto.
    + intros [-> H]. rewrite <- (app_nil_r (outs l)). destruct (fst l) as [i|] eqn:Hl.
      * destruct H as (a & -> & Ha). eapply run_in; [left; reflexivity|exact Hl|exact Ha|constructor].
      * subst x. eapply run_eps; [left; reflexivity|exact Hl|constructor].
  - intros m b H. cbn in H. rewrite in_app_iff in H. destruct H as [H|[H|[]]]; [apply (proj1 (proj2 W)) in H; lia|]. injection H as H _ _. lia.
Qed.

(** ** the pieces of a match *)
Definition prev_dec (a : option isym) (i : isym) : {a = Some i} + {a <> Some i}.
Proof. decide equality. apply isym_eq_dec. Defined.
Inductive piece := One (i : isym) | Plus (i : isym) | Star (i : isym).
Definition all_in (i : isym) (x : stream) : Prop := Forall (fun a => In i a) x.
Fixpoint plang (prev : option isym) (ps : list piece) (x : stream) : Prop :=
  match ps with
  | [] => x = []
  | One i :: ps => if prev_dec prev i then plang prev ps x else exists a y, x = a :: y /\ In i a /\ plang None ps y
  | Plus i :: ps => if prev_dec prev i then plang prev ps x else exists y z, x = y ++ z /\ y <> [] /\ all_in i y /\ plang (Some i) ps z
  | Star i :: ps => exists y z, x = y ++ z /\ all_in i y /\ plang (Some i) ps z
  end.

Definition loops (t : trans) (p : nat) (prev : option isym) : Prop :=
  (forall l b, In (p, l, b) (t_edges t) -> exists i, prev = Some i /\ l = l_in i /\ b = p) /\ (forall i, prev = Some i -> targets t p (l_in i) = [p]).
Definition add_piece (c : piece) (tp : trans * nat) : trans * nat :=
  match c with
  | One i => add1 i tp
  | Plus i => add_loop i tp
  | Star i => let (t, q) := insert_new (fst tp) l_eps (snd tp) in (link t q q (l_in i), q)
  end.
Lemma sink_loops t p : sink t p <-> loops t p None.
Proof.
  split; [intros H; split; [intros l b K; exfalso; exact (H _ _ K)|discriminate]|]. intros [H _] l b K. destruct (H _ _ K) as (i & X & _). discriminate.
Qed.
(* a new state with a loop *)
Lemma loop_lang p q l x o i : p <> q -> run [(p, l, q); (q, l_in i, q)] p x o q <-> exists x1 x2, x = x1 ++ x2 /\ in1 l x1 o /\ all_in i x2.
Proof.
  intros N.
  assert (Q : forall x o, run [(p, l, q); (q, l_in i, q)] q x o q <-> o = [] /\ all_in i x).
  { clear x o. intros x o. split.
    - assert (G : forall a b, run [(p, l, q); (q, l_in i, q)] a x o b -> a = q -> o = [] /\ all_in i x); [|intros R; exact (G _ _ R eq_refl)].
      intros a b R. induction R as [a0|a0 m c x o r HI Hl R IH|a0 m j e c x o r HI Hl Ha R IH]; intros ->.
      + split; constructor.
      + destruct HI as [HI|[HI|[]]]; [exfalso; congruence|]. injection HI as <- <-. discriminate.
      + destruct HI as [HI|[HI|[]]]; [exfalso; congruence|]. injection HI as <- <-. destruct (IH eq_refl) as [-> F]. injection Hl as <-. split; [reflexivity|]. constructor; assumption.
    - intros [-> F]. induction F as [|a x Ha F IH]; [constructor|]. apply (run_in _ q (l_in i) i a q x []); auto. right; left; reflexivity. }
  split.
  - intros R. inversion R as [? E1 E2 E3 E4|p' l' q' x' o' r' H Hl R' E1 E2 E3 E4|p' l' j a q' x' o' r' H Hl Ha R' E1 E2 E3 E4]; subst; [congruence| |];
      (destruct H as [H|[H|[]]]; [|injection H as H _ _; congruence]); injection H as <- <-; apply Q in R'; destruct R' as [-> F].
    + exists [], x. rewrite app_nil_r. unfold in1. rewrite Hl. auto.
    + exists [a], x'. rewrite app_nil_r. unfold in1. rewrite Hl. repeat split; auto. eauto.
  - intros (x1 & x2 & -> & [-> H] & F). pose proof (proj2 (Q _ _) (conj eq_refl F)) as R. rewrite <- (app_nil_r (outs l)). destruct (fst l) as [j|] eqn:Hl.
    + destruct H as (a & -> & Ha). apply (run_in _ p l j a q x2 []); auto. left; reflexivity.
    + subst x1. cbn [app]. apply (run_eps _ p l q x2 []); auto. left; reflexivity.
Qed.
Lemma new_loop_frag t p l i : wft t -> p < t_next t -> let t1 := fst (insert_new t l p) in let q := t_next t in
  link t1 q q (l_in i) = mkt (S q) (t_init t) (t_edges t ++ [(p, l, q); (q, l_in i, q)]) (t_finals t) /\
  frag t p (link t1 q q (l_in i)) q [(p, l, q); (q, l_in i, q)] (fun x o => exists x1 x2, x = x1 ++ x2 /\ in1 l x1 o /\ all_in i x2) /\
  loops (link t1 q q (l_in i)) q (Some i).
Proof.
  intros W P t1 q. assert (E : link t1 q q (l_in i) = mkt (S q) (t_init t) (t_edges t ++ [(p, l, q); (q, l_in i, q)]) (t_finals t)).
  { unfold link. destruct (in_dec _ _ _) as [K|K].
    - exfalso. cbn in K. rewrite in_app_iff in K. destruct K as [K|[K|[]]]; [apply (proj1 (proj2 W)) in K; unfold q in K; lia|]. assert (p = q) by congruence. unfold q in *. lia.
    - cbn. rewrite <- app_assoc. reflexivity. }
  split; [exact E|]. rewrite E. split; [split; cbn; auto|].
  - intros a m b [H|[H|[]]]; injection H as <- <- <-; unfold q in *; lia.
  - exists (fun a => a). intros a m b [H|[H|[]]]; injection H as <- <- <-; [intros; unfold q; lia|discriminate].
  - intros x o. apply loop_lang. unfold q. lia.
  - assert (K : forall m b, In (q, m, b) (t_edges t ++ [(p, l, q); (q, l_in i, q)]) -> m = l_in i /\ b = q).
    { intros m b H. rewrite in_app_iff in H. destruct H as [H|[H|[H|[]]]]; [apply (proj1 (proj2 W)) in H; unfold q in H; lia| |].
      - assert (p = q) by congruence. unfold q in *. lia.
      - injection H as <- <-. auto. }
    split.
    + intros m b H. cbn in H. destruct (K _ _ H) as [-> ->]. eauto.
    + intros j J. injection J as <-. unfold targets. cbn [t_edges]. rewrite flat_map_app. cbn [flat_map]. 
      rewrite (proj2 (Nat.eqb_neq p q)) by (unfold q; lia). rewrite Nat.eqb_refl. destruct (lab_eq_dec (l_in i) (l_in i)); [|congruence]. cbn.
      replace (flat_map _ (t_edges t)) with (@nil nat); [reflexivity|]. symmetry.
      assert (G : forall es, incl es (t_edges t) -> flat_map (fun e => match e with (a, m, b) => if a =? q then if lab_eq_dec m (l_in i) then [b] else [] else [] end) es = []).
      { induction es as [|[[a m] b] es IH]; intros I; [reflexivity|]. cbn [flat_map]. rewrite IH by (intros e1 He; apply I; right; exact He).
        assert (A := proj1 (proj2 W) a m b (I _ (or_introl eq_refl))). rewrite (proj2 (Nat.eqb_neq a q)) by (unfold q; lia). reflexivity. }
      apply G. apply incl_refl.
Qed.
Lemma free_label t p prev i : loops t p prev -> prev <> Some i -> forall b, ~ In (p, l_in i, b) (t_edges t).
Proof. intros [H _] N b K. destruct (H _ _ K) as (j & -> & E & _). unfold l_in in E. congruence. Qed.


Definition add_pieces (ps : list piece) (tp : trans * nat) : trans * nat := fold_left (fun tp c => add_piece c tp) ps tp.
Lemma add_pieces_app a b tp : add_pieces (a ++ b) tp = add_pieces b (add_pieces a tp).
Proof. apply fold_left_app. Qed.
Lemma add_pieces_cons c ps tp : add_pieces (c :: ps) tp = add_pieces ps (add_piece c tp).
Proof. reflexivity. Qed.
Lemma link_there t p q l : In (p, l, q) (t_edges t) -> link t p q l = t.
Proof. intros H. unfold link. destruct (in_dec _ _ _); [reflexivity|contradiction]. Qed.
Lemma swallow1 t p i : loops t p (Some i) -> insert1 t (l_in i) p = (t, p).
Proof. intros [_ H]. unfold insert1. rewrite (H i eq_refl). reflexivity. Qed.
Lemma add_pieces_frag ps : forall t p prev, wft t -> p < t_next t -> loops t p prev -> exists E prev',
  frag t p (fst (add_pieces ps (t, p))) (snd (add_pieces ps (t, p))) E (fun x o => o = [] /\ plang prev ps x) /\
  loops (fst (add_pieces ps (t, p))) (snd (add_pieces ps (t, p))) prev'.
Proof.
  induction ps as [|c ps IH]; intros t p prev W P Lo.
  - exists [], prev. split; [|exact Lo]. eapply frag_iff; [|apply frag_refl]. intros x o. unfold unit_l. cbn. tauto.
  - rewrite add_pieces_cons.
    assert (Go : forall t1 q E1 L1 prev1, add_piece c (t, p) = (t1, q) -> frag t p t1 q E1 L1 -> loops t1 q prev1 ->
      (forall x o, cat L1 (fun x o => o = [] /\ plang prev1 ps x) x o <-> o = [] /\ plang prev (c :: ps) x) ->
      exists E prev', frag t p (fst (add_pieces ps (add_piece c (t, p)))) (snd (add_pieces ps (add_piece c (t, p)))) E (fun x o => o = [] /\ plang prev (c :: ps) x) /\
        loops (fst (add_pieces ps (add_piece c (t, p)))) (snd (add_pieces ps (add_piece c (t, p)))) prev').
    { intros t1 q E1 L1 prev1 -> F Lo1 I. destruct (frag_wft _ _ _ _ _ _ W P F) as [W1 P1]. destruct (IH t1 q prev1 W1 P1 Lo1) as (E & prev' & F' & Lo').
      exists (E1 ++ E), prev'. split; [|exact Lo']. eapply frag_iff; [exact I|]. eapply frag_seq; eauto. }
    destruct c as [i|i|i]; cbn [add_piece plang] in *.
    + unfold add1. cbn [fst snd]. destruct (prev_dec prev i) as [->|N].
      * rewrite swallow1 by exact Lo. apply IH; assumption.
      * destruct (insert_new_frag t p (l_in i) W P) as [F S]. apply sink_loops in S. unfold add1 in Go. cbn [fst snd] in Go.
        rewrite insert1_free in * by (eapply free_label; eauto). eapply Go; [reflexivity|exact F|exact S|].
        intros x o. split.
        -- intros (x1 & x2 & o1 & o2 & -> & -> & [-> (a & -> & Ha)] & -> & H). split; [reflexivity|]. exists a, x2. auto.
        -- intros (-> & a & y & -> & Ha & H). exists [a], y, [], []. unfold in1. cbn. repeat split; auto. eauto.
    + unfold add_loop. destruct (prev_dec prev i) as [->|N].
      * rewrite swallow1 by exact Lo. rewrite link_there by (apply targets_in; rewrite (proj2 Lo i eq_refl); left; reflexivity). apply IH; assumption.
      * destruct (new_loop_frag t p (l_in i) i W P) as (E & F & S). unfold add_loop in Go. cbn [fst snd] in Go.
        rewrite insert1_free in * by (eapply free_label; eauto). unfold insert_new in *. cbn [fst snd] in *. eapply Go; [reflexivity|exact F|exact S|].
        intros x o. split.
        -- intros (x1 & x2 & o1 & o2 & -> & -> & (y1 & y2 & -> & [-> (a & -> & Ha)] & H2) & -> & H). split; [reflexivity|]. exists ([a] ++ y2), x2.
           repeat split; auto; [discriminate|]. constructor; assumption.
        -- intros (-> & y & z & -> & Ny & Ha & H). exists y, z, [], []. repeat split; auto. destruct y as [|a y]; [congruence|]. inversion Ha; subst. exists [a], y. repeat split; auto. exists a. auto.
    + destruct (new_loop_frag t p l_eps i W P) as (E & F & S). unfold insert_new in *. cbn [fst snd] in *. eapply Go; [reflexivity|exact F|exact S|].
      intros x o. split.
      * intros (x1 & x2 & o1 & o2 & -> & -> & (y1 & y2 & -> & [-> Hy] & H2) & -> & H). cbn in Hy. subst y1. split; [reflexivity|]. exists y2, x2. auto.
      * intros (-> & y & z & -> & Ha & H). exists y, z, [], []. repeat split; auto. exists [], y. repeat split; auto.
Qed.

(** ** a match *)
Section C.
Variable isupper : char -> bool.
Definition class_sym (c : char) : isym := if c =?c cSTAR then any_char else if c =?c cSP then IChar cSP else if isupper c then any_upper else any_lower.
Definition spec_pieces (s : str) : list piece := map (fun c => Plus (class_sym c)) s.
Definition lit_piece (c : char) : piece := if c =?c cSTAR then Plus any_char else One (IChar c).
Definition tag_piece (it : str) : list piece :=
  if str_eqb it [cPLUS] then [Plus any_tag] else if str_eqb it [cSTAR] then [Star any_tag] else if str_eqb it [cQM] then [One any_tag]
  else match it with [] => [] | _ => [One (ITag (cLT :: it ++ [cGT]))] end.
Definition slash : piece := One (IChar cSLASH).
Definition text_pieces (lit spec : option str) : list piece := if is_star (attr lit) then spec_pieces (attr spec) else map lit_piece (attr lit).
Definition match_pieces (m : cmatch) : list piece :=
  spec_pieces (attr (cm_srcsurf m)) ++ [slash] ++ spec_pieces (attr (cm_srclem m)) ++ [slash] ++ text_pieces (cm_lemma m) (cm_trglem m)
  ++ flat_map tag_piece (attr_tags (cm_tags m)) ++ [slash] ++ text_pieces (cm_surface m) (cm_trgsurf m).
Lemma spec_adds s : forall tp, caps_specifier isupper s tp = add_pieces (spec_pieces s) tp.
Proof.
  induction s as [|c s IH]; intros tp; [reflexivity|]. cbn [spec_pieces map]. rewrite add_pieces_cons. unfold caps_specifier. cbn [fold_left].
  fold (caps_specifier isupper s (spec_char isupper c tp)). rewrite IH. f_equal. unfold spec_char, class_sym, add_piece.
  destruct (c =?c cSTAR); [reflexivity|]. destruct (c =?c cSP); [reflexivity|]. destruct (isupper c); reflexivity.
Qed.
Lemma lit_adds s : forall tp, literal s tp = add_pieces (map lit_piece s) tp.
Proof.
  induction s as [|c s IH]; intros tp; [reflexivity|]. cbn [map]. rewrite add_pieces_cons. unfold literal. cbn [fold_left].
  fold (literal s (literal_char c tp)). rewrite IH. f_equal. unfold literal_char, lit_piece. destruct (c =?c cSTAR); reflexivity.
Qed.
Lemma tag_adds s : forall tp, tag_items s tp = add_pieces (flat_map tag_piece s) tp.
Proof.
  induction s as [|c s IH]; intros tp; [reflexivity|]. cbn [flat_map]. rewrite add_pieces_app. unfold tag_items. cbn [fold_left].
  fold (tag_items s (tag_item c tp)). rewrite IH. f_equal. unfold tag_item, tag_piece. 
  destruct (str_eqb c [cPLUS]); [reflexivity|]. destruct (str_eqb c [cSTAR]); [reflexivity|]. destruct (str_eqb c [cQM]); [reflexivity|]. destruct c; reflexivity.
Qed.
Definition match_ok (m : cmatch) : bool :=
  negb (negb (is_star (attr (cm_lemma m))) && negb (is_star (attr (cm_trglem m)))) && negb (negb (is_star (attr (cm_surface m))) && negb (is_star (attr (cm_trgsurf m)))).
Lemma compile_match_pieces m tp : compile_match isupper m tp =
  if match_ok m then
    let '(t, p) := add_pieces (match_pieces m) tp in let (t, p) := insert1 t l_bound p in
    match select_sym (cm_select m) with Some s => Some (insert1 t (l_out s) p) | None => None end
  else None.
Proof.
  unfold compile_match, match_ok. destruct (negb (is_star (attr (cm_lemma m))) && negb (is_star (attr (cm_trglem m)))); [reflexivity|].
  destruct (negb (is_star (attr (cm_surface m))) && negb (is_star (attr (cm_trgsurf m)))); [reflexivity|]. cbn [negb andb].
  unfold match_pieces, text_pieces. repeat rewrite add_pieces_app.
  rewrite !spec_adds. rewrite tag_adds. destruct (is_star (attr (cm_lemma m))), (is_star (attr (cm_surface m))); rewrite ?spec_adds, ?lit_adds;
    change (add1 (IChar cSLASH)) with (add_pieces [slash]); destruct (add_pieces _ _) as [t p] in |- *; reflexivity.
Qed.
(** the streams of a match: one word, ended by a boundary *)
Definition mlang (m : cmatch) : lang := fun x o => exists y b s, x = y ++ [b] /\ plang None (match_pieces m) y /\ In word_boundary b /\ select_sym (cm_select m) = Some s /\ o = [t_bound; s].
Lemma compile_match_frag m t p t' q : wft t -> p < t_next t -> sink t p -> compile_match isupper m (t, p) = Some (t', q) ->
  exists E, frag t p t' q E (mlang m) /\ sink t' q.
Proof.
  intros W P S C. rewrite compile_match_pieces in C. destruct (match_ok m); [|discriminate]. apply sink_loops in S.
  destruct (add_pieces_frag (match_pieces m) t p None W P S) as (E1 & prev & F1 & L1). destruct (add_pieces (match_pieces m) (t, p)) as [t1 p1]. cbn [fst snd] in *.
  destruct (frag_wft _ _ _ _ _ _ W P F1) as [W1 P1].
  rewrite insert1_free in C. 2:{ intros b K. destruct (proj1 L1 _ _ K) as (i & _ & K' & _). unfold l_bound, l_in in K'. discriminate. }
  destruct (insert_new_frag t1 p1 l_bound W1 P1) as [F2 S2]. unfold insert_new in C at 1. destruct (frag_wft _ _ _ _ _ _ W1 P1 F2) as [W2 P2].
  destruct (select_sym (cm_select m)) as [s|] eqn:Es; [|discriminate]. rewrite insert1_free in C by (intros b; apply S2).
  destruct (insert_new_frag _ _ (l_out s) W2 P2) as [F3 S3]. injection C as <- <-.
  eexists. split; [|exact S3]. eapply frag_iff; [|eapply frag_seq; [exact W|exact P|exact F1|eapply frag_seq; [exact W1|exact P1|exact F2|exact F3]]].
  intros x o. unfold mlang. split.
  - intros (x1 & x2 & o1 & o2 & -> & -> & (-> & H1) & y1 & y2 & u1 & u2 & -> & -> & [-> (b & -> & Hb)] & [-> Hy]). cbn in Hy. subst y2. cbn.
    exists x1, b, s. auto.
  - intros (y & b & s' & -> & H & Hb & Es' & ->). rewrite Es in Es'; injection Es' as <-. exists y, [b], [], [t_bound; s]. repeat split; auto.
    exists [b], [], [t_bound], [s]. unfold in1. cbn. repeat split; auto. eauto.
Qed.

(** ** alternatives *)
Definition alt_l (L1 L2 : lang) : lang := fun x o => L1 x o \/ L2 x o.
Lemma or_lang E E2 start s nx fin n0 n1 : start < n0 -> n0 <= fin -> fin < n1 -> n1 <= s -> n1 <= nx ->
  (forall a l b, In (a, l, b) E -> (a = start \/ n0 <= a < n1) /\ n0 <= b < n1) -> (forall l b, ~ In (fin, l, b) E) ->
  (forall a l b, In (a, l, b) E2 -> n1 <= a /\ n1 <= b) ->
  forall x o, run (E ++ [(start, l_eps, s)] ++ E2 ++ [(nx, l_eps, fin)]) start x o fin <-> run E start x o fin \/ run E2 s x o nx.
Proof.
  intros A B C D D' HE Hf H2 x o. set (E' := E ++ [(start, l_eps, s)] ++ E2 ++ [(nx, l_eps, fin)]).
  assert (HI : forall a l b, In (a, l, b) E' -> In (a, l, b) E \/ (a = start /\ l = l_eps /\ b = s) \/ In (a, l, b) E2 \/ (a = nx /\ l = l_eps /\ b = fin)).
  { intros a l b H. unfold E' in H. rewrite !in_app_iff in H. destruct H as [H|[[H|[]]|[H|[H|[]]]]]; auto; injection H as <- <- <-; tauto. }
  assert (Fin : forall x o r, run E' fin x o r -> x = [] /\ o = [] /\ r = fin).
  { intros x' o' r R. apply run_sink in R; [exact R|]. intros l b H. destruct (HI _ _ _ H) as [K|[(K & _)|[K|(K & _)]]]; [exact (Hf _ _ K)|lia|apply H2 in K; lia|lia]. }
  split.
  - intros R.
    assert (G : forall a x o r, run E' a x o r -> r = fin ->
      (n1 <= a -> run E2 a x o nx) /\ (n0 <= a < n1 -> run E a x o fin) /\ (a = start -> run E start x o fin \/ run E2 s x o nx)).
    { clear x o R. intros a x o r R. induction R as [a|a l b x o r H Hl R IH|a l i e b x o r H Hl Ha R IH]; intros ->.
      - repeat split; [lia|constructor|lia].
      - specialize (IH eq_refl). destruct IH as (I1 & I2 & I3). destruct (HI _ _ _ H) as [K|[(-> & -> & ->)|[K|(-> & -> & ->)]]].
        + destruct (HE _ _ _ K) as [K1 K2]. repeat split; intros Q; [lia|eapply run_eps; eauto|]. left. subst a. eapply run_eps; eauto.
        + repeat split; intros Q; [lia|lia|]. right. cbn. auto.
        + destruct (H2 _ _ _ K) as [K1 K2]. repeat split; intros Q; [eapply run_eps; eauto|lia|lia].
        + destruct (Fin _ _ _ R) as (-> & -> & _). repeat split; intros Q; [cbn; constructor|lia|lia].
      - specialize (IH eq_refl). destruct IH as (I1 & I2 & I3). destruct (HI _ _ _ H) as [K|[(-> & -> & ->)|[K|(-> & -> & ->)]]]; try discriminate.
        + destruct (HE _ _ _ K) as [K1 K2]. repeat split; intros Q; [lia|eapply run_in; eauto|]. left. subst a. eapply run_in; eauto.
        + destruct (H2 _ _ _ K) as [K1 K2]. repeat split; intros Q; [eapply run_in; eauto|lia|lia]. }
    apply (G _ _ _ _ R eq_refl). reflexivity.
  - intros [R|R].
    + eapply run_mono; [|exact R]. intros e He. unfold E'. rewrite in_app_iff. auto.
    + apply (run_eps E' start l_eps s x o fin); [unfold E'; rewrite !in_app_iff; right; left; left; reflexivity|reflexivity|].
      rewrite <- (app_nil_r x), <- (app_nil_r o). eapply run_app; [eapply run_mono; [|exact R]; intros e He; unfold E'; rewrite !in_app_iff; auto|].
      apply (run_eps E' nx l_eps fin [] [] fin); [unfold E'; rewrite !in_app_iff; right; right; right; left; reflexivity|reflexivity|constructor].
Qed.
Lemma or_acyclic E E2 start s nx fin n0 n1 : start < n0 -> n0 <= fin -> fin < n1 -> n1 <= s -> n1 <= nx ->
  (forall a l b, In (a, l, b) E -> (a = start \/ n0 <= a < n1) /\ n0 <= b < n1) -> (forall l b, ~ In (fin, l, b) E) ->
  (forall a l b, In (a, l, b) E2 -> n1 <= a /\ n1 <= b) ->
  acyclic E -> acyclic E2 -> acyclic (E ++ [(start, l_eps, s)] ++ E2 ++ [(nx, l_eps, fin)]).
Proof.
  intros A B C D D' HE Hf H2 [r1 A1] [r2 A2]. 
  exists (fun a => if a =? fin then S (r1 fin + S (r1 start) + r2 nx) else if a <? n1 then r1 a else S (r1 start) + r2 a).
  intros a l b H Hl. rewrite !in_app_iff in H. destruct H as [H|[[H|[]]|[H|[H|[]]]]].
  - specialize (A1 _ _ _ H Hl). destruct (HE _ _ _ H) as [K1 K2]. destruct (Nat.eqb_spec a fin) as [->|N]; [exfalso; exact (Hf _ _ H)|].
    rewrite (proj2 (Nat.ltb_lt a n1)) by lia. rewrite (proj2 (Nat.ltb_lt b n1)) by lia. destruct (Nat.eqb_spec b fin) as [->|N']; lia.
  - injection H as <- <- <-. rewrite (proj2 (Nat.eqb_neq start fin)), (proj2 (Nat.eqb_neq s fin)) by lia. rewrite (proj2 (Nat.ltb_lt start n1)), (proj2 (Nat.ltb_ge s n1)) by lia. lia.
  - specialize (A2 _ _ _ H Hl). destruct (H2 _ _ _ H) as [K1 K2]. rewrite (proj2 (Nat.eqb_neq a fin)), (proj2 (Nat.eqb_neq b fin)) by lia.
    rewrite (proj2 (Nat.ltb_ge a n1)), (proj2 (Nat.ltb_ge b n1)) by lia. lia.
  - injection H as <- <- <-. rewrite Nat.eqb_refl, (proj2 (Nat.eqb_neq nx fin)), (proj2 (Nat.ltb_ge nx n1)) by lia. lia.
Qed.
Lemma first_alt t start t2 nx E2 L2 : wft t -> start < t_next t ->
  frag (fst (insert_new t l_eps start)) (t_next t) t2 nx E2 L2 -> frag t start t2 nx ([(start, l_eps, t_next t)] ++ E2) L2.
Proof.
  intros W P F. destruct (insert_new_frag t start l_eps W P) as [F1 _]. eapply frag_iff; [|eapply frag_seq; eauto].
  intros x o. split; [|intros H; exists [], x, [], o; repeat split; auto]. intros (x1 & x2 & o1 & o2 & -> & -> & [-> H1] & H2). cbn in *. subst. exact H2.
Qed.
Lemma more_alt t0 start t fin E L t2 nx E2 L2 : wft t0 -> start < t_next t0 -> frag t0 start t fin E L -> fin <> start -> sink t fin ->
  frag (fst (insert_new t l_eps start)) (t_next t) t2 nx E2 L2 -> sink t2 nx ->
  frag t0 start (link t2 nx fin l_eps) fin (E ++ [(start, l_eps, t_next t)] ++ E2 ++ [(nx, l_eps, fin)]) (alt_l L L2) /\ sink (link t2 nx fin l_eps) fin.
Proof.
  intros W P F Nf Sf F2 S2. destruct (frag_wft _ _ _ _ _ _ W P F) as [W1 P1].
  pose proof (f_next _ _ _ _ _ _ F) as N1. pose proof (f_next _ _ _ _ _ _ F2) as N2. cbn in N2.
  destruct (f_end _ _ _ _ _ _ F) as [X|Fr]; [congruence|].
  assert (Lk : link t2 nx fin l_eps = mkt (t_next t2) (t_init t2) (t_edges t2 ++ [(nx, l_eps, fin)]) (t_finals t2)).
  { unfold link. destruct (in_dec _ _ _) as [K|K]; [exfalso; exact (S2 _ _ K)|reflexivity]. }
  assert (Ed : t_edges t2 = t_edges t0 ++ E ++ [(start, l_eps, t_next t)] ++ E2).
  { rewrite (f_edges _ _ _ _ _ _ F2). cbn [insert_new fst t_edges]. rewrite (f_edges _ _ _ _ _ _ F), <- !app_assoc. reflexivity. }
  assert (R1 : forall a l b, In (a, l, b) E -> (a = start \/ t_next t0 <= a < t_next t) /\ t_next t0 <= b < t_next t) by (apply (f_range _ _ _ _ _ _ F)).
  assert (R2 : forall a l b, In (a, l, b) E2 -> t_next t <= a /\ t_next t <= b) by (intros a l b H; destruct (f_range _ _ _ _ _ _ F2 _ _ _ H) as [K1 K2]; cbn in *; lia).
  assert (R2' : forall a l b, In (a, l, b) E2 -> a < t_next t2 /\ b < t_next t2) by (intros a l b H; destruct (f_range _ _ _ _ _ _ F2 _ _ _ H) as [K1 K2]; cbn in *; lia).
  assert (Nx : t_next t <= nx < t_next t2) by (destruct (f_end _ _ _ _ _ _ F2) as [->|K]; cbn in *; lia).
  assert (Sf' : forall l b, ~ In (fin, l, b) E).
  { intros l b H. apply (Sf l b). rewrite (f_edges _ _ _ _ _ _ F), in_app_iff. auto. }
  rewrite Lk. split; [split; cbn [t_edges t_init t_finals t_next]|].
  - rewrite Ed, <- !app_assoc. reflexivity.
  - rewrite (f_init _ _ _ _ _ _ F2). cbn. apply (f_init _ _ _ _ _ _ F).
  - rewrite (f_finals _ _ _ _ _ _ F2). cbn. apply (f_finals _ _ _ _ _ _ F).
  - lia.
  - intros a l b H. rewrite !in_app_iff in H. destruct H as [H|[[H|[]]|[H|[H|[]]]]].
    + destruct (R1 _ _ _ H) as [K1 K2]. lia.
    + injection H as <- <- <-. lia.
    + pose proof (R2 _ _ _ H). pose proof (R2' _ _ _ H). lia.
    + injection H as <- <- <-. lia.
  - lia.
  - eapply or_acyclic with (n0 := t_next t0) (n1 := t_next t); try lia; try assumption; [apply (f_acyc _ _ _ _ _ _ F)|apply (f_acyc _ _ _ _ _ _ F2)].
  - intros x o. rewrite or_lang with (n0 := t_next t0) (n1 := t_next t); try lia; try assumption.
    rewrite (f_lang _ _ _ _ _ _ F), (f_lang _ _ _ _ _ _ F2). reflexivity.
  - intros l b H. cbn [t_edges] in H. rewrite Ed, !in_app_iff in H. destruct H as [[H|[H|[[H|[]]|H]]]|[H|[]]].
    + apply (proj1 (proj2 W)) in H. lia.
    + exact (Sf' _ _ H).
    + injection H as H _ _. lia.
    + apply R2 in H. lia.
    + injection H as H _ _. lia.
Qed.

(** ** inserting a transducer *)
Definition one_final (c : trans) (f : nat) (L : lang) : Prop :=
  wft c /\ t_finals c = [f] /\ acyclic (t_edges c) /\ sink c f /\ (forall x o, run (t_edges c) (t_init c) x o f <-> L x o).
Lemma shift_run b E p x o q : run E p x o q -> run (map (shift b) E) (b + p) x o (b + q).
Proof.
  intros R. induction R as [p|p l q x o r H Hl R IH|p l i a q x o r H Hl Ha R IH]; [constructor| |].
  - eapply run_eps; [|exact Hl|exact IH]. apply (in_map (shift b)) in H. exact H.
  - eapply run_in; [|exact Hl|exact Ha|exact IH]. apply (in_map (shift b)) in H. exact H.
Qed.
Lemma unshift_run b E p' x o q' : run (map (shift b) E) p' x o q' -> forall p, p' = b + p -> exists q, q' = b + q /\ run E p x o q.
Proof.
  intros R. induction R as [p'|p' l m x o r H Hl R IH|p' l i a m x o r H Hl Ha R IH]; intros p ->; [exists p; split; [reflexivity|constructor]| |];
    apply in_map_iff in H; destruct H as ([[a' l'] b'] & H & Hi); cbn in H; injection H as H1 <- <-; assert (a' = p) by lia; subst a';
    destruct (IH _ eq_refl) as (q & -> & R'); exists q; (split; [reflexivity|]); [eapply run_eps|eapply run_in]; eauto.
Qed.
Lemma insert_trans_frag t p c f L : wft t -> p < t_next t -> one_final c f L -> exists t' q E, insert_trans t p c = Some (t', q) /\ frag t p t' q E L /\ sink t' q.
Proof.
  intros W P (Wc & Hf & Ac & Sc & Lc). unfold insert_trans, join_finals. rewrite Hf. set (b := t_next t).
  destruct Wc as (I1 & I2 & I3). rewrite Hf in I3. inversion I3 as [|? ? I4 _]; subst.
  do 3 eexists. split; [reflexivity|].
  assert (Rg : forall a l d, In (a, l, d) (map (shift b) (t_edges c)) -> b <= a < b + t_next c /\ b <= d < b + t_next c).
  { intros a l d H. apply in_map_iff in H. destruct H as ([[a' l'] d'] & H & Hi). cbn in H. injection H as <- <- <-. destruct (I2 _ _ _ Hi). lia. }
  split; [split; cbn [t_edges t_init t_finals t_next]|].
  - reflexivity.
  - reflexivity.
  - reflexivity.
  - fold b. lia.
  - intros a l d [H|H]; [injection H as <- <- <-; fold b; lia|]. destruct (Rg _ _ _ H). fold b. lia.
  - right. fold b. lia.
  - destruct Ac as [rk Ac]. exists (fun a => if a <? b then 0 else S (rk (a - b))). intros a l d [H|H] Hl.
    + injection H as <- <- <-. rewrite (proj2 (Nat.ltb_lt p b)), (proj2 (Nat.ltb_ge _ b)) by (unfold b in *; lia). lia.
    + apply in_map_iff in H. destruct H as ([[a' l'] d'] & H & Hi). cbn in H. injection H as <- <- <-. rewrite !(proj2 (Nat.ltb_ge _ b)) by lia.
      specialize (Ac _ _ _ Hi Hl). replace (b + a' - b) with a' by lia. replace (b + d' - b) with d' by lia. lia.
  - intros x o. rewrite <- Lc. split.
    + intros R. inversion R as [? E1 E2 E3 E4|p' l' q' x' o' r' H Hl R' E1 E2 E3 E4|p' l' i a q' x' o' r' H Hl Ha R' E1 E2 E3 E4]; subst; [unfold b in *; lia| |].
      * destruct H as [H|H]; [|apply Rg in H; unfold b in *; lia]. injection H as <- <-. cbn [outs l_eps snd app].
        assert (G : forall a x o r, run ((p, l_eps, b + t_init c) :: map (shift b) (t_edges c)) a x o r -> b <= a -> run (map (shift b) (t_edges c)) a x o r).
        { clear - P Rg. intros a x o r R. induction R as [a|a l q x o r H Hl R IH|a l i e q x o r H Hl Ha R IH]; intros B; [constructor| |];
            (destruct H as [H|H]; [injection H as H _ _; unfold b in *; lia|]); destruct (Rg _ _ _ H); [eapply run_eps|eapply run_in]; eauto; apply IH; lia. }
        apply G in R'; [|lia]. destruct (unshift_run _ _ _ _ _ _ R' _ eq_refl) as (q & E & R2). assert (q = f) by lia. subst q. exact R2.
      * destruct H as [H|H]; [injection H as <- <-; discriminate|apply Rg in H; unfold b in *; lia].
    + intros R. apply (run_eps _ p l_eps (b + t_init c) x o); [left; reflexivity|reflexivity|]. eapply run_mono; [|apply shift_run; exact R]. intros e He. right. exact He.
  - intros l d H. cbn [t_edges] in H. rewrite in_app_iff in H. destruct H as [H|[H|H]].
    + apply (proj1 (proj2 W)) in H. unfold b in *. lia.
    + injection H as H _ _. unfold b in *. lia.
    + apply in_map_iff in H. destruct H as ([[a' l'] d'] & H & Hi). cbn in H. injection H as H1 <- <-. assert (a' = f) by lia. subst a'. exact (Sc _ _ Hi).
Qed.
Fixpoint pow (L : lang) (n : nat) : lang := match n with 0 => unit_l | S n => cat L (pow L n) end.
Lemma insert_times_frag c f L n : one_final c f L -> forall t p, wft t -> p < t_next t -> sink t p ->
  exists t' q E, insert_times n c (t, p) = Some (t', q) /\ frag t p t' q E (pow L n) /\ sink t' q.
Proof.
  intros O. induction n as [|n IH]; intros t p W P S.
  - exists t, p, []. split; [reflexivity|]. split; [apply frag_refl|exact S].
  - cbn [insert_times fst snd]. destruct (insert_trans_frag t p c f L W P O) as (t1 & q1 & E1 & -> & F1 & S1).
    destruct (frag_wft _ _ _ _ _ _ W P F1) as [W1 P1]. destruct (IH t1 q1 W1 P1 S1) as (t2 & q2 & E2 & -> & F2 & S2).
    exists t2, q2, (E1 ++ E2). split; [reflexivity|]. split; [|exact S2]. eapply frag_seq; eauto.
Qed.
Lemma optional_final c f L : one_final c f L -> exists c', optional c = Some c' /\ one_final c' (S (t_next c)) (alt_l L unit_l).
Proof.
  intros ((I1 & I2 & I3) & Hf & Ac & Sc & Lc). unfold optional, join_finals. rewrite Hf. eexists. split; [reflexivity|]. set (n := t_next c) in *.
  rewrite Hf in I3. inversion I3 as [|? ? I4 _]; subst. set (E' := t_edges c ++ _).
  assert (HI : forall a l b, In (a, l, b) E' -> In (a, l, b) (t_edges c) \/ (l = l_eps /\ ((a = n /\ b = t_init c) \/ (a = f /\ b = S n) \/ (a = n /\ b = S n)))).
  { intros a l b H. unfold E' in H. rewrite in_app_iff in H. destruct H as [H|[H|[H|[H|[]]]]]; auto; injection H as <- <- <-; tauto. }
  assert (Sn : forall l b, ~ In (S n, l, b) E').
  { intros l b H. destruct (HI _ _ _ H) as [K|(_ & [[K _]|[[K _]|[K _]]])]; [apply I2 in K|..]; lia. }
  repeat split; cbn [t_next t_init t_edges t_finals]; auto.
  - cbn [t_edges] in H. destruct (HI _ _ _ H) as [K|(_ & [[-> ->]|[[-> ->]|[-> ->]]])]; [destruct (I2 _ _ _ K); lia|lia..].
  - cbn [t_edges] in H. destruct (HI _ _ _ H) as [K|(_ & [[-> ->]|[[-> ->]|[-> ->]]])]; [destruct (I2 _ _ _ K); lia|lia..].
  - destruct Ac as [rk Ac]. exists (fun a => if a =? n then 0 else if a =? S n then S (S (rk f)) else S (rk a)). intros a l b H Hl.
    destruct (HI _ _ _ H) as [K|(_ & [[-> ->]|[[-> ->]|[-> ->]]])].
    + destruct (I2 _ _ _ K). rewrite !(proj2 (Nat.eqb_neq _ _)) by lia. specialize (Ac _ _ _ K Hl). lia.
    + rewrite Nat.eqb_refl. rewrite !(proj2 (Nat.eqb_neq (t_init c) _)) by lia. lia.
    + rewrite Nat.eqb_refl. rewrite !(proj2 (Nat.eqb_neq f _)) by lia. rewrite (proj2 (Nat.eqb_neq (S n) n)) by lia. lia.
    + rewrite !Nat.eqb_refl. rewrite (proj2 (Nat.eqb_neq (S n) n)) by lia. lia.
  - intros R.
    assert (G : forall a x o r, run E' a x o r -> r = S n -> a < n -> run (t_edges c) a x o f).
    { clear - HI I2 I4 Sn Sc. intros a x o r R. induction R as [a|a l b x o r H Hl R IH|a l i e b x o r H Hl Ha R IH]; intros -> B; [lia| |].
      - destruct (HI _ _ _ H) as [K|(-> & [[-> ->]|[[-> ->]|[-> ->]]])]; [|lia| |lia].
        + eapply run_eps; eauto. apply IH; [reflexivity|]. apply (I2 _ _ _ K).
        + apply run_sink in R; [|exact Sn]. destruct R as (-> & -> & _). constructor.
      - destruct (HI _ _ _ H) as [K|(-> & [[-> ->]|[[-> ->]|[-> ->]]])]; try discriminate. eapply run_in; eauto. apply IH; [reflexivity|]. apply (I2 _ _ _ K). }
    inversion R as [? E1 E2 E3 E4|p' l' q' x' o' r' H Hl R' E1 E2 E3 E4|p' l' i a q' x' o' r' H Hl Ha R' E1 E2 E3 E4]; subst; [lia| |].
    + destruct (HI _ _ _ H) as [K|(-> & [[_ ->]|[[K ->]|[_ ->]]])]; [apply I2 in K; lia| |lia|].
      * left. apply Lc. cbn. eapply G; eauto.
      * right. apply run_sink in R'; [|exact Sn]. destruct R' as (-> & -> & _). split; reflexivity.
    + destruct (HI _ _ _ H) as [K|(-> & _)]; [apply I2 in K; lia|discriminate].
  - intros [H|[-> ->]].
    + apply Lc in H. apply (run_eps E' n l_eps (t_init c) x o); [unfold E'; rewrite in_app_iff; right; left; reflexivity|reflexivity|].
      rewrite <- (app_nil_r x), <- (app_nil_r o). eapply run_app; [eapply run_mono; [|exact H]; intros e He; unfold E'; rewrite in_app_iff; auto|].
      apply (run_eps E' f l_eps (S n) [] []); [unfold E'; rewrite in_app_iff; right; right; left; reflexivity|reflexivity|constructor].
    + apply (run_eps E' n l_eps (S n) [] []); [unfold E'; rewrite in_app_iff; right; right; right; left; reflexivity|reflexivity|constructor].
Qed.

(** ** nodes *)
Fixpoint seql (l : list lang) : lang := match l with [] => unit_l | L :: l => cat L (seql l) end.
Definition rep (L : lang) (a b : Z) : lang := fun x o => exists k, (a <= Z.of_nat k <= b)%Z /\ pow L k x o.
Fixpoint slang (n : cnode) : lang :=
  match n with
  | NMatch m => mlang m
  | NBegin => fun x o => (exists a, x = [a] /\ In null_boundary a) /\ o = []
  | NOr l => match l with [] => unit_l | _ => fun x o => Exists (fun L => L x o) (map slang l) end
  | NRepeat a b l => rep (seql (map slang l)) a b
  end.
Section Ind.
Variable P : cnode -> Prop.
Hypothesis HM : forall m, P (NMatch m).
Hypothesis HB : P NBegin.
Hypothesis HO : forall l, Forall P l -> P (NOr l).
Hypothesis HR : forall a b l, Forall P l -> P (NRepeat a b l).
Fixpoint cnode_rec' (n : cnode) : P n :=
  match n with
  | NMatch m => HM m
  | NBegin => HB
  | NOr l => HO l ((fix go l : Forall P l := match l with [] => Forall_nil _ | n :: l => Forall_cons _ (cnode_rec' n) (go l) end) l)
  | NRepeat a b l => HR a b l ((fix go l : Forall P l := match l with [] => Forall_nil _ | n :: l => Forall_cons _ (cnode_rec' n) (go l) end) l)
  end.
End Ind.
Fixpoint alts_loop (start : nat) (l : list cnode) (t : trans) (fin : nat) : option (trans * nat) :=
  match l with
  | [] => Some (t, fin)
  | n :: l => match compile_node isupper n (insert_new t l_eps start) with
              | None => None
              | Some (t, next) => if fin =? start then alts_loop start l t next else alts_loop start l (link t next fin l_eps) fin
              end
  end.
Lemma compile_or l tp : compile_node isupper (NOr l) tp = alts_loop (snd tp) l (fst tp) (snd tp).
Proof.
  assert (S : forall start l t fin, (fix alts l (t : trans) (fin : nat) :=
         match l with
         | [] => Some (t, fin)
         | n :: l => match compile_node isupper n (insert_new t l_eps start) with
                     | None => None
                     | Some (t, next) => if fin =? start then alts l t next else alts l (link t next fin l_eps) fin
                     end
         end) l t fin = alts_loop start l t fin).
  { clear. intros start. induction l as [|n l IH]; intros t fin; cbn [alts_loop]; [reflexivity|]. destruct (compile_node isupper n (insert_new t l_eps start)) as [[t2 nx]|]; [|reflexivity].
    destruct (fin =? start); apply IH. }
  apply S.
Qed.
Lemma compile_repeat a b l tp : compile_node isupper (NRepeat a b l) tp =
      if ((a <? 0) || (b <? 0))%Z then None
      else if (a >? b)%Z then None
      else match compile_seq isupper l (no_trans, 0) with
           | None => None
           | Some (c, f) =>
               let c := set_final c f in
               match insert_times (Z.to_nat a) c tp with
               | None => None
               | Some tp => match optional c with
                            | None => None
                            | Some c => insert_times (Z.to_nat (b - a)) c tp
                            end
               end
           end.
Proof.
  assert (S : forall l tp, (fix seq l tp := match l with [] => Some tp | n :: l => match compile_node isupper n tp with Some tp => seq l tp | None => None end end) l tp = compile_seq isupper l tp).
  { clear. induction l as [|n l IH]; intros tp; cbn [compile_seq]; [reflexivity|]. destruct (compile_node isupper n tp); [apply IH|reflexivity]. }
  cbn [compile_node]. rewrite S. reflexivity.
Qed.
Definition node_ok (n : cnode) : Prop := forall t p t' q, wft t -> p < t_next t -> sink t p -> compile_node isupper n (t, p) = Some (t', q) ->
  exists E, frag t p t' q E (slang n) /\ sink t' q.
Lemma seq_frag l : Forall node_ok l -> forall t p t' q, wft t -> p < t_next t -> sink t p -> compile_seq isupper l (t, p) = Some (t', q) ->
  exists E, frag t p t' q E (seql (map slang l)) /\ sink t' q.
Proof.
  intros F. induction F as [|n l Hn F IH]; intros t p t' q W P S C; cbn [compile_seq] in C.
  - injection C as <- <-. exists []. split; [apply frag_refl|exact S].
  - destruct (compile_node isupper n (t, p)) as [[t1 q1]|] eqn:C1; [|discriminate]. destruct (Hn _ _ _ _ W P S C1) as (E1 & F1 & S1).
    destruct (frag_wft _ _ _ _ _ _ W P F1) as [W1 P1]. destruct (IH _ _ _ _ W1 P1 S1 C) as (E2 & F2 & S2).
    exists (E1 ++ E2). split; [|exact S2]. cbn [map seql]. eapply frag_seq; eauto.
Qed.
Lemma alts_frag l : Forall node_ok l -> forall t0 start t fin E L t' q, wft t0 -> start < t_next t0 -> frag t0 start t fin E L -> fin <> start -> sink t fin ->
  alts_loop start l t fin = Some (t', q) -> exists E', frag t0 start t' q E' (fun x o => L x o \/ Exists (fun L => L x o) (map slang l)) /\ sink t' q.
Proof.
  intros F. induction F as [|n l Hn F IH]; intros t0 start t fin E L t' q W P Fr N S C; cbn [alts_loop] in C.
  - injection C as <- <-. exists E. split; [|exact S]. eapply frag_iff; [|exact Fr]. intros x o. cbn. rewrite Exists_nil. tauto.
  - destruct (frag_wft _ _ _ _ _ _ W P Fr) as [W1 P1]. assert (Ps : start < t_next t) by (pose proof (f_next _ _ _ _ _ _ Fr); lia).
    destruct (insert_new_frag t start l_eps W1 Ps) as [Fn Sn]. destruct (frag_wft _ _ _ _ _ _ W1 Ps Fn) as [Wn Pn].
    destruct (compile_node isupper n (insert_new t l_eps start)) as [[t2 nx]|] eqn:C1; [|discriminate].
    destruct (Hn _ _ _ _ Wn Pn Sn C1) as (E2 & F2 & S2). rewrite (proj2 (Nat.eqb_neq fin start)) in C by exact N.
    destruct (more_alt _ _ _ _ _ _ _ _ _ _ W P Fr N S F2 S2) as [F3 S3].
    destruct (IH _ _ _ _ _ _ _ _ W P F3 N S3 C) as (E' & F' & S'). exists E'. split; [|exact S']. eapply frag_iff; [|exact F'].
    intros x o. cbn [map]. rewrite Exists_cons. unfold alt_l. tauto.
Qed.

Lemma no_trans_wf : wft no_trans.
Proof. repeat split; cbn; [lia|contradiction|contradiction|constructor]. Qed.
Lemma all_nodes : forall n, node_ok n.
Proof.
  apply cnode_rec'.
  - intros m t p t' q W P S C. exact (compile_match_frag m t p t' q W P S C).
  - intros t p t' q W P S C. cbn [compile_node] in C. unfold add1 in C. cbn [fst snd] in C. rewrite insert1_free in C by (intros b; apply S).
    destruct (insert_new_frag t p (l_in null_boundary) W P) as [F Sn]. injection C as <- <-. eexists. split; [|exact Sn]. eapply frag_iff; [|exact F].
    intros x o. cbn. unfold in1. cbn. tauto.
  - intros l F t p t' q W P S C. rewrite compile_or in C. cbn [fst snd] in C. destruct F as [|n l Hn F]; cbn [alts_loop] in C.
    + injection C as <- <-. exists []. split; [apply frag_refl|exact S].
    + destruct (insert_new_frag t p l_eps W P) as [Fn Sn]. destruct (frag_wft _ _ _ _ _ _ W P Fn) as [Wn Pn].
      destruct (compile_node isupper n (insert_new t l_eps p)) as [[t2 nx]|] eqn:C1; [|discriminate].
      destruct (Hn _ _ _ _ Wn Pn Sn C1) as (E2 & F2 & S2). rewrite Nat.eqb_refl in C.
      assert (N : nx <> p). { pose proof (f_end _ _ _ _ _ _ F2) as K. cbn in K. lia. }
      apply (first_alt t p t2 nx E2 _ W P) in F2. destruct (alts_frag l F _ _ _ _ _ _ _ _ W P F2 N S2 C) as (E' & F' & S').
      exists E'. split; [|exact S']. eapply frag_iff; [|exact F']. intros x o. cbn [slang map]. rewrite Exists_cons. tauto.
  - intros a b l F t p t' q W P S C. rewrite compile_repeat in C.
    destruct ((a <? 0) || (b <? 0))%Z eqn:C1; [discriminate|]. destruct (a >? b)%Z eqn:C2; [discriminate|].
    destruct (compile_seq isupper l (no_trans, 0)) as [[c f]|] eqn:C3; [|discriminate].
    apply (seq_frag l F) in C3; [|exact no_trans_wf|cbn; lia|intros m d []]. destruct C3 as (Ec & Fc & Sc).
    assert (W0 : 0 < t_next no_trans) by (cbn; lia). destruct (frag_wft _ _ _ _ _ _ no_trans_wf W0 Fc) as [Wc Pc].
    assert (Sf : set_final c f = mkt (t_next c) (t_init c) (t_edges c) [f]).
    { unfold set_final. rewrite (f_finals _ _ _ _ _ _ Fc). reflexivity. }
    assert (O : one_final (set_final c f) f (seql (map slang l))).
    { rewrite Sf. destruct Wc as (I1 & I2 & I3). split; [split; [exact I1|split; [exact I2|constructor; [exact Pc|constructor]]]|]. cbn [t_finals t_edges t_init].
      pose proof (f_edges _ _ _ _ _ _ Fc) as Ee. cbn in Ee. rewrite (f_init _ _ _ _ _ _ Fc). cbn [t_init no_trans]. split; [reflexivity|]. split; [rewrite Ee; apply (f_acyc _ _ _ _ _ _ Fc)|]. split; [exact Sc|].
      rewrite Ee. apply (f_lang _ _ _ _ _ _ Fc). }
    cbv zeta in C. destruct (insert_times_frag _ _ _ (Z.to_nat a) O t p W P S) as (t1 & q1 & E1 & H1 & F1 & S1). rewrite H1 in C.
    destruct (optional_final _ _ _ O) as (c' & H2 & O'). rewrite H2 in C. destruct (frag_wft _ _ _ _ _ _ W P F1) as [W1 P1].
    destruct (insert_times_frag _ _ _ (Z.to_nat (b - a)) O' t1 q1 W1 P1 S1) as (t2 & q2 & E2 & H3 & F2 & S2). rewrite H3 in C. injection C as <- <-.
    exists (E1 ++ E2). split; [|exact S2]. eapply frag_iff; [|eapply frag_seq; eauto].
    apply Bool.orb_false_iff in C1. destruct C1 as [Ca Cb]. apply Z.ltb_ge in Ca. apply Z.ltb_ge in Cb. rewrite Z.gtb_ltb in C2. apply Z.ltb_ge in C2.
    assert (Pa : forall L i j x o, pow L (i + j) x o <-> cat (pow L i) (pow L j) x o).
    { clear. intros L i. induction i as [|i IH]; intros j x o; cbn [Nat.add pow].
      - split; [intros H; exists [], x, [], o; repeat split; auto|]. intros (x1 & x2 & o1 & o2 & -> & -> & [-> ->] & H). exact H.
      - split.
        + intros (x1 & x2 & o1 & o2 & -> & -> & H1 & H2). apply IH in H2. destruct H2 as (y1 & y2 & u1 & u2 & -> & -> & H3 & H4).
          exists (x1 ++ y1), y2, (o1 ++ u1), u2. rewrite !app_assoc. repeat split; auto. exists x1, y1, o1, u1. auto.
        + intros (x1 & x2 & o1 & o2 & -> & -> & (y1 & y2 & u1 & u2 & -> & -> & H3 & H4) & H2). exists y1, (y2 ++ x2), u1, (u2 ++ o2). rewrite !app_assoc. repeat split; auto.
          apply IH. exists y2, x2, u2, o2. auto. }
    assert (Po : forall L j x o, pow (alt_l L unit_l) j x o <-> exists k, k <= j /\ pow L k x o).
    { clear. intros L. induction j as [|j IH]; intros x o; cbn [pow].
      - split; [intros H; exists 0; split; [lia|exact H]|]. intros (k & K & H). assert (k = 0) by lia. subst k. exact H.
      - split.
        + intros (x1 & x2 & o1 & o2 & -> & -> & H1 & H2). apply IH in H2. destruct H2 as (k & K & H2). destruct H1 as [H1|[-> ->]].
          * exists (S k). split; [lia|]. exists x1, x2, o1, o2. auto.
          * exists k. split; [lia|exact H2].
        + intros (k & K & H). destruct k as [|k].
          * exists [], x, [], o. repeat split; auto; [right; split; reflexivity|]. apply IH. exists 0. split; [lia|exact H].
          * destruct H as (x1 & x2 & o1 & o2 & -> & -> & H1 & H2). exists x1, x2, o1, o2. repeat split; auto; [left; exact H1|]. apply IH. exists k. split; [lia|exact H2]. }
    intros x o. cbn [slang]. unfold rep. split.
    + intros (x1 & x2 & o1 & o2 & -> & -> & G1 & G2). apply Po in G2. destruct G2 as (k & K & G2). exists (Z.to_nat a + k). split; [lia|]. apply Pa. exists x1, x2, o1, o2. auto.
    + intros (k & K & G). replace k with (Z.to_nat a + (k - Z.to_nat a)) in G by lia. apply Pa in G. destruct G as (x1 & x2 & o1 & o2 & -> & -> & G1 & G2).
      exists x1, x2, o1, o2. repeat split; auto. apply Po. exists (k - Z.to_nat a). split; [lia|exact G2].
Qed.

(** ** the rules *)
Definition rlang (i : nat) (r : list cnode) : lang := fun x o => exists y b o', x = y ++ [b] /\ In word_boundary b /\ seql (map slang r) y o' /\ o = o' ++ [t_bound; rule_id i].
Lemma compile_rule_frag i r t t' : wft t -> t_init t = 0 -> compile_rule isupper i r t = Some t' ->
  exists t1 f E, frag t 0 t1 f E (rlang i r) /\ sink t1 f /\ t_next t <= f /\ t' = mkt (t_next t1) (t_init t1) (t_edges t1) (t_finals t1 ++ [f]).
Proof.
  intros W I C. unfold compile_rule in C. rewrite I in C. assert (P : 0 < t_next t) by (destruct W as (K & _); lia).
  destruct (insert_new_frag t 0 l_eps W P) as [F0 S0]. destruct (frag_wft _ _ _ _ _ _ W P F0) as [W0 P0].
  destruct (compile_seq isupper r (insert_new t l_eps 0)) as [[t1 p1]|] eqn:C1; [|discriminate].
  apply (seq_frag r) in C1; [|apply Forall_forall; intros n _; apply all_nodes|exact W0|exact P0|exact S0]. destruct C1 as (E1 & F1 & S1).
  destruct (frag_wft _ _ _ _ _ _ W0 P0 F1) as [W1 P1]. rewrite insert1_free in C by (intros b; apply S1).
  destruct (insert_new_frag t1 p1 l_bound W1 P1) as [F2 S2]. destruct (frag_wft _ _ _ _ _ _ W1 P1 F2) as [W2 P2]. unfold insert_new in C at 1.
  rewrite insert1_free in C by (intros b; apply S2). destruct (insert_new_frag _ _ (l_out (rule_id i)) W2 P2) as [F3 S3]. destruct (frag_wft _ _ _ _ _ _ W2 P2 F3) as [W3 P3].
  cbn [insert_new fst snd t_next] in C. injection C as <-.
  assert (F : frag t 0 _ _ _ _) by (eapply frag_seq; [exact W|exact P|exact F0|eapply frag_seq; [exact W0|exact P0|exact F1|eapply frag_seq; [exact W1|exact P1|exact F2|exact F3]]]).
  pose proof (f_next _ _ _ _ _ _ F1) as N1. cbn in N1.
  do 3 eexists. split; [eapply frag_iff; [|exact F]|].
  - intros x o. split.
    + intros (x1 & x2 & o1 & o2 & -> & -> & [-> H0] & y1 & y2 & u1 & u2 & -> & -> & H1 & z1 & z2 & v1 & v2 & -> & -> & [-> (b & -> & Hb)] & [-> H3]). cbn in H0, H3. subst x1 z2. cbn.
      exists y1, b, u1. auto.
    + intros (y & b & o' & -> & Hb & H & ->). exists [], (y ++ [b]), [], (o' ++ [t_bound; rule_id i]). repeat split; auto.
      exists y, [b], o', [t_bound; rule_id i]. repeat split; auto. exists [b], [], [t_bound], [rule_id i]. unfold in1. cbn. repeat split; auto. eauto.
  - split; [exact S3|]. split; [cbn; lia|]. unfold set_final. cbn [t_finals t_next t_init t_edges insert_new fst]. destruct (in_dec _ _ _) as [K|K]; [|reflexivity].
    exfalso. pose proof (f_finals _ _ _ _ _ _ F) as Ff. cbn in Ff. rewrite Ff in K. destruct W as (_ & _ & Wf). rewrite Forall_forall in Wf. apply Wf in K. lia.
Qed.
(** the machine of all the rules *)
Definition machine (t : trans) (Ls : list lang) : Prop :=
  wft t /\ t_init t = 0 /\ (forall a l b, In (a, l, b) (t_edges t) -> 0 < b) /\ acyclic (t_edges t) /\ Forall (fun f => 0 < f) (t_finals t) /\
  (forall x o, (exists f, In f (t_finals t) /\ run (t_edges t) 0 x o f) <-> Exists (fun L => L x o) Ls).
Lemma add_rule_machine t i r t' Ls : machine t Ls -> compile_rule isupper i r t = Some t' -> machine t' (Ls ++ [rlang i r]).
Proof.
  intros (W & I & Z & A & Fp & L) C. destruct (compile_rule_frag i r t t' W I C) as (t1 & f & E & F & S & Nf & ->).
  assert (P : 0 < t_next t) by (destruct W as (K & _); lia). destruct (frag_wft _ _ _ _ _ _ W P F) as [W1 P1].
  pose proof (f_next _ _ _ _ _ _ F) as N1.
  assert (B2 : forall a l b, In (a, l, b) E -> (a = 0 \/ t_next t <= a) /\ t_next t <= b) by (intros a l b H; destruct (f_range _ _ _ _ _ _ F _ _ _ H) as [K1 K2]; lia).
  destruct W1 as (J1 & J2 & J3). unfold machine, wft. cbn [t_next t_init t_edges t_finals].
  assert (Ed := f_edges _ _ _ _ _ _ F). assert (Ff := f_finals _ _ _ _ _ _ F).
  split; [split; [exact J1|split; [exact J2|apply Forall_app; split; [exact J3|constructor; [exact P1|constructor]]]]|].
  split; [rewrite (f_init _ _ _ _ _ _ F); exact I|].
  split; [intros a l b H; rewrite Ed, in_app_iff in H; destruct H as [H|H]; [eauto|apply B2 in H; lia]|].
  split; [rewrite Ed; eapply acyclic_app with (n := t_next t) (q := 0); [apply (proj1 (proj2 W))|exact B2|lia|exact A|apply (f_acyc _ _ _ _ _ _ F)]|].
  split; [rewrite Ff; apply Forall_app; split; [exact Fp|constructor; [lia|constructor]]|].
  intros x o. rewrite Exists_app, <- L, Exists_cons, Exists_nil, <- (f_lang _ _ _ _ _ _ F). rewrite Ed, Ff. split.
  - intros (g & G & R). rewrite in_app_iff in G. destruct (run_split _ _ _ 0 (proj1 (proj2 W)) B2 P _ _ _ _ R) as [_ K]. destruct (K P) as [[G1 R1]|(G1 & x1 & x2 & o1 & o2 & -> & -> & R1 & R2)].
    + destruct G as [G|[<-|[]]]; [|lia]. left. eauto.
    + destruct G as [G|[<-|[]]]; [destruct W as (_ & _ & Wf); rewrite Forall_forall in Wf; apply Wf in G; lia|]. right. left.
      assert (Q : forall a x o r, run (t_edges t) a x o r -> r = 0 -> a = 0 -> x = [] /\ o = []).
      { clear - Z. assert (G : forall a x o r, run (t_edges t) a x o r -> r = 0 -> a = 0 /\ x = [] /\ o = []).
        { intros a x o r R. induction R as [a|a l b x o r H Hl R IH|a l i e b x o r H Hl Ha R IH]; intros ->; [auto| |]; destruct (IH eq_refl) as (-> & _); apply Z in H; lia. }
        intros a x o r R E _. exact (proj2 (G _ _ _ _ R E)). }
      destruct (Q _ _ _ _ R1 eq_refl eq_refl) as [-> ->]. exact R2.
  - intros [(g & G & R)|[R|[]]].
    + exists g. rewrite in_app_iff. split; [left; exact G|]. eapply run_mono; [|exact R]. intros e He. rewrite in_app_iff. auto.
    + exists f. rewrite in_app_iff. split; [right; left; reflexivity|]. eapply run_mono; [|exact R]. intros e He. rewrite in_app_iff. auto.
Qed.
Fixpoint rlangs (i : nat) (rules : list (list cnode)) : list lang := match rules with [] => [] | r :: rules => rlang i r :: rlangs (S i) rules end.
Lemma compile_from_machine rules : forall i t t' Ls, machine t Ls -> compile_from isupper i rules t = Some t' -> machine t' (Ls ++ rlangs i rules).
Proof.
  induction rules as [|r rules IH]; intros i t t' Ls M C; cbn [compile_from rlangs] in *.
  - injection C as <-. rewrite app_nil_r. exact M.
  - destruct (compile_rule isupper i r t) as [t1|] eqn:C1; [|discriminate]. apply (add_rule_machine _ _ _ _ _ M) in C1. apply (IH _ _ _ _ C1) in C. rewrite <- app_assoc in C. exact C.
Qed.
Lemma compile_machine rules t : compile isupper rules = Some t -> machine t (rlangs 0 rules).
Proof.
  intros C. apply (compile_from_machine rules 0 no_trans t []); [|exact C].
  split; [exact no_trans_wf|]. split; [reflexivity|]. split; [intros a l b []|]. split; [exists (fun _ => 0); intros a l b []|]. split; [constructor|].
  intros x o. rewrite Exists_nil. split; [intros (f & [] & _)|intros []].
Qed.
Lemma rlangs_in rules : forall i x o, Exists (fun L => L x o) (rlangs i rules) <-> exists j r, nth_error rules j = Some r /\ rlang (i + j) r x o.
Proof.
  induction rules as [|r rules IH]; intros i x o; cbn [rlangs].
  - rewrite Exists_nil. split; [intros []|]. intros ([|j] & r & H & _); discriminate.
  - rewrite Exists_cons, IH. split.
    + intros [H|(j & r' & H & K)]; [exists 0, r; rewrite Nat.add_0_r; auto|]. exists (S j), r'. rewrite Nat.add_succ_r. auto.
    + intros ([|j] & r' & H & K); [left; injection H as ->; rewrite Nat.add_0_r in K; exact K|]. right. exists j, r'. rewrite Nat.add_succ_r in K. auto.
Qed.
End C.
