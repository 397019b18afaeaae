(** The votes of the compiled machine after every word. *)
From Coq Require Import String ZArith DecimalString DecimalNat.
From Verif Require Import Model.Base Model.Codec Model.FeatureVec Model.CapsRules Spec.Caps Spec.CapsRules.
From Verif Require Import Proofs.Base Proofs.Codec Proofs.FeatureVec Proofs.CapsCompile Proofs.CapsState Proofs.CapsWords Proofs.CapsValid Proofs.CapsAlign.
Open Scope nat_scope.

(** ** names of rules *)
Lemma u_inj a : forall b, u a = u b -> a = b.
Proof.
  induction a as [|c a IH]; intros [|d b] H; try discriminate; [reflexivity|]. unfold u in H. cbn in H. injection H as H1 H2. f_equal; [|apply IH; exact H2].
  apply (f_equal Ascii.ascii_of_N) in H1. rewrite !Ascii.ascii_N_embedding in H1. exact H1.
Qed.
Lemma to_uint_nil n : Nat.to_uint n <> Decimal.Nil.
Proof. intros H. pose proof (Unsigned.of_to n) as K. rewrite H in K. cbn in K. subst n. discriminate H. Qed.
Lemma itoa_inj a b : itoa a = itoa b -> a = b.
Proof.
  unfold itoa. intros H. apply u_inj in H. apply (f_equal NilZero.uint_of_string) in H. rewrite !NilZero.usu in H by apply to_uint_nil. injection H as H.
  rewrite <- (Unsigned.of_to a), <- (Unsigned.of_to b), H. reflexivity.
Qed.
Lemma rule_id_inj a b : rule_id a = rule_id b -> a = b.
Proof. unfold rule_id. intros H. injection H as H. apply app_inj_tail in H. destruct H as [H _]. apply itoa_inj. exact H. Qed.
Lemma rule_id_bound i : rule_id i <> t_bound.
Proof.
  unfold rule_id, t_bound. intros H. assert (K : itoa i = [36%N]).
  { injection H as H. change [36%N; 62%N] with ([36%N] ++ [62%N]) in H. apply app_inj_tail in H. exact (proj1 H). }
  unfold itoa in K. destruct (Nat.to_uint i) eqn:E; [apply to_uint_nil in E; exact E|..]; cbn in K; discriminate.
Qed.
Lemma weight_of_rule {W} (w0 : W) ws i : weight_of w0 (load_weights ws) (rule_id i) = nth i ws w0.
Proof.
  unfold weight_of, load_weights. assert (G : forall k, find (fun kv => str_eqb (fst kv) (rule_id (k + i))) (combine (map rule_id (seq k (length ws))) ws) = match nth_error ws i with Some w => Some (rule_id (k + i), w) | None => None end).
  { revert i. induction ws as [|w ws IH]; intros i k; [destruct i; reflexivity|]. cbn [length seq map combine find fst]. destruct i as [|i].
    - rewrite Nat.add_0_r, str_eqb_refl. reflexivity.
    - rewrite (proj2 (str_eqb_neq _ _)) by (intros K; apply rule_id_inj in K; lia). rewrite <- Nat.add_succ_comm, IH. reflexivity. }
  pose proof (G 0) as G0. cbn [Nat.add] in G0. rewrite G0. destruct (nth_error ws i) eqn:E; cbn [snd]; [symmetry; apply nth_error_nth; exact E|]. symmetry. apply nth_overflow. apply nth_error_None. exact E.
Qed.

(** ** ordered sets *)
Lemma set_insert_in k m : forall x, In x (set_insert vec_lt k m) <-> x = k \/ In x m.
Proof.
  induction m as [|y m IH]; intros x; cbn [set_insert]; [cbn; intuition|]. destruct (vec_lt k y) eqn:E1; [cbn; intuition|]. destruct (vec_lt y k) eqn:E2; [cbn [In]; rewrite IH; intuition|].
  assert (k = y) by (apply cmp_total; rewrite cmp_vec; assumption). subst y. cbn [In]. intuition.
Qed.
Lemma sorted_cons {K} (lt : K -> K -> bool) x l : sorted lt (x :: l) = true <-> (forall y, In y l -> lt x y = true) /\ sorted lt l = true.
Proof. cbn. rewrite Bool.andb_true_iff, forallb_forall. reflexivity. Qed.
Lemma vec_trans a b c : vec_lt a b = true -> vec_lt b c = true -> vec_lt a c = true.
Proof. rewrite <- !cmp_vec. apply cmp_trans. Qed.
Lemma set_insert_sorted k m : sorted vec_lt m = true -> sorted vec_lt (set_insert vec_lt k m) = true.
Proof.
  induction m as [|y m IH]; intros H; cbn [set_insert]; [reflexivity|]. apply sorted_cons in H. destruct H as [H1 H2]. destruct (vec_lt k y) eqn:E1.
  - apply sorted_cons. split; [|apply sorted_cons; auto]. intros z [<-|Hz]; [exact E1|]. eapply vec_trans; [exact E1|auto].
  - destruct (vec_lt y k) eqn:E2; apply sorted_cons; [|auto]. split; [|auto]. intros z Hz. apply set_insert_in in Hz. destruct Hz as [->|Hz]; auto.
Qed.
Lemma set_of_list_in l : forall m x, In x (set_of_list vec_lt m l) <-> In x m \/ In x l.
Proof.
  induction l as [|k l IH]; intros m x; unfold set_of_list; cbn [fold_left]; [cbn; tauto|]. change (fold_left _ l ?a) with (set_of_list vec_lt a l). rewrite IH, set_insert_in. cbn [In]. intuition.
Qed.
Lemma set_of_list_sorted l : forall m, sorted vec_lt m = true -> sorted vec_lt (set_of_list vec_lt m l) = true.
Proof. induction l as [|k l IH]; intros m H; unfold set_of_list; cbn [fold_left]; [exact H|]. apply IH, set_insert_sorted, H. Qed.

(** ** the first path of every rule *)
Section F.
Variables (W : Type) (weights : str -> W).
Definition rsorted (l : list (str * list str)) : Prop := sorted vec_lt (map (fun x => fst x :: snd x) l) = true.
Lemma firsts_spec l : forall seen, rsorted l -> (forall r, In r seen -> forall x, In x l -> str_lt (fst x) r = false) ->
  exists ps, firsts W weights l seen = map (fun x => (weights (fst x), snd x)) ps /\ sorted str_lt (map fst ps) = true /\
    forall r p, In (r, p) ps <-> ~ In r seen /\ In (r, p) l /\ forall p', In (r, p') l -> p' = p \/ vec_lt p p' = true.
Proof.
  induction l as [|[r p] l IH]; intros seen SS B; cbn [firsts].
  - exists []. split; [reflexivity|]. split; [reflexivity|]. intros r p. split; [intros []|]. intros (_ & [] & _).
  - unfold rsorted in SS. cbn [map fst snd] in SS. apply sorted_cons in SS. destruct SS as [S1 S2].
    assert (Lt : forall r' p', In (r', p') l -> str_lt r r' = true \/ (r' = r /\ vec_lt p p' = true)).
    { intros r' p' H. specialize (S1 (r' :: p')). cbn [vec_lt] in S1. destruct (str_lt r r') eqn:E1; [auto|]. destruct (str_lt r' r) eqn:E2.
      - exfalso. assert (false = true); [apply S1|discriminate]. apply in_map_iff. exists (r', p'). auto.
      - right. split; [apply Proofs.ConstantManager.str_lt_total; assumption|]. apply S1. apply in_map_iff. exists (r', p'). auto. }
    destruct (existsb (str_eqb r) seen) eqn:E.
    + destruct (IH seen S2) as (ps & H1 & H2 & H3); [intros; apply B; auto; right; assumption|]. exists ps. split; [exact H1|]. split; [exact H2|]. intros r' p1. split.
      * intros H. apply H3 in H. destruct H as (N & Hin & Hl). split; [exact N|]. split; [right; exact Hin|]. intros p' [K|K]; [|auto]. injection K as -> ->. exfalso. apply N. apply existsb_exists in E. destruct E as (y & Hy & E). apply str_eqb_eq in E. subst y. exact Hy.
      * intros (N & [K|K] & Hl); [injection K as -> ->; exfalso; apply N; apply existsb_exists in E; destruct E as (y & Hy & E); apply str_eqb_eq in E; subst y; exact Hy|]. apply H3. repeat split; auto. intros p' Hp. apply Hl. right; exact Hp.
    + assert (Nr : ~ In r seen). { intros K. rewrite <- Bool.not_true_iff_false in E. apply E. apply existsb_exists. exists r. split; [exact K|apply str_eqb_refl]. }
      destruct (IH (r :: seen) S2) as (ps & H1 & H2 & H3).
      { intros r' [<-|Hr] [r2 p2] Hx; [|apply B; auto; right; assumption]. cbn [fst]. destruct (Lt _ _ Hx) as [K|[-> _]]; [|apply Proofs.ConstantManager.str_lt_irrefl]. apply str_lt_asym. exact K. }
      exists ((r, p) :: ps). cbn [map fst snd]. split; [f_equal; exact H1|]. split.
      { apply sorted_cons. split; [|exact H2]. intros y Hy. apply in_map_iff in Hy. destruct Hy as ([r' p'] & <- & Hy). cbn [fst]. apply H3 in Hy. destruct Hy as (N & Hin & _).
        destruct (Lt _ _ Hin) as [K|[-> _]]; [exact K|]. exfalso. apply N. left; reflexivity. }
      intros r' p'. split.
      * intros [K|K].
        -- injection K as <- <-. split; [exact Nr|]. split; [left; reflexivity|]. intros p' [K|K]; [injection K as ->; auto|]. destruct (Lt _ _ K) as [L|[_ L]]; [rewrite Proofs.ConstantManager.str_lt_irrefl in L; discriminate|auto].
        -- apply H3 in K. destruct K as (N & Hin & Hl). split; [intros K; apply N; right; exact K|]. split; [right; exact Hin|]. intros p2 [K|K]; [|auto]. injection K as -> ->. exfalso. apply N. left; reflexivity.
      * intros (N & Hin & Hl). destruct (list_eq_dec N.eq_dec r' r) as [->|Ne].
        -- destruct Hin as [K|K]; [left; exact K|]. destruct (Hl p (or_introl eq_refl)) as [<-|L]; [left; reflexivity|]. destruct (Lt _ _ K) as [L2|[_ L2]]; [rewrite Proofs.ConstantManager.str_lt_irrefl in L2; discriminate|].
           exfalso. rewrite <- cmp_vec in L, L2. apply cmp_asym in L. congruence.
        -- right. apply H3. destruct Hin as [K|K]; [injection K as -> ->; contradiction|]. split; [intros [K2|K2]; [congruence|contradiction]|]. split; [exact K|]. intros p2 K2. apply Hl. right; exact K2.
Qed.
End F.

(** ** what the machine writes *)
Lemma pieces_path p i : Forall (fun s => s <> [] /\ s <> t_bound) p -> pieces (pv p ++ [t_bound; rule_id i]) [] = p.
Proof.
  intros F. assert (G : forall cur, (cur = [] \/ cur <> []) -> pieces (pv p ++ [t_bound; rule_id i]) cur = match cur with [] => p | _ => cur :: p end).
  { induction F as [|s p [N1 N2] F IH]; intros cur _; unfold pv; cbn [flat_map app pieces]; rewrite str_eqb_refl.
    - rewrite (proj2 (str_eqb_neq _ _)) by apply rule_id_bound. destruct cur; reflexivity.
    - rewrite (proj2 (str_eqb_neq _ _)) by exact N2. cbn [app]. fold (pv p). change (flat_map (fun s => [t_bound; s]) p) with (pv p). rewrite IH by (right; exact N1). destruct s as [|c s]; [congruence|]. destruct cur; reflexivity. }
  apply (G []). auto.
Qed.
Lemma last_path p i : last (pv p ++ [t_bound; rule_id i]) [] = rule_id i.
Proof. change [t_bound; rule_id i] with ([t_bound] ++ [rule_id i]). rewrite app_assoc. apply last_last. Qed.
Section P.
Variable isupper : char -> bool.
Lemma vote_fine m : valid_match m -> vote m <> [] /\ vote m <> t_bound.
Proof.
  intros (_ & _ & V). unfold vote. destruct (cm_select m) as [[|c s]|]; [split; vm_compute; discriminate| |split; vm_compute; discriminate]. split; [discriminate|].
  specialize (V _ eq_refl). cbn [map In] in V. destruct V as [V|[V|[V|[V|[V|[]]]]]]; rewrite <- V; vm_compute; discriminate.
Qed.
Lemma path_fine : (forall n, valid n -> forall ts p, Spec.CapsRules.node_ok isupper n ts p -> Forall (fun s => s <> [] /\ s <> t_bound) p) /\
  (forall l, Forall valid l -> forall ts p, seq_ok isupper l ts p -> Forall (fun s => s <> [] /\ s <> t_bound) p).
Proof.
  assert (G : forall n, valid n -> forall ts p, Spec.CapsRules.node_ok isupper n ts p -> Forall (fun s => s <> [] /\ s <> t_bound) p).
  { apply (cnode_rec' (fun n => valid n -> forall ts p, Spec.CapsRules.node_ok isupper n ts p -> Forall (fun s => s <> [] /\ s <> t_bound) p)).
    - intros m V ts p H. inversion V; inversion H; subst. repeat constructor; apply vote_fine; assumption.
    - intros _ ts p H. inversion H; subst. constructor.
    - intros l F V ts p H. inversion V as [| |? V1|]; subst. rewrite Forall_forall in F, V1. inversion H; subst; [eapply F; eauto|constructor].
    - intros a b l F V ts p H. inversion V as [| | |? ? ? _ V1]; subst. inversion H as [| | | |? ? ? k ts' p' K R]; subst. clear K H V. revert ts p R. induction k as [|k IH]; intros ts p R; inversion R as [|? ? ts1 p1 ts2 p2 H1 H2]; subst; [constructor|].
      apply Forall_app. split; [|eapply IH; eauto]. clear - F V1 H1. revert V1 ts1 p1 H1. induction F as [|n l Hn F IH]; intros V ts p H; inversion H; subst; [constructor|]. inversion V; subst. apply Forall_app. split; eauto. }
  split; [exact G|]. intros l V. induction V as [|n l Vn V IH]; intros ts p H; inversion H; subst; [constructor|]. apply Forall_app. split; eauto.
Qed.

(** ** the states *)
Variables (rules : list (list cnode)) (t : trans).
Hypothesis C : compile isupper rules = Some t.
Hypothesis PL : Forall (Forall plain_node) rules.
Lemma valid_rules : Forall (Forall valid) rules.
Proof. apply (compile_valid isupper). eauto. Qed.
Lemma AC : acyclic (t_edges t).
Proof. destruct (compile_machine isupper rules t C) as (_ & _ & _ & A & _). exact A. Qed.
Definition has (S : list conf) (Y : list etk -> Prop) : Prop := holds t S (fun x => exists e, Y e /\ x = estream isupper e) /\ forall e, Y e -> Forall egood e.
Lemma has_iff S Y Z : (forall e, Y e <-> Z e) -> has S Y -> has S Z.
Proof. intros I [H G]. split; [eapply holds_iff; [|exact H]; intros x; split; intros (e & He & ->); exists e; split; auto; apply I; exact He|]. intros e He. apply G, I, He. Qed.
Lemma has_init : has (st_init t) (fun e => e = []).
Proof. split; [|intros e ->; constructor]. eapply holds_iff; [|exact (holds_init t AC)]. intros x. split; [intros ->; exists []; auto|]. intros (e & -> & ->). reflexivity. Qed.
Lemma has_null S Y : has S Y -> has (st_step_optional t null_boundary S) (fun e' => Y e' \/ exists e, Y e /\ e' = e ++ [XT TBegin]).
Proof.
  intros [H G]. split.
  - eapply holds_iff; [|exact (holds_optional t AC S _ null_boundary H)]. intros x. split.
    + intros [(e & He & ->)|(y & (e & He & ->) & ->)]; [exists e; auto|]. exists (e ++ [XT TBegin]). rewrite estream_app. split; [right; eauto|reflexivity].
    + intros (e' & [He|(e & He & ->)] & ->); [left; eauto|]. right. exists (estream isupper e). rewrite estream_app. split; [eauto|reflexivity].
  - intros e' [He|(e & He & ->)]; [auto|]. apply Forall_app. split; [auto|repeat constructor].
Qed.
Lemma has_wb S Y : has S Y -> has (st_step_optional t word_boundary S) (fun e' => Y e' \/ exists e, Y e /\ e' = e ++ [XE]).
Proof.
  intros [H G]. split.
  - eapply holds_iff; [|exact (holds_optional t AC S _ word_boundary H)]. intros x. split.
    + intros [(e & He & ->)|(y & (e & He & ->) & ->)]; [exists e; auto|]. exists (e ++ [XE]). rewrite estream_app. split; [right; eauto|reflexivity].
    + intros (e' & [He|(e & He & ->)] & ->); [left; eauto|]. right. exists (estream isupper e). rewrite estream_app. split; [eauto|reflexivity].
  - intros e' [He|(e & He & ->)]; [auto|]. apply Forall_app. split; [auto|repeat constructor].
Qed.
Lemma has_read S Y src form surf : good_word (src, form, surf) -> has S Y -> has (st_word isupper t S src form surf) (fun e' => exists e, Y e /\ e' = e ++ [XT (TWord (src, form, surf))]).
Proof.
  intros GW [H G]. split.
  - eapply holds_iff; [|exact (holds_fold t AC (word_syms isupper src form surf) S _ H)]. intros x. split.
    + intros (y & (e & He & ->) & ->). exists (e ++ [XT (TWord (src, form, surf))]). rewrite estream_app. cbn. rewrite app_nil_r. split; [eauto|reflexivity].
    + intros (e' & (e & He & ->) & ->). exists (estream isupper e). rewrite estream_app. cbn. rewrite app_nil_r. split; [eauto|reflexivity].
  - intros e' (e & He & ->). apply Forall_app. split; [auto|]. constructor; [exact GW|constructor].
Qed.
Lemma has_next S Y : has S Y -> has (if st_dead S then st_init t else st_merge t S) (fun e => Y e \/ e = []).
Proof.
  intros [H G]. split; [|intros e [He|He]; [auto|subst; constructor]].
  assert (K : holds t (if st_dead S then st_init t else st_merge t S) (fun y => (exists e, Y e /\ y = estream isupper e) \/ y = [])).
  { destruct (st_dead S) eqn:D; [exact (holds_dead t AC S _ H D)|exact (holds_merge t AC S _ H)]. }
  eapply holds_iff; [|exact K]. intros x. split.
  - intros [(e & He & ->)| ->]; [exists e; auto|exists []; auto].
  - intros (e & [He| ->] & ->); [left; eauto|right; reflexivity].
Qed.
(** ** the rules that match *)
Definition keys (S : list conf) : list (list str) := flat_map (fun x : conf => if in_dec Nat.eq_dec (fst x) (t_finals t) then [last (snd x) [] :: CapsRules.pieces (snd x) []] else []) S.
Lemma finals_in S Y : has S Y -> forall k, In k (keys S) <->
  exists i r ts p, nth_error rules i = Some r /\ Y (map XT ts ++ [XE]) /\ seq_ok isupper r ts p /\ k = rule_id i :: p.
Proof.
  intros [H G] k. destruct (compile_machine isupper rules t C) as (_ & I & _ & _ & _ & L). unfold keys. rewrite in_flat_map.
  assert (R : forall e o, Y e -> (exists f, In f (t_finals t) /\ run (t_edges t) 0 (estream isupper e) o f) <-> exists i r ts p, nth_error rules i = Some r /\ e = map XT ts ++ [XE] /\ seq_ok isupper r ts p /\ o = pv p ++ [t_bound; rule_id i]).
  { intros e o He. rewrite L, rlangs_in. cbn [Nat.add]. split.
    - intros (j & r & Hj & K). apply nth_error_In in Hj as Hin. pose proof PL as PL'. pose proof valid_rules as VR. rewrite Forall_forall in PL', VR. apply rule_stream in K; auto. destruct K as (ts & p & K1 & K2 & K3). exists j, r, ts, p. auto.
    - intros (j & r & ts & p & Hj & K). apply nth_error_In in Hj as Hin. pose proof PL as PL'. pose proof valid_rules as VR. rewrite Forall_forall in PL', VR. exists j, r. split; [exact Hj|]. apply rule_stream; auto. exists ts, p. tauto. }
  assert (Q : forall i r ts p, nth_error rules i = Some r -> seq_ok isupper r ts p -> last (pv p ++ [t_bound; rule_id i]) [] :: CapsRules.pieces (pv p ++ [t_bound; rule_id i]) [] = rule_id i :: p).
  { intros i r ts p Hi Hs. rewrite last_path, pieces_path; [reflexivity|]. apply nth_error_In in Hi. pose proof valid_rules as VR. rewrite Forall_forall in VR. eapply (proj2 path_fine); [apply VR; exact Hi|exact Hs]. }
  split.
  - intros ([q o] & Hx & K). cbn [fst snd] in K. destruct (in_dec Nat.eq_dec q (t_finals t)) as [Hq|]; [|destruct K]. destruct K as [<-|[]]. apply H in Hx. destruct Hx as (x & (e & He & ->) & Rn). rewrite I in Rn.
    destruct (proj1 (R e o He)) as (i & r & ts & p & Hi & -> & Hs & ->); [eauto|]. exists i, r, ts, p. repeat split; auto. eapply Q; eauto.
  - intros (i & r & ts & p & Hi & He & Hs & ->). destruct (proj2 (R _ (pv p ++ [t_bound; rule_id i]) He)) as (f & Hf & Rn); [exists i, r, ts, p; auto|].
    exists (f, pv p ++ [t_bound; rule_id i]). split; [apply H; eexists; split; [eauto|]; rewrite I; exact Rn|]. cbn [fst snd]. destruct (in_dec Nat.eq_dec f (t_finals t)); [|contradiction]. left. eapply Q; eauto.
Qed.
Definition unkey (k : list str) : str * list str := match k with [] => ([], []) | r :: p => (r, p) end.
Lemma unkey_map l : (forall k, In k l -> exists r p, k = r :: p) -> map (fun x => fst x :: snd x) (map unkey l) = l.
Proof.
  induction l as [|k l IH]; intros H; [reflexivity|]. cbn [map]. rewrite IH by (intros x Hx; apply H; right; exact Hx). destruct (H k (or_introl eq_refl)) as (r & p & ->). reflexivity.
Qed.
Lemma st_finals_spec S Y : has S Y -> rsorted (st_finals t S) /\
  forall rid p, In (rid, p) (st_finals t S) <-> exists i, rid = rule_id i /\ hit isupper rules (fun ts => Y (map XT ts ++ [XE])) i p.
Proof.
  intros H. pose proof (finals_in S Y H) as FI. assert (E0 : st_finals t S = map unkey (set_of_list vec_lt [] (keys S))) by reflexivity. rewrite E0. generalize (keys S) FI. clear FI E0. intros L FI.
  assert (NE : forall k, In k (set_of_list vec_lt [] L) -> exists r p, k = r :: p).
  { intros k K. apply set_of_list_in in K. destruct K as [[]|K]. apply FI in K. destruct K as (i & r & ts & p & _ & _ & _ & ->). eauto. }
  split.
  - unfold rsorted. rewrite unkey_map by exact NE. apply set_of_list_sorted. reflexivity.
  - intros rid p. rewrite in_map_iff. split.
    + intros (k & E & K). destruct (NE k K) as (r & q & ->). injection E as -> ->. apply set_of_list_in in K. destruct K as [[]|K]. apply FI in K. destruct K as (i & r & ts & p' & Hi & HY & Hs & E). injection E as -> ->. exists i. split; [reflexivity|]. exists r, ts. auto.
    + intros (i & -> & r & ts & Hi & HY & Hs). exists (rule_id i :: p). split; [reflexivity|]. apply set_of_list_in. right. apply FI. exists i, r, ts, p. auto.
Qed.
Variables (W : Type) (w0 : W) (weights : list W).
Lemma votes_counted S Y what : has S Y -> (forall ts, Y (map XT ts ++ [XE]) <-> what ts) ->
  counted isupper W w0 weights rules what (votes_at W (weight_of w0 (load_weights weights)) (list conf) (st_finals t) S).
Proof.
  intros H I. destruct (st_finals_spec S Y H) as [SS F]. unfold votes_at. destruct (firsts_spec W (weight_of w0 (load_weights weights)) (st_finals t S) [] SS) as (ps & E1 & E2 & E3); [intros r []|].
  assert (HH : forall i p, hit isupper rules (fun ts => Y (map XT ts ++ [XE])) i p <-> hit isupper rules what i p).
  { intros i p. unfold hit. split; intros (r & ts & A1 & A2 & A3); exists r, ts; (split; [exact A1|split; [apply I; exact A2|exact A3]]). }
  assert (E4 : exists qs : list (nat * list str), ps = map (fun x => (rule_id (fst x), snd x)) qs).
  { assert (K : forall x, In x ps -> exists i, fst x = rule_id i) by (intros [r p] K; apply E3 in K; destruct K as (_ & K & _); apply F in K; destruct K as (i & -> & _); exists i; reflexivity).
    clear - K. induction ps as [|[r p] ps IH]; [exists []; reflexivity|]. destruct IH as (qs & ->); [intros x Hx; apply K; right; exact Hx|]. destruct (K (r, p) (or_introl eq_refl)) as (i & Hi). cbn in Hi. subst r. exists ((i, p) :: qs). reflexivity. }
  destruct E4 as (qs & ->). exists qs. rewrite map_map in E1, E2. cbn [fst snd] in E1, E2. split; [rewrite E1; apply map_ext; intros [i p]; cbn; f_equal; apply weight_of_rule|]. split; [exact E2|].
  intros i p. assert (K : In (i, p) qs <-> In (rule_id i, p) (map (fun x => (rule_id (fst x), snd x)) qs)).
  { rewrite in_map_iff. split; [intros K; exists (i, p); auto|]. intros ([j q] & K & K2). cbn in K. injection K as K ->. destruct (Nat.eq_dec j i) as [->|N]; [exact K2|]. exfalso. apply N, rule_id_inj. unfold rule_id. f_equal. exact K. }
  rewrite K, E3, F. split.
  - intros (_ & (j & Ej & Hj) & Hl). apply rule_id_inj in Ej. subst j. split; [apply HH; exact Hj|]. intros p' Hp. apply Hl. apply F. exists i. split; [reflexivity|apply HH; exact Hp].
  - intros (Hj & Hl). split; [intros []|]. split; [exists i; split; [reflexivity|apply HH; exact Hj]|]. intros p' Hp. apply F in Hp. destruct Hp as (j & Ej & Hp). apply rule_id_inj in Ej. subst j. apply Hl, HH, Hp.
Qed.
End P.
