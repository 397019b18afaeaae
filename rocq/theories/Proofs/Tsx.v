(** Reading tagger definitions. *)
From Coq Require Import String Lia.
From Verif Require Import Model.Base Model.Tsx Spec.Tsx Proofs.Base.
Open Scope nat_scope.

(** ** Junk *)
Definition visible (x : node) : bool := match x with Junk => false | _ => true end.
Lemma run_junk ns : forall m d, run m d ns = run m d (List.filter visible ns).
Proof.
  induction ns as [|x ns IH]; intros m d; [reflexivity|]. cbn [List.filter].
  destruct x as [n a|n a|]; cbn [visible run].
  1,2: destruct (on_node m d _) as [(m', d')|]; [apply IH|reflexivity].
  assert (E : on_node m d Junk = Some (m, d)) by (destruct m; reflexivity). rewrite E. apply IH.
Qed.
Lemma run_app a b m d : run m d (a ++ b) = match run m d a with Some (m', d') => run m' d' b | None => None end.
Proof.
  revert m d. induction a as [|x a IH]; intros m d; [reflexivity|]. cbn [app run].
  destruct (on_node m d x) as [(m', d')|]; [apply IH|reflexivity].
Qed.
Lemma run_done d ns : run MDone d ns = Some (MDone, d).
Proof. induction ns; [reflexivity|exact IHns]. Qed.

(** ** The index *)
Lemma TAG_inj x y : TAG x = TAG y -> x = y.
Proof. unfold TAG. apply app_inv_head. Qed.
Lemma eqb_TAG x y : str_eqb (TAG x) (TAG y) = str_eqb x y.
Proof.
  destruct (str_eqb x y) eqn:E.
  - apply str_eqb_eq in E. subst. apply str_eqb_refl.
  - destruct (str_eqb (TAG x) (TAG y)) eqn:F; [|reflexivity]. apply str_eqb_eq, TAG_inj in F. subst.
    rewrite str_eqb_refl in E. discriminate.
Qed.
Definition inb (x : str) (l : list str) : bool := existsb (str_eqb x) l.
Lemma inb_In x l : inb x l = true <-> In x l.
Proof.
  unfold inb. rewrite existsb_exists. split.
  - intros (y & I & E). apply str_eqb_eq in E. now subst.
  - intros I. exists x. split; [exact I|apply str_eqb_refl].
Qed.
Lemma position_None x l : position x l = None <-> ~ In x l.
Proof.
  induction l as [|y l IH]; cbn; [tauto|]. destruct (str_eqb x y) eqn:E.
  - apply str_eqb_eq in E. subst. split; [discriminate|]. intros H. exfalso. apply H. now left.
  - destruct (position x l); cbn.
    + split; [discriminate|]. intros H. exfalso. apply H. right. destruct (in_dec (list_eq_dec N.eq_dec) x l) as [I|N]; [exact I|].
      apply IH in N. discriminate.
    + split; [|reflexivity]. intros _ [->|I]; [rewrite str_eqb_refl in E; discriminate|]. now apply IH.
Qed.
Lemma position_app x l r : position x (l ++ r) = match position x l with Some i => Some i | None => option_map (Nat.add (length l)) (position x r) end.
Proof.
  induction l as [|y l IH]; cbn; [destruct (position x r); reflexivity|]. destruct (str_eqb x y); [reflexivity|].
  rewrite IH. destruct (position x l); [reflexivity|]. destruct (position x r); reflexivity.
Qed.

Definition entry (known refs : list str) (x : str) : option nat :=
  match position x known with Some i => Some i | None => if inb x refs then Some 0 else None end.
(** Which coarse tags the reader knows. *)
Definition idx (known refs : list str) (d : tsx) : Prop := forall x, assoc (TAG x) (tag_index d) = entry known refs x.

Definition with_index (t : list (str * nat)) (d : tsx) : tsx :=
  mktsx (array_tags d) t (open_class d) (forbid d) (enforce d) (prefer d) (discard d) (plist d) (constants d).
Lemma with_same d : with_index (tag_index d) d = d.
Proof. destruct d; reflexivity. Qed.

Lemma lookup_ok known refs d l : idx known refs d ->
  exists t, lookup l d = (number known l, with_index t d) /\ idx known (refs ++ [l]) (with_index t d).
Proof.
  intros I. unfold lookup. rewrite (I l). unfold entry, number.
  destruct (position l known) as [i|] eqn:P; [|destruct (inb l refs) eqn:B].
  - exists (tag_index d). rewrite with_same. split; [reflexivity|]. intros x. rewrite (I x). unfold entry.
    destruct (position x known) eqn:Q; [reflexivity|]. unfold inb. rewrite existsb_app. cbn. rewrite orb_false_r.
    destruct (str_eqb x l) eqn:E; [apply str_eqb_eq in E; congruence|]. now rewrite orb_false_r.
  - exists (tag_index d). rewrite with_same. split; [reflexivity|]. intros x. rewrite (I x). unfold entry.
    destruct (position x known) eqn:Q; [reflexivity|]. unfold inb. rewrite existsb_app. cbn. rewrite orb_false_r.
    destruct (str_eqb x l) eqn:E; [|now rewrite orb_false_r]. apply str_eqb_eq in E. subst.
    fold (inb l refs). now rewrite B.
  - exists ((TAG l, 0) :: tag_index d). split; [reflexivity|]. intros x. cbn [tag_index with_index assoc]. rewrite eqb_TAG.
    unfold entry, inb. rewrite existsb_app. cbn. rewrite orb_false_r.
    destruct (str_eqb x l) eqn:E.
    + apply str_eqb_eq in E. subst. rewrite P. now rewrite orb_true_r.
    + rewrite orb_false_r. apply (I x).
Qed.
Lemma lookup_known known refs d l : idx known refs d -> In l known -> lookup l d = (number known l, d).
Proof.
  intros I J. unfold lookup. rewrite (I l). unfold entry, number. destruct (position l known) as [i|] eqn:P; [reflexivity|].
  apply position_None in P. tauto.
Qed.

(** ** Patterns of one definition *)
Definition add_plists (l : list pcall) (d : tsx) : tsx :=
  mktsx (array_tags d) (tag_index d) (open_class d) (forbid d) (enforce d) (prefer d) (discard d) (plist d ++ l) (constants d).
Lemma add_plists_nil d : add_plists [] d = d.
Proof. unfold add_plists. rewrite app_nil_r. destruct d; reflexivity. Qed.
Lemma add_plists_cons c l d : add_plists l (add_plist c d) = add_plists (c :: l) d.
Proof. unfold add_plists, add_plist. cbn. rewrite <- app_assoc. reflexivity. Qed.
Lemma add_plists_app a l d : add_plists l (add_plists a d) = add_plists (a ++ l) d.
Proof. unfold add_plists. cbn. rewrite <- app_assoc. reflexivity. Qed.
Lemma idx_plists known refs l d : idx known refs d -> idx known refs (add_plists l d).
Proof. intros H x. exact (H x). Qed.

Lemma run_items i items body : each w_item items body -> forall d,
  run (MLabel i) d body = Some (MLabel i, add_plists (map (fun x => PItem i (fst x) (snd x)) items) d).
Proof.
  induction 1 as [|x l ns ms (a & E1 & E2 & L) H IH]; intros d; [cbn [map]; now rewrite add_plists_nil|].
  rewrite run_app. cbn [map]. rewrite <- add_plists_cons, <- E1, <- E2.
  destruct L; cbn [run on_node]; apply IH.
Qed.
Lemma with_plists t l d : with_index t (add_plists l d) = add_plists l (with_index t d).
Proof. reflexivity. Qed.
Lemma with_with t t' d : with_index t (with_index t' d) = with_index t d.
Proof. reflexivity. Qed.

Definition seq_call (known : list str) (n : str) (i : seq_item) : pcall :=
  match i with SItem lemma tags => PItem (number known n) lemma tags | SLabel o => PLabel (number known n) (number known o) end.
Definition seq_refs (s : list seq_item) : list str := flat_map (fun i => match i with SLabel l => [l] | SItem _ _ => [] end) s.

Lemma run_seq known n s body : each w_seq_item s body -> In n known -> forall refs d, idx known refs d ->
  exists t, run (MSeq n) d body = Some (MSeq n, add_plists (map (seq_call known n) s) (with_index t d)) /\
            idx known (refs ++ seq_refs s) (with_index t d).
Proof.
  intros H K. induction H as [|x l ns ms W H IH]; intros refs d I.
  - exists (tag_index d). cbn [map seq_refs flat_map]. rewrite add_plists_nil, app_nil_r, with_same. auto.
  - destruct x as [lemma tags|o]; cbn [w_seq_item] in W.
    + destruct W as (a & E1 & E2 & L). cbn [fst snd] in *. subst.
      destruct (IH refs (add_plist (PItem (number known n) (attrib Alemma a) (attrib Atags a)) d) I) as (t & R & J).
      exists t. split; [|exact J]. rewrite run_app. cbn [map seq_call].
      assert (S : run (MSeq n) d ns = Some (MSeq n, add_plist (PItem (number known n) (attrib Alemma a) (attrib Atags a)) d)).
      { destruct L; cbn [run on_node]; rewrite (lookup_known known refs d n I K); reflexivity. }
      rewrite S, R. f_equal. f_equal. rewrite <- add_plists_cons. reflexivity.
    + destruct W as (a & E & L). subst.
      destruct (lookup_ok known refs d (attrib Alabel a) I) as (t1 & L1 & I1).
      destruct (IH (refs ++ [attrib Alabel a]) (add_plist (PLabel (number known n) (number known (attrib Alabel a))) (with_index t1 d)) I1) as (t & R & J).
      exists t. split.
      * rewrite run_app. cbn [map seq_call].
        assert (S : run (MSeq n) d ns = Some (MSeq n, add_plist (PLabel (number known n) (number known (attrib Alabel a))) (with_index t1 d))).
        { destruct L; cbn [run on_node]; rewrite L1; cbn beta iota zeta; rewrite (lookup_known known _ _ n I1 K); reflexivity. }
        rewrite S, R. f_equal. f_equal. rewrite <- add_plists_cons. reflexivity.
      * cbn [seq_refs flat_map app]. cbn [app] in J. fold (seq_refs l). rewrite <- app_assoc in J. exact J.
Qed.
Lemma run_seqs known n seqs body : each w_sequence seqs body -> In n known -> forall refs d, idx known refs d ->
  exists t, run (MMult n) d body
            = Some (MMult n, add_plists (flat_map (fun s => [PBegin] ++ map (seq_call known n) s ++ [PEnd]) seqs) (with_index t d)) /\
            idx known (refs ++ seq_refs (concat seqs)) (with_index t d).
Proof.
  intros H K. induction H as [|x l ns ms W H IH]; intros refs d I.
  - exists (tag_index d). cbn [flat_map concat seq_refs]. rewrite add_plists_nil, app_nil_r, with_same. auto.
  - destruct W as (a & bd & E & ->).
    destruct (run_seq known n x bd E K refs (add_plist PBegin d) I) as (t1 & R1 & I1).
    destruct (IH (refs ++ seq_refs x) (add_plist PEnd (add_plists (map (seq_call known n) x) (with_index t1 (add_plist PBegin d)))) I1) as (t & R & J).
    exists t. split.
    + unfold within. rewrite run_app. cbn [app run on_node]. rewrite run_app. rewrite R1. cbn [run on_node].
      rewrite R. f_equal. f_equal.
      cbn [flat_map app]. rewrite <- app_assoc. cbn [app]. rewrite <- add_plists_cons, <- add_plists_app, <- add_plists_cons. reflexivity.
    + cbn [concat]. unfold seq_refs in *. rewrite flat_map_app. rewrite <- app_assoc in J. exact J.
Qed.

(** ** Definitions *)
Lemma newDef_ok known refs d n : idx known refs d -> length known = length (array_tags d) -> ~ In n known -> ~ In n refs ->
  exists d', newDefTag n d = Some d' /\ idx (known ++ [n]) refs d' /\
     d' = mktsx (array_tags d ++ [n]) (tag_index d') (open_class d) (forbid d) (enforce d) (prefer d) (discard d) (plist d) (constants d).
Proof.
  intros I L N1 N2. unfold newDefTag, new_tag. rewrite (I n). unfold entry.
  destruct (position n known) as [i|] eqn:P; [exfalso; assert (H : position n known = None) by (now apply position_None); congruence|].
  destruct (inb n refs) eqn:B; [apply inb_In in B; tauto|].
  eexists. split; [reflexivity|]. split; [|reflexivity]. intros x. cbn [tag_index assoc]. rewrite eqb_TAG. unfold entry.
  rewrite position_app. cbn [position]. destruct (str_eqb x n) eqn:E.
  - apply str_eqb_eq in E. subst. rewrite P. cbn. f_equal. lia.
  - rewrite (I x). unfold entry. destruct (position x known); [reflexivity|]. reflexivity.
Qed.
Lemma newDef_fail known refs d n : idx known refs d -> In n known \/ In n refs -> newDefTag n d = None.
Proof.
  intros I H. unfold newDefTag, new_tag. rewrite (I n). unfold entry.
  destruct (position n known) as [i|] eqn:P; [reflexivity|]. apply position_None in P.
  destruct H as [H|H]; [tauto|]. apply inb_In in H. now rewrite H.
Qed.

Definition opened (known : list str) (x : def) : list nat :=
  if def_closed x then [] else [number (known ++ [def_name x]) (def_name x)].
Definition put_def (t : list (str * nat)) (x : def) (known : list str) (d : tsx) : tsx :=
  mktsx (array_tags d ++ [def_name x]) t (opened known x ++ open_class d) (forbid d) (enforce d) (prefer d) (discard d)
        (plist d ++ patterns (known ++ [def_name x]) x) (constants d).

Lemma def_head_ok known refs d x a : attrib Aname a = def_name x -> (def_closed x = true <-> attrib Aclosed a = u "true") ->
  idx known refs d -> length known = length (array_tags d) -> ~ In (def_name x) known -> ~ In (def_name x) refs ->
  exists d', def_head a d = Some d' /\ idx (known ++ [def_name x]) refs d' /\
    d' = mktsx (array_tags d ++ [def_name x]) (tag_index d') (opened known x ++ open_class d) (forbid d) (enforce d) (prefer d) (discard d) (plist d) (constants d).
Proof.
  intros En Ec I L N1 N2. unfold def_head. rewrite En. destruct (newDef_ok known refs d _ I L N1 N2) as (d1 & -> & I1 & E1).
  unfold opened. destruct (str_eqb (attrib Aclosed a) (u "true")) eqn:C.
  - apply str_eqb_eq in C. apply Ec in C. rewrite C. exists d1. auto.
  - assert (C' : def_closed x = false).
    { destruct (def_closed x) eqn:D; [|reflexivity]. rewrite (proj1 Ec eq_refl) in C. discriminate. }
    rewrite C'. rewrite (lookup_known _ _ _ _ I1) by (apply in_or_app; right; now left).
    eexists. split; [reflexivity|]. split; [exact I1|]. rewrite E1. reflexivity.
Qed.

Lemma run_def known refs d x ns : w_def x ns -> idx known refs d -> length known = length (array_tags d) ->
  ~ In (def_name x) known -> ~ In (def_name x) refs ->
  exists t, run MTagset d ns = Some (MTagset, put_def t x known d) /\
            idx (known ++ [def_name x]) (refs ++ refers x) (put_def t x known d).
Proof.
  intros W I L N1 N2. set (K := known ++ [def_name x]).
  assert (In1 : In (def_name x) K) by (apply in_or_app; right; now left).
  destruct x as [n c items|n c seqs]; destruct W as (a & body & En & Ec & E & ->); unfold within.
  - destruct (def_head_ok known refs d (Label n c items) a En Ec I L N1 N2) as (d1 & H & I1 & E1).
    exists (tag_index d1). cbn [app run on_node]. rewrite H. rewrite En. cbn [def_name] in *. fold K in I1.
    rewrite (lookup_known K refs d1 n I1 In1). rewrite run_app, (run_items _ _ _ E). cbn [run on_node].
    cbn [refers]. rewrite app_nil_r. split; [|exact I1].
    f_equal. f_equal. rewrite E1. reflexivity.
  - destruct (def_head_ok known refs d (Mult n c seqs) a En Ec I L N1 N2) as (d1 & H & I1 & E1).
    cbn [app run on_node]. rewrite H. rewrite En. cbn [def_name] in *. fold K in I1.
    destruct (run_seqs K n seqs body E In1 refs d1 I1) as (t & R & J).
    exists t. rewrite run_app, R. cbn [run on_node]. split; [|exact J].
    f_equal. f_equal. rewrite E1. reflexivity.
Qed.
Lemma run_def_fail known refs d x ns rest : w_def x ns -> idx known refs d -> In (def_name x) known \/ In (def_name x) refs ->
  run MTagset d (ns ++ rest) = None.
Proof.
  intros W I H. pose proof (newDef_fail known refs d _ I H) as F.
  destruct x as [n c items|n c seqs]; destruct W as (a & body & En & Ec & E & ->); unfold within; cbn [app run on_node];
    unfold def_head; rewrite En; cbn [def_name] in F; rewrite F; reflexivity.
Qed.

(** All definitions. *)
Fixpoint all_patterns (known : list str) (l : list def) : list pcall :=
  match l with
  | [] => []
  | x :: r => patterns (known ++ [def_name x]) x ++ all_patterns (known ++ [def_name x]) r
  end.
Fixpoint all_open (known : list str) (l : list def) : list nat :=
  match l with [] => [] | x :: r => all_open (known ++ [def_name x]) r ++ opened known x end.
Definition put_defs (t : list (str * nat)) (l : list def) (known : list str) (d : tsx) : tsx :=
  mktsx (array_tags d ++ map def_name l) t (all_open known l ++ open_class d) (forbid d) (enforce d) (prefer d) (discard d)
        (plist d ++ all_patterns known l) (constants d).
Lemma consistent_ext l : forall k k', (forall x, In x k <-> In x k') -> consistent k l -> consistent k' l.
Proof.
  induction l as [|x l IH]; intros k k' H C; [exact I|]. destruct C as (C1 & C2). split; [now rewrite <- H|].
  revert C2. apply IH. intros y. rewrite !in_app_iff, H. tauto.
Qed.
Lemma run_defs l ns : each w_def l ns -> forall known refs d, idx known refs d -> length known = length (array_tags d) ->
  consistent (known ++ refs) l ->
  exists t, run MTagset d ns = Some (MTagset, put_defs t l known d) /\
            idx (known ++ map def_name l) (refs ++ flat_map refers l) (put_defs t l known d).
Proof.
  induction 1 as [|x l ns ms W H IH]; intros known refs d I L C.
  - exists (tag_index d). unfold put_defs. cbn [map all_open all_patterns flat_map app]. rewrite !app_nil_r.
    split; [destruct d; reflexivity|]. exact I.
  - destruct C as (C1 & C2). rewrite in_app_iff in C1.
    destruct (run_def known refs d x ns W I L) as (t & R & I1); [tauto..|].
    destruct (IH (known ++ [def_name x]) (refs ++ refers x) (put_def t x known d) I1) as (t' & R' & I').
    { cbn. rewrite !app_length, L. reflexivity. }
    { revert C2. apply consistent_ext. intros y. rewrite !in_app_iff. tauto. }
    exists t'. rewrite run_app, R, R'.
    assert (E : put_defs t' l (known ++ [def_name x]) (put_def t x known d) = put_defs t' (x :: l) known d).
    { unfold put_defs, put_def. cbn [map all_open all_patterns array_tags open_class forbid enforce prefer discard plist constants].
      rewrite <- !app_assoc. reflexivity. }
    rewrite E in *. split; [reflexivity|]. cbn [map flat_map]. rewrite <- !app_assoc in I'. exact I'.
Qed.
Lemma consistent_dec l : forall k, {consistent k l} + {~ consistent k l}.
Proof.
  induction l as [|x l IH]; intros k; [left; exact I|]. cbn.
  destruct (in_dec (list_eq_dec N.eq_dec) (def_name x) k) as [H|H]; [right; tauto|].
  destruct (IH (k ++ def_name x :: refers x)); [left; auto|right; tauto].
Qed.
Lemma run_defs_fail l ns : each w_def l ns -> forall known refs d rest, idx known refs d -> length known = length (array_tags d) ->
  ~ consistent (known ++ refs) l -> run MTagset d (ns ++ rest) = None.
Proof.
  induction 1 as [|x l ns ms W H IH]; intros known refs d rest I L C; [destruct C; exact Logic.I|].
  rewrite <- app_assoc.
  destruct (in_dec (list_eq_dec N.eq_dec) (def_name x) (known ++ refs)) as [J|J].
  - apply in_app_or in J. eapply run_def_fail; eauto.
  - rewrite in_app_iff in J. destruct (run_def known refs d x ns W I L) as (t & R & I1); [tauto..|].
    rewrite run_app, R. apply (IH (known ++ [def_name x]) (refs ++ refers x)); [exact I1| |].
    + cbn. rewrite !app_length, L. reflexivity.
    + intros C'. apply C. cbn [consistent]. split; [rewrite in_app_iff; tauto|].
      revert C'. apply consistent_ext. intros y. rewrite !in_app_iff. tauto.
Qed.

(** ** The rules *)
Definition put_forbids (t : list (str * nat)) (l : list (nat * nat)) (d : tsx) : tsx :=
  mktsx (array_tags d) t (open_class d) (forbid d ++ l) (enforce d) (prefer d) (discard d) (plist d) (constants d).
Lemma run_pairs known l ns : each w_pair l ns -> forall refs d, idx known refs d ->
  exists t, run MForbid d ns = Some (MForbid, put_forbids t (map (fun p => (number known (fst p), number known (snd p))) l) d) /\
            idx known (refs ++ flat_map (fun p => [fst p; snd p]) l) (with_index t d).
Proof.
  induction 1 as [|x l ns ms W H IH]; intros refs d I.
  - exists (tag_index d). unfold put_forbids. cbn [map flat_map]. rewrite !app_nil_r, with_same. split; [destruct d; reflexivity|exact I].
  - destruct W as (a & b & c & E1 & E2 & ->).
    destruct (lookup_ok known refs d (attrib Alabel b) I) as (t1 & L1 & I1).
    destruct (lookup_ok known _ _ (attrib Alabel c) I1) as (t2 & L2 & I2).
    destruct (IH _ (add_forbid (number known (attrib Alabel b), number known (attrib Alabel c)) (with_index t2 d)) I2) as (t & R & J).
    exists t. split.
    + unfold within. cbn [app run on_node]. rewrite L1. cbn [run on_node]. rewrite L2. cbn [run on_node].
      rewrite with_with. rewrite R. rewrite E1, E2. unfold put_forbids. cbn [map]. f_equal. f_equal.
      unfold add_forbid, with_index. cbn. rewrite <- app_assoc. reflexivity.
    + cbn [flat_map]. rewrite <- E1, <- E2. rewrite <- !app_assoc in J. exact J.
Qed.
Definition put_enforces (t : list (str * nat)) (l : list (nat * list nat)) (d : tsx) : tsx :=
  mktsx (array_tags d) t (open_class d) (forbid d) (enforce d ++ l) (prefer d) (discard d) (plist d) (constants d).
Lemma run_labels known l ns : each w_label l ns -> forall refs d i js, idx known refs d ->
  exists t, run (MEnforce i js) d ns = Some (MEnforce i (js ++ map (number known) l), with_index t d) /\
            idx known (refs ++ l) (with_index t d).
Proof.
  induction 1 as [|x l ns ms W H IH]; intros refs d i js I.
  - exists (tag_index d). cbn [map]. rewrite !app_nil_r, with_same. auto.
  - destruct W as (a & E & L). subst x. destruct (lookup_ok known refs d (attrib Alabel a) I) as (t1 & L1 & I1).
    destruct (IH _ _ i (js ++ [number known (attrib Alabel a)]) I1) as (t & R & J).
    exists t. rewrite with_with in *. split.
    + rewrite run_app. assert (S : run (MEnforce i js) d ns = Some (MEnforce i (js ++ [number known (attrib Alabel a)]), with_index t1 d)).
      { destruct L; cbn [run on_node]; rewrite L1; reflexivity. }
      rewrite S, R. cbn [map]. rewrite <- app_assoc. reflexivity.
    + rewrite <- app_assoc in J. exact J.
Qed.
Lemma run_enforces known l ns : each w_enforce l ns -> forall refs d i, idx known refs d ->
  exists t i', run (MEnforce i []) d ns
               = Some (MEnforce i' [], put_enforces t (map (fun p => (number known (fst p), map (number known) (snd p))) l) d) /\
            idx known (refs ++ flat_map (fun p => fst p :: snd p) l) (with_index t d).
Proof.
  induction 1 as [|x l ns ms W H IH]; intros refs d i I.
  - exists (tag_index d), i. unfold put_enforces. cbn [map flat_map]. rewrite !app_nil_r, with_same. split; [destruct d; reflexivity|exact I].
  - destruct W as (a & b & body & E1 & E & ->).
    destruct (lookup_ok known refs d (attrib Alabel a) I) as (t1 & L1 & I1).
    destruct (run_labels known (snd x) body E _ _ (number known (attrib Alabel a)) [] I1) as (t2 & R2 & I2). rewrite with_with in *.
    cbn [app] in R2.
    destruct (IH _ (add_enforce (number known (attrib Alabel a), map (number known) (snd x)) (with_index t2 d)) (number known (attrib Alabel a)) I2)
      as (t & i' & R & J).
    exists t, i'. split.
    + unfold within. rewrite <- !app_assoc. cbn [app run on_node]. rewrite L1. cbn [run on_node].
      rewrite run_app. rewrite R2. cbn [run on_node app]. rewrite R. rewrite E1. unfold put_enforces. cbn [map]. f_equal. f_equal.
      unfold add_enforce, with_index. cbn. rewrite <- app_assoc. reflexivity.
    + cbn [flat_map]. rewrite <- E1. rewrite <- !app_assoc in J. cbn [app] in *. exact J.
Qed.
Definition put_prefers (l : list str) (d : tsx) : tsx :=
  mktsx (array_tags d) (tag_index d) (open_class d) (forbid d) (enforce d) (prefer d ++ l) (discard d) (plist d) (constants d).
Lemma run_prefers l ns : each (w_tags Xprefer) l ns -> forall d, run MPrefer d ns = Some (MPrefer, put_prefers (map angled l) d).
Proof.
  induction 1 as [|x l ns ms W H IH]; intros d; [unfold put_prefers; cbn; rewrite app_nil_r; destruct d; reflexivity|].
  destruct W as (a & <- & L). rewrite run_app.
  assert (S : run MPrefer d ns = Some (MPrefer, add_prefer (angled (attrib Atags a)) d)) by (destruct L; reflexivity).
  rewrite S, IH. unfold put_prefers, add_prefer. cbn. rewrite <- app_assoc. reflexivity.
Qed.
Definition put_discards (l : list str) (d : tsx) : tsx :=
  mktsx (array_tags d) (tag_index d) (open_class d) (forbid d) (enforce d) (prefer d) (discard d ++ l) (plist d) (constants d).
Lemma run_discards l ns : each (w_tags Xdiscard) l ns -> forall d, run MDiscard d ns = Some (MDiscard, put_discards (map angled l) d).
Proof.
  induction 1 as [|x l ns ms W H IH]; intros d; [unfold put_discards; cbn; rewrite app_nil_r; destruct d; reflexivity|].
  destruct W as (a & <- & L). rewrite run_app.
  assert (S : run MDiscard d ns = Some (MDiscard, add_discard (angled (attrib Atags a)) d)) by (destruct L; reflexivity).
  rewrite S, IH. unfold put_discards, add_discard. cbn. rewrite <- app_assoc. reflexivity.
Qed.

(** ** Sections *)
Definition pair_rule (known : list str) (p : str * str) : nat * nat := (number known (fst p), number known (snd p)).
Definition enforce_rule (known : list str) (p : str * list str) : nat * list nat := (number known (fst p), map (number known) (snd p)).

Lemma sec_forbid known o ns : section Xforbid w_pair o ns -> forall refs d, idx known refs d ->
  exists t k, k <= 1 /\ run (MAfter 0) d ns = Some (MAfter k, put_forbids t (map (pair_rule known) (listed o)) d) /\
            idx known (refs ++ flat_map (fun p => [fst p; snd p]) (listed o)) (with_index t d).
Proof.
  destruct o as [l|]; cbn [section listed].
  - intros (a & body & E & ->) refs d I. destruct (run_pairs known l body E refs d I) as (t & R & J).
    exists t, 1. split; [lia|]. split; [|exact J]. unfold within. cbn [app run on_node Nat.leb]. rewrite run_app, R. reflexivity.
  - intros -> refs d I. exists (tag_index d), 0. split; [lia|]. cbn [map flat_map]. rewrite app_nil_r, with_same. split; [|exact I].
    unfold put_forbids. rewrite app_nil_r. destruct d; reflexivity.
Qed.
Lemma sec_enforce known o ns : section Xenforce_rules w_enforce o ns -> forall k refs d, k <= 1 -> idx known refs d ->
  exists t k', k' <= 2 /\ run (MAfter k) d ns = Some (MAfter k', put_enforces t (map (enforce_rule known) (listed o)) d) /\
            idx known (refs ++ flat_map (fun p => fst p :: snd p) (listed o)) (with_index t d).
Proof.
  destruct o as [l|]; cbn [section listed].
  - intros (a & body & E & ->) k refs d K I. destruct (run_enforces known l body E refs d 0 I) as (t & i' & R & J).
    exists t, 2. split; [lia|]. split; [|exact J]. unfold within. cbn [app run on_node].
    destruct (Nat.leb_spec k 1); [|lia]. rewrite run_app, R. reflexivity.
  - intros -> k refs d K I. exists (tag_index d), k. split; [lia|]. cbn [map flat_map]. rewrite app_nil_r, with_same. split; [|exact I].
    unfold put_enforces. rewrite app_nil_r. destruct d; reflexivity.
Qed.
Lemma sec_prefer o ns : section Xpreferences (w_tags Xprefer) o ns -> forall k d, k <= 2 ->
  exists k', run (MAfter k) d ns = Some (MAfter k', put_prefers (map angled (listed o)) d).
Proof.
  destruct o as [l|]; cbn [section listed].
  - intros (a & body & E & ->) k d K. exists 3. unfold within. cbn [app run on_node].
    destruct (Nat.leb_spec k 2); [|lia]. rewrite run_app, (run_prefers l body E). reflexivity.
  - intros -> k d K. exists k. unfold put_prefers. cbn [map]. rewrite app_nil_r. destruct d; reflexivity.
Qed.
Lemma sec_discard o ns : section Xdiscard_on_ambiguity (w_tags Xdiscard) o ns -> forall k d a rest,
  run (MAfter k) d (ns ++ Close Xtagger a :: rest) = Some (MDone, put_discards (map angled (listed o)) d).
Proof.
  destruct o as [l|]; cbn [section listed].
  - intros (a' & body & E & ->) k d a rest. unfold within. rewrite <- !app_assoc. cbn [app run on_node].
    rewrite run_app, (run_discards l body E). cbn [run on_node]. apply run_done.
  - intros -> k d a rest. cbn [app run on_node map]. rewrite run_done. unfold put_discards. rewrite app_nil_r. destruct d; reflexivity.
Qed.

Definition start : tsx := mktsx (map TAG reserved) (rev (combine (map TAG reserved) (seq 0 7))) [] [] [] [] [] [] [].
Lemma start_ok : new_tags reserved empty = Some start.
Proof. vm_compute. reflexivity. Qed.
Lemma assoc_rev_combine (l : list str) x : NoDup l -> forall k,
  assoc (TAG x) (rev (combine (map TAG l) (seq k (length l)))) = option_map (Nat.add k) (position x l).
Proof.
  assert (A : forall a b : list (str * nat), assoc (TAG x) (a ++ b) = match assoc (TAG x) a with Some v => Some v | None => assoc (TAG x) b end).
  { induction a as [|(y, v) a IH]; intros b; [reflexivity|]. cbn [app assoc]. destruct (str_eqb (TAG x) y); [reflexivity|apply IH]. }
  induction 1 as [|y l N D IH]; intros k; [reflexivity|]. cbn [map length seq combine rev]. rewrite A, IH. cbn [assoc position].
  rewrite eqb_TAG. destruct (str_eqb x y) eqn:E.
  - apply str_eqb_eq in E. subst. assert (P : position y l = None) by now apply position_None. rewrite P. cbn. f_equal. lia.
  - destruct (position x l) as [i|]; cbn; [f_equal; lia|reflexivity].
Qed.
Lemma start_idx : idx reserved [] start.
Proof.
  intros x. unfold start, entry. cbn [tag_index].
  assert (N : NoDup reserved).
  { assert (H : forall l : list str, (fix f (l : list str) := match l with [] => true | x :: r => negb (inb x r) && f r end) l = true -> NoDup l).
    { induction l as [|y l IH]; intros H; constructor; apply andb_prop in H; destruct H as (H1 & H2); [|auto].
      intros I. apply inb_In in I. rewrite I in H1. discriminate. }
    apply H. vm_compute. reflexivity. }
  change 7 with (length reserved). rewrite assoc_rev_combine by exact N.
  destruct (position x reserved); reflexivity.
Qed.

Definition result (t : list (str * nat)) (d : doc) : tsx :=
  let l := names d in
  mktsx (map TAG reserved ++ map def_name (defs d)) t (all_open reserved (defs d))
        (map (pair_rule l) (listed (forbids d))) (map (enforce_rule l) (listed (enforces d)))
        (map angled (listed (prefers d))) (map angled (listed (discards d))) (all_patterns reserved (defs d)) [].

Lemma run_doc d ns : w_doc d ns -> consistent reserved (defs d) ->
  exists t, run MStart start ns = Some (MDone, result t d) /\ idx (names d) (used d) (result t d).
Proof.
  intros (a & b & s1 & s2 & s3 & s4 & s5 & D & S2 & S3 & S4 & S5 & ->) C.
  destruct (run_defs (defs d) s1 D reserved [] start start_idx eq_refl) as (t1 & R1 & I1); [rewrite app_nil_r; exact C|].
  cbn [app] in I1.
  destruct (sec_forbid (names d) (forbids d) s2 S2 _ _ I1) as (t2 & k2 & K2 & R2 & I2).
  set (d2 := put_forbids t2 (map (pair_rule (names d)) (listed (forbids d))) (put_defs t1 (defs d) reserved start)) in *.
  destruct (sec_enforce (names d) (enforces d) s3 S3 k2 _ d2 K2 I2) as (t3 & k3 & K3 & R3 & I3).
  set (d3 := put_enforces t3 (map (enforce_rule (names d)) (listed (enforces d))) d2) in *.
  destruct (sec_prefer (prefers d) s4 S4 k3 d3 K3) as (k4 & R4).
  exists t3. split.
  - unfold within. rewrite <- !app_assoc. cbn [app run on_node]. rewrite run_app, R1. cbn [run on_node].
    rewrite run_app, R2. rewrite run_app, R3. rewrite run_app, R4. rewrite (sec_discard _ _ S5). f_equal. f_equal.
    unfold d3, d2, result, put_discards, put_prefers, put_enforces, put_forbids, put_defs, start. cbn [array_tags tag_index open_class forbid enforce prefer discard plist constants app].
    rewrite app_nil_r. reflexivity.
  - unfold used. rewrite <- app_assoc in I3. exact I3.
Qed.
Lemma run_doc_fail d ns : w_doc d ns -> ~ consistent reserved (defs d) -> run MStart start ns = None.
Proof.
  intros (a & b & s1 & s2 & s3 & s4 & s5 & D & S2 & S3 & S4 & S5 & ->) C.
  unfold within. rewrite <- !app_assoc. cbn [app run on_node].
  apply (run_defs_fail (defs d) s1 D reserved [] start); [exact start_idx|reflexivity|rewrite app_nil_r; exact C].
Qed.

Definition last_patterns : list pcall :=
  [PItem 0 [] (u "lpar"); PItem 1 [] (u "rpar"); PItem 2 [] (u "lquest"); PItem 3 [] (u "cm"); PItem 4 [] (u "sent")].
Lemma newConstant_mk c a t o f e p di pl k :
  newConstant c (mktsx a t o f e p di pl k) = mktsx (a ++ [c]) t o f e p di pl ((c, length a) :: k).
Proof. reflexivity. Qed.
Lemma add_plist_mk c a t o f e p di pl k : add_plist c (mktsx a t o f e p di pl k) = mktsx a t o f e p di (pl ++ [c]) k.
Proof. reflexivity. Qed.
Lemma finish_ok known refs d : idx (reserved ++ known) refs d ->
  finish d = mktsx (array_tags d ++ constant_names) (tag_index d) (open_class d) (forbid d) (enforce d) (prefer d) (discard d)
                   (plist d ++ last_patterns) (rev (combine constant_names (seq (length (array_tags d)) 7)) ++ constants d).
Proof.
  intros I. destruct d as [a t o f e p di pl k]. unfold finish. cbn [fold_left]. rewrite !newConstant_mk.
  cbn [array_tags tag_index open_class forbid enforce prefer discard plist constants].
  rewrite <- !app_assoc. cbn [app]. rewrite !app_length. cbn [length].
  match goal with |- add_reserved _ _ (add_reserved _ _ (add_reserved _ _ (add_reserved _ _ (add_reserved _ _ ?x)))) = _ => set (d1 := x) end.
  assert (I1 : idx (reserved ++ known) refs d1) by exact I.
  assert (A : forall s t e i, idx (reserved ++ known) refs e -> position (u s) reserved = Some i ->
              add_reserved s t e = add_plist (PItem i [] (u t)) e /\ idx (reserved ++ known) refs (add_plist (PItem i [] (u t)) e)).
  { intros s t' e' i J P. unfold add_reserved.
    assert (E : lookup (u s) e' = (i, e')).
    { rewrite (lookup_known _ _ _ _ J).
      - unfold number. rewrite position_app, P. reflexivity.
      - apply in_or_app. left. destruct (in_dec (list_eq_dec N.eq_dec) (u s) reserved) as [H|H]; [exact H|].
        apply position_None in H. congruence. }
    rewrite E. split; [reflexivity|exact J]. }
  destruct (A "LPAR"%string "lpar"%string d1 0 I1 ltac:(vm_compute; reflexivity)) as (-> & I2).
  destruct (A "RPAR"%string "rpar"%string _ 1 I2 ltac:(vm_compute; reflexivity)) as (-> & I3).
  destruct (A "LQUEST"%string "lquest"%string _ 2 I3 ltac:(vm_compute; reflexivity)) as (-> & I4).
  destruct (A "CM"%string "cm"%string _ 3 I4 ltac:(vm_compute; reflexivity)) as (-> & I5).
  destruct (A "SENT"%string "sent"%string _ 4 I5 ltac:(vm_compute; reflexivity)) as (-> & I6).
  unfold d1. rewrite !add_plist_mk. rewrite <- !app_assoc. cbn [app].
  unfold constant_names, last_patterns. cbn [map seq combine rev app length Nat.add].
  f_equal. repeat (f_equal; try lia).
Qed.

(** ** With all the names *)
Lemma number_ext l m x : In x l -> number (l ++ m) x = number l x.
Proof.
  intros I. unfold number. rewrite position_app. destruct (position x l) eqn:P; [reflexivity|]. apply position_None in P. tauto.
Qed.
Lemma consistent_later l : forall k x y, consistent k l -> In y l -> In x k -> def_name y <> x.
Proof.
  induction l as [|z l IH]; intros k x y C J I; [destruct J|]. destruct C as (C1 & C2). destruct J as [->|J]; [congruence|].
  apply (IH (k ++ [def_name z] ++ refers z) x y C2 J). apply in_or_app. now left.
Qed.
Lemma patterns_all l : forall known K, (forall x, In x known -> In x K) -> consistent K l ->
  all_patterns known l = flat_map (patterns (known ++ map def_name l)) l.
Proof.
  induction l as [|x l IH]; intros known K Sub C; [reflexivity|]. cbn [all_patterns flat_map map].
  pose proof C as C'. destruct C as (C1 & C2).
  assert (E : forall y, In y (known ++ [def_name x] ++ refers x) ->
              number (known ++ def_name x :: map def_name l) y = number (known ++ [def_name x]) y).
  { intros y Y. change (def_name x :: map def_name l) with ([def_name x] ++ map def_name l). rewrite app_assoc.
    destruct (in_dec (list_eq_dec N.eq_dec) y (known ++ [def_name x])) as [I|I]; [now apply number_ext|].
    unfold number. rewrite position_app. destruct (position y (known ++ [def_name x])); [reflexivity|].
    assert (P : position y (map def_name l) = None).
    { apply position_None. intros M. apply in_map_iff in M. destruct M as (z & Ez & Z).
      apply (consistent_later l (K ++ [def_name x] ++ refers x) y z C2 Z); [|exact Ez].
      rewrite !in_app_iff in *. destruct Y as [Y|[Y|Y]]; auto. }
    rewrite P. reflexivity. }
  f_equal.
  - assert (N : In (def_name x) (known ++ [def_name x] ++ refers x)) by (rewrite !in_app_iff; right; left; now left).
    destruct x as [n c items|n c seqs]; cbn [patterns def_name refers] in *.
    + apply map_ext. intros i. now rewrite (E n N).
    + assert (G : forall s, In s seqs -> map (fun i => match i with
                                             | SItem lemma tags => PItem (number (known ++ [n]) n) lemma tags
                                             | SLabel o => PLabel (number (known ++ [n]) n) (number (known ++ [n]) o)
                                             end) s
                 = map (fun i => match i with
                                             | SItem lemma tags => PItem (number (known ++ n :: map def_name l) n) lemma tags
                                             | SLabel o => PLabel (number (known ++ n :: map def_name l) n) (number (known ++ n :: map def_name l) o)
                                             end) s).
      { intros s S. apply map_ext_in. intros i I. rewrite (E n N). destruct i as [le ta|o]; [reflexivity|]. rewrite E; [reflexivity|].
        rewrite !in_app_iff. right. right. apply in_flat_map. exists (SLabel o). split; [|now left]. apply in_concat. eauto. }
      clear - G. induction seqs as [|s seqs IH]; [reflexivity|]. cbn [flat_map]. rewrite (G s) by now left. f_equal.
      apply IH. intros s' S'. apply G. now right.
  - rewrite (IH (known ++ [def_name x]) (K ++ [def_name x] ++ refers x)); [now rewrite <- app_assoc| |exact C2].
    intros y Y. rewrite !in_app_iff in *. destruct Y as [Y|Y]; auto.
Qed.
Lemma open_all l : forall known i, In i (all_open known l) <->
  exists a x b, l = a ++ x :: b /\ def_closed x = false /\ i = number (known ++ map def_name a ++ [def_name x]) (def_name x).
Proof.
  induction l as [|x l IH]; intros known i; cbn [all_open].
  - split; [intros []|]. intros ([|? ?] & x & b & E & _); discriminate.
  - rewrite in_app_iff, IH. unfold opened. split.
    + intros [(a & y & b & -> & C & ->)|H].
      * exists (x :: a), y, b. split; [reflexivity|]. split; [exact C|]. cbn [map]. rewrite <- app_assoc. reflexivity.
      * destruct (def_closed x) eqn:C; [destruct H|]. destruct H as [<-|[]]. exists [], x, l. auto.
    + intros ([|z a] & y & b & E & C & ->); cbn in E; injection E as -> ->.
      * right. rewrite C. now left.
      * left. exists a, y, b. split; [reflexivity|]. split; [exact C|]. cbn [map]. rewrite <- app_assoc. reflexivity.
Qed.
