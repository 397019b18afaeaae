From Coq Require Import String Sorted.
From Verif Require Import Model.Base Proofs.Base Model.Modes Spec.Modes.

(** ** strings *)
Lemma starts_spec c p : starts_with c p = true <-> exists r, c = p ++ r.
Proof.
  unfold starts_with. rewrite str_eqb_eq. split.
  - intros H. exists (skipn (length p) c). rewrite <- H at 1. symmetry. apply firstn_skipn.
  - intros [r ->]. rewrite firstn_app, Nat.sub_diag, firstn_all. apply app_nil_r.
Qed.
Lemma starts_false c p : starts_with c p = false <-> forall r, c <> p ++ r.
Proof.
  split.
  - intros H r E. rewrite (proj2 (starts_spec c p)) in H; [discriminate|exists r; exact E].
  - intros H. destruct (starts_with c p) eqn:E; [|reflexivity]. apply starts_spec in E as [r E]. destruct (H r E).
Qed.
Lemma has_spec c s : has c s = true <-> exists a b, c = a ++ s ++ b.
Proof.
  induction c as [|x c IH]; cbn [has].
  - rewrite orb_false_r, starts_spec. split; [intros [r E]; exists [], r; exact E|]. intros ([|a0 a] & b & E); [exists b; exact E|discriminate].
  - rewrite orb_true_iff, starts_spec, IH. split.
    + intros [[r E]|(a & b & E)]; [exists [], r; exact E|exists (x :: a), b; cbn; rewrite E; reflexivity].
    + intros ([|a0 a] & b & E); [left; exists b; exact E|right; exists a, b; cbn in E; injection E as _ E; exact E].
Qed.
Lemma has_false c s : has c s = false -> forall a b, c <> a ++ s ++ b.
Proof. intros H a b E. rewrite (proj2 (has_spec c s)) in H; [discriminate|eauto]. Qed.
Lemma skip_app (p r : str) : skipn (length p) (p ++ r) = r.
Proof. rewrite skipn_app, Nat.sub_diag, skipn_all. reflexivity. Qed.
Lemma first_spec s a b : has s a = true -> exists x y, s = x ++ a ++ y /\ replace_first s a b = x ++ b ++ y /\ forall p q, s = p ++ a ++ q -> length x <= length p.
Proof.
  induction s as [|c s IH]; intros H.
  - cbn [has] in H. rewrite orb_false_r in H. cbn [replace_first]. rewrite H. apply starts_spec in H as [r E]. exists [], r. split; [exact E|]. split; [cbn [app]; f_equal; rewrite E; apply skip_app|]. intros; cbn; lia.
  - cbn [replace_first]. destruct (starts_with (c :: s) a) eqn:S.
    + apply starts_spec in S as [r E]. exists [], r. split; [exact E|]. split; [rewrite E, skip_app; reflexivity|]. intros; cbn; lia.
    + cbn [has] in H. rewrite S in H. cbn [orb] in H. destruct (IH H) as (x & y & E1 & E2 & E3). exists (c :: x), y. split; [cbn; rewrite E1 at 1; reflexivity|]. split; [rewrite E2; reflexivity|].
      intros [|p0 p] q E; [rewrite starts_false in S; destruct (S q E)|]. cbn in E. injection E as _ E. apply E3 in E. cbn. lia.
Qed.
Lemma last_spec s a b : has s a = true -> exists x y, s = x ++ a ++ y /\ replace_last s a b = x ++ b ++ y /\ forall p q, s = p ++ a ++ q -> length p <= length x.
Proof.
  induction s as [|c s IH]; intros H.
  - cbn [has] in H. rewrite orb_false_r in H. cbn [replace_last]. rewrite H. apply starts_spec in H as [r E]. exists [], r. split; [exact E|]. split; [cbn [app]; f_equal; rewrite E; apply skip_app|].
    intros [|p0 p] q E'; [cbn; lia|discriminate].
  - cbn [replace_last]. destruct (has s a) eqn:HS.
    + destruct (IH eq_refl) as (x & y & E1 & E2 & E3). exists (c :: x), y. split; [cbn; rewrite E1 at 1; reflexivity|]. split; [rewrite E2; reflexivity|].
      intros [|p0 p] q E; [cbn; lia|]. cbn in E. injection E as _ E. apply E3 in E. cbn. lia.
    + cbn [has] in H. rewrite HS, orb_false_r in H. rewrite H. apply starts_spec in H as [r E]. exists [], r. split; [exact E|]. split; [cbn [app]; f_equal; rewrite E; apply skip_app|].
      intros [|p0 p] q E'; [cbn; lia|]. cbn in E'. injection E' as _ E'. destruct (has_false _ _ HS _ _ E').
Qed.
Lemma last_none s a b : has s a = false -> replace_last s a b = s.
Proof.
  induction s as [|c s IH]; intros H; cbn [replace_last]; cbn [has] in H; [rewrite orb_false_r in H; rewrite H; reflexivity|].
  apply orb_false_elim in H as [H1 H2]. rewrite H2, H1. reflexivity.
Qed.

(** ** tracing *)
Lemma trace_traced c : Traced c (trace_cmd c).
Proof.
  unfold trace_cmd.
  assert (O : forall prog opt, In (prog, opt) trace_options -> starts_with c prog = true -> Traced c (c ++ opt)).
  { intros prog opt HI S. apply starts_spec in S as [r ->]. apply tr_opt, HI. }
  destruct (starts_with c (u "cg-proc") || _ || _ || _ || _) eqn:S1.
  - apply orb_prop in S1 as [S1|S1]; [apply orb_prop in S1 as [S1|S1]; [apply orb_prop in S1 as [S1|S1]; [apply orb_prop in S1 as [S1|S1]|]|]|];
      eapply O; try eassumption; cbn; tauto.
  - destruct (starts_with c (u "rtx-proc")) eqn:S2; [eapply O; try eassumption; cbn; tauto|].
    destruct (starts_with c (u "apertium-anaphora")) eqn:S3; [eapply O; try eassumption; cbn; tauto|].
    repeat (apply orb_false_elim in S1 as [S1 ?]).
    assert (F : forall prog opt r, In (prog, opt) trace_options -> c <> prog ++ r).
    { intros prog opt r HI. cbn in HI.
      repeat (destruct HI as [HI|HI]; [injection HI as <- <-; apply starts_false; assumption|]). destruct HI. }
    destruct (has c (u "$1")) eqn:HS.
    + destruct (first_spec c (u "$1") (u "-d") HS) as (x & y & E1 & E2 & E3). rewrite E2. rewrite E1 at 1. apply tr_gen.
      * intros prog opt r HI. rewrite <- E1. exact (F prog opt r HI).
      * intros p q E. assert (L : length x <= length p) by (apply (E3 p (q ++ y)); rewrite E1; change (x ++ u "$1" ++ y) with (x ++ (u "$1" ++ y)); rewrite app_assoc, E, <- !app_assoc; reflexivity).
        apply (f_equal (@length char)) in E. rewrite !app_length in E. destruct q; [reflexivity|cbn in E; lia].
    + apply tr_none; [exact F|apply has_false, HS].
Qed.
Lemma trace_last_ok l : l <> [] -> TracedLast l (trace_last l).
Proof.
  induction l as [|p l IH]; [contradiction|]. intros _. destruct l as [|q l].
  - exists [], p, (mkp (trace_cmd (p_cmd p)) (p_suff p) (p_args p)). split; [reflexivity|]. split; [reflexivity|]. split; [apply trace_traced|reflexivity].
  - destruct IH as (pre & a & b & E1 & E2 & T & A); [discriminate|]. exists (p :: pre), a, b. split; [rewrite E1; reflexivity|]. split; [change (trace_last (p :: q :: l)) with (p :: trace_last (q :: l)); rewrite E2; reflexivity|]. split; assumption.
Qed.
Lemma trace_last_nil l : trace_last l = [] -> l = [].
Proof. destruct l as [|p [|q l]]; [reflexivity|discriminate|discriminate]. Qed.
Lemma untrim_ok p : p_cmd p = p_cmd (untrim p) /\ Forall2 UArg (p_args p) (p_args (untrim p)).
Proof.
  split; [reflexivity|]. cbn. induction (p_args p) as [|a l IH]; [constructor|]. constructor; [|exact IH]. split; [reflexivity|]. cbn [fst snd].
  destruct (has (fst a) (u ".automorf.")) eqn:H.
  - left. destruct (last_spec _ _ (u ".automorf-untrimmed.") H) as (x & y & E1 & E2 & E3). exists x, y. split; [exact E1|]. split; [exact E2|exact E3].
  - right. rewrite last_none by exact H. split; [reflexivity|apply has_false, H].
Qed.
Lemma same_set l : Forall2 same_prog l (map set_suffix l).
Proof. induction l as [|p l IH]; [constructor|]. cbn. constructor; [|exact IH]. unfold set_suffix. destruct (p_suff p) eqn:E; split; reflexivity. Qed.
Lemma suff_set p : p_suff (set_suffix p) = suffixes p.
Proof. unfold set_suffix, suffixes. destruct (p_suff p) eqn:E; [reflexivity|exact E]. Qed.

(** ** maps *)
Lemma get_put k v m j : get j (put k v m) = if str_eqb j k then Some v else get j m.
Proof.
  induction m as [|[k' v'] m IH]; cbn; [reflexivity|]. destruct (str_eqb k k') eqn:E.
  - apply str_eqb_eq in E as <-. cbn. destruct (str_eqb j k); reflexivity.
  - destruct (str_ltb k k'); [reflexivity|]. cbn. destruct (str_eqb j k') eqn:E1.
    + apply str_eqb_eq in E1 as ->. destruct (str_eqb k' k) eqn:E2; [|reflexivity]. apply str_eqb_eq in E2 as ->. rewrite str_eqb_refl in E. discriminate.
    + exact IH.
Qed.
Lemma get_In k v m : get k m = Some v -> In (k, v) m.
Proof. induction m as [|[k' v'] m IH]; cbn; [discriminate|]. destruct (str_eqb k k') eqn:E; [intros H; injection H as <-; apply str_eqb_eq in E as <-; left; reflexivity|intros H; right; apply IH, H]. Qed.
Lemma In_get k v m : NoDup (map fst m) -> In (k, v) m -> get k m = Some v.
Proof.
  induction m as [|[k' v'] m IH]; cbn; intros ND []; inversion ND as [|? ? NI ND']; subst.
  - injection H as -> ->. rewrite str_eqb_refl. reflexivity.
  - destruct (str_eqb k k') eqn:E; [apply str_eqb_eq in E as ->; destruct NI; apply (in_map fst _ _ H)|apply IH; assumption].
Qed.
Definition slt (a b : str * pipeline) : Prop := str_ltb (fst a) (fst b) = true.
Lemma ltb_irrefl a : str_ltb a a = false.
Proof. induction a as [|x a IH]; [reflexivity|]. cbn. rewrite N.ltb_irrefl, ceq_refl. exact IH. Qed.
Lemma ltb_trans a : forall b c, str_ltb a b = true -> str_ltb b c = true -> str_ltb a c = true.
Proof.
  induction a as [|x a IH]; intros [|y b] [|z c]; cbn; try discriminate; try reflexivity. intros H1 H2.
  apply orb_prop in H1. apply orb_prop in H2. apply orb_true_iff.
  destruct H1 as [H1|H1]; destruct H2 as [H2|H2].
  - left. apply N.ltb_lt in H1, H2. apply N.ltb_lt. lia.
  - apply andb_prop in H2 as [H2 _]. apply ceq_eq in H2 as ->. left. exact H1.
  - apply andb_prop in H1 as [H1 _]. apply ceq_eq in H1 as ->. left. exact H2.
  - apply andb_prop in H1 as [H1 H1']. apply andb_prop in H2 as [H2 H2']. apply ceq_eq in H1 as ->. apply ceq_eq in H2 as ->. right. rewrite ceq_refl. apply (IH _ _ H1' H2').
Qed.
Lemma ltb_total a : forall b, str_eqb a b = false -> str_ltb a b = false -> str_ltb b a = true.
Proof.
  induction a as [|x a IH]; intros [|y b]; cbn; try discriminate; try reflexivity. intros H1 H2. apply orb_false_elim in H2 as [H2 H3]. apply orb_true_iff.
  destruct (ceq_spec x y) as [->|Hn].
  - rewrite ceq_refl in *. right. apply IH; [|exact H3]. destruct (str_eqb a b) eqn:Q; [|reflexivity]. apply str_eqb_eq in Q as ->. assert (W := str_eqb_refl (y :: b)). cbn in W. congruence.
  - left. apply N.ltb_ge in H2. apply N.ltb_lt. assert (x <> y) by exact Hn. lia.
Qed.
Lemma put_sorted k v m : StronglySorted slt m -> StronglySorted slt (put k v m).
Proof.
  intros H. induction H as [|[k' v'] m S IH F]; cbn; [constructor; constructor|].
  destruct (str_eqb k k') eqn:E; [apply str_eqb_eq in E as <-; constructor; [exact S|exact F]|]. destruct (str_ltb k k') eqn:L.
  - constructor; [constructor; assumption|]. constructor; [exact L|]. eapply Forall_impl; [|exact F]. intros [j w] Hj. unfold slt in *. cbn in *. apply (ltb_trans _ _ _ L Hj).
  - constructor; [exact IH|]. assert (K := ltb_total _ _ E L). clear IH S. induction F as [|[j w] m Hj F IHF]; cbn; [constructor; [exact K|constructor]|].
    destruct (str_eqb k j) eqn:E1; [constructor; [exact K|exact F]|]. destruct (str_ltb k j); constructor; try assumption; [constructor; assumption].
Qed.
Lemma sorted_nodup m : StronglySorted slt m -> NoDup (map fst m).
Proof.
  induction 1 as [|[k v] m S IH F]; cbn; constructor; [|exact IH]. intros H. apply in_map_iff in H as ([j w] & E & H). cbn in E. subst. rewrite Forall_forall in F. apply F in H. unfold slt in H. cbn in H. rewrite ltb_irrefl in H. discriminate.
Qed.

Definition named (m : modes) : Prop := Forall (fun kv => m_name (snd kv) = fst kv) m.
Lemma put_named v m : named m -> named (put (m_name v) v m).
Proof.
  intros H. induction H as [|[k' v'] m Hk H IH]; cbn; [constructor; [reflexivity|constructor]|]. destruct (str_eqb _ _); [constructor; [reflexivity|exact H]|].
  destruct (str_ltb _ _); constructor; try assumption; [reflexivity|constructor; assumption].
Qed.

(** ** generating *)
Definition stepo (cur : modes) (o : pipeline * nat * str) : modes := match o with (m, i, s) => step_debug (m_name m) (map set_suffix (m_steps m)) i cur s end.
Definition dsteps (o : pipeline * nat * str) : list program := match o with (m, i, s) => trace_last (firstn (S i) (map set_suffix (m_steps m))) end.
Definition usteps (o : pipeline * nat * str) : list program := trace_last (map untrim (dsteps o)).
Lemma stepo_eq cur o : stepo cur o =
  match get (origin_name o) cur with
  | Some _ => cur
  | None => let ms1 := put (origin_name o) (mkm (origin_name o) false false (dsteps o)) cur in
            match get (cAT :: origin_name o) ms1 with Some _ => ms1 | None => put (cAT :: origin_name o) (mkm (cAT :: origin_name o) false false (usteps o)) ms1 end
  end.
Proof. destruct o as [[m i] s]. reflexivity. Qed.
Lemma fold_flat {A B C} (f : A -> C -> A) (g : B -> list C) l a : fold_left f (flat_map g l) a = fold_left (fun a x => fold_left f (g x) a) l a.
Proof. revert a. induction l as [|x l IH]; intros a; [reflexivity|]. cbn. rewrite fold_left_app. apply IH. Qed.
Lemma fold_map {A B C} (f : A -> C -> A) (g : B -> C) l a : fold_left f (map g l) a = fold_left (fun a x => f a (g x)) l a.
Proof. revert a. induction l as [|x l IH]; intros a; [reflexivity|]. cbn. apply IH. Qed.
Lemma fold_ext {A B} (f g : A -> B -> A) l a : (forall a x, f a x = g a x) -> fold_left f l a = fold_left g l a.
Proof. intros H. revert a. induction l as [|x l IH]; intros a; [reflexivity|]. cbn. rewrite H. apply IH. Qed.
Lemma debug_eq cur m : get (m_name m) cur = Some (set_suffixes m) -> debug_mode cur (m_name m) = fold_left stepo (steps_from m) cur.
Proof.
  intros H. unfold debug_mode. rewrite H. unfold steps_from. rewrite fold_flat. cbn [m_steps set_suffixes]. rewrite map_length.
  apply fold_ext. intros a i. rewrite nth_error_map. destruct (nth_error (m_steps m) i) as [p|]; [|reflexivity]. cbn [option_map]. rewrite suff_set, fold_map. reflexivity.
Qed.
Section Gen.
Variable ms : modes.
Hypothesis ND : NoDup (map fst ms).
Hypothesis NM : named ms.
Definition ms1 : modes := map (fun kv => if m_debug (snd kv) then (fst kv, set_suffixes (snd kv)) else kv) ms.
Definition kept (m : pipeline) : pipeline := if m_debug m then set_suffixes m else m.
Lemma get_ms1 n : get n ms1 = option_map kept (get n ms).
Proof.
  unfold ms1. clear. induction ms as [|[k v] l IH]; [reflexivity|]. cbn [map get fst snd]. unfold kept at 1. destruct (m_debug v) eqn:D; cbn [get]; destruct (str_eqb n k); try exact IH; cbn; unfold kept; rewrite D; reflexivity.
Qed.
Definition by_find (os : list (pipeline * nat * str)) (n : str) := find (fun o => str_eqb (origin_name o) n) os.
Definition J (os : list (pipeline * nat * str)) (cur : modes) : Prop :=
  (forall n m, get n ms1 = Some m -> get n cur = Some m) /\
  (forall n d, get n ms1 = None -> get n cur = Some d ->
     (exists o, by_find os n = Some o /\ d = mkm n false false (dsteps o)) \/
     (exists n' o, n = cAT :: n' /\ get n' ms1 = None /\ by_find os n' = Some o /\ d = mkm n false false (usteps o))) /\
  (forall o, In o os -> get (origin_name o) cur <> None) /\
  ((forall o, In o (origins ms) -> forall r, origin_name o <> cAT :: r) -> incl os (origins ms) -> forall o, In o os -> get (origin_name o) ms1 = None -> get (cAT :: origin_name o) cur <> None) /\
  NoDup (map fst cur) /\ named cur.
Lemma find_app_l os x n o : by_find os n = Some o -> by_find (os ++ x) n = Some o.
Proof. unfold by_find. induction os as [|a os IH]; [discriminate|]. cbn. destruct (str_eqb (origin_name a) n); [exact (fun H => H)|exact IH]. Qed.
Lemma find_app_none os x n : by_find os n = None -> by_find (os ++ x) n = by_find x n.
Proof. unfold by_find. induction os as [|a os IH]; [reflexivity|]. cbn. destruct (str_eqb (origin_name a) n); [discriminate|exact IH]. Qed.
Lemma find_none_in os n : (forall o, In o os -> origin_name o <> n) -> by_find os n = None.
Proof. unfold by_find. intros H. induction os as [|a os IH]; [reflexivity|]. cbn. destruct (str_eqb (origin_name a) n) eqn:E; [apply str_eqb_eq in E; destruct (H a (or_introl eq_refl) E)|apply IH; intros o Ho; apply H; right; exact Ho]. Qed.
Lemma keys_put k v m : NoDup (map fst m) -> get k m = None -> NoDup (map fst (put k v m)).
Proof.
  assert (K : forall x k v m, In x (map fst (put k v m)) -> x = k \/ In x (map fst m)).
  { clear. intros x k v m. induction m as [|[k' v'] m IH]; cbn; [intros [H|[]]; left; congruence|]. destruct (str_eqb k k') eqn:E; [apply str_eqb_eq in E as <-; cbn; tauto|]. destruct (str_ltb k k'); cbn; [intuition congruence|]. intros [H|H]; [right; left; exact H|]. destruct (IH H); [left|right; right]; assumption. }
  induction m as [|[k' v'] m IH]; cbn; intros D G; [constructor; [intros []|constructor]|]. destruct (str_eqb k k') eqn:E; [discriminate|]. inversion D as [|? ? NI D']; subst. destruct (str_ltb k k').
  - cbn. constructor; [|constructor; assumption]. intros [H|H]; [subst; rewrite str_eqb_refl in E; discriminate|]. clear -G H. induction m as [|[a b] m IH]; [destruct H|]. cbn in *. destruct (str_eqb k a) eqn:Q; [discriminate|]. destruct H as [H|H]; [subst; rewrite str_eqb_refl in Q; discriminate|apply IH; assumption].
  - cbn. constructor; [|apply IH; assumption]. intros H. apply K in H as [H|H]; [subst; rewrite str_eqb_refl in E; discriminate|contradiction].
Qed.
Lemma named_put k v m : m_name v = k -> named m -> named (put k v m).
Proof. intros <-. apply put_named. Qed.
Lemma at_neq (n : str) : cAT :: n <> n.
Proof. intros E. apply (f_equal (@length char)) in E. cbn in E. lia. Qed.
Lemma J_step os cur o : J os cur -> J (os ++ [o]) (stepo cur o).
Proof.
  intros (J1 & J2 & J3 & J4 & J5 & J6). rewrite stepo_eq. set (d := origin_name o). destruct (get d cur) as [d0|] eqn:G.
  - split; [exact J1|]. split; [|split; [|split; [|split; [exact J5|exact J6]]]].
    + intros n x Hn Hx. destruct (J2 n x Hn Hx) as [(o' & F & E)|(n' & o' & E1 & E2 & F & E3)].
      * left. exists o'. split; [apply find_app_l, F|exact E].
      * right. exists n', o'. split; [exact E1|]. split; [exact E2|]. split; [apply find_app_l, F|exact E3].
    + intros o' H. apply in_app_or in H as [H|[<-|[]]]; [apply J3, H|]. fold d. congruence.
    + intros NA IN o' H HN. assert (IN' : incl os (origins ms)) by (intros y Hy; apply IN, in_or_app; left; exact Hy). apply in_app_or in H as [H|[<-|[]]]; [apply (J4 NA IN' o' H HN)|]. fold d in HN |- *.
      (* d is in cur but not declared: it comes from an earlier origin *)
      destruct (J2 d d0 HN G) as [(o' & F & _)|(n' & o' & E1 & _)].
      * unfold by_find in F. apply find_some in F as [F1 F2]. apply str_eqb_eq in F2. rewrite <- F2. apply (J4 NA IN' o' F1). rewrite F2. exact HN.
      * assert (HO : In o (os ++ [o])) by (apply in_or_app; right; left; reflexivity). destruct (NA o (IN o HO) n' E1).
  - cbn zeta. set (D := mkm d false false (dsteps o)). set (U := mkm (cAT :: d) false false (usteps o)). set (c1 := put d D cur).
    assert (DN : get d ms1 = None). { destruct (get d ms1) as [y|] eqn:Q; [rewrite (J1 _ _ Q) in G; discriminate|reflexivity]. }
    assert (F0 : by_find os d = None). { apply find_none_in. intros o' Ho E. apply (J3 o' Ho). rewrite E. exact G. }
    assert (FO : by_find (os ++ [o]) d = Some o). { rewrite find_app_none by exact F0. unfold by_find. cbn. fold d. rewrite str_eqb_refl. reflexivity. }
    assert (G1 : forall j, get j c1 = if str_eqb j d then Some D else get j cur) by (intros j; apply get_put).
    assert (K1 : NoDup (map fst c1)) by (apply keys_put; assumption). assert (K2 : named c1) by (apply named_put; [reflexivity|exact J6]).
    assert (AD : str_eqb (cAT :: d) d = false) by (destruct (str_eqb (cAT :: d) d) eqn:Q; [apply str_eqb_eq in Q; destruct (at_neq d Q)|reflexivity]).
    set (c2 := match get (cAT :: d) c1 with Some _ => c1 | None => put (cAT :: d) U c1 end).
    assert (G2 : forall j, get j c2 = if str_eqb j d then Some D else match get j cur with Some y => Some y | None => if str_eqb j (cAT :: d) then Some U else None end).
    { intros j. unfold c2. rewrite (G1 (cAT :: d)), AD. destruct (get (cAT :: d) cur) as [y|] eqn:Q.
      - rewrite G1. destruct (str_eqb j d); [reflexivity|]. destruct (get j cur) eqn:R; [reflexivity|]. destruct (str_eqb j (cAT :: d)) eqn:S; [apply str_eqb_eq in S; congruence|reflexivity].
      - rewrite get_put, G1. destruct (str_eqb j (cAT :: d)) eqn:S; [|destruct (str_eqb j d); [reflexivity|destruct (get j cur); reflexivity]].
        apply str_eqb_eq in S as ->. rewrite AD, Q. reflexivity. }
    split; [|split; [|split; [|split; [|split]]]].
    + intros n m Hm. rewrite G2, (J1 _ _ Hm). destruct (str_eqb n d) eqn:Q; [apply str_eqb_eq in Q; congruence|reflexivity].
    + intros n x Hn Hx. rewrite G2 in Hx. destruct (str_eqb n d) eqn:Q.
      * apply str_eqb_eq in Q as ->. injection Hx as <-. left. exists o. split; [exact FO|reflexivity].
      * destruct (get n cur) as [y|] eqn:R.
        -- injection Hx as ->. destruct (J2 n x Hn R) as [(o' & F & E)|(n' & o' & E1 & E2 & F & E3)].
           ++ left. exists o'. split; [apply find_app_l, F|exact E].
           ++ right. exists n', o'. split; [exact E1|]. split; [exact E2|]. split; [apply find_app_l, F|exact E3].
        -- destruct (str_eqb n (cAT :: d)) eqn:S; [|discriminate]. apply str_eqb_eq in S as ->. injection Hx as <-. right. exists d, o. split; [reflexivity|]. split; [exact DN|]. split; [exact FO|reflexivity].
    + intros o' H. rewrite G2. destruct (str_eqb (origin_name o') d) eqn:Q; [discriminate|]. apply in_app_or in H as [H|[<-|[]]]; [|fold d in Q; rewrite str_eqb_refl in Q; discriminate].
      apply J3 in H. destruct (get (origin_name o') cur); [discriminate|contradiction].
    + intros NA IN o' H HN. assert (IN' : incl os (origins ms)) by (intros y Hy; apply IN, in_or_app; left; exact Hy). rewrite G2. destruct (str_eqb (cAT :: origin_name o') d); [discriminate|].
      apply in_app_or in H as [H|[<-|[]]]; [apply (J4 NA IN') in H; [|exact HN]; destruct (get (cAT :: origin_name o') cur); [discriminate|contradiction]|].
      fold d. destruct (get (cAT :: d) cur); [discriminate|]. rewrite str_eqb_refl. discriminate.
    + unfold c2. destruct (get (cAT :: d) c1) eqn:Q; [exact K1|apply keys_put; assumption].
    + unfold c2. destruct (get (cAT :: d) c1) eqn:Q; [exact K2|apply named_put; [reflexivity|exact K2]].
Qed.
Lemma J_fold l : forall os cur, J os cur -> J (os ++ l) (fold_left stepo l cur).
Proof. induction l as [|o l IH]; intros os cur H; [rewrite app_nil_r; exact H|]. cbn. replace (os ++ o :: l) with ((os ++ [o]) ++ l) by (rewrite <- app_assoc; reflexivity). apply IH, J_step, H. Qed.
Lemma J_init : J [] ms1.
Proof.
  split; [exact (fun n m H => H)|]. split; [intros n d H1 H2; congruence|]. split; [intros o []|]. split; [intros _ _ o []|].
  assert (E : map fst ms1 = map fst ms). { unfold ms1. clear. induction ms as [|[k v] l IH]; [reflexivity|]. cbn. destruct (m_debug v); cbn; rewrite IH; reflexivity. }
  split; [rewrite E; exact ND|]. unfold named, ms1. apply Forall_map. eapply Forall_impl; [|exact NM]. intros [k v] H. cbn in *. destruct (m_debug v); exact H.
Qed.
Lemma gen_J : J (origins ms) (gen_debug ms).
Proof.
  unfold gen_debug. fold ms1. unfold origins.
  assert (K : forall l os cur, (forall k m, In (k, m) l -> In (k, m) ms) -> J os cur ->
    J (os ++ flat_map (fun kv => if m_debug (snd kv) then steps_from (snd kv) else []) l) (fold_left debug_mode (map fst (filter (fun kv => m_debug (snd kv)) l)) cur)).
  { induction l as [|[k m] l IH]; intros os cur HL HJ; [cbn; rewrite app_nil_r; exact HJ|]. cbn [flat_map filter fst snd].
    destruct (m_debug m) eqn:D.
    - cbn [map fold_left fst]. rewrite app_assoc. apply IH; [intros; apply HL; right; assumption|].
      assert (HI := HL k m (or_introl eq_refl)). assert (EN : m_name m = k) by (unfold named in NM; rewrite Forall_forall in NM; apply (NM _ HI)).
      rewrite <- EN. rewrite debug_eq; [apply J_fold, HJ|]. destruct HJ as (J1 & _). apply J1. rewrite get_ms1, EN, (In_get _ _ _ ND HI). cbn. unfold kept. rewrite D. reflexivity.
    - cbn [app]. apply IH; [intros; apply HL; right; assumption|exact HJ]. }
  apply (K ms [] ms1); [auto|apply J_init].
Qed.
Lemma origin_pos m i s : In (m, i, s) (origins ms) -> i < length (m_steps m) /\ In (m_name m, m) ms /\ m_debug m = true /\ exists p, nth_error (m_steps m) i = Some p /\ In s (suffixes p).
Proof.
  unfold origins. rewrite in_flat_map. intros ([k v] & H1 & H2). cbn in H2. destruct (m_debug v) eqn:D; [|destruct H2]. unfold steps_from in H2. apply in_flat_map in H2 as (j & H2 & H3). apply in_seq in H2.
  destruct (nth_error (m_steps v) j) as [p|] eqn:E; [|destruct H3]. apply in_map_iff in H3 as (s' & H3 & H4). injection H3 as -> -> ->. split; [lia|]. split; [|split; [exact D|exists p; split; assumption]].
  unfold named in NM. rewrite Forall_forall in NM. assert (Q := NM _ H1). cbn in Q. rewrite Q. exact H1.
Qed.
Lemma dsteps_ok m i s : i < length (m_steps m) -> DebugOf (m_steps m) i (dsteps (m, i, s)).
Proof.
  intros H. exists (firstn (S i) (map set_suffix (m_steps m))). split; [rewrite firstn_map; apply same_set|]. cbn [dsteps]. apply trace_last_ok. destruct (m_steps m); [cbn in H; lia|discriminate].
Qed.
Lemma usteps_ok o : dsteps o <> [] -> UntrimmedOf (dsteps o) (usteps o).
Proof.
  intros H. exists (map untrim (dsteps o)). split; [induction (dsteps o) as [|p l IH]; constructor; [apply untrim_ok|destruct l; [constructor|apply IH; discriminate]]|].
  apply trace_last_ok. destruct (dsteps o); [contradiction|discriminate].
Qed.
End Gen.

Lemma read_fold doc : forall m0 ms, fold_opt (fun ms x => match read_mode x with Some p => Some (put (m_name p) p ms) | None => None end) doc m0 = Some ms ->
  exists ps, Forall2 (fun x p => read_mode x = Some p) doc ps /\ ms = fold_left (fun ms p => put (m_name p) p ms) ps m0.
Proof.
  induction doc as [|x doc IH]; intros m0 ms H; cbn in H; [injection H as <-; exists []; split; [constructor|reflexivity]|].
  destruct (read_mode x) as [p|] eqn:E; [|discriminate]. destruct (IH _ _ H) as (ps & F & ->). exists (p :: ps). split; [constructor; assumption|reflexivity].
Qed.
Lemma fold_put ps : forall m0, StronglySorted slt m0 -> named m0 ->
  StronglySorted slt (fold_left (fun ms p => put (m_name p) p ms) ps m0) /\ named (fold_left (fun ms p => put (m_name p) p ms) ps m0) /\
  forall n, get n (fold_left (fun ms p => put (m_name p) p ms) ps m0) = match find (fun p => str_eqb (m_name p) n) (rev ps) with Some p => Some p | None => get n m0 end.
Proof.
  induction ps as [|p ps IH]; intros m0 S N; cbn [fold_left rev find]; [split; [exact S|split; [exact N|reflexivity]]|].
  destruct (IH (put (m_name p) p m0) (put_sorted _ _ _ S) (put_named _ _ N)) as (A & B & C). split; [exact A|]. split; [exact B|]. intros n. rewrite C, get_put.
  assert (FA : forall a b, find (fun p => str_eqb (m_name p) n) (a ++ b) = match find (fun p => str_eqb (m_name p) n) a with Some x => Some x | None => find (fun p => str_eqb (m_name p) n) b end).
  { induction a as [|y a IHa]; intros b; [reflexivity|]. cbn. destruct (str_eqb (m_name y) n); [reflexivity|apply IHa]. }
  rewrite FA. destruct (find _ (rev ps)); [reflexivity|]. cbn [find]. assert (Q : str_eqb n (m_name p) = str_eqb (m_name p) n).
  { destruct (str_eqb n (m_name p)) eqn:E1; destruct (str_eqb (m_name p) n) eqn:E2; try reflexivity; [apply str_eqb_eq in E1; subst; rewrite str_eqb_refl in E2; discriminate|apply str_eqb_eq in E2; subst; rewrite str_eqb_refl in E1; discriminate]. }
  rewrite Q. destruct (str_eqb (m_name p) n); reflexivity.
Qed.

(** ** reading *)
Lemma text_ok v t : text v = Some t -> t = v.
Proof. destruct v; [discriminate|]. intros [= <-]. reflexivity. Qed.
Lemma text_some v : v <> [] -> text v = Some v.
Proof. destruct v; [congruence|reflexivity]. Qed.
Lemma values_app n a b : values n (a ++ b) = values n a ++ values n b.
Proof. unfold values. rewrite filter_app, map_app. reflexivity. Qed.
Lemma last_snoc {A} (l : list A) x d : last (l ++ [x]) d = x.
Proof. induction l as [|y l IH]; [reflexivity|]. cbn. destruct (l ++ [x]) eqn:E; [destruct l; discriminate|exact IH]. Qed.
Lemma fold_opt_inv {A B} (f : A -> B -> option A) (P : list B -> A -> Prop) :
  (forall l a x a', P l a -> f a x = Some a' -> P (l ++ [x]) a') -> forall l l0 a r, P l0 a -> fold_opt f l a = Some r -> P (l0 ++ l) r.
Proof.
  intros S l. induction l as [|x l IH]; intros l0 a r H E; cbn [fold_opt] in E; [injection E as <-; rewrite app_nil_r; exact H|].
  destruct (f a x) as [a'|] eqn:F; [|discriminate]. replace (l0 ++ x :: l) with ((l0 ++ [x]) ++ l) by (rewrite <- app_assoc; reflexivity). eapply IH; [eapply S; eassumption|exact E].
Qed.
Lemma fold_opt_some {A B} (f : A -> B -> option A) l : forall a, (forall x a, In x l -> f a x <> None) -> fold_opt f l a <> None.
Proof.
  induction l as [|x l IH]; intros a H; cbn [fold_opt]; [discriminate|]. destruct (f a x) as [a'|] eqn:F; [|destruct (H x a (or_introl eq_refl) F)].
  apply IH. intros y b Hy. apply H. right. exact Hy.
Qed.
Lemma arg_of_ok el attrs : forall acc r, arg_of el attrs acc = Some r -> r = acc ++ argument (El el attrs []).
Proof.
  induction attrs as [|[n v] attrs IH]; intros acc r; cbn [arg_of argument]; [intros [= <-]; unfold values; cbn; rewrite app_nil_r; reflexivity|].
  unfold values. cbn [filter fst]. destruct (str_eqb n (u "name")) eqn:E; cbn [map snd].
  - destruct (text v) as [t|] eqn:T; [|discriminate]. apply text_ok in T as ->. intros [= <-]. reflexivity.
  - intros H. rewrite (IH _ _ H). reflexivity.
Qed.
Lemma values_one n k v : values n [(k, v)] = if str_eqb k n then [v] else [].
Proof. unfold values. cbn. destruct (str_eqb k n); reflexivity. Qed.
Lemma eqb_conf k a b : str_eqb k a = true -> str_eqb a b = false -> str_eqb k b = false.
Proof. intros H1 H2. apply str_eqb_eq in H1 as ->. exact H2. Qed.
Ltac vals := rewrite ?values_app, ?values_one.
Lemma read_program_ok steps x r : read_program steps x = Some r -> exists p, r = steps ++ [p] /\ ProgramOf x p.
Proof.
  destruct x as [n attrs kids]. unfold read_program.
  match goal with |- context [fold_opt ?f attrs _] => set (fa := f) end.
  destruct (fold_opt fa attrs (mkp [] [] [])) as [p|] eqn:EA; [|discriminate].
  match goal with |- context [fold_opt ?f kids _] => set (fk := f) end.
  destruct (fold_opt fk kids []) as [l|] eqn:EK; [|discriminate]. intros [= <-].
  exists (mkp (p_cmd p) (p_suff p) l). split; [reflexivity|]. cbn [ProgramOf p_cmd p_suff p_args].
  assert (PA : p_cmd p = last (values (u "name") attrs) [] /\ p_suff p = map (cons cDASH) (values (u "debug-suff") attrs)).
  { refine (fold_opt_inv fa (fun l p => p_cmd p = last (values (u "name") l) [] /\ p_suff p = map (cons cDASH) (values (u "debug-suff") l)) _ attrs [] _ _ _ EA); [|split; reflexivity].
    intros l0 a [k v] a' [H1 H2]. unfold fa. cbn [fst snd]. vals. destruct (str_eqb k (u "name")) eqn:E1.
    - rewrite (eqb_conf _ _ (u "debug-suff") E1) by reflexivity. rewrite app_nil_r, last_snoc. destruct (text v) as [t|] eqn:T; [|discriminate]. apply text_ok in T as ->. intros [= <-]. cbn. split; [reflexivity|exact H2].
    - rewrite app_nil_r. destruct (str_eqb k (u "debug-suff")) eqn:E2.
      + destruct (text v) as [t|] eqn:T; [|discriminate]. apply text_ok in T as ->. intros [= <-]. cbn [p_cmd p_suff]. rewrite map_app, H2. split; [exact H1|reflexivity].
      + rewrite app_nil_r. intros [= <-]. split; assumption. }
  split; [apply PA|]. split; [apply PA|].
  refine (fold_opt_inv fk (fun l a => a = flat_map argument l) _ kids [] _ _ eq_refl EK).
  intros l0 a [k at_ ks] a' -> H. unfold fk in H. apply arg_of_ok in H as ->. rewrite flat_map_app. cbn [flat_map]. rewrite app_nil_r. reflexivity.
Qed.
Lemma read_programs_ok progs st r : fold_opt read_program progs st = Some r -> exists ps, r = st ++ ps /\ Forall2 ProgramOf progs ps.
Proof.
  intros H. refine (fold_opt_inv read_program (fun l a => exists ps, a = st ++ ps /\ Forall2 ProgramOf l ps) _ progs [] _ _ _ H).
  - intros l a x a' (ps & -> & F) E. apply read_program_ok in E as (p & -> & HP). exists (ps ++ [p]). split; [rewrite app_assoc; reflexivity|]. apply Forall2_app; [exact F|constructor; [exact HP|constructor]].
  - exists []. split; [rewrite app_nil_r; reflexivity|constructor].
Qed.
Lemma read_mode_ok x m : read_mode x = Some m -> ModeOf x m.
Proof.
  destruct x as [n attrs kids]. unfold read_mode.
  match goal with |- context [fold_opt ?f attrs _] => set (fa := f) end.
  destruct (fold_opt fa attrs (mkm [] false false [])) as [p|] eqn:EA; [|discriminate].
  match goal with |- context [fold_opt ?f kids _] => set (fk := f) end.
  destruct (fold_opt fk kids []) as [l|] eqn:EK; [|discriminate]. intros [= <-]. cbn [ModeOf m_name m_install m_debug m_steps].
  assert (PA : m_name p = last (values (u "name") attrs) [] /\ m_install p = said_yes (u "install") attrs /\ m_debug p = said_yes (u "gendebug") attrs).
  { refine (fold_opt_inv fa (fun l p => m_name p = last (values (u "name") l) [] /\ m_install p = said_yes (u "install") l /\ m_debug p = said_yes (u "gendebug") l) _ attrs [] _ _ _ EA); [|repeat split].
    intros l0 a [k v] a' (H1 & H2 & H3). unfold fa, said_yes in *. cbn [fst snd]. vals. destruct (str_eqb k (u "name")) eqn:E1.
    - rewrite (eqb_conf _ _ (u "install") E1), (eqb_conf _ _ (u "gendebug") E1) by reflexivity. rewrite !app_nil_r, last_snoc. destruct (text v) as [t|] eqn:T; [|discriminate]. apply text_ok in T as ->. intros [= <-]. cbn [m_name m_install m_debug]. auto.
    - destruct (str_eqb k (u "install")) eqn:E2.
      + rewrite (eqb_conf _ _ (u "gendebug") E2) by reflexivity. rewrite !app_nil_r, last_snoc. destruct (text v) as [t|] eqn:T; [|discriminate]. apply text_ok in T as ->. intros [= <-]. cbn [m_name m_install m_debug]. auto.
      + destruct (str_eqb k (u "gendebug")) eqn:E3; rewrite !app_nil_r.
        * rewrite last_snoc. destruct (text v) as [t|] eqn:T; [|discriminate]. apply text_ok in T as ->. intros [= <-]. cbn [m_name m_install m_debug]. auto.
        * intros [= <-]. auto. }
  destruct PA as (P1 & P2 & P3). repeat (split; [assumption|]).
  refine (fold_opt_inv fk (fun l a => Forall2 ProgramOf (flat_map programs_in l) a) _ kids [] _ _ (Forall2_nil _) EK).
  intros l0 a [k at_ ks] a' H E. unfold fk in E. rewrite flat_map_app. cbn [flat_map programs_in]. rewrite app_nil_r. destruct (str_eqb k (u "pipeline")) eqn:EP.
  - apply read_programs_ok in E as (ps & -> & F). apply Forall2_app; assumption.
  - injection E as <-. rewrite app_nil_r. exact H.
Qed.
Lemma read_mode_some x : no_empty x -> read_mode x <> None.
Proof.
  intros H. destruct H as [n attrs kids HA HK]. unfold read_mode.
  match goal with |- context [fold_opt ?f attrs ?i] => set (fa := f); assert (NA : fold_opt fa attrs i <> None) end.
  { apply fold_opt_some. intros [k v] a Hx. rewrite Forall_forall in HA. specialize (HA _ Hx). cbn [snd] in HA. unfold fa. cbn [fst snd]. rewrite !(text_some v HA).
    destruct (str_eqb k (u "name")), (str_eqb k (u "install")), (str_eqb k (u "gendebug")); discriminate. }
  destruct (fold_opt fa attrs (mkm [] false false [])) as [p|]; [|congruence].
  match goal with |- context [fold_opt ?f kids ?i] => set (fk := f); assert (NK : fold_opt fk kids i <> None) end; [|destruct (fold_opt fk kids []); [discriminate|congruence]].
  apply fold_opt_some. intros [k at_ progs] a Hx. rewrite Forall_forall in HK. specialize (HK _ Hx). inversion HK as [? ? ? _ HP]; subst. unfold fk.
  destruct (str_eqb k (u "pipeline")); [|discriminate]. apply fold_opt_some. intros [pn pattrs pkids] st Hp. rewrite Forall_forall in HP. specialize (HP _ Hp). inversion HP as [? ? ? PA PK]; subst.
  unfold read_program. match goal with |- context [fold_opt ?f pattrs ?i] => set (ga := f); assert (MA : fold_opt ga pattrs i <> None) end.
  { apply fold_opt_some. intros [k' v] b Hb. rewrite Forall_forall in PA. specialize (PA _ Hb). cbn [snd] in PA. unfold ga. cbn [fst snd]. rewrite !(text_some v PA).
    destruct (str_eqb k' (u "name")), (str_eqb k' (u "debug-suff")); discriminate. }
  destruct (fold_opt ga pattrs (mkp [] [] [])) as [q|]; [|congruence].
  match goal with |- context [fold_opt ?f pkids ?i] => set (gk := f); assert (MK : fold_opt gk pkids i <> None) end; [|destruct (fold_opt gk pkids []); [discriminate|congruence]].
  apply fold_opt_some. intros [an aattrs akids] b Hb. rewrite Forall_forall in PK. specialize (PK _ Hb). inversion PK as [? ? ? AA _]; subst. unfold gk. clear -AA.
  induction AA as [|[k v] aattrs Hv AA IH]; cbn [arg_of]; [discriminate|]. cbn [snd] in Hv. rewrite (text_some v Hv). destruct (str_eqb k (u "name")); [discriminate|exact IH].
Qed.
