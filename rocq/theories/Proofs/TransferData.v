From Coq Require Import String ZArith DecimalString DecimalNat Sorted Permutation.
From Verif Require Import Model.Base Model.Codec Model.Regex Model.TrxMachine Model.TransferData Spec.TransferData.
From Verif Require Import Proofs.Base Proofs.Codec Proofs.TrxMachine.
From Verif Require Proofs.ConstantManager.
Open Scope nat_scope.

(** ** maps *)
Section Maps.
  Context {K V : Type}.
  Variable lt : K -> K -> bool. Variable eqb : K -> K -> bool.
  Hypothesis eqb_eq : forall a b, eqb a b = true <-> a = b.
  Hypothesis irr : forall a, lt a a = false.
  Hypothesis tot : forall a b, lt a b = false -> lt b a = false -> a = b.
  Hypothesis trans : forall a b c, lt a b = true -> lt b c = true -> lt a c = true.
  Lemma look_set (k : K) (v : V) k' m : look eqb k' (map_set lt k v m) = if eqb k' k then Some v else look eqb k' m.
  Proof.
    induction m as [|[x w] m IH]; cbn [map_set look]; [reflexivity|]. destruct (lt k x) eqn:E1; [reflexivity|]. destruct (lt x k) eqn:E2; cbn [look].
    - destruct (eqb k' x) eqn:E3; [|exact IH]. destruct (eqb k' k) eqn:E4; [|reflexivity]. apply eqb_eq in E3, E4. subst. rewrite irr in E2. discriminate.
    - assert (k = x) by (apply tot; assumption). subst x. destruct (eqb k' k); reflexivity.
  Qed.
  Lemma set_keys (k : K) (v : V) m x : In x (map fst (map_set lt k v m)) <-> x = k \/ In x (map fst m).
  Proof.
    induction m as [|[y w] m IH]; cbn [map_set map fst In]; [intuition|]. destruct (lt k y) eqn:E1; [cbn; intuition|]. destruct (lt y k) eqn:E2; cbn [map fst In].
    - rewrite IH. intuition.
    - assert (k = y) by (apply tot; assumption). subst y. intuition.
  Qed.
  Lemma set_sorted (k : K) (v : V) m : sorted lt (map fst m) = true -> sorted lt (map fst (map_set lt k v m)) = true.
  Proof.
    induction m as [|[y w] m IH]; cbn [map_set map fst sorted]; [reflexivity|]. intros H. apply andb_prop in H as [H1 H2]. rewrite forallb_forall in H1.
    destruct (lt k y) eqn:E1; cbn [map fst sorted].
    - apply andb_true_intro. split; [|apply andb_true_intro; split; [apply forallb_forall; exact H1|exact H2]]. apply forallb_forall. intros x [<-|Hx]; [exact E1|]. exact (trans k y x E1 (H1 x Hx)).
    - destruct (lt y k) eqn:E2; cbn [map fst sorted]; apply andb_true_intro; split; auto; apply forallb_forall; intros x Hx; auto. apply set_keys in Hx as [->|Hx]; auto.
  Qed.
  Lemma sorted_look m : sorted lt (map fst m) = true -> forall k (v : V), In (k, v) m <-> look eqb k m = Some v.
  Proof.
    induction m as [|[y w] m IH]; cbn [map fst sorted look]; intros H k v; [cbn; split; [tauto|discriminate]|]. apply andb_prop in H as [H1 H2]. rewrite forallb_forall in H1.
    destruct (eqb k y) eqn:E.
    - apply eqb_eq in E. subst y. split; [|intros [= ->]; left; reflexivity]. intros [[= ->]|Hi]; [reflexivity|]. assert (X := H1 k (in_map fst _ _ Hi)). rewrite irr in X. discriminate.
    - rewrite <- (IH H2). split; [|right; assumption]. intros [[= -> ->]|Hi]; [|exact Hi]. assert (X : eqb k k = true) by (apply eqb_eq; reflexivity). congruence.
  Qed.
  Lemma map_of_list_sorted l : forall m : list (K * V), sorted lt (map fst m) = true -> sorted lt (map fst (map_of_list lt m l)) = true.
  Proof. induction l as [|e l IH]; intros m H; [exact H|]. apply IH, set_sorted, H. Qed.
End Maps.
Lemma nat_tot a b : (a <? b) = false -> (b <? a) = false -> a = b.
Proof. rewrite !Nat.ltb_ge. lia. Qed.
Lemma nat_asym : asym Nat.ltb.
Proof. intros a b H. apply Nat.ltb_lt in H. apply Nat.ltb_ge. lia. Qed.
Lemma nat_trans a b c : (a <? b) = true -> (b <? c) = true -> (a <? c) = true.
Proof. rewrite !Nat.ltb_lt. lia. Qed.
Notation slook_set := (look_set str_lt str_eqb str_eqb_eq ConstantManager.str_lt_irrefl ConstantManager.str_lt_total).
Notation sset_sorted := (set_sorted str_lt ConstantManager.str_lt_total ConstantManager.str_lt_trans).
Notation ssorted_look := (sorted_look str_lt str_eqb str_eqb_eq ConstantManager.str_lt_irrefl).
Notation nlook_set := (look_set Nat.ltb Nat.eqb Nat.eqb_eq Nat.ltb_irrefl nat_tot).
Notation nset_sorted := (set_sorted Nat.ltb nat_tot nat_trans).

Lemma sins_in k m : forall x, In x (set_insert str_lt k m) <-> x = k \/ In x m.
Proof.
  induction m as [|y m IH]; intros x; cbn [set_insert]; [cbn; intuition|]. destruct (str_lt k y) eqn:E1; [cbn; intuition|]. destruct (str_lt y k) eqn:E2; [cbn [In]; rewrite IH; intuition|].
  assert (k = y) by (apply ConstantManager.str_lt_total; assumption). subst y. cbn [In]. intuition.
Qed.

(** ** what is declared *)
Section Decl.
  Variable re_ok : str -> bool.
  Definition sorted_td (t : td) : Prop :=
    sorted str_lt (map fst (attr_items t)) = true /\ sorted str_lt (map fst (variables t)) = true /\ sorted str_lt (map fst (macros t)) = true /\ sorted str_lt (map fst (lists t)) = true.
  Lemma last_nil {V} k (v : V) : ~ last_says [] k v.
  Proof. intros (a & b & E & _). destruct a; discriminate. Qed.
  Lemma last_snoc {V} l k (v : V) k' v' : last_says (l ++ [(k, v)]) k' v' <-> (k' = k /\ v' = v) \/ (k' <> k /\ last_says l k' v').
  Proof.
    unfold last_says. split.
    - intros (a & b & E & H). destruct b as [|e b] using rev_ind.
      + apply app_inj_tail in E as [_ [= -> ->]]. left. auto.
      + clear IHb. replace (a ++ (k', v') :: b ++ [e]) with ((a ++ (k', v') :: b) ++ [e]) in E by (rewrite <- app_assoc; reflexivity). apply app_inj_tail in E as [-> <-]. right. split.
        * intros ->. apply (H v). apply in_or_app. right. left. reflexivity.
        * exists a, b. split; [reflexivity|]. intros w Hw. apply (H w). apply in_or_app. left. exact Hw.
    - intros [[-> ->]|[N (a & b & -> & H)]].
      + exists l, []. split; [reflexivity|intros w []].
      + exists a, (b ++ [(k, v)]). split; [rewrite <- app_assoc; reflexivity|]. intros w Hw. apply in_app_or in Hw as [Hw|[[= E _]|[]]]; [exact (H w Hw)|congruence].
  Qed.
  (* attributes *)
  Lemma def_attrs_snoc l a : forall t, def_attrs re_ok t (l ++ [a]) = match def_attrs re_ok t l with Some t' => def_attr re_ok t' a | None => None end.
  Proof. induction l as [|x l IH]; intros t; cbn [def_attrs app]; [destruct (def_attr re_ok t a); reflexivity|]. destruct (def_attr re_ok t x); [apply IH|reflexivity]. Qed.
  Lemma built_in_spec n re : look str_eqb n (attr_items td_new) = Some re <-> built_in n re.
  Proof.
    rewrite <- ssorted_look by reflexivity. unfold built_in. replace (attr_items td_new) with
      [(u "chcontent", u "(\{.+)"); (u "chname", u "(\{([^/]+)\/)"); (u "content", u "(\{.+)"); (u "lem", u "^(([^<]|""\<"")+)"); (u "lemh", u "^(([^<#]|""\<""|""\#"")+)"); (u "lemq", u "\#[- _][^<]+");
       (u "tags", u "((<[^>]+>)+)"); (u "whole", u "(.+)")] by reflexivity. cbn [In]. tauto.
  Qed.
  Definition part_of (l : list (str * list str)) (n re : str) : Prop :=
    (exists items, last_says l n items /\ re = optimize_regex items) \/ ((forall items, ~ In (n, items) l) /\ built_in n re).
  Lemma attrs_spec l : match def_attrs re_ok td_new l with
    | Some t => Forall (fun a => re_ok (optimize_regex (snd a)) = true) l /\ sorted str_lt (map fst (attr_items t)) = true /\
                variables t = [] /\ macros t = [] /\ lists t = [] /\ forall n re, look str_eqb n (attr_items t) = Some re <-> part_of l n re
    | None => ~ Forall (fun a => re_ok (optimize_regex (snd a)) = true) l end.
  Proof.
    induction l as [|[k items] l IH] using rev_ind.
    - cbn [def_attrs]. split; [constructor|]. split; [reflexivity|]. do 3 (split; [reflexivity|]). intros n re. rewrite built_in_spec. unfold part_of. split.
      + intros H. right. split; [intros i []|exact H].
      + intros [(i & H & _)|[_ H]]; [destruct (last_nil _ _ H)|exact H].
    - rewrite def_attrs_snoc. destruct (def_attrs re_ok td_new l) as [t|]; [|intros H; apply Forall_app in H as [H _]; exact (IH H)].
      destruct IH as (F & S & E1 & E2 & E3 & L). unfold def_attr. cbn [fst snd]. destruct (re_ok (optimize_regex items)) eqn:E; cbn [attr_items variables macros lists].
      + split; [apply Forall_app; split; [exact F|repeat constructor; exact E]|]. split; [apply sset_sorted, S|]. do 3 (split; [assumption|]). intros n re. rewrite slook_set. unfold part_of.
        destruct (str_eqb n k) eqn:K.
        * apply str_eqb_eq in K. subst k. split.
          -- intros [= <-]. left. exists items. split; [|reflexivity]. apply last_snoc. auto.
          -- intros [(i & H & ->)|[H _]]; [|destruct (H items); apply in_or_app; right; left; reflexivity]. apply last_snoc in H as [[_ ->]|[H _]]; [reflexivity|congruence].
        * apply str_eqb_neq in K. rewrite L. unfold part_of. split; intros [(i & H & ->)|[H1 H2]].
          -- left. exists i. split; [apply last_snoc; auto|reflexivity].
          -- right. split; [|exact H2]. intros i Hi. apply in_app_or in Hi as [Hi|[[= Hi _]|[]]]; [exact (H1 i Hi)|congruence].
          -- left. exists i. split; [|reflexivity]. apply last_snoc in H as [[H _]|[_ H]]; [congruence|exact H].
          -- right. split; [|exact H2]. intros i Hi. apply (H1 i). apply in_or_app. left. exact Hi.
      + intros H. apply Forall_app in H as [_ H]. inversion_clear H as [|? ? H1 _]. cbn in H1. congruence.
  Qed.
  (* variables *)
  Lemma vars_spec l : forall t, variables t = [] ->
    let t' := fold_left def_var l t in attr_items t' = attr_items t /\ macros t' = macros t /\ lists t' = lists t /\ sorted str_lt (map fst (variables t')) = true /\
      forall n v, look str_eqb n (variables t') = Some v <-> last_says l n v.
  Proof.
    intros t E. induction l as [|[k w] l IH] using rev_ind; cbn zeta.
    - cbn [fold_left]. rewrite E. repeat split; try reflexivity; [discriminate|intros H; destruct (last_nil _ _ H)].
    - rewrite fold_left_app. cbn [fold_left]. destruct IH as (A & B & C & D & L). unfold def_var at 1 3 5 7 9. cbn [attr_items variables macros lists fst snd]. do 3 (split; [assumption|]).
      split; [apply sset_sorted, D|]. intros n v. rewrite slook_set, last_snoc. destruct (str_eqb n k) eqn:K.
      + apply str_eqb_eq in K. subst k. split; [intros [= ->]; auto|]. intros [[_ ->]|[H _]]; congruence.
      + apply str_eqb_neq in K. rewrite L. intuition.
  Qed.
  (* lists *)
  Lemma item_step (f : str -> str) n (m : list (str * list str)) v n' v' :
    lists_item (map_set str_lt n (set_insert str_lt (f v) (match look str_eqb n m with Some l => l | None => [] end)) m) n' v' <-> lists_item m n' v' \/ (n' = n /\ v' = f v).
  Proof.
    unfold lists_item. rewrite slook_set. destruct (str_eqb n' n) eqn:K.
    - apply str_eqb_eq in K. subst n'. split.
      + intros (l & [= <-] & H). apply sins_in in H as [->|H]; [auto|]. left. destruct (look str_eqb n m) as [l|]; [|destruct H]. exists l. auto.
      + intros [(l & E & H)|[_ ->]]; eexists; (split; [reflexivity|]); apply sins_in; [rewrite E; auto|auto].
    - apply str_eqb_neq in K. split; [auto|]. intros [H|[H _]]; [exact H|congruence].
  Qed.
  Lemma items_step n vs : forall t, let t' := fold_left (list_item n) vs t in
    attr_items t' = attr_items t /\ variables t' = variables t /\ macros t' = macros t /\ (sorted str_lt (map fst (lists t)) = true -> sorted str_lt (map fst (lists t')) = true) /\
    forall n' v', lists_item (lists t') n' v' <-> lists_item (lists t) n' v' \/ (n' = n /\ In v' vs).
  Proof.
    induction vs as [|v vs IH]; intros t; cbn zeta; [cbn [fold_left In]; repeat split; try tauto|]. cbn [fold_left]. destruct (IH (list_item n t v)) as (A & B & C & D & L).
    split; [exact A|]. split; [exact B|]. split; [exact C|]. split; [intros H; apply D; apply sset_sorted, H|]. intros n' v'. rewrite L. unfold list_item at 1. cbn [lists]. rewrite (item_step (fun v => v)). cbn [In]. intuition congruence.
  Qed.
  Lemma lists_spec l : forall t, let t' := fold_left def_list l t in
    attr_items t' = attr_items t /\ variables t' = variables t /\ macros t' = macros t /\ (sorted str_lt (map fst (lists t)) = true -> sorted str_lt (map fst (lists t')) = true) /\
    forall n v, lists_item (lists t') n v <-> lists_item (lists t) n v \/ exists items, In (n, items) l /\ In v items.
  Proof.
    induction l as [|[k vs] l IH]; intros t; cbn zeta; [cbn [fold_left]; repeat split; [tauto..|]; intros [H|(i & [] & _)]; exact H|]. cbn [fold_left]. destruct (IH (def_list t (k, vs))) as (A & B & C & D & L).
    destruct (items_step k vs t) as (A' & B' & C' & D' & L'). change (fold_left (list_item k) vs t) with (def_list t (k, vs)) in *.
    split; [congruence|]. split; [congruence|]. split; [congruence|]. split; [auto|]. intros n v. rewrite L, L'. split.
    - intros [[H|[-> H]]|(i & H1 & H2)]; [auto|right; exists vs; cbn; auto|right; exists i; cbn; auto].
    - intros [H|(i & [[= -> ->]|H1] & H2)]; [auto|auto|right; exists i; auto].
  Qed.
  (* macros *)
  Lemma macros_spec l : forall t, macros t = [] ->
    match fold_left def_macro l (Some (t, 0)) with
    | Some (t', c) => NoDup l /\ c = List.length l /\ attr_items t' = attr_items t /\ variables t' = variables t /\ lists t' = lists t /\ sorted str_lt (map fst (macros t')) = true /\
        forall n i, look str_eqb n (macros t') = Some i <-> nth_error l i = Some n
    | None => ~ NoDup l end.
  Proof.
    intros t E. induction l as [|k l IH] using rev_ind.
    - cbn [fold_left]. rewrite E. split; [constructor|]. repeat split; try reflexivity; [discriminate|]. destruct i; discriminate.
    - rewrite fold_left_app. cbn [fold_left]. destruct (fold_left def_macro l (Some (t, 0))) as [[t' c]|] eqn:F; cbn [def_macro].
      2:{ intros H. apply IH. apply NoDup_remove_1 in H. rewrite app_nil_r in H. exact H. }
      destruct IH as (ND & -> & A & B & C & D & L). destruct (look str_eqb k (macros t')) as [i|] eqn:K.
      + intros H. apply NoDup_remove_2 in H. rewrite app_nil_r in H. apply H. apply L in K. apply nth_error_In in K. exact K.
      + cbn [attr_items variables macros lists]. assert (N : ~ In k l). { intros H. apply In_nth_error in H as [i H]. apply L in H. congruence. }
        split. { apply (Permutation.Permutation_NoDup (Permutation.Permutation_cons_append l k)). constructor; assumption. } split; [rewrite app_length; cbn; lia|]. do 3 (split; [assumption|]). split; [apply sset_sorted, D|].
        intros n i. rewrite slook_set. destruct (str_eqb n k) eqn:Q.
        * apply str_eqb_eq in Q. subst n. split.
          -- intros [= <-]. rewrite nth_error_app2, Nat.sub_diag by lia. reflexivity.
          -- intros H. f_equal. destruct (Nat.lt_ge_cases i (List.length l)) as [Hl|Hl]; [rewrite nth_error_app1 in H by exact Hl; apply nth_error_In in H; contradiction|].
             rewrite nth_error_app2 in H by exact Hl. destruct (i - List.length l) eqn:Q'; [lia|]. destruct n; discriminate.
        * apply str_eqb_neq in Q. rewrite L. destruct (Nat.lt_ge_cases i (List.length l)) as [Hl|Hl]; [rewrite nth_error_app1 by exact Hl; reflexivity|]. rewrite nth_error_app2 by exact Hl.
          destruct (nth_error l i) eqn:Q1; [apply nth_error_None in Hl; congruence|]. split; [discriminate|]. destruct (i - List.length l) as [|j]; [cbn; intros [= ->]; congruence|destruct j; discriminate].
  Qed.
  Theorem declare_spec d : match declare re_ok d with
    | Some t => acceptable re_ok d /\ sorted_td t /\ (forall n re, look str_eqb n (attr_items t) = Some re <-> part_is d n re) /\
        (forall n v, look str_eqb n (variables t) = Some v <-> last_says (d_vars d) n v) /\
        (forall n i, look str_eqb n (macros t) = Some i <-> nth_error (d_macros d) i = Some n) /\
        (forall n v, lists_item (lists t) n v <-> in_list d n v)
    | None => ~ acceptable re_ok d end.
  Proof.
    unfold declare. pose proof (attrs_spec (d_attrs d)) as A. destruct (def_attrs re_ok td_new (d_attrs d)) as [t1|]; [|intros (H & _); exact (A H)].
    destruct A as (A1 & A2 & A3 & A4 & A5 & A6). destruct (vars_spec (d_vars d) t1 A3) as (V1 & V2 & V3 & V4 & V5). set (t2 := fold_left def_var (d_vars d) t1) in *.
    destruct (lists_spec (d_lists d) t2) as (L1 & L2 & L3 & L4 & L5). set (t3 := fold_left def_list (d_lists d) t2) in *.
    pose proof (macros_spec (d_macros d) t3 ltac:(congruence)) as M. destruct (fold_left def_macro (d_macros d) (Some (t3, 0))) as [[t4 c]|]; [|intros (_ & H & _); exact (M H)].
    destruct M as (M1 & _ & M2 & M3 & M4 & M5 & M6).
    assert (CL : forallb (check_clip t4) (d_clips d) = true <-> Forall (fun p => p <> [] /\ exists re, part_is d p re) (d_clips d)).
    { rewrite forallb_forall, Forall_forall. assert (E : forall p, check_clip t4 p = true <-> p <> [] /\ exists re, part_is d p re); [|split; intros H p Hp; apply E, H, Hp].
      intros p. replace (part_is d p) with (part_of (d_attrs d) p) by reflexivity. unfold check_clip. destruct p as [|c0 p]; [split; [discriminate|intros [H _]; congruence]|].
      rewrite M2, L1, V1. destruct (look str_eqb (c0 :: p) (attr_items t1)) as [re|] eqn:E; split; intros H; try discriminate; try reflexivity.
      - split; [discriminate|]. exists re. apply A6, E.
      - destruct H as [_ [re H]]. apply A6 in H. congruence. }
    destruct (forallb (check_clip t4) (d_clips d)).
    - split; [split; [exact A1|split; [exact M1|apply CL; reflexivity]]|]. split.
      { unfold sorted_td. rewrite M2, M3, M4, L1, L2, V1. repeat split; try assumption. apply L4. rewrite V3, A5. reflexivity. }
      split; [intros n re; rewrite M2, L1, V1; apply A6|]. split; [intros n v; rewrite M3, L2; apply V5|]. split; [exact M6|].
      intros n v. rewrite M4, L5, V3, A5. unfold in_list. split; [|auto]. intros [(l & H & _)|H]; [discriminate|exact H].
    - intros (_ & _ & H). apply CL in H. discriminate.
  Qed.
End Decl.

(** ** rule numbers *)
Lemma stoi_acc d : forall a, fold_left (fun a c => 10 * a + N.to_nat (c - 48)) (u (NilEmpty.string_of_uint d)) a = Nat.of_uint_acc d a.
Proof.
  assert (G : forall a, Nat.tail_mul 10 a = 10 * a).
  { intros a. rewrite Nat.tail_mul_spec. reflexivity. }
  induction d as [|d IH|d IH|d IH|d IH|d IH|d IH|d IH|d IH|d IH|d IH]; intros a; [reflexivity|..]; cbn [NilEmpty.string_of_uint Nat.of_uint_acc]; unfold u; cbn [list_ascii_of_string List.map fold_left];
    rewrite <- IH; unfold u; rewrite (G a); f_equal; match goal with |- context [N.to_nat ?x] => let y := eval vm_compute in (N.to_nat x) in replace (N.to_nat x) with y by reflexivity end; lia.
Qed.
Lemma stoi_itoa n : stoi (itoa n) = n.
Proof.
  unfold stoi, itoa. assert (H : NilZero.string_of_uint (Nat.to_uint n) = NilEmpty.string_of_uint (Nat.to_uint n)).
  { destruct (Nat.to_uint n) eqn:E; try reflexivity. pose proof (Unsigned.of_to n) as K. rewrite E in K. cbn in K. subst n. discriminate E. }
  rewrite H, stoi_acc. exact (Unsigned.of_to n).
Qed.
Lemma rule_number_symbol n : rule_number (rule_symbol n) = Some n.
Proof.
  unfold rule_number, rule_symbol. rewrite firstn_app, Nat.sub_diag, firstn_all, app_nil_r, str_eqb_refl. rewrite skipn_app, Nat.sub_diag, skipn_all. cbn [app skipn].
  rewrite !app_length. cbn [List.length]. replace (List.length rule_pre + (List.length (itoa n) + 1) - List.length rule_pre - 1) with (List.length (itoa n)) by lia.
  rewrite firstn_app, Nat.sub_diag, firstn_all, app_nil_r. f_equal. apply stoi_itoa.
Qed.
Lemma rule_symbol_inj a b : rule_symbol a = rule_symbol b -> a = b.
Proof. intros H. assert (K := rule_number_symbol a). rewrite H, rule_number_symbol in K. congruence. Qed.
Lemma index_app s a b : ~ In s a -> index_of s (a ++ b) = List.length a + index_of s b.
Proof.
  induction a as [|x a IH]; intros H; [reflexivity|]. cbn [app index_of List.length]. destruct (str_eqb s x) eqn:E; [apply str_eqb_eq in E; subst; destruct H; left; reflexivity|].
  rewrite IH; [reflexivity|]. intros K. apply H. right. exact K.
Qed.
Lemma index_In s a b : In s a -> index_of s (a ++ b) = index_of s a.
Proof.
  induction a as [|x a IH]; intros H; [destruct H|]. cbn [app index_of]. destruct (str_eqb s x) eqn:E; [reflexivity|]. f_equal. apply IH. destruct H as [->|H]; [rewrite str_eqb_refl in E; discriminate|exact H].
Qed.
Lemma index_nth s a : In s a -> nth (index_of s a) a [] = s.
Proof.
  induction a as [|x a IH]; intros H; [destruct H|]. cbn [index_of]. destruct (str_eqb s x) eqn:E; [apply str_eqb_eq in E; subst; reflexivity|]. cbn [nth]. apply IH. destruct H as [->|H]; [rewrite str_eqb_refl in E; discriminate|exact H].
Qed.
Lemma get_code a s : In s a -> get_symbol a (code a s) = s.
Proof.
  intros H. unfold get_symbol, code. replace (- Z.of_nat (S (index_of s a)) <? 0)%Z with true by (symmetry; apply Z.ltb_lt; lia).
  replace (Z.to_nat (- - Z.of_nat (S (index_of s a)) - 1)) with (index_of s a) by lia. apply index_nth, H.
Qed.
Lemma code_app a s b : In s a -> code (a ++ b) s = code a s.
Proof. intros H. unfold code. rewrite index_In by exact H. reflexivity. Qed.

(** the alphabet of a compiled file: the symbols of the patterns, then the rule numbers *)
Section Rules.
  Variable base : alphabet. Variable ns : list nat.
  Hypothesis fresh : forall n, In n ns -> ~ In (rule_symbol n) base.
  Hypothesis incr : StronglySorted lt ns.
  Notation A := (base ++ map rule_symbol ns).
  Lemma ns_nodup l : StronglySorted lt l -> NoDup l.
  Proof. induction 1 as [|x l H IH F]; constructor; [|exact IH]. intros K. rewrite Forall_forall in F. specialize (F x K). lia. Qed.
  Lemma final_symbols_spec : final_symbols base ns = (A, map (fun n => code A (rule_symbol n)) ns).
  Proof.
    unfold final_symbols. assert (G : forall l k, ns = k ++ l -> fold_left (fun s n => let a' := include (fst s) (rule_symbol n) in (a', snd s ++ [code a' (rule_symbol n)])) l (base ++ map rule_symbol k, map (fun n => code A (rule_symbol n)) k) = (A, map (fun n => code A (rule_symbol n)) ns)).
    { induction l as [|n l IH]; intros k E; cbn [fold_left].
      - rewrite app_nil_r in E. subst k. reflexivity.
      - cbn [fst snd]. assert (I : ~ In (rule_symbol n) (base ++ map rule_symbol k)).
        { intros H. apply in_app_or in H as [H|H]; [apply (fresh n); [rewrite E; apply in_or_app; right; left; reflexivity|exact H]|]. apply in_map_iff in H as (m & H1 & H2). apply rule_symbol_inj in H1. subst m.
          pose proof (ns_nodup ns incr) as ND. rewrite E in ND. apply NoDup_remove_2 in ND. apply ND. apply in_or_app. left. exact H2. }
        unfold include. destruct (in_dec _ _ _) as [C|_]; [contradiction|]. replace ((base ++ map rule_symbol k) ++ [rule_symbol n]) with (base ++ map rule_symbol (k ++ [n])) by (rewrite map_app, app_assoc; reflexivity).
        replace (code (base ++ map rule_symbol (k ++ [n])) (rule_symbol n)) with (code A (rule_symbol n)).
        2:{ rewrite E. replace (k ++ n :: l) with ((k ++ [n]) ++ l) by (rewrite <- app_assoc; reflexivity). rewrite map_app, app_assoc. apply code_app. apply in_or_app. right. apply in_map, in_or_app. right. left. reflexivity. }
        change ([code A (rule_symbol n)]) with (map (fun n => code A (rule_symbol n)) [n]). rewrite <- map_app. apply IH. rewrite <- app_assoc. exact E. }
    specialize (G ns [] eq_refl). cbn [map] in G. rewrite app_nil_r in G. exact G.
  Qed.
  Lemma in_A n : In n ns -> In (rule_symbol n) A.
  Proof. intros H. apply in_or_app. right. apply in_map, H. Qed.
  Lemma code_order n m : In n ns -> In m ns -> n < m -> (code A (rule_symbol m) < code A (rule_symbol n))%Z.
  Proof.
    intros Hn Hm L. unfold code. rewrite !index_app by (apply fresh; assumption). enough (index_of (rule_symbol n) (map rule_symbol ns) < index_of (rule_symbol m) (map rule_symbol ns)) by lia.
    revert Hn Hm. clear - incr L. induction incr as [|x l H IH F]; intros Hn Hm; [destruct Hn|]. rewrite Forall_forall in F. cbn [map index_of].
    destruct (str_eqb (rule_symbol n) (rule_symbol x)) eqn:E1.
    - apply str_eqb_eq, rule_symbol_inj in E1. subst x. destruct (str_eqb (rule_symbol m) (rule_symbol n)) eqn:E2; [apply str_eqb_eq, rule_symbol_inj in E2; lia|lia].
    - assert (Hn' : In n l). { destruct Hn as [->|Hn]; [rewrite str_eqb_refl in E1; discriminate|exact Hn]. } destruct Hm as [->|Hm]; [specialize (F n Hn'); lia|].
      destruct (str_eqb (rule_symbol m) (rule_symbol x)) eqn:E2; [apply str_eqb_eq, rule_symbol_inj in E2; subst m; specialize (F x Hm); lia|]. specialize (IH H Hn' Hm). lia.
  Qed.
  Lemma code_inj n m : In n ns -> In m ns -> code A (rule_symbol n) = code A (rule_symbol m) -> n = m.
  Proof. intros Hn Hm E. destruct (Nat.lt_trichotomy n m) as [H|[H|H]]; [pose proof (code_order n m Hn Hm H); lia|exact H|pose proof (code_order m n Hm Hn H); lia]. Qed.

  Variable m : machine.
  Hypothesis ord : ordered_arcs m.
  Hypothesis dead : dead_ends A ns m.
  Notation fs := (map (fun n => code A (rule_symbol n)) ns).
  Notation good st := (forall q, In q (fst st) -> In q (m_finals m) \/ In q (map fst (m_arcs m))).
  (* one arc *)
  Lemma on_arc_rule src st n trg : In n ns -> on_arc A fs src st (code A (rule_symbol n), trg) =
    if inb trg (fst st) then (if inb src (fst st) then fst st else src :: fst st, map_set Nat.ltb src n (snd st)) else st.
  Proof.
    intros H. unfold on_arc. cbn [fst snd]. replace (existsb _ fs) with true by (symmetry; apply existsb_exists; eexists; split; [apply in_map, H|apply Z.eqb_refl]). cbn [andb].
    destruct (inb trg (fst st)); [|reflexivity]. rewrite get_code by apply in_A, H. rewrite rule_number_symbol. reflexivity.
  Qed.
  Lemma on_arc_other src st z trg : (forall n, In n ns -> z <> code A (rule_symbol n)) -> on_arc A fs src st (z, trg) = st.
  Proof.
    intros H. unfold on_arc. cbn [fst snd]. destruct (existsb (Z.eqb z) fs) eqn:E; [|reflexivity]. apply existsb_exists in E as (y & H1 & H2). apply Z.eqb_eq in H2. subst y. apply in_map_iff in H1 as (n & H1 & H2). destruct (H n H2). auto.
  Qed.
  Lemma rule_arc_dec z : (exists n, In n ns /\ z = code A (rule_symbol n)) \/ (forall n, In n ns -> z <> code A (rule_symbol n)).
  Proof.
    destruct (in_dec Z.eq_dec z fs) as [H|H].
    - apply in_map_iff in H as (n & H1 & H2). left. exists n. auto.
    - right. intros n Hn E. apply H. subst z. apply in_map_iff. exists n. auto.
  Qed.
  Definition ending (arcs : list (Z * nat)) (n : nat) : Prop := In n ns /\ exists trg, In (code A (rule_symbol n), trg) arcs /\ In trg (m_finals m).
  Lemma ending_snoc arcs z trg n : ending (arcs ++ [(z, trg)]) n <-> ending arcs n \/ (In n ns /\ z = code A (rule_symbol n) /\ In trg (m_finals m)).
  Proof.
    unfold ending. split.
    - intros (H & t & H1 & H2). apply in_app_or in H1 as [H1|[[= E1 E2]|[]]]; [left; eauto|right; subst; auto].
    - intros [(H & t & H1 & H2)|(H & -> & H2)]; (split; [exact H|]); eexists; (split; [apply in_or_app|exact H2]); [left; exact H1|right; left; reflexivity].
  Qed.
  (* the arcs of one state, in order *)
  Lemma arcs_step src all st : In (src, all) (m_arcs m) -> good st -> (forall q, In q (m_finals m) -> In q (fst st)) ->
    forall arcs rest, all = arcs ++ rest ->
    let st' := fold_left (on_arc A fs src) arcs st in
    (forall q, In q (fst st') <-> In q (fst st) \/ (q = src /\ exists n, ending arcs n)) /\
    (forall q, q <> src -> look Nat.eqb q (snd st') = look Nat.eqb q (snd st)) /\
    (sorted Nat.ltb (map fst (snd st)) = true -> sorted Nat.ltb (map fst (snd st')) = true) /\
    (forall n, look Nat.eqb src (snd st') = Some n <->
       (ending arcs n /\ forall k, ending arcs k -> n <= k) \/ ((forall k, ~ ending arcs k) /\ look Nat.eqb src (snd st) = Some n)).
  Proof.
    intros HS GS FS arcs. induction arcs as [|[z trg] arcs IH] using rev_ind; intros rest EA; cbn zeta.
    - cbn [fold_left]. split; [|split; [reflexivity|split; [tauto|]]].
      + intros q. split; [auto|]. intros [H|(_ & n & _ & t & [] & _)]; exact H.
      + intros n. split; [|intros [[(_ & t & [] & _) _]|[_ H]]; exact H]. intros H. right. split; [|exact H]. intros k (_ & t & [] & _).
    - rewrite <- app_assoc in EA. cbn [app] in EA. destruct (IH _ EA) as (I1 & I2 & I3 & I4). clear IH.
      rewrite fold_left_app. cbn [fold_left]. set (st1 := fold_left (on_arc A fs src) arcs st) in *.
      assert (LAST : forall k trg', In k ns -> In (code A (rule_symbol k), trg') arcs -> forall n, In n ns -> z = code A (rule_symbol n) -> n <= k).
      { intros k trg' Hk Hi n Hn ->. destruct (Nat.le_gt_cases n k) as [|L]; [assumption|]. exfalso. pose proof (code_order k n Hk Hn L) as C.
        assert (SO : forall x, In x arcs -> (fst x <= code A (rule_symbol n))%Z).
        { destruct ord as [_ O]. specialize (O _ _ HS). clear - O EA. intros x Hx. apply in_split in Hx as (l & r & E). rewrite E in EA. clear E.
          revert x l EA. induction r as [|y r IHr]; intros x l EA.
          - apply (O x (code A (rule_symbol n), trg) l rest). rewrite EA, <- app_assoc. reflexivity.
          - transitivity (fst y).
            + apply (O x y l (r ++ (code A (rule_symbol n), trg) :: rest)). rewrite EA, <- app_assoc. reflexivity.
            + apply (IHr y (l ++ [x])). rewrite EA, <- !app_assoc. reflexivity. }
        specialize (SO (code A (rule_symbol k), trg') Hi). cbn [fst] in SO. lia. }
      destruct (rule_arc_dec z) as [(n0 & Hn0 & Ez)|NZ].
      + rewrite Ez, on_arc_rule by exact Hn0. assert (TF : inb trg (fst st1) = true <-> In trg (m_finals m)).
        { rewrite inb_In, I1. split; [|intros H; left; apply FS, H].
          assert (NK : ~ In trg (map fst (m_arcs m))). { intros H. apply in_map_iff in H as ([s' a'] & H1 & H2). cbn in H1. subst s'. destruct (dead trg a' H2) as [_ H]. apply (H src all n0 HS Hn0). rewrite EA, Ez. apply in_or_app. right. left. reflexivity. }
          intros [H|[H _]]; [destruct (GS _ H) as [H'|H']; [exact H'|contradiction]|]. subst trg. destruct NK. apply in_map_iff. exists (src, all). auto. }
        destruct (inb trg (fst st1)) eqn:IB.
        * apply proj1 in TF. specialize (TF eq_refl). cbn [fst snd].
          assert (EN : forall n, ending (arcs ++ [(z, trg)]) n <-> ending arcs n \/ n = n0).
          { intros n. rewrite ending_snoc. split; [intros [H|(H & H1 & _)]; [auto|right; apply code_inj; congruence]|]. intros [H| ->]; [auto|right; auto]. }
          rewrite Ez in EN. split; [|split; [|split]].
          -- intros q. assert (X : In q (if inb src (fst st1) then fst st1 else src :: fst st1) <-> q = src \/ In q (fst st1)).
             { destruct (inb src (fst st1)) eqn:Q; [apply inb_In in Q|]; cbn [In]; intuition congruence. }
             rewrite X, I1. split; [intros [->|[H|[-> _]]]|intros [H|[-> _]]]; auto; right; (split; [reflexivity|]); exists n0; apply EN; auto.
          -- intros q Hq. rewrite nlook_set. replace (q =? src) with false by (symmetry; apply Nat.eqb_neq; exact Hq). apply I2, Hq.
          -- intros H. apply nset_sorted, I3, H.
          -- intros n. rewrite nlook_set, Nat.eqb_refl. split.
             ++ intros [= <-]. left. split; [apply EN; auto|]. intros k Hk. apply EN in Hk as [(Hk & t' & Hk1 & _)| ->]; [|lia]. exact (LAST k t' Hk Hk1 n0 Hn0 Ez).
             ++ intros [[H1 H2]|[H1 _]]; [|destruct (H1 n0); apply EN; auto]. f_equal. apply EN in H1 as [H1|H1]; [|congruence]. destruct H1 as (Hk & t' & Hk1 & _).
                assert (n0 <= n) by exact (LAST n t' Hk Hk1 n0 Hn0 Ez). assert (n <= n0) by (apply H2, EN; auto). lia.
        * assert (NT : ~ In trg (m_finals m)) by (intros H; apply TF in H; discriminate).
          assert (EN : forall n, ending (arcs ++ [(z, trg)]) n <-> ending arcs n) by (intros n; rewrite ending_snoc; tauto). rewrite Ez in EN.
          split; [|split; [exact I2|split; [exact I3|]]].
          -- intros q. rewrite I1. split; (intros [H|[H [n Hn]]]; [auto|right; split; [exact H|exists n; apply EN, Hn]]).
          -- intros n. rewrite I4. split; (intros [[H1 H2]|[H1 H2]]; [left; split; [apply EN, H1|intros k Hk; apply H2, EN, Hk]|right; split; [intros k Hk; apply (H1 k), EN, Hk|exact H2]]).
      + rewrite on_arc_other by exact NZ. assert (EN : forall n, ending (arcs ++ [(z, trg)]) n <-> ending arcs n).
        { intros n. rewrite ending_snoc. split; [|auto]. intros [H|(H & H1 & _)]; [exact H|destruct (NZ n H H1)]. }
        split; [|split; [exact I2|split; [exact I3|]]].
        -- intros q. rewrite I1. split; (intros [H|[H [n Hn]]]; [auto|right; split; [exact H|exists n; apply EN, Hn]]).
        -- intros n. rewrite I4. split; (intros [[H1 H2]|[H1 H2]]; [left; split; [apply EN, H1|intros k Hk; apply H2, EN, Hk]|right; split; [intros k Hk; apply (H1 k), EN, Hk|exact H2]]).
  Qed.
  Lemma install_step l : forall k st, m_arcs m = k ++ l -> good st -> (forall q, In q (m_finals m) -> In q (fst st)) -> (forall q, In q (map fst l) -> look Nat.eqb q (snd st) = None) ->
    sorted Nat.ltb (map fst (snd st)) = true ->
    let st' := fold_left (fun st e => fold_left (on_arc A fs (fst e)) (snd e) st) l st in
    (forall q, In q (fst st') <-> In q (fst st) \/ exists arcs n, In (q, arcs) l /\ ending arcs n) /\
    sorted Nat.ltb (map fst (snd st')) = true /\
    (forall q n, look Nat.eqb q (snd st') = Some n <-> look Nat.eqb q (snd st) = Some n \/ exists arcs, In (q, arcs) l /\ ending arcs n /\ forall k, ending arcs k -> n <= k).
  Proof.
    induction l as [|[src all] l IH]; intros k st E GS FS NO SO; cbn zeta.
    - cbn [fold_left]. split; [|split; [exact SO|]]; intros; (split; [auto|]); intros [H|H]; auto; [destruct H as (a & n & [] & _)|destruct H as (a & [] & _)].
    - cbn [fold_left fst snd]. assert (HS : In (src, all) (m_arcs m)) by (rewrite E; apply in_or_app; right; left; reflexivity).
      destruct (arcs_step src all st HS GS FS all [] (eq_sym (app_nil_r _))) as (I1 & I2 & I3 & I4). set (st1 := fold_left (on_arc A fs src) all st) in *.
      assert (ND : ~ In src (map fst l)). { destruct ord as [ND _]. rewrite E, map_app in ND. cbn [map fst] in ND. apply NoDup_remove_2 in ND. intros H. apply ND. apply in_or_app. right. exact H. }
      destruct (IH (k ++ [(src, all)]) st1) as (J1 & J2 & J3).
      + rewrite <- app_assoc. exact E.
      + intros q Hq. apply I1 in Hq as [Hq|[-> _]]; [apply GS, Hq|]. right. apply in_map_iff. exists (src, all). auto.
      + intros q Hq. apply I1. left. apply FS, Hq.
      + intros q Hq. rewrite I2; [apply NO; right; exact Hq|]. intros ->. contradiction.
      + apply I3, SO.
      + split; [|split; [exact J2|]].
        * intros q. rewrite J1, I1. split.
          -- intros [[H|[-> [n H]]]|(a & n & H1 & H2)]; [auto|right; exists all, n; cbn; auto|right; exists a, n; cbn; auto].
          -- intros [H|(a & n & [[= <- <-]|H1] & H2)]; [auto|left; right; split; [reflexivity|exists n; exact H2]|right; exists a, n; auto].
        * intros q n. rewrite J3. destruct (Nat.eq_dec q src) as [->|NE].
          -- rewrite I4, (NO src (or_introl eq_refl)). split.
             ++ intros [[H|[_ H]]|(a & H1 & _)]; [right; exists all; cbn; tauto|discriminate|]. destruct ND. apply in_map_iff. exists (src, a). auto.
             ++ intros [H|(a & [[= <-]|H1] & H2)]; [discriminate|auto|]. destruct ND. apply in_map_iff. exists (src, a). auto.
          -- rewrite I2 by exact NE. split; [intros [H|(a & H1 & H2)]; [auto|right; exists a; cbn; auto]|]. intros [H|(a & [[= K _]|H1] & H2)]; [auto|congruence|right; exists a; auto].
  Qed.
  Lemma arcs_unique src a b : In (src, a) (m_arcs m) -> In (src, b) (m_arcs m) -> a = b.
  Proof.
    destruct ord as [ND _]. revert ND. generalize (m_arcs m). induction l as [|[s x] l IH]; cbn [map fst In]; intros ND Ha Hb; [destruct Ha|]. inversion_clear ND as [|? ? N1 N2].
    destruct Ha as [Ha|Ha], Hb as [Hb|Hb]; auto; [congruence|..]; exfalso; apply N1; apply in_map_iff; [exists (src, b)|exists (src, a)]; split; cbn; try assumption; congruence.
  Qed.
  Theorem install_spec : let (m', fin) := install A fs m in
    m_arcs m' = m_arcs m /\ sorted Nat.ltb (map fst fin) = true /\
    (forall q n, look Nat.eqb q fin = Some n <-> first_rule A ns m q n) /\
    (forall q, In q (m_finals m') <-> exists n, In n ns /\ ends A m q n).
  Proof.
    unfold install. destruct (install_step (m_arcs m) [] (m_finals m, []) eq_refl) as (J1 & J2 & J3); [cbn [fst]; auto|auto|reflexivity|reflexivity|]. cbn [fst snd] in *.
    split; [reflexivity|]. split; [exact J2|]. split.
    - intros q n. rewrite J3. unfold first_rule, ends, ending. cbn [look]. split.
      + intros [H|(a & H & (H1 & t & H2 & H3) & H4)]; [discriminate|]. split; [exact H1|]. split; [exists a, t; auto|]. intros k Hk (a' & t' & K1 & K2 & K3). rewrite (arcs_unique q a' a K1 H) in K2. apply H4. eauto.
      + intros (H1 & (a & t & H & H2 & H3) & H4). right. exists a. split; [exact H|]. split; [eauto|]. intros k (Hk & t' & K1 & K2). apply H4; [exact Hk|]. exists a, t'. auto.
    - intros q. cbn [m_finals]. rewrite filter_In, J1. unfold ends, ending. split.
      + intros [[H|(a & n & H & H1 & t & H2)] N]; [apply Bool.negb_true_iff in N; apply inb_In in H; congruence|]. exists n. split; [exact H1|]. exists a, t. tauto.
      + intros (n & H1 & a & t & H & H2 & H3). split; [right; exists a, n; eauto|]. apply Bool.negb_true_iff. destruct (inb q (m_finals m)) eqn:Q; [|reflexivity]. apply inb_In in Q. destruct (dead q a H) as [K _]. contradiction.
  Qed.
End Rules.

(** ** the file *)
Section IO.
  Variable re_ok : str -> bool. Variable tolower : str -> str.
  Variable putN : N -> bytes. Variable getN : reader N. Variable fits : N -> Prop.
  Variable putS : str -> bytes. Variable getS : reader str. Variable fitsS : str -> Prop.
  Variable putA : alphabet -> bytes. Variable getA : reader alphabet. Variable fitsA : alphabet -> Prop.
  Variable putT : machine -> bytes. Variable getT : reader machine. Variable fitsT : machine -> Prop.
  Hypothesis HN : RT putN getN fits. Hypothesis HS : RT putS getS fitsS. Hypothesis HA : RT putA getA fitsA. Hypothesis HT : RT putT getT fitsT.
  Notation put_nat := (put_nat putN). Notation get_nat := (get_nat getN).
  Lemma RT_nat : RT put_nat get_nat (fun n => fits (N.of_nat n)).
  Proof. intros n r H. unfold put_nat, get_nat. rewrite (RT_bind _ _ _ _ _ _ HN H). unfold ret. rewrite Nnat.Nat2N.id. reflexivity. Qed.
  Lemma RT_pair {X Y} (pX : X -> bytes) gX okX (pY : Y -> bytes) gY okY : RT pX gX okX -> RT pY gY okY ->
    RT (fun e => pX (fst e) ++ pY (snd e)) (k <- gX ;; v <- gY ;; ret (k, v)) (fun e => okX (fst e) /\ okY (snd e)).
  Proof. intros H1 H2 [x y] r [K1 K2]. cbn [fst snd] in *. rewrite <- app_assoc, (RT_bind _ _ _ _ _ _ H1 K1), (RT_bind _ _ _ _ _ _ H2 K2). reflexivity. Qed.
  Lemma RT_final : RT (put_final putN) (get_final getN) (fun e => fits (N.of_nat (fst e)) /\ fits (N.of_nat (snd e))).
  Proof. exact (RT_pair _ _ _ _ _ _ RT_nat RT_nat). Qed.
  Lemma RT_var : RT (put_var putS) (get_var getS) (fun e => fitsS (fst e) /\ fitsS (snd e)).
  Proof. exact (RT_pair _ _ _ _ _ _ HS HS). Qed.
  Lemma RT_macro : RT (put_macro putN putS) (get_macro getN getS) (fun e => fitsS (fst e) /\ fits (N.of_nat (snd e))).
  Proof. exact (RT_pair _ _ _ _ _ _ HS RT_nat). Qed.
  Lemma RT_list : RT (put_list putN putS) (get_list getN getS) (fun e => fitsS (fst e) /\ vec_fits fits fitsS (snd e)).
  Proof. exact (RT_pair _ _ _ _ _ _ HS (RT_vec putN getN fits HN putS getS fitsS HS)). Qed.
  Lemma RT_attr : fits 0%N -> RT (put_attr putN putS) (get_attr re_ok getN getS true) (fun e => (fitsS (fst e) /\ fitsS (snd e)) /\ re_ok (snd e) = true).
  Proof.
    intros H0 [k v] r [[K1 K2] K3]. cbn [fst snd] in *. unfold put_attr, get_attr, skip_binary. cbn [fst snd]. rewrite <- !app_assoc, (RT_bind _ _ _ _ _ _ HS K1).
    unfold bind at 1. rewrite (RT_bind _ _ _ _ _ _ HN H0). cbn [N.to_nat skipn negb andb]. rewrite (RT_bind _ _ _ _ _ _ HS K2). rewrite K3. reflexivity.
  Qed.
  Lemma add_items_spec f l : forall m n v, lists_item (fold_left (add_items f) l m) n v <-> lists_item m n v \/ exists items w, In (n, items) l /\ In w items /\ v = f w.
  Proof.
    induction l as [|[k vs] l IH]; intros m n v; cbn [fold_left]; [split; [auto|intros [H|(i & w & [] & _)]; exact H]|]. rewrite IH.
    assert (S : lists_item (add_items f m (k, vs)) n v <-> lists_item m n v \/ (n = k /\ exists w, In w vs /\ v = f w)).
    { unfold add_items. cbn [fst snd]. clear IH. revert m. induction vs as [|x vs IHv]; intros m; cbn [fold_left]; [split; [auto|intros [H|(_ & w & [] & _)]; exact H]|]. rewrite IHv, item_step. split.
      - intros [[H|[-> ->]]|(H & w & H1 & H2)]; [auto|right; split; [reflexivity|exists x; cbn; auto]|right; split; [exact H|exists w; cbn; auto]].
      - intros [H|(H & w & [<-|H1] & H2)]; [auto|auto|right; split; [exact H|exists w; auto]]. }
    rewrite S. split.
    - intros [[H|(-> & w & H1 & H2)]|(i & w & H1 & H2)]; [auto|right; exists vs, w; cbn; auto|right; exists i, w; cbn; tauto].
    - intros [H|(i & w & [[= <- <-]|H1] & H2)]; [auto|left; right; split; [reflexivity|exists w; exact H2]|right; exists i, w; auto].
  Qed.
  Theorem read_write a z m t rest : sorted_td t -> td_fits fits fitsS t -> Forall (fun e => re_ok (snd e) = true) (attr_items t) ->
    fitsA a -> fitsT (fst (install a z m)) -> finals_fit fits (snd (install a z m)) -> sorted Nat.ltb (map fst (snd (install a z m))) = true ->
    exists b, read re_ok tolower getN getS getA getT (write putN putS putA putT a z m t ++ rest) = Some (b, rest) /\
      b_alphabet b = a /\ b_machine b = fst (install a z m) /\ b_finals b = snd (install a z m) /\ b_attrs b = attr_items t /\ b_variables b = variables t /\ b_defaults b = variables t /\ b_macros b = macros t /\
      (forall n v, lists_item (b_lists b) n v <-> lists_item (lists t) n v) /\ (forall n v, lists_item (b_listslow b) n v <-> exists w, lists_item (lists t) n w /\ v = tolower w).
  Proof.
    intros (S1 & S2 & S3 & S4) (F1 & F2 & F3 & F4 & F5 & F6) FR FA FT FF SF. unfold read, write. destruct (install a z m) as [m' fin]. cbn [fst snd] in *.
    rewrite <- !app_assoc. rewrite (RT_bind _ _ _ _ _ _ HA FA), (RT_bind _ _ _ _ _ _ HT FT).
    rewrite (RT_bind _ _ _ _ _ _ (RT_vec putN getN fits HN _ _ _ RT_final) FF). rewrite (RT_bind _ _ _ _ _ _ HS F6). cbn match.
    rewrite (RT_bind _ _ _ _ _ _ (RT_vec putN getN fits HN _ _ _ (RT_attr F5))).
    2:{ destruct F1 as [F1 F1']. split; [exact F1|]. rewrite Forall_forall in *. auto. }
    rewrite (RT_bind _ _ _ _ _ _ (RT_vec putN getN fits HN _ _ _ RT_var) F2). rewrite (RT_bind _ _ _ _ _ _ (RT_vec putN getN fits HN _ _ _ RT_macro) F3).
    rewrite (RT_bind _ _ _ _ _ _ (RT_vec putN getN fits HN _ _ _ RT_list) F4). unfold ret.
    rewrite (map_of_list_app Nat.ltb nat_asym fin []) by exact SF. rewrite (map_of_list_app str_lt str_lt_asym (attr_items t) []) by exact S1.
    rewrite (map_of_list_app str_lt str_lt_asym (variables t) []) by exact S2. rewrite (map_of_list_app str_lt str_lt_asym (macros t) []) by exact S3. cbn [app].
    eexists. split; [reflexivity|]. cbn [b_alphabet b_machine b_finals b_attrs b_variables b_defaults b_macros b_lists b_listslow]. do 7 (split; [reflexivity|]).
    assert (N : forall n v, ~ lists_item [] n v) by (intros n v (l & H & _); discriminate). split.
    - intros n v. rewrite add_items_spec. split.
      + intros [H|(i & w & H1 & H2 & ->)]; [destruct (N _ _ H)|]. exists i. split; [apply ssorted_look; assumption|exact H2].
      + intros (i & H1 & H2). right. exists i, v. split; [apply ssorted_look; assumption|auto].
    - intros n v. rewrite add_items_spec. split.
      + intros [H|(i & w & H1 & H2 & ->)]; [destruct (N _ _ H)|]. exists w. split; [|reflexivity]. exists i. split; [apply ssorted_look; assumption|exact H2].
      + intros (w & (i & H1 & H2) & ->). right. exists i, w. split; [apply ssorted_look; assumption|auto].
  Qed.
End IO.
