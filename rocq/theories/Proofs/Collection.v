From Verif Require Import Model.Base Proofs.Base Model.Codec Proofs.Codec Model.Collection Spec.Collection.

(** model counterpart of the operations *)
Definition model_step (c : coll) (o : op) : coll * out :=
  match o with
  | Add t => let (c', i) := add t c in (c', OIdx i)
  | HasNot t => (c, OBool (has_not t c))
  | At n => (c, OSet (at_ n c))
  | Size => (c, OSize (size c))
  end.
Fixpoint model_run (c : coll) (l : list op) : list out :=
  match l with [] => [] | o :: r => let (s, x) := model_step c o in x :: model_run s r end.

Definition Inv (c : coll) : Prop :=
  index c = combine (element c) (seq 0 (length (element c))) /\ NoDup (element c).

Lemma find_combine t l : forall k, find t (combine l (seq k (length l))) = option_map (Nat.add k) (pos t l).
Proof.
  induction l as [|x l IH]; intros k; cbn; [reflexivity|].
  unfold iset_eqb. destruct (list_eq_dec N.eq_dec t x); cbn; [f_equal; lia|].
  rewrite IH. destruct (pos t l); cbn; [f_equal; lia|reflexivity].
Qed.

Lemma pos_None t l : pos t l = None <-> ~ In t l.
Proof.
  induction l as [|x l IH]; cbn; [tauto|]. destruct (list_eq_dec N.eq_dec t x) as [->|H].
  - split; [discriminate|]. intros K; exfalso; apply K; left; reflexivity.
  - destruct (pos t l); cbn; split; try discriminate.
    + intros K; exfalso. apply K. right. destruct (in_dec (list_eq_dec N.eq_dec) t l) as [Hi|Hi]; [exact Hi|].
      apply IH in Hi; discriminate.
    + intros _ [K|K]; [congruence|]. apply IH in K; [exact K|reflexivity].
    + reflexivity.
Qed.

Lemma pos_nth t l i : pos t l = Some i -> nth_error l i = Some t.
Proof.
  revert i; induction l as [|x l IH]; intros i; cbn; [discriminate|].
  destruct (list_eq_dec N.eq_dec t x) as [->|H]; [intros E; injection E as <-; reflexivity|].
  destruct (pos t l); [|discriminate]. intros E; injection E as <-. cbn. apply IH; reflexivity.
Qed.

Lemma Inv_empty : Inv empty.
Proof. split; [reflexivity|constructor]. Qed.

Lemma seq_len_index (c : coll) : Inv c -> length (index c) = length (element c).
Proof. intros [-> _]. rewrite combine_length, seq_length. lia. Qed.

Lemma find_pos c t : Inv c -> find t (index c) = pos t (element c).
Proof. intros [H _]; rewrite H, find_combine. destruct (pos t (element c)); reflexivity. Qed.

Lemma combine_snoc {A B} (a : list A) (b : list B) x y : length a = length b ->
  combine (a ++ [x]) (b ++ [y]) = combine a b ++ [(x, y)].
Proof.
  revert b; induction a as [|z a IH]; intros [|w b]; cbn; try discriminate; [reflexivity|].
  intros H; rewrite IH by congruence; reflexivity.
Qed.

Lemma add_spec c t : Inv c -> Inv (fst (add t c)) /\
  element (fst (add t c)) = fst (spec_step (element c) (Add t)) /\
  OIdx (snd (add t c)) = snd (spec_step (element c) (Add t)).
Proof.
  intros HI. unfold add. rewrite find_pos by exact HI. cbn.
  destruct (pos t (element c)) as [i|] eqn:E; [cbn; auto|]. cbn.
  rewrite seq_len_index by exact HI. repeat split; cbn.
  - destruct HI as [-> _]. rewrite app_length; cbn [length].
    rewrite Nat.add_1_r, seq_S, combine_snoc; rewrite ?seq_length; reflexivity.
  - apply pos_None in E. destruct HI as [_ HN].
    apply NoDup_rev in HN. rewrite <- (rev_involutive (element c ++ [t])). apply NoDup_rev.
    rewrite rev_app_distr. cbn. constructor; [rewrite <- in_rev; exact E|exact HN].
Qed.

Lemma model_refines l : forall c, Inv c -> model_run c l = spec_run (element c) l.
Proof.
  induction l as [|o l IH]; intros c HI; [reflexivity|]. cbn.
  destruct o as [t|t|n|]; cbn [model_step].
  - destruct (add_spec c t HI) as [H1 [H2 H3]].
    destruct (add t c) as [c' i]; cbn [fst snd] in *. unfold spec_step.
    cbn in H2, H3. destruct (pos t (element c)) as [j|]; cbn in *; rewrite IH, H2, H3 by exact H1; reflexivity.
  - cbn. rewrite IH by exact HI. unfold has_not. rewrite find_pos by exact HI. reflexivity.
  - cbn. rewrite IH by exact HI. reflexivity.
  - cbn. rewrite IH by exact HI. reflexivity.
Qed.

Lemma collection_history l : model_run empty l = spec_run [] l.
Proof. apply (model_refines l empty Inv_empty). Qed.

(** reading a written collection *)
Definition set_ok (fits : N -> Prop) (s : iset) : Prop :=
  fits (N.of_nat (length s)) /\ Forall fits s /\ sorted N.ltb s = true.
Definition coll_ok (fits : N -> Prop) (c : coll) : Prop :=
  Inv c /\ fits (N.of_nat (length (element c))) /\ Forall (set_ok fits) (element c).

Section IO.
  Variable putN : N -> bytes.
  Variable getN : reader N.
  Variable fits : N -> Prop.
  Hypothesis HN : RT putN getN fits.

  Lemma RT_set : RT (fun s => putN (N.of_nat (length s)) ++ flat_map putN s) (read_set getN) (set_ok fits).
  Proof.
    intros s r [H1 [H2 H3]]. unfold read_set. rewrite <- app_assoc.
    rewrite (RT_bind putN getN fits) by assumption. rewrite Nnat.Nat2N.id.
    unfold bind. rewrite (RT_repeat putN getN fits HN s r H2). unfold ret.
    rewrite (set_of_list_app N.ltb Nltb_asym s []) by exact H3. reflexivity.
  Qed.

  Lemma fold_add l : forall c, Inv c -> NoDup (element c ++ l) ->
    element (fold_left (fun c t => fst (add t c)) l c) = element c ++ l /\
    Inv (fold_left (fun c t => fst (add t c)) l c).
  Proof.
    induction l as [|t l IH]; intros c HI HD; cbn; [rewrite app_nil_r; auto|].
    destruct (add_spec c t HI) as [H1 [H2 _]]. cbn in H2.
    assert (E : pos t (element c) = None).
    { apply pos_None. intros K. apply NoDup_remove_2 in HD. apply HD, in_or_app; left; exact K. }
    rewrite E in H2. cbn in H2.
    destruct (IH (fst (add t c)) H1) as [H3 H4]; rewrite H2 in *; rewrite <- app_assoc in *; cbn in *; auto.
  Qed.

  Lemma Inv_ext c1 c2 : Inv c1 -> Inv c2 -> element c1 = element c2 -> c1 = c2.
  Proof. destruct c1, c2; intros [H1 _] [H2 _]; cbn in *; intros ->; congruence. Qed.

  Lemma RT_coll : RT (write putN) (read getN empty) (coll_ok fits).
  Proof.
    intros c r [HI [H1 H2]]. unfold read, write. rewrite <- app_assoc.
    rewrite (RT_bind putN getN fits) by assumption. rewrite Nnat.Nat2N.id.
    rewrite (bind_some _ _ _ (element c) r) by exact (RT_repeat _ _ _ RT_set (element c) r H2).
    unfold ret. do 2 f_equal.
    destruct (fold_add (element c) empty Inv_empty) as [H3 H4].
    - cbn. apply HI.
    - apply Inv_ext; [exact H4|exact HI|exact H3].
  Qed.
End IO.

Lemma run_ops_Inv l : forall c, Inv c -> Inv (fold_left (fun c o => fst (model_step c o)) l c).
Proof.
  induction l as [|o l IH]; intros c H; [exact H|]. cbn. apply IH.
  destruct o as [t|t|n|]; cbn; try exact H.
  destruct (add_spec c t H) as [H1 _]. destruct (add t c); exact H1.
Qed.

(** lookups after any history *)
Definition ops_run (l : list op) (c : coll) : coll := fold_left (fun c o => fst (model_step c o)) l c.

Lemma pos_lt t l i : pos t l = Some i -> i < length l.
Proof. intros H. apply nth_error_Some. rewrite (pos_nth _ _ _ H). discriminate. Qed.
Lemma pos_app_l t l m i : pos t l = Some i -> pos t (l ++ m) = Some i.
Proof.
  revert i; induction l as [|x l IH]; intros i; cbn; [discriminate|].
  destruct (list_eq_dec N.eq_dec t x); [auto|]. destruct (pos t l) as [j|]; [|discriminate].
  intros E; injection E as <-. rewrite (IH j eq_refl). reflexivity.
Qed.
Lemma pos_app_r t l m : pos t l = None -> pos t (l ++ m) = option_map (Nat.add (length l)) (pos t m).
Proof.
  induction l as [|x l IH]; cbn; [destruct (pos t m); reflexivity|].
  destruct (list_eq_dec N.eq_dec t x); [discriminate|]. destruct (pos t l); [discriminate|].
  intros _. rewrite IH by reflexivity. destruct (pos t m); reflexivity.
Qed.

Lemma add_after c t : Inv c -> Inv (fst (add t c)) /\ pos t (element (fst (add t c))) = Some (snd (add t c)).
Proof.
  intros HI. destruct (add_spec c t HI) as [H1 [H2 H3]]. split; [exact H1|]. rewrite H2.
  cbn in H3 |- *. destruct (pos t (element c)) as [i|] eqn:E; cbn in *; injection H3 as ->; [exact E|].
  rewrite pos_app_r by exact E. cbn. destruct (list_eq_dec N.eq_dec t t); [|congruence]. cbn. f_equal; lia.
Qed.
Lemma add_idem c t i : Inv c -> pos t (element c) = Some i -> add t c = (c, i).
Proof. intros HI E. unfold add. rewrite find_pos by exact HI. rewrite E. reflexivity. Qed.

Lemma collection_lookup l t :
  let c := fold_left (fun c o => fst (model_step c o)) l empty in
  let (c', i) := add t c in at_ i c' = Some t /\ i < size c' /\ snd (add t c') = i /\ has_not t c' = false.
Proof.
  cbn zeta. assert (HI := run_ops_Inv l empty Inv_empty).
  set (c := fold_left _ l empty) in *. destruct (add_after c t HI) as [H1 H2].
  destruct (add t c) as [c' i]; cbn in *. repeat split.
  - unfold at_. apply pos_nth, H2.
  - unfold size. apply (pos_lt t), H2.
  - rewrite (add_idem _ _ _ H1 H2). reflexivity.
  - unfold has_not. rewrite find_pos by exact H1. rewrite H2. reflexivity.
Qed.

Lemma add_extends c t : Inv c -> exists m, element (fst (add t c)) = element c ++ m.
Proof.
  intros HI. destruct (add_spec c t HI) as [_ [H2 _]]. rewrite H2. cbn.
  destruct (pos t (element c)); cbn; [exists []; rewrite app_nil_r; reflexivity|eexists; reflexivity].
Qed.
Lemma run_extends l : forall c, Inv c -> exists m, element (ops_run l c) = element c ++ m.
Proof.
  induction l as [|o l IH]; intros c HI; [exists []; rewrite app_nil_r; reflexivity|].
  cbn. assert (H1 : Inv (fst (model_step c o))) by (apply (run_ops_Inv [o] c HI)).
  destruct (IH _ H1) as [m Hm]. unfold ops_run in *. rewrite Hm.
  destruct o as [t|t|n|]; cbn; try (exists m; reflexivity).
  destruct (add_extends c t HI) as [m' Hm']. destruct (add t c); cbn in *. rewrite Hm'.
  exists (m' ++ m). apply app_assoc_reverse.
Qed.

Lemma collection_injective l t t' :
  let c := fold_left (fun c o => fst (model_step c o)) l empty in
  let (c1, i) := add t c in let (c2, j) := add t' c1 in i = j -> t = t'.
Proof.
  cbn zeta. assert (HI := run_ops_Inv l empty Inv_empty).
  set (c := fold_left _ l empty) in *. destruct (add_after c t HI) as [H1 H2].
  destruct (add t c) as [c1 i]; cbn in *. destruct (add_after c1 t' H1) as [H3 H4].
  destruct (add_extends c1 t' H1) as [m Hm]. destruct (add t' c1) as [c2 j]; cbn in *.
  intros ->. rewrite Hm in H4. apply (pos_app_l _ _ m) in H2.
  apply pos_nth in H2, H4. assert (E := eq_trans (eq_sym H2) H4). injection E as E'; exact E'.
Qed.

Lemma collection_stable l l' t :
  let c := fst (add t (fold_left (fun c o => fst (model_step c o)) l empty)) in
  let c' := fold_left (fun c o => fst (model_step c o)) l' c in
  snd (add t c') = snd (add t c).
Proof.
  cbn zeta. assert (HI := run_ops_Inv l empty Inv_empty).
  set (c0 := fold_left _ l empty) in *. destruct (add_after c0 t HI) as [H1 H2].
  set (c := fst (add t c0)) in *. rewrite (add_idem c t _ H1 H2). cbn.
  destruct (run_extends l' c H1) as [m Hm].
  rewrite (add_idem _ t (snd (add t c0))); [reflexivity|apply run_ops_Inv, H1|].
  unfold ops_run in Hm. rewrite Hm. apply pos_app_l, H2.
Qed.

(** collections that arise from any history satisfy [Inv] *)
Lemma history_coll_ok (fits : N -> Prop) l : let c := ops_run l empty in
  fits (N.of_nat (length (element c))) -> Forall (set_ok fits) (element c) -> coll_ok fits c.
Proof. intros c H1 H2. split; [apply run_ops_Inv, Inv_empty|auto]. Qed.
