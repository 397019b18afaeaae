From Verif Require Import Model.Base Proofs.Base Model.Codec Proofs.Codec Model.ConstantManager.

Definition const_ok (fits : N -> Prop) (fitsS : str -> Prop) (m : constants) : Prop :=
  fits (N.of_nat (length m)) /\ Forall (fun kv => fitsS (fst kv) /\ fits (snd kv)) m /\ sorted str_lt (map fst m) = true.

Section IO.
  Variable putN : N -> bytes.  Variable getN : reader N. Variable fits : N -> Prop.
  Hypothesis HN : RT putN getN fits.
  Variable putS : str -> bytes. Variable getS : reader str. Variable fitsS : str -> Prop.
  Hypothesis HS : RT putS getS fitsS.

  Lemma RT_kv : RT (fun kv => putS (fst kv) ++ putN (snd kv)) (k <- getS ;; v <- getN ;; ret (k, v))
                   (fun kv => fitsS (fst kv) /\ fits (snd kv)).
  Proof.
    intros [k v] r [Hk Hv]. cbn [fst snd] in *. rewrite <- app_assoc.
    rewrite (RT_bind putS getS fitsS) by assumption.
    rewrite (RT_bind putN getN fits) by assumption. reflexivity.
  Qed.

  Lemma RT_const : RT (write putN putS) (read getN getS) (const_ok fits fitsS).
  Proof.
    intros m r [H1 [H2 H3]]. unfold read, write. rewrite <- app_assoc.
    rewrite (RT_bind putN getN fits) by assumption. rewrite Nnat.Nat2N.id.
    unfold bind at 1. rewrite (RT_repeat _ _ _ RT_kv _ r H2). unfold ret.
    rewrite (map_of_list_app str_lt str_lt_asym m []) by exact H3. reflexivity.
  Qed.
End IO.

(** set/get *)
Lemma str_lt_total a b : str_lt a b = false -> str_lt b a = false -> a = b.
Proof.
  revert b; induction a as [|x a IH]; intros [|y b]; cbn; try congruence.
  destruct (x <? y)%N eqn:E1, (y <? x)%N eqn:E2; try congruence.
  intros H1 H2. apply N.ltb_ge in E1, E2. f_equal; [lia|apply IH; assumption].
Qed.
Lemma str_lt_irrefl a : str_lt a a = false.
Proof. induction a as [|x a IH]; cbn; [reflexivity|]. rewrite N.ltb_irrefl; exact IH. Qed.

Lemma get_set k v k' m : getConstant k' (setConstant k v m) = if str_eqb k' k then v else getConstant k' m.
Proof.
  unfold setConstant. induction m as [|[x w] m IH]; cbn.
  - reflexivity.
  - destruct (str_lt k x) eqn:E1; [reflexivity|].
    destruct (str_lt x k) eqn:E2; cbn.
    + destruct (str_eqb k' x) eqn:E3; [|exact IH].
      apply str_eqb_eq in E3; subst x.
      destruct (str_eqb k' k) eqn:E4; [|reflexivity].
      apply str_eqb_eq in E4; subst k'. rewrite str_lt_irrefl in E2; discriminate.
    + assert (x = k) by (apply str_lt_total; assumption); subst x.
      destruct (str_eqb k' k); reflexivity.
Qed.

Lemma str_lt_trans a : forall b c, str_lt a b = true -> str_lt b c = true -> str_lt a c = true.
Proof.
  induction a as [|x a IH]; intros [|y b] [|z c]; cbn; try congruence.
  destruct (x <? y)%N eqn:E1.
  - intros _. destruct (y <? z)%N eqn:E2.
    + intros _. apply N.ltb_lt in E1, E2. replace (x <? z)%N with true; [reflexivity|]. symmetry; apply N.ltb_lt; lia.
    + destruct (z <? y)%N eqn:E3; [congruence|]. intros _. apply N.ltb_lt in E1. apply N.ltb_ge in E2, E3.
      replace (x <? z)%N with true; [reflexivity|]. symmetry; apply N.ltb_lt; lia.
  - destruct (y <? x)%N eqn:E2; [congruence|]. intros H. apply N.ltb_ge in E1, E2.
    assert (x = y) by lia; subst y. destruct (x <? z)%N; [reflexivity|]. destruct (z <? x)%N; [congruence|].
    apply IH; exact H.
Qed.

Lemma set_keys k v m x : In x (map fst (setConstant k v m)) -> x = k \/ In x (map fst m).
Proof.
  unfold setConstant. induction m as [|[y w] m IH]; cbn.
  - intros [H|[]]; auto.
  - destruct (str_lt k y); cbn; [intros [H|H]; auto|].
    destruct (str_lt y k); cbn; intros [H|H]; auto. destruct (IH H); auto.
Qed.

Lemma set_sorted k v m : sorted str_lt (map fst m) = true -> sorted str_lt (map fst (setConstant k v m)) = true.
Proof.
  unfold setConstant. induction m as [|[y w] m IH]; cbn; [reflexivity|].
  intros H; apply andb_prop in H as [H1 H2].
  destruct (str_lt k y) eqn:E1; cbn.
  - rewrite H1, H2, E1. cbn. rewrite ?andb_true_r. apply forallb_forall.
    intros x Hx. rewrite forallb_forall in H1. apply (str_lt_trans k y); auto.
  - destruct (str_lt y k) eqn:E2; cbn.
    + rewrite IH by exact H2. rewrite andb_true_r. apply forallb_forall. intros x Hx.
      apply (set_keys k v m) in Hx as [->|Hx]; [exact E2|]. rewrite forallb_forall in H1; auto.
    + rewrite H1, H2; reflexivity.
Qed.

Lemma const_history (l : list (str * N)) (k : str) :
  getConstant k (fold_left (fun m kv => setConstant (fst kv) (snd kv) m) l []) =
  fold_left (fun v kv => if str_eqb k (fst kv) then snd kv else v) l 0%N.
Proof.
  assert (H : forall l m v, getConstant k m = v ->
    getConstant k (fold_left (fun m kv => setConstant (fst kv) (snd kv) m) l m) =
    fold_left (fun v kv => if str_eqb k (fst kv) then snd kv else v) l v).
  { clear l. induction l as [|[k' v'] l IH]; intros m v Hv; [exact Hv|]. cbn. apply IH.
    rewrite get_set. destruct (str_eqb k k'); [reflexivity|exact Hv]. }
  apply H. reflexivity.
Qed.

Lemma sets_sorted l : forall m, sorted str_lt (map fst m) = true ->
  sorted str_lt (map fst (fold_left (fun m kv => setConstant (fst kv) (snd kv) m) l m)) = true.
Proof. induction l as [|kv l IH]; intros a Ha; [exact Ha|]. cbn. apply IH, set_sorted, Ha. Qed.

Lemma const_roundtrip :
  forall (putN : N -> bytes) (getN : reader N) (fits : N -> Prop), RT putN getN fits ->
  forall (putS : str -> bytes) (getS : reader str) (fitsS : str -> Prop), RT putS getS fitsS ->
  forall (l : list (str * N)) (rest : bytes),
  let m := fold_left (fun m kv => setConstant (fst kv) (snd kv) m) l [] in
  fits (N.of_nat (length m)) -> Forall (fun kv => fitsS (fst kv) /\ fits (snd kv)) m ->
  read getN getS (write putN putS m ++ rest) = Some (m, rest).
Proof.
  intros putN getN fits HN putS getS fitsS HS l rest m H1 H2.
  apply (RT_const putN getN fits HN putS getS fitsS HS). split; [exact H1|]. split; [exact H2|].
  apply sets_sorted. reflexivity.
Qed.
