From Coq Require Import Bool.
From Verif Require Import Model.Base Proofs.Base Model.Codec Model.TaggerData Model.TaggerDataCopy.

Definition SInv (st : store) (c : scoll) : Prop :=
  map fst (s_index c) = s_element c /\
  (forall a, In a (s_element c) -> a < next st /\ cells st a <> None).

Lemma s_add_Inv st c t : SInv st c -> SInv (fst (s_add st c t)) (snd (s_add st c t)).
Proof.
  intros [H1 H2]. unfold s_add. destruct (s_find st t (s_index c)); [split; assumption|]. cbn.
  split; cbn.
  - rewrite map_app, H1. reflexivity.
  - intros a Ha. apply in_app_or in Ha as [Ha|[<-|[]]].
    + destruct (H2 a Ha). split; [lia|]. destruct (a =? next st); [discriminate|assumption].
    + split; [lia|]. rewrite Nat.eqb_refl. discriminate.
Qed.

Lemma s_build_Inv l : SInv (fst (s_build l)) (snd (s_build l)).
Proof.
  unfold s_build. assert (H : SInv (fst (mkst (fun _ => None) 0, s_empty)) (snd (mkst (fun _ => None) 0, s_empty))).
  { split; [reflexivity|intros a []]. }
  revert H. generalize (mkst (fun _ => None) 0, s_empty). induction l as [|t l IH]; intros p H; [exact H|].
  cbn. apply IH. apply s_add_Inv, H.
Qed.

Lemma copy_nodes_spec ix : forall st,
  let r := copy_nodes st ix in
  (forall a, a < next st -> cells (fst r) a = cells st a) /\ next st <= next (fst r) /\
  (forall a, In a (map fst (snd r)) -> next st <= a).
Proof.
  induction ix as [|[a v] ix IH]; intros st; cbn; [repeat split; auto; intros a []|].
  set (x := match cells st a with Some k => k | None => [] end).
  destruct (copy_nodes _ ix) as [st2 r'] eqn:E.
  destruct (IH (mkst (fun b => if b =? next st then Some x else cells st b) (S (next st)))) as [H1 [H2 H3]].
  rewrite E in *. cbn in *. repeat split.
  - intros b Hb. rewrite H1 by lia. destruct (b =? next st) eqn:K; [apply Nat.eqb_eq in K; lia|reflexivity].
  - lia.
  - intros b [<-|Hb]; [lia|]. specialize (H3 b Hb). lia.
Qed.

Lemma copy_reads_source st c n : SInv st c ->
  s_at (fst (s_copy st c)) (snd (s_copy st c)) n = s_at st c n.
Proof.
  intros [H1 H2]. unfold s_copy. destruct (copy_nodes st (s_index c)) as [st' ix] eqn:E.
  destruct (copy_nodes_spec (s_index c) st) as [K1 _]. rewrite E in K1. cbn in *.
  unfold s_at; cbn. destruct (nth_error (s_element c) n) as [a|] eqn:Ea; [|reflexivity].
  apply K1. apply H2, (nth_error_In _ _ Ea).
Qed.

Lemma destroy_cells ix : forall st a,
  cells (fold_left (fun s (av : addr * nat) => free s (fst av)) ix st) a =
  if existsb (Nat.eqb a) (map fst ix) then None else cells st a.
Proof.
  induction ix as [|[b v] ix IH]; intros st a; [reflexivity|]. cbn. rewrite IH. cbn.
  destruct (a =? b); cbn; [|reflexivity]. destruct (existsb _ _); reflexivity.
Qed.

Lemma copy_dangles st c n : SInv st c ->
  let p := s_copy st c in s_at (s_destroy (fst p) c) (snd p) n = None.
Proof.
  intros [H1 H2]. unfold s_copy. destruct (copy_nodes st (s_index c)) as [st' ix] eqn:E. cbn.
  unfold s_at; cbn. destruct (nth_error (s_element c) n) as [a|] eqn:Ea; [|reflexivity].
  unfold s_destroy. rewrite destroy_cells, H1.
  replace (existsb (Nat.eqb a) (s_element c)) with true; [reflexivity|].
  symmetry; apply existsb_exists. exists a. split; [apply (nth_error_In _ _ Ea)|apply Nat.eqb_refl].
Qed.

Lemma copy_size st c : s_size (snd (s_copy st c)) = s_size c.
Proof. unfold s_copy. destruct (copy_nodes st (s_index c)); reflexivity. Qed.

Lemma copy_alive (l : list (list N)) (n : nat) :
  let (st, c) := s_build l in let (st', c') := s_copy st c in
  s_size c' = s_size c /\ s_at st' c' n = s_at st c n.
Proof.
  assert (H := s_build_Inv l). destruct (s_build l) as [st c]. cbn in H.
  assert (H1 := copy_reads_source st c n H). assert (H2 := copy_size st c).
  destruct (s_copy st c) as [st' c']. auto.
Qed.
Lemma copy_dead (l : list (list N)) (n : nat) :
  let (st, c) := s_build l in let (st', c') := s_copy st c in s_at (s_destroy st' c) c' n = None.
Proof.
  assert (H := s_build_Inv l). destruct (s_build l) as [st c]. cbn in H.
  assert (H1 := copy_dangles st c n H). destruct (s_copy st c) as [st' c']. exact H1.
Qed.
