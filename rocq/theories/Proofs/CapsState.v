(** lttoolbox's State on the compiled machine: the states and outputs it holds are those of the runs. *)
From Coq Require Import String ZArith.
From Verif Require Import Model.Base Model.CapsRules Proofs.Base Proofs.CapsCompile.
Open Scope nat_scope.

Section S.
Variable E : list edge.
Inductive epath : nat -> list edge -> list str -> nat -> Prop :=
  | ep_nil p : epath p [] [] p
  | ep_cons p l q es o r : In (p, l, q) E -> fst l = None -> epath q es o r -> epath p ((p, l, q) :: es) (outs l ++ o) r.
Lemma run_epath p x o r : run E p x o r -> x = [] -> exists es, epath p es o r.
Proof.
  intros R. induction R as [p|p l q x o r H Hl R IH|p l i a q x o r H Hl Ha R IH]; intros X; [exists []; constructor| |discriminate].
  destruct (IH X) as (es & P). exists ((p, l, q) :: es). constructor; assumption.
Qed.
Lemma epath_run p es o r : epath p es o r -> run E p [] o r.
Proof. intros P. induction P; [constructor|eapply run_eps; eauto]. Qed.
Lemma epath_short p es o r : acyclic E -> epath p es o r -> length es <= length E.
Proof.
  intros [rk A] P. assert (G : incl es E /\ NoDup es /\ Forall (fun e => rk p <= rk (fst (fst e))) es).
  { induction P as [p|p l q es o r H Hl P (I1 & I2 & I3)]; [repeat split; [intros e []|constructor|constructor]|].
    specialize (A _ _ _ H Hl). repeat split.
    - intros e [<-|He]; auto.
    - constructor; [|exact I2]. intros K. rewrite Forall_forall in I3. apply I3 in K. cbn in K. lia.
    - constructor; [cbn; lia|]. eapply Forall_impl; [|exact I3]. cbn. intros; lia. }
  destruct G as (G1 & G2 & _). apply NoDup_incl_length; assumption.
Qed.
Lemma eps_sound f : forall p o q o', In (q, o') (eps f E (p, o)) -> exists o1, o' = o ++ o1 /\ run E p [] o1 q.
Proof.
  induction f as [|f IH]; intros p o q o' H; cbn [eps] in H; destruct H as [H|H].
  - injection H as <- <-. exists []. rewrite app_nil_r. split; [reflexivity|constructor].
  - destruct H.
  - injection H as <- <-. exists []. rewrite app_nil_r. split; [reflexivity|constructor].
  - apply in_flat_map in H. destruct H as ([[a l] b] & He & H). cbn [fst snd] in H. destruct (Nat.eqb_spec a p) as [->|]; [|destruct H].
    destruct (fst l) eqn:Hl; [destruct H|]. destruct (IH _ _ _ _ H) as (o1 & -> & R). exists (outs l ++ o1). rewrite app_assoc. split; [reflexivity|]. eapply run_eps; eauto.
Qed.
Lemma eps_complete es : forall p o1 q, epath p es o1 q -> forall f o, length es <= f -> In (q, o ++ o1) (eps f E (p, o)).
Proof.
  induction es as [|e es IH]; intros p o1 q P f o L; inversion P; subst.
  - rewrite app_nil_r. destruct f; left; reflexivity.
  - cbn [length] in L. destruct f as [|f]; [lia|]. cbn [eps]. right. apply in_flat_map. eexists. split; [eassumption|]. cbn [fst snd]. rewrite Nat.eqb_refl.
    match goal with Hl : fst _ = None |- _ => rewrite Hl end. rewrite app_assoc. apply IH; [assumption|lia].
Qed.
End S.

Section T.
Variables (t : trans).
Hypothesis AC : acyclic (t_edges t).
Let E := t_edges t.
Lemma closure_in S q o : In (q, o) (closure t S) <-> exists p o1 o2, In (p, o1) S /\ run E p [] o2 q /\ o = o1 ++ o2.
Proof.
  unfold closure. rewrite in_flat_map. split.
  - intros ([p o1] & H & K). apply eps_sound in K. destruct K as (o2 & -> & R). exists p, o1, o2. auto.
  - intros (p & o1 & o2 & H & R & ->). exists (p, o1). split; [exact H|]. destruct (run_epath _ _ _ _ _ R eq_refl) as (es & P).
    eapply eps_complete; [exact P|]. eapply epath_short; eauto.
Qed.
Lemma move_in a S q o : In (q, o) (move t a S) <-> exists p o1 l i, In (p, o1) S /\ In (p, l, q) E /\ fst l = Some i /\ In i a /\ o = o1 ++ outs l.
Proof.
  unfold move. rewrite in_flat_map. split.
  - intros ([p o1] & H & K). apply in_flat_map in K. destruct K as ([[p' l] q'] & He & K). cbn [fst snd] in K. destruct (Nat.eqb_spec p' p) as [->|]; [|destruct K].
    destruct (fst l) as [i|] eqn:Hl; [|destruct K]. destruct (in_dec isym_eq_dec i a) as [Ha|]; [|destruct K]. destruct K as [K|[]]. injection K as <- <-.
    exists p, o1, l, i. auto.
  - intros (p & o1 & l & i & H & He & Hl & Ha & ->). exists (p, o1). split; [exact H|]. apply in_flat_map. exists (p, l, q). split; [exact He|]. cbn [fst snd].
    rewrite Nat.eqb_refl, Hl. destruct (in_dec isym_eq_dec i a); [left; reflexivity|contradiction].
Qed.
(** [holds S X]: S is what is reached by reading one of the streams X *)
Definition holds (S : list conf) (X : stream -> Prop) : Prop := forall q o, In (q, o) S <-> exists x, X x /\ run E (t_init t) x o q.
Lemma holds_iff S X Y : (forall x, X x <-> Y x) -> holds S X -> holds S Y.
Proof. intros H A q o. rewrite (A q o). split; intros (x & K & R); exists x; (split; [apply H; exact K|exact R]). Qed.
Lemma run_snoc p x a o r : run E p (x ++ [a]) o r <-> exists q o1 l i q' o2, run E p x o1 q /\ In (q, l, q') E /\ fst l = Some i /\ In i a /\ run E q' [] o2 r /\ o = o1 ++ outs l ++ o2.
Proof.
  split.
  - intros R. remember (x ++ [a]) as y eqn:Ey. revert x Ey. induction R as [p|p l q y o r H Hl R IH|p l i b q y o r H Hl Ha R IH]; intros x Ey.
    + destruct x; discriminate.
    + destruct (IH x Ey) as (q1 & o1 & l1 & i1 & q1' & o2 & A & B & C & D & F & ->). exists q1, (outs l ++ o1), l1, i1, q1', o2. repeat split; auto; [eapply run_eps; eauto|apply app_assoc].
    + destruct x as [|b' x]; cbn [app] in Ey.
      * injection Ey as -> ->. exists p, [], l, i, q, o. repeat split; auto. constructor.
      * injection Ey as -> ->. destruct (IH x eq_refl) as (q1 & o1 & l1 & i1 & q1' & o2 & A & B & C & D & F & ->). exists q1, (outs l ++ o1), l1, i1, q1', o2. repeat split; auto; [eapply run_in; eauto|apply app_assoc].
  - intros (q & o1 & l & i & q' & o2 & A & B & C & D & F & ->). eapply run_app; [exact A|]. eapply run_in; eauto.
Qed.
Lemma holds_init : holds (st_init t) (fun x => x = []).
Proof.
  intros q o. unfold st_init. rewrite closure_in. split.
  - intros (p & o1 & o2 & [H|[]] & R & ->). injection H as <- <-. exists []. auto.
  - intros (x & -> & R). exists (t_init t), [], o. repeat split; auto. left; reflexivity.
Qed.
Lemma moved S X a : holds S X -> forall q o, In (q, o) (closure t (move t a S)) <-> exists x, X x /\ run E (t_init t) (x ++ [a]) o q.
Proof.
  intros A q o. rewrite closure_in. split.
  - intros (p & o1 & o2 & H & R & ->). apply move_in in H. destruct H as (p0 & o0 & l & i & H & He & Hl & Ha & ->). apply A in H. destruct H as (x & K & R0).
    exists x. split; [exact K|]. apply run_snoc. exists p0, o0, l, i, p, o2. rewrite app_assoc. auto 8.
  - intros (x & K & R). apply run_snoc in R. destruct R as (q0 & o1 & l & i & q' & o2 & R0 & He & Hl & Ha & R1 & ->). exists q', (o1 ++ outs l), o2. rewrite app_assoc. repeat split; auto.
    apply move_in. exists q0, o1, l, i. repeat split; auto. apply A. exists x. auto.
Qed.
Lemma holds_step S X a : holds S X -> holds (st_step t a S) (fun y => exists x, X x /\ y = x ++ [a]).
Proof.
  intros A q o. unfold st_step. rewrite (moved _ _ _ A). split; [intros (x & K & R); exists (x ++ [a]); eauto|]. intros (y & (x & K & ->) & R). eauto.
Qed.
Lemma holds_optional S X i : holds S X -> holds (st_step_optional t i S) (fun y => X y \/ exists x, X x /\ y = x ++ [[i]]).
Proof.
  intros A q o. unfold st_step_optional. rewrite in_app_iff, (A q o), (moved _ _ _ A). split.
  - intros [(x & K & R)|(x & K & R)]; [exists x; auto|]. exists (x ++ [[i]]). eauto.
  - intros (y & [K|(x & K & ->)] & R); [left; eauto|right; eauto].
Qed.
Lemma holds_merge S X : holds S X -> holds (st_merge t S) (fun y => X y \/ y = []).
Proof.
  intros A q o. unfold st_merge. rewrite in_app_iff, (A q o), (holds_init q o). split.
  - intros [(x & K & R)|(x & K & R)]; exists x; auto.
  - intros (y & [K|K] & R); [left|right]; eauto.
Qed.
Lemma holds_fold l : forall S X, holds S X -> holds (fold_left (fun S a => st_step t a S) l S) (fun y => exists x, X x /\ y = x ++ l).
Proof.
  induction l as [|a l IH]; intros S X A; cbn [fold_left].
  - eapply holds_iff; [|exact A]. intros x. split; [intros K; exists x; rewrite app_nil_r; auto|]. intros (y & K & ->). rewrite app_nil_r. exact K.
  - eapply holds_iff; [|apply IH, holds_step; exact A]. intros x. split.
    + intros (y & (z & K & ->) & ->). exists z. rewrite <- app_assoc. auto.
    + intros (z & K & ->). exists (z ++ [a]). rewrite <- app_assoc. split; [eauto|reflexivity].
Qed.
(* a dead state is as good as any *)
Lemma holds_dead S X : holds S X -> st_dead S = true -> holds (st_init t) (fun y => X y \/ y = []).
Proof.
  intros A D. destruct S; [|discriminate]. intros q o. rewrite (holds_init q o). split; [intros (x & -> & R); exists []; auto|].
  intros (x & [K| ->] & R); [exfalso|eauto]. apply (proj2 (A q o)). eauto.
Qed.
End T.
