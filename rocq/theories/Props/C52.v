(** C52: each pass of unsupervised training of the HMM tagger replaces the matrices by the Baum-Welch re-estimates of
    the corpus up to its last unambiguous word, and leaves probability distributions without zeros. *)
From Coq Require Import QArith Lqa.
From Verif Require Import Model.Base Proofs.Base Model.HMM Spec.HMM Proofs.HMM Model.BaumWelch Spec.BaumWelch Proofs.BaumWelch Props.C23.
Open Scope nat_scope.
Local Arguments Qplus : simpl never.
Local Arguments Qmult : simpl never.
Local Arguments Qdiv : simpl never.
Local Arguments Qle : simpl never.
Local Arguments Qeq : simpl never.
Local Arguments Qeq_bool : simpl never.

(** whatever the corpus and the (non-negative) matrices *)
Theorem C52_rows N M cls idx open_class eos dmin A B ws A' B' :
  0 < N -> (0 < dmin)%Q -> (forall i j, (0 <= A i j)%Q) -> (forall i k, (0 <= B i k)%Q) ->
  train1 N M cls idx open_class eos dmin (A, B) ws = Some (A', B') -> stochastic N M cls A' B'.
Proof.
  intros Hn Hd HA HB E. unfold train1 in E. cbn [fst snd] in E.
  destruct (train_words idx open_class dmin A B (bst0 eos) ws) as [st|] eqn:Et; [|discriminate]. injection E as <- <-.
  destruct (nn_words A B dmin idx open_class Hd HA HB ws (bst0 eos) st (nnst0 eos) Et) as [_ H].
  split; [|split; [|split]].
  - intros i _. apply normA_row; [exact Hn|]. intros j. apply newA_pos; assumption.
  - intros i j _ _. apply normA_row; [exact Hn|]. intros x. apply newA_pos; assumption.
  - intros i Hi. apply normB_row; [exact Hi|]. intros k. apply newB_pos; assumption.
  - intros i k Hk Hi. apply normB_pos; try assumption. intros x. apply newB_pos; assumption.
Qed.

Lemma floored_eq e e' g g' : (e == e')%Q -> (g == g')%Q -> (floored e g == floored e' g')%Q.
Proof.
  intros H1 H2. unfold floored. destruct (Qlt_le_dec 0 e), (Qlt_le_dec 0 e'); try (exfalso; lra); [|reflexivity]. rewrite H1, H2. reflexivity.
Qed.

Theorem C52_expected N M cls idx open_class eos dmin A B ws xs rest :
  (0 < dmin)%Q -> eos < N -> (forall i j, i < N -> j < N -> (0 < A i j)%Q) ->
  corpus idx open_class ws (xs ++ rest) -> Forall (positive_on N A B) (xs ++ rest) -> used_part xs rest ->
  exists A' B', train1 N M cls idx open_class eos dmin (A, B) ws = Some (A', B') /\ reestimated N M cls eos dmin xs A B A' B'.
Proof.
  intros Hd He HA Hc Hok [Hx Hr].
  destruct (train_counts A B dmin eos idx open_class (fun i => i < N) HA He ws xs rest Hc Hok Hx Hr) as (st & S1 & X & G & P).
  exists (normA N (newA dmin (b_acc st))), (normB M cls (newB (b_acc st))). unfold train1. cbn [fst snd]. rewrite S1. split; [reflexivity|].
  assert (EE : forall i j, (expected A B eos xs (fun p => Qn (moves i j eos p)) == a_xsi (b_acc st) i j)%Q).
  { intros i j. rewrite X. apply expected_EX. intros p Hp. apply moves_cnt, readings_len, Hp. }
  assert (EG : forall i, (expected A B eos xs (fun p => Qn (uses i p)) == a_gam (b_acc st) i)%Q).
  { intros i. rewrite G. apply expected_EX. intros p Hp. apply uses_cnt, readings_len, Hp. }
  assert (EF : forall i k, (expected A B eos xs (fun p => Qn (emits i k xs p)) == a_phi (b_acc st) i k)%Q).
  { intros i k. rewrite P. apply expected_EX. intros p Hp. apply emits_cnt, readings_len, Hp. }
  split.
  - intros i j Hi Hj q. rewrite normA_val.
    assert (Q : forall j, (q j == newA dmin (b_acc st) i j)%Q).
    { intros x. unfold q, newA. change (if Qlt_le_dec 0 (a_xsi (b_acc st) i x) then _ else ZERO) with
        (floored (a_xsi (b_acc st) i x) (if Qeq_bool (a_gam (b_acc st) i) 0 then dmin else a_gam (b_acc st) i)).
      apply floored_eq; [apply EE|].
      destruct (Qeq_bool (expected A B eos xs (fun p => Qn (uses i p))) 0) eqn:K1, (Qeq_bool (a_gam (b_acc st) i) 0) eqn:K2; try reflexivity; [| |apply EG].
      + exfalso. apply Qeq_bool_iff in K1. apply Qeq_bool_neq in K2. rewrite EG in K1. contradiction.
      + exfalso. apply Qeq_bool_iff in K2. apply Qeq_bool_neq in K1. rewrite EG in K1. contradiction. }
    rewrite (Q j). rewrite (total_ext _ q (newA dmin (b_acc st) i)) by (intros; apply Q). reflexivity.
  - intros i k Hk Hi q. rewrite normB_val by exact Hi.
    assert (Q : forall k, (q k == newB (b_acc st) i k)%Q).
    { intros x. unfold q, newB. change (if Qlt_le_dec 0 (a_phi (b_acc st) i x) then _ else ZERO) with
        (floored (a_phi (b_acc st) i x) (a_gam (b_acc st) i)). apply floored_eq; [apply EF|apply EG]. }
    rewrite (Q k). rewrite (total_ext _ q (newB (b_acc st) i)) by (intros; apply Q). reflexivity.
Qed.

(** a row all of whose counts are positive gets exactly the relative expected counts *)
Theorem C52_textbook N M cls eos dmin xs A B A' B' i :
  (0 < dmin)%Q -> reestimated N M cls eos dmin xs A B A' B' ->
  let E i j := expected A B eos xs (fun p => Qn (moves i j eos p)) in
  let G i := expected A B eos xs (fun p => Qn (uses i p)) in
  let F i k := expected A B eos xs (fun p => Qn (emits i k xs p)) in
  (i < N -> (forall j, j < N -> (0 < E i j)%Q) -> forall j, j < N -> (A' i j == E i j / total (seq 0 N) (E i))%Q) /\
  (~ (G i == 0)%Q -> (forall k, k < M -> In i (cls k) -> (0 < F i k)%Q) ->
     forall k, k < M -> In i (cls k) -> (B' i k == F i k / total (holders M cls i) (F i))%Q).
Proof.
  intros Hd [HA HB] E G F. split.
  - intros Hi Hp j Hj. rewrite (HA i j Hi Hj). cbn zeta.
    change (expected A B eos xs (fun p => Qn (uses i p))) with (G i). set (g := if Qeq_bool (G i) 0 then dmin else G i).
    assert (Hg : ~ (g == 0)%Q) by (unfold g; destruct (Qeq_bool (G i) 0) eqn:K; [lra|apply Qeq_bool_neq, K]).
    rewrite (total_ext _ _ (fun j => (E i j / g)%Q)).
    2:{ intros x Hx. apply in_seq0 in Hx. change (expected A B eos xs (fun p => Qn (moves i x eos p))) with (E i x).
        unfold floored. destruct (Qlt_le_dec 0 (E i x)) as [_|K]; [reflexivity|]. specialize (Hp x Hx). exfalso; lra. }
    rewrite total_div. change (expected A B eos xs (fun p => Qn (moves i j eos p))) with (E i j).
    assert (T : (0 < total (seq 0 N) (E i))%Q).
    { apply total_allpos; [destruct N; [lia|discriminate]|]. intros x Hx. apply in_seq0 in Hx. apply Hp, Hx. }
    unfold floored. destruct (Qlt_le_dec 0 (E i j)) as [_|K]; [|specialize (Hp j Hj); exfalso; lra].
    field. split; [lra|exact Hg].
  - intros Hg Hp k Hk Hi. rewrite (HB i k Hk Hi). cbn zeta.
    change (expected A B eos xs (fun p => Qn (uses i p))) with (G i).
    rewrite (total_ext _ _ (fun k => (F i k / G i)%Q)).
    2:{ intros x Hx. apply holders_In in Hx as [Hx Hx']. change (expected A B eos xs (fun p => Qn (emits i x xs p))) with (F i x).
        unfold floored. destruct (Qlt_le_dec 0 (F i x)) as [_|K]; [reflexivity|]. specialize (Hp x Hx Hx'). exfalso; lra. }
    rewrite total_div. change (expected A B eos xs (fun p => Qn (emits i k xs p))) with (F i k).
    assert (T : (0 < total (holders M cls i) (F i))%Q).
    { apply total_allpos. - intros K. assert (K' : In k (holders M cls i)) by (apply holders_In; auto). rewrite K in K'. destruct K'.
      - intros x Hx. apply holders_In in Hx as [Hx Hx']. apply Hp; assumption. }
    unfold floored. destruct (Qlt_le_dec 0 (F i k)) as [_|K]; [|specialize (Hp k Hk Hi); exfalso; lra].
    field. split; [lra|exact Hg].
Qed.

(** any number of passes: each one re-estimates from the matrices the pass before it left *)
Inductive chain N M cls eos dmin xs : nat -> mat * mat -> mat * mat -> Prop :=
  | ch_0 ab : chain N M cls eos dmin xs 0 ab ab
  | ch_S n A B A' B' ab : reestimated N M cls eos dmin xs A B A' B' -> stochastic N M cls A' B' ->
      chain N M cls eos dmin xs n (A', B') ab -> chain N M cls eos dmin xs (S n) (A, B) ab.
Theorem C52_iterate N M cls idx open_class eos dmin ws xs rest :
  (0 < dmin)%Q -> eos < N ->
  (forall w, In w (xs ++ rest) -> class_of w < M /\ cls (class_of w) = tags_of w) ->
  corpus idx open_class ws (xs ++ rest) -> used_part xs rest ->
  forall n A B, (forall i j, (0 <= A i j)%Q) -> (forall i k, (0 <= B i k)%Q) ->
  (forall i j, i < N -> j < N -> (0 < A i j)%Q) -> Forall (positive_on N A B) (xs ++ rest) ->
  exists ab, passes N M cls idx open_class eos dmin n (A, B) ws = Some ab /\ chain N M cls eos dmin xs n (A, B) ab /\
    (forall i j, (0 <= fst ab i j)%Q) /\ (forall i j, i < N -> j < N -> (0 < fst ab i j)%Q).
Proof.
  intros Hd He Hcls Hc Hu. induction n as [|n IH]; intros A B HA0 HB0 HA Hok; cbn [passes]; [exists (A, B); split; [reflexivity|split; [constructor|split; [exact HA0|exact HA]]]|].
  destruct (C52_expected N M cls idx open_class eos dmin A B ws xs rest Hd He HA Hc Hok Hu) as (A' & B' & T & R).
  assert (St := C52_rows N M cls idx open_class eos dmin A B ws A' B' ltac:(lia) Hd HA0 HB0 T).
  assert (Pos : (forall i j, (0 <= A' i j)%Q) /\ (forall i k, (0 <= B' i k)%Q)).
  { unfold train1 in T. cbn [fst snd] in T. destruct (train_words idx open_class dmin A B (bst0 eos) ws) as [st|] eqn:Et; [|discriminate]. injection T as <- <-.
    destruct (nn_words A B dmin idx open_class Hd HA0 HB0 ws (bst0 eos) st (nnst0 eos) Et) as [_ H]. split; intros i k.
    - apply Qlt_le_weak, normA_row; [lia|]. intros x. apply newA_pos; assumption.
    - assert (P : forall x, (0 < newB (b_acc st) i x)%Q) by (intros; apply newB_pos; assumption).
      unfold normB. destruct (inc cls k i) eqn:K; [|apply Qlt_le_weak, P]. apply Qmult_le_0_compat; [apply Qlt_le_weak, P|].
      apply Qinv_le_0_compat. rewrite sum_total. apply total_nonneg. intros x _. destruct (inc cls x i); [apply Qlt_le_weak, P|lra]. }
  destruct (IH A' B' (proj1 Pos) (proj2 Pos)) as (ab & S1 & S2 & S3).
  - apply St.
  - apply Forall_forall. intros w Hw. destruct (proj1 (Forall_forall _ _) Hok w Hw) as (W1 & W2 & W3). split; [exact W1|]. split; [exact W2|].
    intros i Hi. split; [apply W3; exact Hi|]. destruct (Hcls w Hw) as [C1 C2]. apply St; [exact C1|]. rewrite C2. exact Hi.
  - exists ab. split; [exact (eq_trans (f_equal (fun o => match o with Some ab' => passes N M cls idx open_class eos dmin n ab' ws | None => None end) T) S1)|]. split; [apply ch_S with A' B'; assumption|exact S3].
Qed.

(** the whole training: the passes, then the forbid and enforce rules *)
Theorem C52_train N M cls idx open_class eos dmin ws xs rest forbid enforce n A B :
  (0 < dmin)%Q -> eos < N ->
  (forall w, In w (xs ++ rest) -> class_of w < M /\ cls (class_of w) = tags_of w) ->
  corpus idx open_class ws (xs ++ rest) -> used_part xs rest ->
  (forall i j, (0 <= A i j)%Q) -> (forall i k, (0 <= B i k)%Q) ->
  (forall i j, i < N -> j < N -> (0 < A i j)%Q) -> Forall (positive_on N A B) (xs ++ rest) ->
  exists A1 B1 A', train N M cls idx open_class eos dmin forbid enforce (A, B) ws n = Some (A', B1) /\
    chain N M cls eos dmin xs n (A, B) (A1, B1) /\
    forall i, i < N -> exists s, (0 < s)%Q /\
      (forall j, j < N -> ruled N forbid enforce i j -> (A' i j == (1 # 10000000000) / s)%Q) /\
      (forall j, j < N -> ~ ruled N forbid enforce i j -> (A' i j == A1 i j / s)%Q) /\
      (total (seq 0 N) (A' i) == 1)%Q.
Proof.
  intros Hd He Hcls Hc Hu HA0 HB0 HA Hok.
  destruct (C52_iterate N M cls idx open_class eos dmin ws xs rest Hd He Hcls Hc Hu n A B HA0 HB0 HA Hok) as ([A1 B1] & S1 & S2 & S3 & S4).
  cbn [fst] in S3, S4. exists A1, B1, (apply_rules N forbid enforce A1).
  split; [unfold train; exact (f_equal (fun o => match o with Some ab' => Some (apply_rules N forbid enforce (fst ab'), snd ab') | None => None end) S1)|].
  split; [exact S2|]. intros i Hi. apply (C23_result N forbid enforce A1 i Hi); [intros; apply S3|].
  exists i. split; [exact Hi|]. right. apply S4; exact Hi.
Qed.

(** words after the last unambiguous word change nothing *)
Theorem C52_tail N M cls idx open_class eos dmin A B ws ws' xs rest rest' :
  (0 < dmin)%Q -> eos < N -> (forall i j, i < N -> j < N -> (0 < A i j)%Q) ->
  corpus idx open_class ws (xs ++ rest) -> Forall (positive_on N A B) (xs ++ rest) -> used_part xs rest ->
  corpus idx open_class ws' (xs ++ rest') -> Forall (positive_on N A B) (xs ++ rest') -> used_part xs rest' ->
  exists A1 B1 A2 B2, train1 N M cls idx open_class eos dmin (A, B) ws = Some (A1, B1) /\
    train1 N M cls idx open_class eos dmin (A, B) ws' = Some (A2, B2) /\
    (forall i j, i < N -> j < N -> (A1 i j == A2 i j)%Q) /\ (forall i k, k < M -> In i (cls k) -> (B1 i k == B2 i k)%Q).
Proof.
  intros Hd He HA C1 P1 U1 C2 P2 U2.
  destruct (C52_expected N M cls idx open_class eos dmin A B ws xs rest Hd He HA C1 P1 U1) as (A1 & B1 & T1 & R1 & S1).
  destruct (C52_expected N M cls idx open_class eos dmin A B ws' xs rest' Hd He HA C2 P2 U2) as (A2 & B2 & T2 & R2 & S2).
  exists A1, B1, A2, B2. split; [exact T1|]. split; [exact T2|]. split.
  - intros i j Hi Hj. rewrite (R1 i j Hi Hj), (R2 i j Hi Hj). reflexivity.
  - intros i k Hk Hi. rewrite (S1 i k Hk Hi), (S2 i k Hk Hi). reflexivity.
Qed.

(** a corpus with an ambiguity class the tagger does not know ends the program *)
Theorem C52_unknown_class N M cls idx open_class eos dmin ab ws :
  train1 N M cls idx open_class eos dmin ab ws = None <->
  exists w, In w ws /\ idx (match w with [] => open_class | _ => w end) = None.
Proof.
  unfold train1. set (A := fst ab). set (B := snd ab).
  assert (G : forall ws st, b_pend st <> [] -> (train_words idx open_class dmin A B st ws = None <->
    exists w, In w ws /\ idx (match w with [] => open_class | _ => w end) = None)).
  { induction ws0 as [|w ws0 IH]; intros st Hp; cbn [train_words].
    - split; [discriminate|intros (w & [] & _)].
    - unfold train_word. destruct (b_pend st) as [|pre rest] eqn:Ep; [congruence|].
      change (match w with [] => open_class | _ => w end) with (word_tags open_class w).
      destruct (idx (word_tags open_class w)) as [k|] eqn:Ek.
      + cbn zeta. assert (Y : forall st', b_pend st' <> [] -> (train_words idx open_class dmin A B st' ws0 = None <->
          (exists w0, In w0 (w :: ws0) /\ idx (match w0 with [] => open_class | _ => w0 end) = None))).
        { intros st' H'. rewrite (IH st' H'). split.
          - intros (w0 & H1 & H2). exists w0. split; [right; exact H1|exact H2].
          - intros (w0 & [<-|H1] & H2); [change (idx (word_tags open_class w) = None) in H2; congruence|exists w0; auto]. }
        destruct (word_tags open_class w) as [|tag [|tag' more]]; apply Y; discriminate.
      + split; [intros _|reflexivity]. exists w. split; [left; reflexivity|exact Ek]. }
  specialize (G ws (bst0 eos)). rewrite <- G by discriminate. clear G.
  destruct (train_words idx open_class dmin A B (bst0 eos) ws); split; congruence.
Qed.

(** ** a small tagger: end of sentence 0, noun 1, verb 2; classes {0}, {1}, {1,2} *)
Definition dcls (k : nat) : list nat := match k with 0 => [0] | 1 => [1] | _ => [1; 2] end.
Definition didx (l : list nat) : option nat := match l with [0] => Some 0 | [1] => Some 1 | [1; 2] => Some 2 | _ => None end.
Definition dA : mat := fun _ _ => 1 # 3.
Definition dB : mat := fun _ _ => 1 # 2.
(* ambiguous, noun, unknown, end of sentence, ambiguous *)
Definition dws : list (list nat) := [[1; 2]; [1]; []; [0]; [1; 2]].
Definition dused : list word := [mkword [1; 2] 2; mkword [1] 1; mkword [1; 2] 2; mkword [0] 0].
Definition drest : list word := [mkword [1; 2] 2].
Example demo_hyps :
  corpus didx [1; 2] dws (dused ++ drest) /\ Forall (positive_on 3 dA dB) (dused ++ drest) /\ used_part dused drest /\
  (forall w, In w (dused ++ drest) -> class_of w < 3 /\ dcls (class_of w) = tags_of w).
Proof.
  split; [repeat constructor|]. split; [|split].
  - repeat (apply Forall_cons; [split; [discriminate|split; [repeat constructor; cbn; intuition discriminate|]]; cbn [tags_of class_of In]; intros i Hi; split; [lia|reflexivity]|]). constructor.
  - split; [right; exists [mkword [1; 2] 2; mkword [1] 1; mkword [1; 2] 2], (mkword [0] 0); split; [reflexivity|exists 0; reflexivity]|].
    constructor; [cbv; lia|constructor].
  - intros w Hw. cbn [dused drest app In] in Hw. repeat (destruct Hw as [<-|Hw]; [cbn; split; [lia|reflexivity]|]). destruct Hw.
Qed.
(* from a noun: to the end 1/2, to a noun 1, to a verb 1/2 expected moves; so 1/4, 1/2, 1/4 *)
Example demo_run : match train1 3 3 dcls didx [1; 2] 0 (1 # 1000) (dA, dB) dws with
  | Some (A', B') => Qred (A' 1 0) = 1 # 4 /\ Qred (A' 1 1) = 1 # 2 /\ Qred (A' 1 2) = 1 # 4 /\ Qred (B' 1 1) = 1 # 2 /\ Qred (B' 2 2) = 1%Q
  | None => False end.
Proof. vm_compute. repeat split. Qed.
Example demo_expected : Qred (expected dA dB 0 dused (fun p => Qn (moves 1 1 0 p))) = 1%Q /\ Qred (expected dA dB 0 dused (fun p => Qn (moves 1 2 0 p))) = 1 # 2.
Proof. vm_compute. repeat split. Qed.
Example demo_exit : train1 3 3 dcls didx [1; 2] 0 (1 # 1000) (dA, dB) [[1]; [2]] = None.
Proof. reflexivity. Qed.

(** with a forbidden transition at exactly zero the counts are no longer expectations: the word's probability is taken
    to be the smallest positive double *)
Example C52_zero_floor : let A0 : mat := fun i j => if (i =? 0) && (j =? 1) then 0%Q else (1 # 3)%Q in
  match train_words didx [1; 2] (1 # 1000) A0 dB (bst0 0) [[1]] with
  | Some st => (a_gam (b_acc st) 1 == 1)%Q /\ (a_xsi (b_acc st) 0 1 == 0)%Q
  | None => False end.
Proof. vm_compute. repeat split. Qed.
