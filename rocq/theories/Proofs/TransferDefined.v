(** Rules of a [defined_file] always do something. *)
From Coq Require Import String ZArith.
From Verif Require Import Model.Base Proofs.Base Model.TransferRules Spec.TransferRules Spec.TransferUnit Spec.TransferRun Spec.TransferText Spec.TransferReject Proofs.TransferRules Proofs.TransferNoMlu.

Lemma fold_and {A} (P : A -> Prop) l : fold_right and True (map P l) <-> Forall P l.
Proof. induction l as [|x l IH]; cbn; [split; auto|]. rewrite IH. split; [intros [a b]; auto|intros H; inversion H; auto]. Qed.
Lemma set_nth_len {A} i (x : A) l : length (set_nth i x l) = length l.
Proof. revert i. induction l as [|a l IH]; intros [|i]; cbn; try reflexivity. f_equal. apply IH. Qed.
Lemma set_nth_forall {A} (P : A -> Prop) i x l : P x -> Forall P l -> Forall P (set_nth i x l).
Proof. intros Hx H. revert i. induction H as [|a l Ha H IH]; intros [|i]; cbn; constructor; auto. Qed.

Section Defined.
Variable attr_match : str -> str -> str.
Variable attr_replace : str -> str -> str -> str.
Variable copy_case case_from : str -> str -> str.
Variable get_case lower : str -> str.
Variable lists : str -> list str.
Variable dict_case : bool.
Variable macros : str -> nat.
Variable macro_map : list (nat * list instr).
Variable rank : nat -> nat.
Notation den := (den attr_match copy_case case_from get_case dict_case).
Notation den_list := (den_list attr_match copy_case case_from get_case dict_case).
Notation den_mlu := (den_mlu attr_match copy_case case_from get_case dict_case).
Notation holds := (holds attr_match copy_case case_from get_case lower lists dict_case).
Notation value := (value attr_match copy_case case_from get_case dict_case).

(** the words of a rule or macro: n of them, all there, none with a queue *)
Definition fine (n : nat) (s : sst) : Prop :=
  (match n with
   | 0 => s_frame s = None
   | S _ => exists fr, s_frame s = Some (map Some fr) /\ length fr = n /\ Forall (fun i => i < length (s_words s)) fr
   end) /\ Forall (fun w => w_q w = 0) (s_words s).
Definition same (s s1 : sst) : Prop := s_words s1 = s_words s /\ s_frame s1 = s_frame s /\ s_ll s1 = s_ll s.
Lemma same_refl s : same s s.
Proof. repeat split. Qed.
Lemma same_trans a b c : same a b -> same b c -> same a c.
Proof. intros (A & B & C) (D & E & F). repeat split; congruence. Qed.
Lemma fine_same n s s1 : same s s1 -> fine n s -> fine n s1.
Proof. intros (A & B & _) [F Q]. unfold fine. rewrite A, B. split; assumption. Qed.
Lemma word_there n s pos i : fine n s -> s_word_at s pos = Some i -> exists w, nth_error (s_words s) i = Some w /\ w_q w = 0.
Proof.
  intros [F Q] H. unfold s_word_at in H. destruct n as [|n]; [rewrite F in H; discriminate|]. destruct F as (fr & E & _ & B). rewrite E in H. destruct (pos <? 0)%Z; [discriminate|].
  rewrite nth_error_map in H. destruct (nth_error fr (Z.to_nat pos)) as [j|] eqn:EJ; [|discriminate]. injection H as ->. apply nth_error_In in EJ. assert (L := proj1 (Forall_forall _ _) B _ EJ). cbn in L.
  destruct (nth_error (s_words s) i) as [w|] eqn:EW; [|apply nth_error_None in EW; lia]. exists w. split; [reflexivity|]. exact (proj1 (Forall_forall _ _) Q w (nth_error_In _ _ EW)).
Qed.
Lemma word_in n s pos : fine n s -> word_no n pos -> exists i, s_word_at s pos = Some i.
Proof.
  intros [F _] H. unfold word_no in H. destruct n as [|n]; [lia|]. destruct F as (fr & E & L & _). unfold s_word_at. rewrite E. replace (pos <? 0)%Z with false by (symmetry; apply Z.ltb_ge; lia).
  rewrite nth_error_map. destruct (nth_error fr (Z.to_nat pos)) as [i|] eqn:EI; [exists i; reflexivity|]. apply nth_error_None in EI. lia.
Qed.
Lemma word_arg n s pos : fine n s -> word_no n pos -> exists i, arg s pos (Some i) /\ i < length (s_words s).
Proof.
  intros [F _] H. unfold word_no in H. destruct n as [|n]; [lia|]. destruct F as (fr & E & L & B). destruct (nth_error fr (Z.to_nat pos)) as [i|] eqn:EI; [|apply nth_error_None in EI; lia].
  exists i. split; [|exact (proj1 (Forall_forall _ _) B i (nth_error_In _ _ EI))]. exists (map Some fr). split; [exact E|]. split; [lia|]. rewrite nth_error_map, EI. reflexivity.
Qed.
Lemma unit_some n s bl : fine n s -> exists wb, unit_wb s bl = Some wb.
Proof.
  intros [F _]. unfold unit_wb. destruct (Nat.eqb (s_ll s) 1); [|eauto]. destruct n as [|n]; [rewrite F; eauto|]. destruct F as ([|i fr] & E & L & B); [discriminate|]. rewrite E. cbn.
  inversion_clear B as [|? ? B1 _]. destruct (nth_error (s_words s) i) as [w|] eqn:EW; [eauto|]. apply nth_error_None in EW. lia.
Qed.
Definition yields (c : ctx) (s : sst) (r : option (str * list str * sst)) : Prop := exists t bl s1, r = Some (t, bl, s1) /\ same s s1.
Lemma y_here c s t bl : yields c s (Some (t, bl, s)).
Proof. exists t, bl, s. split; [reflexivity|apply same_refl]. Qed.
Definition tot (n : nat) (e : expr) : Prop := forall c s, def_e n e -> fine n s -> yields c s (den c e s).
Lemma tot_list n l : Forall (tot n) l -> forall c s, Forall (def_e n) l -> fine n s -> yields c s (den_list c l s).
Proof.
  induction 1 as [|x l Hx H IH]; intros c s D F; [apply y_here|]. inversion_clear D as [|? ? D1 D2]. cbn [TransferRules.den_list].
  destruct (Hx c s D1 F) as (a & b1 & s1 & -> & S1). destruct (IH c s1 D2 (fine_same n s s1 S1 F)) as (b & b2 & s2 & -> & S2). eexists _, _, _. split; [reflexivity|]. exact (same_trans _ _ _ S1 S2).
Qed.
Lemma tot_mlu n l : Forall (Forall (tot n)) l -> forall c v f s, Forall (Forall (def_e n)) l -> fine n s -> yields c s (den_mlu c l v f s).
Proof.
  induction 1 as [|x l Hx H IH]; intros c v f s D F; [apply y_here|]. inversion_clear D as [|? ? D1 D2]. cbn [TransferRules.den_mlu].
  destruct (tot_list n x Hx c s D1 F) as (a & b1 & s1 & -> & S1). destruct (mlu_add v f a) as [v' f']. destruct (IH c v' f' s1 D2 (fine_same n s s1 S1 F)) as (b & b2 & s2 & -> & S2).
  eexists _, _, _. split; [reflexivity|]. exact (same_trans _ _ _ S1 S2).
Qed.
Lemma tot_all n e : tot n e.
Proof.
  induction e as [id sd part pos q link|id v|id|id m|id sd part pos|id pos e IH|l IH|l IH|l IH|a b cc t0 l IHt IHl] using expr_ind2; intros c s D F.
  - cbn [TransferRules.den]. destruct link as [|k link]; unfold at_word; (destruct (s_word_at s pos) as [i|] eqn:E; [|apply y_here]); destruct (word_there n s pos i F E) as (w & -> & _).
    + destruct sd; try apply y_here; (destruct (is_lemma part && (1 <? s_ll s)); [|apply y_here]); (destruct (s_unit s); [apply y_here|]); (destruct (c_let c); [|apply y_here]); eexists _, _, _; (split; [reflexivity|]); repeat split.
    + apply y_here.
  - apply y_here.
  - cbn [TransferRules.den]. destruct (s_bq s); [apply y_here|]. eexists _, _, _. split; [reflexivity|]. destruct (c_out c); repeat split.
  - apply y_here.
  - cbn [TransferRules.den]. unfold at_word. destruct (s_word_at s pos) as [i|] eqn:E; [|apply y_here]. destruct (word_there n s pos i F E) as (w & -> & _). apply y_here.
  - cbn [TransferRules.den]. unfold at_word. destruct (s_word_at s pos) as [i|] eqn:E; [|apply y_here]. destruct (word_there n s pos i F E) as (w & -> & _).
    destruct (IH c s D F) as (t & bl & s1 & -> & S1). eexists _, _, _. split; [reflexivity|exact S1].
  - rewrite den_concat. cbn [def_e] in D. apply fold_and in D. apply (tot_list n l IH c s D F).
  - rewrite den_lu. cbn [def_e] in D. apply fold_and in D. destruct (tot_list n l IH (mkc true (c_let c) (c_out c)) (s_set_unit s true) D F) as (w & bl & s1 & -> & S1).
    destruct (unit_some n s1 bl (fine_same n (s_set_unit s true) s1 S1 F)) as (wb & ->). eexists _, _, _. split; [reflexivity|]. exact S1.
  - rewrite den_mlu_eq. cbn [def_e] in D. destruct D as [D1 D]. assert (D2 : Forall (Forall (def_e n)) l). { apply fold_and in D. eapply Forall_impl; [|exact D]. intros x Hx. apply fold_and, Hx. }
    destruct (tot_mlu n l IH (mkc true (c_let c) (c_out c)) [] true (s_set_unit s true) D2 F) as (w & bl & s1 & -> & S1). assert (F1 := fine_same n (s_set_unit s true) s1 S1 F).
    destruct (unit_some n s1 bl F1) as (wb & U). assert (ST : strict_wb s1 bl = Some wb). { unfold strict_wb. destruct F1 as [F1 _]. destruct n as [|n]; [lia|]. destruct F1 as (fr & E & _). rewrite E. exact U. }
    rewrite ST. eexists _, _, _. split; [reflexivity|]. exact S1.
  - rewrite den_chunk. cbn [def_e] in D. destruct D as (D0 & D1 & D2). apply fold_and in D1, D2.
    assert (NM : exists nm, name_of copy_case dict_case s a b cc = Some nm). { unfold name_of. destruct a as [|x a]; [destruct b as [|y b]; [destruct D0 as [D0|D0]; destruct (D0 eq_refl)|]|]; eauto. }
    destruct NM as (nm & ->). destruct (tot_list n t0 IHt c s D1 F) as (x & b1 & s1 & -> & S1). destruct (tot_list n l IHl c s1 D2 (fine_same n s s1 S1 F)) as (y & b2 & s2 & -> & S2).
    eexists _, _, _. split; [reflexivity|]. exact (same_trans _ _ _ S1 S2).
Qed.
Lemma value_some n e s : def_e n e -> fine n s -> exists t, value e s = Some t.
Proof. intros D F. unfold TransferRules.value. destruct (tot_all n e plain s D F) as (t & bl & s1 & -> & _). eauto. Qed.
Lemma holds_some n c : forall s, def_c n c -> fine n s -> exists b, holds c s = Some b.
Proof.
  induction c as [cl a b|cl a b|cl a b|cl a b|cl a l|cl a l|cl a l|l IH|l IH|c IH] using cond_ind2; intros s D F; cbn [TransferRules.holds def_c] in *;
    try (unfold cmp; destruct D as [D1 D2]; destruct (value_some n a s D1 F) as (x & ->); destruct (value_some n b s D2 F) as (y & ->); eauto; fail);
    try (unfold cmp_list; destruct (value_some n a s D F) as (x & ->); eauto; fail).
  - apply fold_and in D. induction IH as [|x l Hx H IHl]; [cbn; eauto|]. inversion_clear D as [|? ? D1 D2]. cbn. destruct (Hx s D1 F) as ([] & ->); [exact (IHl D2)|eauto].
  - apply fold_and in D. induction IH as [|x l Hx H IHl]; [cbn; eauto|]. inversion_clear D as [|? ? D1 D2]. cbn. destruct (Hx s D1 F) as ([] & ->); [eauto|exact (IHl D2)].
  - destruct (IH s D F) as (b & ->). eauto.
Qed.

Notation Exec := (Exec attr_match attr_replace copy_case case_from get_case lower lists dict_case macros macro_map).
Notation Seq := (Seq attr_match attr_replace copy_case case_from get_case lower lists dict_case macros macro_map).
Notation Choose := (Choose attr_match attr_replace copy_case case_from get_case lower lists dict_case macros macro_map).
Notation Body := (Body attr_match attr_replace copy_case case_from get_case lower lists dict_case macros macro_map).
Notation Appended := (Appended attr_match attr_replace copy_case case_from get_case lower lists dict_case macros macro_map).
Notation Printed := (Printed attr_match attr_replace copy_case case_from get_case lower lists dict_case macros macro_map).
Hypothesis HMac : forall k npar body, nth_error macro_map k = Some (npar, body) -> Forall (def_i macros macro_map rank npar (rank k)) body.

(** the words stay *)
Definition stays (s s1 : sst) : Prop := length (s_words s1) = length (s_words s) /\ s_frame s1 = s_frame s /\ Forall (fun w => w_q w = 0) (s_words s1).
Lemma stays_fine n s s1 : stays s s1 -> fine n s -> fine n s1.
Proof. intros (A & B & C) [F Q]. split; [|exact C]. rewrite A, B. exact F. Qed.
Lemma stays_same n s s1 : fine n s -> same s s1 -> stays s s1.
Proof. intros [_ Q] (A & B & _). repeat split; [rewrite A; reflexivity|exact B|rewrite A; exact Q]. Qed.
Lemma stays_refl n s : fine n s -> stays s s.
Proof. intros F. apply (stays_same n); [exact F|apply same_refl]. Qed.
Lemma stays_trans a b c : stays a b -> stays b c -> stays a c.
Proof. intros (A & B & C) (D & E & F). repeat split; [congruence|congruence|exact F]. Qed.
Lemma put_some sd w part v q : w_q w = 0 -> exists w', w_put attr_replace sd w part v q = Some w' /\ w_q w' = 0.
Proof. intros Q. unfold w_put. rewrite Q. destruct q; eexists; (split; [reflexivity|]); destruct sd; exact Q. Qed.
Lemma set_stays n s i w : fine n s -> w_q w = 0 -> stays s (s_set_word s i w).
Proof. intros [_ Q] Hq. repeat split; cbn; [apply set_nth_len|]. apply set_nth_forall; assumption. Qed.
Lemma append_tot n m l : forall s, Forall (def_e n) l -> fine n s -> exists s1, Appended m l s s1 /\ stays s s1.
Proof.
  induction l as [|e l IH]; intros s D F; [exists s; split; [constructor|apply (stays_refl n), F]|]. inversion_clear D as [|? ? D1 D2].
  destruct (tot_all n e (in_let m) s D1 F) as (t & bl & s1 & E & S1). set (s2 := s_set_vars s1 (upd (s_vars s1) m (s_vars s1 m ++ t))).
  assert (S2 : same s s2) by exact S1. destruct (IH s2 D2 (fine_same n s s2 S2 F)) as (s3 & A & S3). exists s3. split; [econstructor; [exact E|exact A]|]. exact (stays_trans _ _ _ (stays_same n s s2 F S2) S3).
Qed.
Lemma print_tot n l : forall s, Forall (def_e n) l -> fine n s -> exists s1, Printed l s s1 /\ stays s s1.
Proof.
  induction l as [|e l IH]; intros s D F; [exists s; split; [constructor|apply (stays_refl n), F]|]. inversion_clear D as [|? ? D1 D2].
  destruct (tot_all n e in_out s D1 F) as (t & bl & s1 & E & S1). set (s2 := s_set_out s1 (s_out s1 ++ t)).
  assert (S2 : same s s2) by exact S1. destruct (IH s2 D2 (fine_same n s s2 S2 F)) as (s3 & A & S3). exists s3. split; [econstructor; [exact E|exact A]|]. exact (stays_trans _ _ _ (stays_same n s s2 F S2) S3).
Qed.
Definition itot (n below : nat) (i : instr) : Prop := forall s, def_i macros macro_map rank n below i -> fine n s -> exists z s1, Exec i s z s1 /\ stays s s1.
Lemma seq_tot n below l : Forall (itot n below) l -> forall s, Forall (def_i macros macro_map rank n below) l -> fine n s -> exists z s1, Seq l s z s1 /\ stays s s1.
Proof.
  induction 1 as [|i l Hi H IH]; intros s D F; [exists (-1)%Z, s; split; [constructor|apply (stays_refl n), F]|]. inversion_clear D as [|? ? D1 D2].
  destruct (Hi s D1 F) as (z & s1 & E & S1). destruct (Z.eq_dec z (-1)) as [->|NZ].
  - destruct (IH s1 D2 (stays_fine n _ _ S1 F)) as (z & s2 & E2 & S2). exists z, s2. split; [econstructor; eassumption|exact (stays_trans _ _ _ S1 S2)].
  - exists z, s1. split; [apply sq_stop; assumption|exact S1].
Qed.
Lemma body_tot n below l : Forall (itot n below) l -> forall s, Forall (def_i macros macro_map rank n below) l -> fine n s -> exists s1, Body l s s1 /\ stays s s1.
Proof.
  induction 1 as [|i l Hi H IH]; intros s D F; [exists s; split; [constructor|apply (stays_refl n), F]|]. inversion_clear D as [|? ? D1 D2].
  destruct (Hi s D1 F) as (z & s1 & E & S1). destruct (IH s1 D2 (stays_fine n _ _ S1 F)) as (s2 & E2 & S2). exists s2. split; [econstructor; eassumption|exact (stays_trans _ _ _ S1 S2)].
Qed.
Lemma args_tot n s args : fine n s -> Forall (word_no n) args -> exists is, Forall2 (arg s) args (map Some is) /\ length is = length args /\ Forall (fun i => i < length (s_words s)) is.
Proof.
  intros F. induction 1 as [|a args Ha H IH]; [exists []; repeat constructor|]. destruct (word_arg n s a F Ha) as (i & A & L). destruct IH as (is & B & C & D). exists (i :: is). cbn. repeat split; [constructor; assumption|congruence|constructor; assumption].
Qed.
Lemma instr_tot below : forall n i, itot n below i.
Proof.
  induction below as [below REC] using lt_wf_ind. intros n i.
  induction i as [l e|m l|l|l e|m args|z0|l IH] using instr_ind2; intros s D F; cbn [def_i] in D.
  - destruct l as [id m|id sd part pos q].
    + destruct (tot_all n e (in_let m) (s_set_vwb s (upd (s_vwb s) m [])) D F) as (t & bl & s1 & E & S1). eexists _, _. split; [eapply ex_let_var; exact E|].
      apply (stays_same n); [exact F|exact S1].
    + destruct (s_word_at s pos) as [i|] eqn:EW; [|exists (-1)%Z, s; split; [apply ex_let_nowhere, EW|apply (stays_refl n), F]].
      destruct (word_there n s pos i F EW) as (w & EN & Q). destruct (value_some n e s D F) as (t & EV). destruct (put_some sd w part t q Q) as (w' & EP & Q').
      eexists _, _. split; [eapply ex_let_clip; eassumption|]. apply (set_stays n); assumption.
  - destruct (append_tot n m l s D F) as (s1 & E & S1). eexists _, _. split; [apply ex_append; exact E|exact S1].
  - destruct (print_tot n l s D F) as (s1 & E & S1). eexists _, _. split; [apply ex_out; exact E|exact S1].
  - destruct D as [DL DE]. destruct (Bool.bool_dec dict_case true) as [DC|DC]; [exists (-1)%Z, s; split; [apply ex_case_dict, DC|apply (stays_refl n), F]|]. apply not_true_is_false in DC.
    destruct (value_some n e s DE F) as (t & EV). destruct l as [id m|id sd part pos q].
    + eexists _, _. split; [eapply ex_case_var; eassumption|]. apply (stays_same n); [exact F|repeat split].
    + destruct (word_in n s pos F DL) as (i & EW). destruct (word_there n s pos i F EW) as (w & EN & Q). destruct (put_some sd w part (copy_case t (w_get attr_match sd w part q)) true Q) as (w' & EP & Q').
      eexists _, _. split; [eapply ex_case_clip; eassumption|]. apply (set_stays n); assumption.
  - destruct D as (DA & DR & body & EM). assert (DB := HMac _ _ _ EM). assert (BT : Forall (itot (length args) (rank (macros m))) body) by (apply Forall_forall; intros x _; apply (REC _ DR)).
    destruct args as [|a args].
    + assert (F0 : fine 0 (s_set_frame s None)) by (split; [reflexivity|exact (proj2 F)]). destruct (body_tot 0 _ body BT _ DB F0) as (s1 & B & S1). destruct S1 as (A1 & A2 & A3).
      eexists _, _. split; [eapply ex_call0; [exact EM|exact B]|]. repeat split; [exact A1|exact A3].
    + destruct (args_tot n s (a :: args) F DA) as (is & HA & HL & HB). set (ar := a :: args) in *.
      assert (F0 : fine (length ar) (s_set_frame s (Some (map Some is)))).
      { split; [|exact (proj2 F)]. unfold ar at 1. cbn [length]. exists is. repeat split; [exact HL|exact HB]. }
      destruct (body_tot (length ar) _ body BT _ DB F0) as (s1 & B & S1). destruct S1 as (A1 & A2 & A3).
      eexists _, _. split; [eapply (ex_call _ _ _ _ _ _ _ _ _ _ m ar (length ar) body (map Some is) s s1); [exact EM|discriminate|lia|exact HA|]|].
      * rewrite Nat.sub_diag. cbn [repeat]. rewrite app_nil_r. exact B.
      * repeat split; [exact A1|exact A3].
  - exists z0, s. split; [constructor|apply (stays_refl n), F].
  - apply fold_and in D. assert (K : exists z s1, Choose l s z s1 /\ stays s s1); [|destruct K as (z & s1 & K & S1); exists z, s1; split; [constructor; exact K|exact S1]].
    revert s D F. induction IH as [|[oc b] l Hb H IHl]; intros s D F; [exists (-1)%Z, s; split; [constructor|apply (stays_refl n), F]|]. inversion_clear D as [|? ? [DC DB] D2]. cbn [fst snd] in *. apply fold_and in DB.
    destruct oc as [c|].
    + destruct (holds_some n c s DC F) as ([] & E).
      * destruct (seq_tot n below b Hb s DB F) as (z & s1 & X & S1). exists z, s1. split; [apply ch_when; assumption|exact S1].
      * destruct (IHl s D2 F) as (z & s1 & X & S1). exists z, s1. split; [apply ch_skip; assumption|exact S1].
    + destruct (seq_tot n below b Hb s DB F) as (z & s1 & X & S1). destruct (Z.eq_dec z (-1)) as [->|NZ].
      * destruct (IHl s1 D2 (stays_fine n _ _ S1 F)) as (z & s2 & X2 & S2). exists z, s2. split; [eapply ch_other_go; eassumption|exact (stays_trans _ _ _ S1 S2)].
      * exists z, s1. split; [apply ch_other; assumption|exact S1].
Qed.
(** a rule that does not reject itself *)
Lemma keeps_exec :
  (forall i s z s', Exec i s z s' -> keeps_i i = true -> z = (-1)%Z) /\ (forall n l s s', Appended n l s s' -> True) /\ (forall l s s', Printed l s s' -> True) /\
  (forall l s z s', Seq l s z s' -> forallb keeps_i l = true -> z = (-1)%Z) /\
  (forall l s z s', Choose l s z s' -> forallb (fun o => forallb keeps_i (snd o)) l = true -> z = (-1)%Z) /\ (forall l s s', Body l s s' -> True).
Proof.
  apply all_m; try (intros; cbn in *; congruence); try (intros; exact I).
  - intros l s z s1 H IH K. exact (IH K).
  - intros i l s s1 z s2 H1 IH1 H2 IH2 K. cbn in K. apply andb_prop in K as [K1 K2]. exact (IH2 K2).
  - intros i l s z s1 H1 IH1 NZ K. cbn in K. apply andb_prop in K as [K1 K2]. exact (IH1 K1).
  - intros c b l s z s1 _ H IH K. cbn in K. apply andb_prop in K as [K1 K2]. exact (IH K1).
  - intros c b l s z s1 _ H IH K. cbn in K. apply andb_prop in K as [K1 K2]. exact (IH K2).
  - intros b l s z s1 H IH _ K. cbn in K. apply andb_prop in K as [K1 K2]. exact (IH K1).
  - intros b l s s1 z s2 H1 IH1 H2 IH2 K. cbn in K. apply andb_prop in K as [K1 K2]. exact (IH2 K2).
Qed.

(** every rule of the file on its units *)
Lemma rule_tot ps bodies n p g us bs : wf_file ps macro_map bodies -> (exists depth, Forall2 (fun p b => Forall (def_i macros macro_map rank (length p) depth) b) ps bodies) ->
  Forall (fun cs => cs <> []) ps -> nth_error ps (n - 1) = Some p -> length us = length p ->
  exists o lf g1, unit_rule attr_match attr_replace copy_case case_from get_case lower lists dict_case macros macro_map bodies n g us bs o lf g1.
Proof.
  intros (_ & _ & WF) (depth & DF) NE EP L.
  assert (K : exists b, nth_error bodies (n - 1) = Some b /\ forallb keeps_i b = true /\ Forall (def_i macros macro_map rank (length p) depth) b).
  { clear L. revert bodies WF DF EP. generalize (n - 1) as k. induction ps as [|q ps IH]; intros k bodies WF DF EP; [destruct k; discriminate|].
    inversion WF as [|? b ? bodies' W1 W2]; subst. inversion DF as [|? ? ? ? D1 D2]; subst. destruct k as [|k]; [injection EP as ->; exists b; split; [reflexivity|]; split; [apply W1|exact D1]|].
    inversion_clear NE as [|? ? _ NE']. exact (IH NE' k bodies' W2 D2 EP). }
  destruct K as (b & EB & KB & DB). set (s0 := mkst (map word_of us) (Some (map Some (seq 0 (length us)))) (length us) (g_vars g) (g_blanks g) bs [] (g_mlu g)).
  assert (F0 : fine (length p) s0).
  { split; [|cbn; apply Forall_map; apply Forall_forall; intros x _; reflexivity]. destruct p as [|c p]; [exact (False_ind _ (proj1 (Forall_forall _ _) NE [] (nth_error_In _ _ EP) eq_refl))|].
    cbn [length]. exists (seq 0 (length us)). split; [reflexivity|]. rewrite seq_length. split; [exact L|]. apply Forall_forall. intros i Hi. apply in_seq in Hi. cbn. rewrite map_length. lia. }
  destruct (seq_tot (length p) depth b ltac:(apply Forall_forall; intros x _; apply instr_tot) s0 DB F0) as (z & s1 & X & _).
  assert (Z := proj1 (proj2 (proj2 (proj2 keeps_exec))) _ _ _ _ X KB). subst z. exists (s_out s1), (s_bq s1), (mkg (s_vars s1) (s_vwb s1) (s_unit s1)). exists b, s1. repeat split; assumption.
Qed.
(** the same for rules that may reject themselves *)
Lemma rule_tot_r (ps : list (list str)) bodies n p g us bs : (exists depth, Forall2 (fun p b => Forall (def_i macros macro_map rank (length p) depth) b) ps bodies) ->
  Forall (fun cs => cs <> []) ps -> nth_error ps (n - 1) = Some p -> length us = length p ->
  exists rj o lf g1, unit_rule_r attr_match attr_replace copy_case case_from get_case lower lists dict_case macros macro_map bodies n g us bs rj o lf g1.
Proof.
  intros (depth & DF) NE EP L.
  assert (K : exists b, nth_error bodies (n - 1) = Some b /\ Forall (def_i macros macro_map rank (length p) depth) b).
  { clear L. revert bodies DF EP. generalize (n - 1) as k. induction ps as [|q ps IH]; intros k bodies DF EP; [destruct k; discriminate|].
    inversion DF as [|? b ? bodies' D1 D2]; subst. destruct k as [|k]; [injection EP as ->; exists b; split; [reflexivity|exact D1]|].
    inversion_clear NE as [|? ? _ NE']. exact (IH NE' k bodies' D2 EP). }
  destruct K as (b & EB & DB). set (s0 := mkst (map word_of us) (Some (map Some (seq 0 (length us)))) (length us) (g_vars g) (g_blanks g) bs [] (g_mlu g)).
  assert (F0 : fine (length p) s0).
  { split; [|cbn; apply Forall_map; apply Forall_forall; intros x _; reflexivity]. destruct p as [|c p]; [exact (False_ind _ (proj1 (Forall_forall _ _) NE [] (nth_error_In _ _ EP) eq_refl))|].
    cbn [length]. exists (seq 0 (length us)). split; [reflexivity|]. rewrite seq_length. split; [exact L|]. apply Forall_forall. intros i Hi. apply in_seq in Hi. cbn. rewrite map_length. lia. }
  destruct (seq_tot (length p) depth b ltac:(apply Forall_forall; intros x _; apply instr_tot) s0 DB F0) as (z & s1 & X & _).
  exists (z =? 0)%Z, (s_out s1), (s_bq s1), (mkg (s_vars s1) (s_vwb s1) (s_unit s1)). exists b, z, s1. repeat split; assumption.
Qed.
End Defined.

(** the shape of the output does not depend on what the rules print *)
Lemma skeleton U (M : nat -> list U -> Prop) G1 G2 (a1 : nat -> G1 -> list U -> list str -> str -> list str -> G1 -> Prop) (a2 : nat -> G2 -> list U -> list str -> str -> list str -> G2 -> Prop) d1 d2 g1 l final o1 h1 :
  (forall n g us bs, M n us -> exists o lf h, a2 n g us bs o lf h) -> Transferred U M G1 a1 d1 g1 l final o1 h1 -> forall g2, exists o2 h2, Transferred U M G2 a2 d2 g2 l final o2 h2.
Proof.
  intros T. induction 1 as [g final|g b x l final n k o bs g1 o1 g2 us K MM MX MN AP T1 IH|g b x l final o g2 NM T1 IH]; intros h.
  - exists final, h. constructor.
  - destruct (T n h (firstn k us) (firstn (k - 1) (map fst l)) MM) as (o' & lf & h1 & A). destruct (IH h1) as (o2 & h2 & X). eexists _, _. eapply tr_rule; eassumption.
  - destruct (IH h) as (o2 & h2 & X). eexists _, _. eapply tr_default; eassumption.
Qed.
