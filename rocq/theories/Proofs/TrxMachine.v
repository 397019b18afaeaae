From Verif Require Import Model.Base Proofs.Base Model.TransferUnit Model.TrxPatterns Model.TrxMachine Proofs.TrxPatterns.

Lemma inb_In x l : inb x l = true <-> In x l.
Proof. unfold inb. rewrite existsb_exists. split; [intros (y & H & E); apply Nat.eqb_eq in E as ->; exact H|intros H; exists x; split; [exact H|apply Nat.eqb_refl]]. Qed.
Lemma takesb_takes l x : takesb l x = true <-> takes l x.
Proof.
  destruct l, x; cbn; try tauto; try (split; [discriminate|tauto]).
  - destruct (ceq_spec c c0); split; congruence.
  - destruct (ceq_spec c c0); split; congruence.
  - apply str_eqb_eq.
Qed.
(** ** closure *)
Ltac dfind F := match goal with |- context [find ?f ?l] => destruct (find f l) as [[[a l0] b]|] eqn:F | H : context [find ?f ?l] |- _ => destruct (find f l) as [[[a l0] b]|] eqn:F end.
Definition missing (E : list edge) (s : list nat) : nat := length (filter (fun e => match e with (_, _, q) => negb (inb q s) end) E).
Lemma missing_le E s s' : (forall x, In x s -> In x s') -> missing E s' <= missing E s.
Proof.
  intros H. unfold missing. induction E as [|[[p l] q] E IH]; [apply le_n|]. cbn. destruct (inb q s) eqn:A.
  - apply inb_In, H, inb_In in A. rewrite A. cbn. exact IH.
  - destruct (inb q s'); cbn; lia.
Qed.
Lemma missing_lt E s q : (exists p l, In (p, l, q) E) -> inb q s = false -> missing E (q :: s) < missing E s.
Proof.
  intros (p & l & H) N. apply in_split in H as (a & b & ->). unfold missing. rewrite !filter_app, !app_length. cbn [filter]. rewrite N. cbn [negb length].
  assert (I : inb q (q :: s) = true) by (apply inb_In; left; reflexivity). rewrite I. cbn [negb].
  assert (A := missing_le a s (q :: s) (fun x H => or_intror H)). assert (B := missing_le b s (q :: s) (fun x H => or_intror H)). unfold missing in A, B. lia.
Qed.
Lemma close_closed fuel : forall E s, missing E s <= fuel -> forall p q, In p (close fuel E s) -> In (p, LEps, q) E -> In q (close fuel E s).
Proof.
  induction fuel as [|f IH]; intros E s L p q Hp He; cbn [close] in *.
  - apply inb_In. destruct (inb q s) eqn:N; [reflexivity|]. assert (M := missing_lt E s q (ex_intro _ p (ex_intro _ LEps He)) N). lia.
  - dfind F.
    + apply find_some in F as [Hin F]. apply andb_prop in F as [F1 F2]. apply negb_true_iff in F2. assert (M := missing_lt E s b (ex_intro _ a (ex_intro _ l0 Hin)) F2).
      eapply IH; [lia|exact Hp|exact He].
    + apply (find_none _ _ F) in He. cbn in He. apply inb_In in Hp. rewrite Hp in He. destruct (lab_eq_dec LEps LEps); [|contradiction]. cbn in He. apply negb_false_iff, inb_In in He. exact He.
Qed.
Lemma close_incl fuel : forall E s x, In x s -> In x (close fuel E s).
Proof. induction fuel as [|f IH]; intros E s x H; cbn [close]; [exact H|]. dfind F; [apply IH; right; exact H|exact H]. Qed.
Inductive eps (E : list edge) : nat -> nat -> Prop :=
| ep_refl p : eps E p p
| ep_step p q r : eps E p q -> In (q, LEps, r) E -> eps E p r.
Lemma close_sound fuel : forall E s x, In x (close fuel E s) -> exists p, In p s /\ eps E p x.
Proof.
  induction fuel as [|f IH]; intros E s x H; cbn [close] in H; [exists x; split; [exact H|constructor]|].
  dfind F; [|exists x; split; [exact H|constructor]].
  apply find_some in F as [Hin F]. apply andb_prop in F as [F _]. apply andb_prop in F as [Fa Fl]. destruct (lab_eq_dec l0 LEps) as [->|]; [|discriminate]. apply inb_In in Fa.
  apply IH in H as (p & [<-|Hp] & He); [|eauto]. exists a. split; [exact Fa|]. clear - Hin He. induction He; [eapply ep_step; [constructor|exact Hin]|eapply ep_step; eauto].
Qed.
Lemma closed_spec E s x : In x (closed E s) <-> exists p, In p s /\ eps E p x.
Proof.
  split; [apply close_sound|]. intros (p & Hp & He). induction He as [p|p q r He IH H]; [apply close_incl, Hp|].
  eapply close_closed; [|apply IH, Hp|exact H]. unfold missing. clear. induction E as [|[[p l] q] E IH]; [apply le_n|]. cbn. destruct (negb _); cbn; lia.
Qed.
Lemma move_spec E s l q : In q (move E s l) <-> exists p, In p s /\ In (p, l, q) E.
Proof.
  unfold move. rewrite in_flat_map. split.
  - intros ([[p l'] r] & H & Hq). destruct (inb p s) eqn:A; [|destruct Hq]. destruct (lab_eq_dec l' l) as [->|]; [|destruct Hq]. destruct Hq as [<-|[]]. apply inb_In in A. eauto.
  - intros (p & Hp & H). exists (p, l, q). split; [exact H|]. apply inb_In in Hp. rewrite Hp. destruct (lab_eq_dec l l); [left; reflexivity|contradiction].
Qed.
Lemma next_spec E s l q : In q (next E s l) <-> exists p r, In p s /\ In (p, l, r) E /\ eps E r q.
Proof.
  unfold next. assert (H : In q (match move E s l with [] => [] | s' => closed E s' end) <-> In q (closed E (move E s l))).
  { destruct (move E s l) eqn:M; [|reflexivity]. rewrite closed_spec. split; [intros []|intros (p & [] & _)]. }
  rewrite H, closed_spec. split.
  - intros (r & Hr & He). apply move_spec in Hr as (p & Hp & Hr). eauto.
  - intros (p & r & Hp & Hr & He). exists r. split; [apply move_spec; eauto|exact He].
Qed.
(** ** the set reached by a string *)
Definition reach (E : list edge) (y : list lab) : list nat := fold_left (next E) y (closed E [0]).
Lemma spath_eps E s y q r : spath E s y q -> eps E q r -> spath E s y r.
Proof. intros P H. induction H as [p|p q r H IH He]; [exact P|]. eapply sp_eps; [exact (IH P)|exact He]. Qed.
Lemma reach_spec E y : Forall (fun l => l <> LEps /\ forall n, l <> LRule n) y -> forall s, In s (reach E y) <-> spath E 0 y s.
Proof.
  induction y as [|l y IH] using rev_ind; intros F s.
  - unfold reach. cbn. rewrite closed_spec. split.
    + intros (p & [<-|[]] & H). eapply spath_eps; [constructor|exact H].
    + intros P. exists 0. split; [left; reflexivity|]. remember [] as y eqn:Ey. remember 0 as z. clear Heqz. induction P as [s|s y q r P IH H|s y q l r P IH H]; [constructor|eapply ep_step; eauto|destruct y; discriminate].
  - apply Forall_app in F as [F Fl]. inversion_clear Fl as [|? ? [N1 N2] _]. specialize (IH F). unfold reach in *. rewrite fold_left_app. cbn [fold_left]. rewrite next_spec. split.
    + intros (p & r & Hp & Hr & He). apply IH in Hp. eapply spath_eps; [|exact He]. eapply sp_sym; eauto.
    + intros P. remember (y ++ [l]) as z eqn:Ez. remember 0 as s0 eqn:Es. induction P as [s|s y' q r P IHP H|s y' q l' r P IHP H H1 H2].
      * destruct y; discriminate.
      * destruct (IHP Es IH Ez) as (p & r' & Hp & Hr & He). exists p, r'. split; [exact Hp|]. split; [exact Hr|]. eapply ep_step; eauto.
      * apply app_inj_tail in Ez as [-> ->]. subst s. exists q, r. split; [apply IH, P|]. split; [exact H|constructor].
Qed.
Lemma takes_norm y x : Forall2 takes y x -> Forall (fun l => l <> LEps /\ forall n, l <> LRule n) y.
Proof. induction 1 as [|l m y x T _ IH]; constructor; [|exact IH]. split; [intros ->|intros n ->]; destruct m; destruct T. Qed.
(** ** the states of the matcher *)
Definition em_run (t : trans) (x : list msym) : list (list nat) := fold_left (em_step t) x (em_init t).
Lemma run_snoc t x m : em_run t (x ++ [m]) = em_step t (em_run t x) m.
Proof. unfold em_run. rewrite fold_left_app. reflexivity. Qed.
Lemma em_run_spec t x S : In S (em_run t x) <-> S <> [] /\ exists y, Forall2 takes y x /\ S = reach (t_edges t) y.
Proof.
  revert S. induction x as [|m x IH] using rev_ind; intros S.
  - unfold em_run. cbn. split.
    + intros [<-|[]]. split; [|exists []; split; [constructor|reflexivity]]. intros E. assert (H : In 0 (closed (t_edges t) [0])) by (apply closed_spec; exists 0; split; [left; reflexivity|constructor]). rewrite E in H. destruct H.
    + intros (N & y & F & ->). inversion F. left. reflexivity.
  - rewrite run_snoc. unfold em_step. rewrite in_flat_map. split.
    + intros (S0 & H0 & H). apply IH in H0 as (N0 & y & F & ->). apply in_flat_map in H as (l & Hl & H). destruct (takesb l m) eqn:T; [|destruct H]. apply takesb_takes in T.
      destruct (next (t_edges t) (reach (t_edges t) y) l) as [|a b] eqn:E; [destruct H|]. destruct H as [<-|[]]. split; [discriminate|]. exists (y ++ [l]).
      split; [apply Forall2_app; [exact F|constructor; [exact T|constructor]]|]. unfold reach. rewrite fold_left_app. cbn [fold_left]. symmetry. exact E.
    + intros (N & y & F & ->). apply Forall2_app_inv_r in F as (y1 & y2 & F1 & F2 & ->). inversion F2 as [|l ? ? ? T F3]; subst. inversion F3; subst.
      unfold reach in N |- *. rewrite fold_left_app in N |- *. cbn [fold_left] in N |- *. fold (reach (t_edges t) y1) in N |- *.
      assert (IL : In l (labels_of (t_edges t))).
      { unfold labels_of. apply nodup_In. destruct (next (t_edges t) (reach (t_edges t) y1) l) as [|a b] eqn:E; [contradiction|]. assert (H : In a (a :: b)) by (left; reflexivity). rewrite <- E in H.
        apply next_spec in H as (p & r & _ & H & _). apply in_map_iff. exists (p, l, r). auto. }
      exists (reach (t_edges t) y1). split.
      * apply IH. split; [|eauto]. intros E. apply N. rewrite E. unfold next. destruct (move (t_edges t) [] l) as [|a b] eqn:M; [reflexivity|]. assert (H : In a (a :: b)) by (left; reflexivity). rewrite <- M in H. apply move_spec in H as (p & [] & _).
      * apply in_flat_map. exists l. split; [exact IL|]. apply takesb_takes in T. rewrite T. destruct (next _ _ _); [contradiction|left; reflexivity].
Qed.
Lemma rules_of_spec t s n : In n (rules_of t s) <-> exists p f, In p s /\ In (p, LRule n, f) (t_edges t) /\ In f (t_finals t).
Proof.
  unfold rules_of. rewrite in_flat_map. split.
  - intros ([[p l] f] & H & Hn). destruct l as [| | | | |m]; try destruct Hn. destruct (inb p s) eqn:A; [|destruct Hn]. destruct (inb f (t_finals t)) eqn:B; [|destruct Hn]. destruct Hn as [<-|[]]. apply inb_In in A, B. eauto.
  - intros (p & f & Hp & H & Hf). exists (p, LRule n, f). split; [exact H|]. apply inb_In in Hp, Hf. rewrite Hp, Hf. left. reflexivity.
Qed.
Lemma fold_min n r : (forall m, In m (n :: r) -> fold_right Nat.min n r <= m) /\ In (fold_right Nat.min n r) (n :: r).
Proof.
  induction r as [|a r [IH1 IH2]]; cbn [fold_right].
  - split; [intros m [->|[]]; apply le_n|left; reflexivity].
  - split.
    + intros m [->|[->|H]]; [specialize (IH1 m (or_introl eq_refl)); lia|lia|specialize (IH1 m (or_intror H)); lia].
    + destruct (Nat.min_spec a (fold_right Nat.min n r)) as [[_ ->]|[_ ->]]; [right; left; reflexivity|]. destruct IH2 as [E|H]; [left; exact E|right; right; exact H].
Qed.
Theorem em_rules_spec t x n : In n (em_rules t (em_run t x)) <-> visible t x n.
Proof.
  unfold em_rules, visible, finals_rules. rewrite in_flat_map. split.
  - intros (S & HS & H). apply em_run_spec in HS as (_ & y & F & ->). destruct (rules_of t (reach (t_edges t) y)) as [|a r] eqn:R; [destruct H|]. destruct H as [<-|[]].
    destruct (fold_min a r) as [M1 M2]. rewrite <- R in M1, M2. exists y. split; [exact F|].
    assert (HR : forall m, In m (rules_of t (reach (t_edges t) y)) <-> has_rule t y m).
    { intros m. rewrite rules_of_spec. unfold has_rule. split; intros (p & f & A & B); exists p, f; (split; [apply (reach_spec (t_edges t) y (takes_norm y x F)); exact A|exact B]). }
    split; [apply HR, M2|]. intros m Hm. apply M1, HR, Hm.
  - intros (y & F & H & L).
    assert (HR : forall m, In m (rules_of t (reach (t_edges t) y)) <-> has_rule t y m).
    { intros m. rewrite rules_of_spec. unfold has_rule. split; intros (p & f & A & B); exists p, f; (split; [apply (reach_spec (t_edges t) y (takes_norm y x F)); exact A|exact B]). }
    exists (reach (t_edges t) y). apply HR in H. split.
    + apply em_run_spec. split; [|eauto]. intros E. apply rules_of_spec in H as (p & f & Hp & _). rewrite E in Hp. destruct Hp.
    + destruct (rules_of t (reach (t_edges t) y)) as [|a r] eqn:R; [destruct H|]. left. destruct (fold_min a r) as [M1 M2]. apply HR, L in M2. specialize (M1 n H). lia.
Qed.
Theorem em_live t x : em_empty (em_run t x) = false <-> exists q, path (t_edges t) 0 x q.
Proof.
  split.
  - destruct (em_run t x) as [|S M] eqn:E; [discriminate|]. intros _. assert (H : In S (em_run t x)) by (rewrite E; left; reflexivity). apply em_run_spec in H as (N & y & F & ->).
    destruct (reach (t_edges t) y) as [|s r] eqn:R; [contradiction|]. exists s. eapply spath_path; [|exact F]. apply (reach_spec _ _ (takes_norm y x F)). rewrite R. left. reflexivity.
  - intros (q & P). apply path_spath in P as (y & F & S). apply (reach_spec _ _ (takes_norm y x F)) in S.
    assert (H : In (reach (t_edges t) y) (em_run t x)) by (apply em_run_spec; split; [intros E; rewrite E in S; destruct S|eauto]). destruct (em_run t x); [destruct H|reflexivity].
Qed.
Lemma em_dead t x : em_step t [] x = []. Proof. reflexivity. Qed.
