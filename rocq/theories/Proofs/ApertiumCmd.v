(** The option loop of the script reads what is written, and the state it leaves is what the options say. *)
From Coq Require Import String Lia.
From Verif Require Import Model.Base Model.ApertiumCmd Spec.ApertiumCmd Proofs.Base.
Open Scope nat_scope.

Definition upd (i : item) (s : st) : st := match i with Value c v => with_value c v s | Flag c => match flag c s with Go s' => s' | _ => s end end.
Definition state (its : list item) (s : st) : st := fold_left (fun a i => upd i a) its s.
Definition quiet (its : list item) : Prop := ~ given "V" its /\ ~ given "h" its.

Lemma takes_spec c : takes c = true <-> value_letter c.
Proof. unfold takes, value_letter. apply mem_In. Qed.
Ltac letters H := cbn in H; repeat (destruct H as [<-|H]; [|]); try contradiction.
Lemma flag_takes c : flag_letter c -> takes c = false.
Proof. intros H. letters H; reflexivity. Qed.
Lemma flag_go c s : flag_letter c -> c <> chr "V" -> c <> chr "h" -> flag c s = Go (upd (Flag c) s).
Proof. intros H A B. destruct s. letters H; try reflexivity; (destruct (A eq_refl) || destruct (B eq_refl)). Qed.
Lemma flag_other c s : ~ flag_letter c -> flag c s = Usage.
Proof.
  intros H. destruct s. unfold flag. repeat match goal with |- context [(c =? ?k)%N] => destruct (N.eqb_spec c k); [exfalso; apply H; subst c; cbn; tauto|] end. reflexivity.
Qed.
Lemma flag_dash c : flag_letter c -> c <> cDASH.
Proof. intros H. letters H; discriminate. Qed.
Lemma value_dash c : value_letter c -> c <> cDASH.
Proof. intros H. letters H; discriminate. Qed.
Lemma letters_apart c : flag_letter c -> value_letter c -> False.
Proof. intros H K. apply flag_takes in H. apply takes_spec in K. congruence. Qed.

Lemma g_cons c1 cs r s : c1 <> cDASH -> getopts ((cDASH :: c1 :: cs) :: r) s =
  match cluster (c1 :: cs) s with Done s' => getopts r s' | Need c s' => match r with [] => Exit Usage | v :: r' => getopts r' (with_value c v s') end | Stop x => Exit x end.
Proof. intros H. cbn [getopts]. rewrite ceq_refl, (proj2 (ceq_neq _ _) H). reflexivity. Qed.

Lemma quiet_cons i its : quiet (i :: its) -> quiet its.
Proof. unfold quiet, given. cbn [In]. tauto. Qed.
Lemma quiet_app a b : quiet (a ++ b) <-> quiet a /\ quiet b.
Proof. unfold quiet, given. rewrite !in_app_iff. tauto. Qed.
Lemma getopts_reads its args rest : reads its args rest -> quiet its -> forall s, getopts args s = getopts rest (state its s).
Proof.
  induction 1 as [args|c its args rest HF H IH|c d r its args rest HF HD H IH|c v its args rest HV NV H IH|c v its args rest HV H IH]; intros Q s; [reflexivity| | | |].
  - assert (QV : c <> chr "V" /\ c <> chr "h") by (split; intros ->; [apply (proj1 Q)|apply (proj2 Q)]; left; reflexivity). rewrite (g_cons c [] args s (flag_dash c HF)). cbn [cluster]. rewrite (flag_takes c HF), (flag_go c s HF) by tauto. apply IH. exact (quiet_cons _ _ Q).
  - assert (QV : c <> chr "V" /\ c <> chr "h") by (split; intros ->; [apply (proj1 Q)|apply (proj2 Q)]; left; reflexivity). rewrite (g_cons c (d :: r) args s (flag_dash c HF)).
    change (state (Flag c :: its) s) with (state its (upd (Flag c) s)). rewrite <- (IH (quiet_cons _ _ Q)). rewrite (g_cons d r args _ HD).
    change (cluster (c :: d :: r) s) with (if takes c then Done (with_value c (d :: r) s) else match flag c s with Go s' => cluster (d :: r) s' | x => Stop x end). rewrite (flag_takes c HF), (flag_go c s HF) by tauto. reflexivity.
  - rewrite (g_cons c v args s (value_dash c HV)). cbn [cluster]. rewrite (proj2 (takes_spec c) HV). destruct v; [congruence|]. apply IH. exact (quiet_cons _ _ Q).
  - rewrite (g_cons c [] (v :: args) s (value_dash c HV)). cbn [cluster]. rewrite (proj2 (takes_spec c) HV). apply IH. exact (quiet_cons _ _ Q).
Qed.
Lemma getopts_ends rest pos s : ends rest pos -> getopts rest s = Rest s pos.
Proof.
  intros H. inversion H as [|p|a p HA]; subst; [reflexivity|reflexivity|]. destruct HA as [HA| ->]; [|reflexivity]. destruct a as [|c [|c1 cs]]; try reflexivity. cbn in HA. cbn [getopts]. rewrite (proj2 (ceq_neq _ _) HA). reflexivity.
Qed.
Lemma reads_app a : forall b args rest, reads (a ++ b) args rest -> exists mid, reads a args mid /\ reads b mid rest.
Proof.
  induction a as [|i a IH]; intros b args rest H; [exists args; split; [constructor|exact H]|]. cbn [app] in H.
  inversion H as [|c its ar re HF H'|c d r its ar re HF HD H'|c v its ar re HV NV H'|c v its ar re HV H']; subst; destruct (IH _ _ _ H') as (mid & M1 & M2); exists mid; (split; [|exact M2]); constructor; assumption.
Qed.
Lemma reads_trans a b args mid rest : reads a args mid -> reads b mid rest -> reads (a ++ b) args rest.
Proof. induction 1; intros K; cbn [app]; [exact K|constructor; auto ..]. Qed.
Lemma getopts_version its args cs rest s : reads its args ((cDASH :: chr "V" :: cs) :: rest) -> quiet its -> getopts args s = Exit Version.
Proof.
  intros H Q. rewrite (getopts_reads _ _ _ H Q). set (z := state its s). clearbody z. destruct z. rewrite g_cons; [reflexivity|discriminate].
Qed.
Definition size (args : list str) : nat := fold_right (fun a n => length a + 1 + n) 0 args.
Lemma getopts_total : forall n args, size args <= n ->
  (exists its rest pos, quiet its /\ reads its args rest /\ ends rest pos) \/ (exists its cs rest, quiet its /\ reads its args ((cDASH :: chr "V" :: cs) :: rest)) \/ (forall s, getopts args s = Exit Usage).
Proof.
  assert (STEP : forall i args args', (i <> Flag (chr "V") /\ i <> Flag (chr "h")) ->
     (forall its rest, reads its args' rest -> reads (i :: its) args rest) -> (forall s, exists s', getopts args s = getopts args' s') ->
     ((exists its rest pos, quiet its /\ reads its args' rest /\ ends rest pos) \/ (exists its cs rest, quiet its /\ reads its args' ((cDASH :: chr "V" :: cs) :: rest)) \/ (forall s, getopts args' s = Exit Usage)) ->
     ((exists its rest pos, quiet its /\ reads its args rest /\ ends rest pos) \/ (exists its cs rest, quiet its /\ reads its args ((cDASH :: chr "V" :: cs) :: rest)) \/ (forall s, getopts args s = Exit Usage))).
  { intros i args args' [Q1 Q2] R G H. assert (QC : forall its, quiet its -> quiet (i :: its)). { unfold quiet, given. cbn [In]. intros its [A B]. split; intros [C|C]; congruence || tauto. }
    destruct H as [(its & rest & pos & A & B & C)|[(its & cs & rest & A & B)|H]].
    - left. exists (i :: its), rest, pos. auto.
    - right. left. exists (i :: its), cs, rest. split; [apply QC, A|apply R, B].
    - right. right. intros s. destruct (G s) as [s' E]. rewrite E. apply H. }
  assert (END : forall args pos, ends args pos -> (exists its rest pos, quiet its /\ reads its args rest /\ ends rest pos)).
  { intros args pos H. exists [], args, pos. split; [split; intros []|]. split; [constructor|exact H]. }
  induction n as [|n IH]; intros args L; (destruct args as [|a r]; [left; exact (END _ _ e_end)|]); cbn in L; [lia|].
  destruct a as [|c0 [|c1 cs]].
  - left. apply (END _ ([] :: r)). constructor. left. exact I.
  - left. apply (END _ ([c0] :: r)). constructor. destruct (N.eq_dec c0 cDASH) as [->|E]; [right; reflexivity|left; exact E].
  - destruct (N.eq_dec c0 cDASH) as [->|E]; [|left; apply (END _ ((c0 :: c1 :: cs) :: r)); constructor; left; exact E]. destruct (N.eq_dec c1 cDASH) as [->|E1].
    { destruct cs as [|c2 cs]; [left; exact (END _ _ (e_dashes r))|]. right. right. intros s. cbn [getopts]. rewrite ceq_refl. cbn [andb cluster]. change (takes cDASH) with false. cbn match. rewrite flag_other; [reflexivity|]. cbn. intuition discriminate. }
    destruct (takes c1) eqn:T.
    { pose proof (proj1 (takes_spec _) T) as V. destruct cs as [|c2 cs].
      - destruct r as [|v r]; [right; right; intros s; rewrite (g_cons c1) by exact E1; cbn [cluster]; rewrite T; reflexivity|]. apply (STEP (Value c1 v) _ r); [split; discriminate|intros its rest H; constructor; assumption| |apply IH; unfold size in *; cbn in *; lia].
        intros s. rewrite (g_cons c1) by exact E1. cbn [cluster]. rewrite T. eauto.
      - apply (STEP (Value c1 (c2 :: cs)) _ r); [split; discriminate|intros its rest H; constructor; [assumption|discriminate|assumption]| |apply IH; unfold size in *; cbn in *; lia].
        intros s. rewrite (g_cons c1) by exact E1. cbn [cluster]. rewrite T. eauto. }
    destruct (in_dec N.eq_dec c1 (u "uahlVzsnH")) as [F|F].
    2:{ right. right. intros s. rewrite (g_cons c1) by exact E1. cbn [cluster]. rewrite T, (flag_other c1 s F). reflexivity. }
    destruct (N.eq_dec c1 (chr "h")) as [->|NH].
    { right. right. intros s. rewrite g_cons by exact E1. destruct s. reflexivity. }
    destruct (N.eq_dec c1 (chr "V")) as [->|NV].
    { right. left. exists [], cs, r. split; [split; intros []|]. constructor. }
    destruct cs as [|c2 cs].
    + apply (STEP (Flag c1) _ r); [split; congruence|intros its rest H; constructor; assumption| |apply IH; unfold size in *; cbn in *; lia]. intros s. rewrite (g_cons c1) by exact E1. cbn [cluster]. rewrite T, (flag_go c1 s F NV NH). eauto.
    + destruct (N.eq_dec c2 cDASH) as [->|E2].
      * right. right. intros s. rewrite (g_cons c1) by exact E1. cbn [cluster]. rewrite T, (flag_go c1 s F NV NH). change (takes cDASH) with false. cbn match. rewrite flag_other; [reflexivity|]. cbn. intuition discriminate.
      * apply (STEP (Flag c1) _ ((cDASH :: c2 :: cs) :: r)); [split; congruence|intros its rest H; constructor; assumption| |apply IH; unfold size in *; cbn in *; lia].
        intros s. exists (upd (Flag c1) s). rewrite (g_cons c1) by exact E1; rewrite (g_cons c2) by exact E2.
        change (cluster (c1 :: c2 :: cs) s) with (if takes c1 then Done (with_value c1 (c2 :: cs) s) else match flag c1 s with Go s' => cluster (c2 :: cs) s' | x => Stop x end). rewrite T, (flag_go c1 s F NV NH). reflexivity.
Qed.

(** ** The state after the options *)
Definition valid (i : item) : Prop := match i with Flag c => flag_letter c | Value c _ => value_letter c end.
Lemma reads_valid its args rest : reads its args rest -> Forall valid its.
Proof. induction 1; constructor; auto. Qed.
Lemma value_same l its d v : value_of l (its ++ [Value (chr l) v]) d v.
Proof. left. exists its, []. split; [reflexivity|intros w []]. Qed.
Lemma value_other l its d v i : (forall w, i <> Value (chr l) w) -> value_of l its d v -> value_of l (its ++ [i]) d v.
Proof.
  intros N [(a & b & -> & H)|[H ->]]; [left; exists a, (b ++ [i])|right]; rewrite ?app_assoc, <- ?app_assoc; cbn [app].
  - split; [reflexivity|]. intros w K. apply in_app_or in K as [K|[K|[]]]; [exact (H w K)|exact (N w K)].
  - split; [|reflexivity]. intros w K. apply in_app_or in K as [K|[K|[]]]; [exact (H w K)|exact (N w K)].
Qed.
Lemma value_fun l its d v w : value_of l its d v -> value_of l its d w -> v = w.
Proof.
  intros [(a & b & -> & H)|[H ->]] [(a' & b' & E & H')|[H' ->]]; [|exfalso; apply (H' v), in_or_app; right; left; reflexivity|exfalso; apply (H w); rewrite E; apply in_or_app; right; left; reflexivity|reflexivity].
  revert a' E. induction a as [|x a IH]; intros [|x' a'] E; cbn [app] in E; injection E as E1 E2.
  - congruence.
  - exfalso. apply (H w). rewrite E2. apply in_or_app. right. left. reflexivity.
  - exfalso. apply (H' v). rewrite <- E2. apply in_or_app. right. left. reflexivity.
  - exact (IH a' E2).
Qed.
Lemma hand_on_app tab a b : hand_on tab (a ++ b) = hand_on tab a ++ hand_on tab b.
Proof. apply flat_map_app. Qed.
Lemma given_app l a b : given l (a ++ b) <-> given l a \/ given l b.
Proof. unfold given. rewrite in_app_iff. tauto. Qed.
Record said (its : list item) (s0 s : st) : Prop := mksaid {
  d_f : value_of "f" its (o_format s0) (o_format s); d_d : value_of "d" its (o_datadir s0) (o_datadir s); d_m : value_of "m" its (o_tm s0) (o_tm s); d_o : value_of "o" its (o_tmdir s0) (o_tmdir s);
  d_u : given "u" its /\ o_uwords s = u "no" \/ ~ given "u" its /\ o_uwords s = o_uwords s0; d_a : given "a" its /\ o_tagger s = u "-m" \/ ~ given "a" its /\ o_tagger s = o_tagger s0;
  d_l : o_list s = true <-> given "l" its \/ o_list s0 = true;
  d_s : o_s s = o_s s0 ++ hand_on [("s", "-s")]%string its; d_n : o_n s = o_n s0 ++ hand_on [("n", "-n"); ("H", "-o")]%string its;
  d_tf : o_tf s = o_tf s0 ++ hand_on [("n", "--apertium-n"); ("H", "-H")]%string its; d_z : o_z s = o_z s0 ++ hand_on [("z", "-z")]%string its }.
Lemma state_said s0 : forall its, Forall valid its -> quiet its -> said its s0 (state its s0).
Proof.
  intros its. induction its as [|i its IH] using rev_ind; intros V Q.
  - unfold state. cbn [fold_left]. constructor; try (right; split; [intros ? []|reflexivity]); try (right; split; [intros []|reflexivity]); cbn; rewrite ?app_nil_r; try reflexivity. split; [tauto|intros [[]|]; assumption].
  - apply Forall_app in V as [V Vi]. apply quiet_app in Q as [Q Qi]. inversion_clear Vi as [|? ? Vi' _]. specialize (IH V Q). unfold state. rewrite fold_left_app. cbn [fold_left]. change (fold_left _ its s0) with (state its s0).
    destruct (state its s0) as [f d m o ss w n tf tg l z] eqn:E. destruct IH as [Hf Hd Hm Ho Hu Ha Hl Hs Hn Htf Hz]. cbn [o_format o_datadir o_tm o_tmdir o_uwords o_tagger o_list o_s o_n o_tf o_z] in *.
    assert (NG : forall l c, ~ given l its -> Flag c <> Flag (chr l) -> ~ given l (its ++ [Flag c])) by (intros l0 c A B; rewrite given_app; intros [C|[C|[]]]; auto).
    assert (NV : forall l c v, ~ given l its -> ~ given l (its ++ [Value c v])) by (intros l0 c v A; rewrite given_app; intros [C|[C|[]]]; [auto|discriminate C]).
    destruct i as [c|c v]; cbn in Vi'.
    + assert (FO : forall l c w, Flag c <> Value (chr l) w) by discriminate.
      assert (UN : forall l (A B : Prop), (given l its /\ A \/ ~ given l its /\ B) -> Flag c <> Flag (chr l) -> given l (its ++ [Flag c]) /\ A \/ ~ given l (its ++ [Flag c]) /\ B).
      { intros l0 A B [[C D]|[C D]] NE; [left; split; [apply given_app; left; exact C|exact D]|right; split; [apply NG; assumption|exact D]]. }
      assert (YES : forall l, c = chr l -> given l (its ++ [Flag c])) by (intros l0 ->; apply given_app; right; left; reflexivity).
      assert (LL : c <> chr "l" -> l = true <-> given "l" (its ++ [Flag c]) \/ o_list s0 = true).
      { intros NE. rewrite given_app. rewrite Hl. unfold given at 3. cbn [In]. split; [tauto|]. intros [[A|[A|[]]]|A]; [tauto|congruence|tauto]. }
      letters Vi'; try (destruct Qi as [Q1 Q2]; exfalso; (apply Q1; left; reflexivity) || (apply Q2; left; reflexivity)); unfold upd, flag; cbn match; cbn [N.eqb Pos.eqb];
        constructor; cbn [o_format o_datadir o_tm o_tmdir o_uwords o_tagger o_list o_s o_n o_tf o_z];
        try (apply value_other; [apply FO|assumption]); try (apply UN; [assumption|discriminate]); try (apply LL; discriminate); try (left; split; [apply YES; reflexivity|reflexivity]);
        try (rewrite hand_on_app; rewrite app_assoc; first [rewrite <- Hs|rewrite <- Hn|rewrite <- Htf|rewrite <- Hz]; cbn; rewrite ?app_nil_r; reflexivity).
      split; [intros _; left; apply YES; reflexivity|reflexivity].
    + assert (UN : forall l (A B : Prop), (given l its /\ A \/ ~ given l its /\ B) -> given l (its ++ [Value c v]) /\ A \/ ~ given l (its ++ [Value c v]) /\ B).
      { intros l0 A B [[C D]|[C D]]; [left; split; [apply given_app; left; exact C|exact D]|right; split; [apply NV; assumption|exact D]]. }
      assert (LL : l = true <-> given "l" (its ++ [Value c v]) \/ o_list s0 = true).
      { rewrite given_app. rewrite Hl. unfold given at 3. cbn [In]. split; [tauto|]. intros [[A|[A|[]]]|A]; [tauto|congruence|tauto]. }
      letters Vi'; unfold upd, with_value; cbn [N.eqb Pos.eqb]; constructor; cbn [o_format o_datadir o_tm o_tmdir o_uwords o_tagger o_list o_s o_n o_tf o_z];
        try apply UN; try assumption; try apply value_same; try (apply value_other; [intros ww K; discriminate K|assumption]);
        rewrite hand_on_app; cbn [hand_on flat_map]; rewrite !app_nil_r; assumption.
Qed.

(** ** The pipeline of a format *)
Lemma transfuse_spec e t :
  match check_transfuse e t with
  | TfYes => transfuse_wanted e t
  | TfNo => ~ transfuse_wanted e t /\ ~ In (e_transfuse e) [u "1"; u "yes"]
  | TfError => ~ transfuse_wanted e t /\ In (e_transfuse e) [u "1"; u "yes"]
  end.
Proof.
  unfold check_transfuse, transfuse_wanted. change sx with u. set (x := e_transfuse e). destruct (s_command t (u "tf-extract")).
  - rewrite andb_false_r, orb_false_r. destruct (str_eqb x (u "0")) eqn:A; [apply str_eqb_eq in A; rewrite A; cbn; intuition discriminate|]. apply str_eqb_neq in A. destruct (str_eqb x (u "no")) eqn:B; [apply str_eqb_eq in B; rewrite B; cbn; intuition discriminate|]. apply str_eqb_neq in B. cbn [orb]. auto.
  - rewrite andb_true_r, orb_true_r. destruct (str_eqb x (u "1") || str_eqb x (u "yes")) eqn:A.
    + apply orb_prop in A. rewrite !str_eqb_eq in A. split; [intros [C _]; discriminate C|]. cbn [In]. intuition.
    + apply orb_false_elim in A as [A B]. apply str_eqb_neq in A, B. split; [intros [C _]; discriminate C|]. cbn [In]. intuition.
Qed.
Record fits (s : st) (q : request) (infile pair : str) (out : option str) : Prop := mkfits {
  g_format : o_format s = q_format q; g_dir : o_datadir s = q_dir q; g_tm : o_tm s = q_memory q; g_tmdir : o_tmdir s = q_direction q;
  g_u : o_uwords s = u "no" /\ q_mark q = u "-n" \/ o_uwords s = [] /\ q_mark q = u "-g"; g_tagger : o_tagger s = q_ambiguity q; g_s : o_s s = q_s q; g_n : o_n s = q_fmt q; g_tf : o_tf s = q_tf q; g_z : o_z s = q_z q;
  g_in : infile = q_in q; g_pair : pair = q_pair q; g_out : out = q_out q }.
Ltac names := repeat match goal with |- context [str_eqb (u ?a) (sx ?b)] => let r := eval vm_compute in (str_eqb (u a) (sx b)) in change (str_eqb (u a) (sx b)) with r end; cbn [orb andb].
Lemma no_tf_alt : ~ exists f, tf_format (u "html-alt") f.
Proof. intros [f H]. inversion H as [f' I| | |f' I|]; cbn in I; intuition discriminate. Qed.
Lemma no_tf_xlsx : ~ exists f, tf_format (u "xlsx") f.
Proof. intros [f H]. inversion H as [f' I| | |f' I|]; cbn in I; intuition discriminate. Qed.
Lemma tf_name f g : tf_format f g -> (f = u "odt" \/ f = u "odp") /\ g = u "odt" \/ f = u "docx" /\ g = u "docx" \/ f = u "pptx" /\ g = u "pptx" \/ (f = u "html" \/ f = u "html-noent") /\ g = u "html" \/ f = u "line" /\ g = u "line".
Proof. intros H. inversion H as [f' I| | |f' I|]; subst; cbn [In] in *; intuition. Qed.
Section Formats.
Variable e : env.
Variable t : sys.
Hypothesis HB : e_borra e = [].
Lemma by_format_spec s q infile pair out p : fits s q infile pair out -> infile <> [] -> In (q_format q) formats -> (by_format e t s infile pair out = Start p <-> pipeline e t q p).
Proof.
  intros [G1 G2 G3 G4 G5 G6 G7 G8 G9 G10 G11 G12 G13] NI IN. destruct s as [f d m o ss w n tf tg l z], q as [qf qd qm qo qmark qamb qs qfmt qtf qz qp qi qout]. cbn [o_format o_datadir o_tm o_tmdir o_uwords o_tagger o_list o_s o_n o_tf o_z q_format q_dir q_memory q_direction q_mark q_ambiguity q_s q_fmt q_tf q_z q_pair q_in q_out] in *.
  subst f d m o tg ss n tf z infile pair out. pose proof (transfuse_spec e t) as TF.
  assert (OPT : (if str_eqb w (u "no") then u "-n" else u "-g") = qmark /\ (if str_eqb w (u "no") then u "-u" else []) = if str_eqb qmark (u "-n") then u "-u" else []).
  { destruct G5 as [[-> ->]|[-> ->]]; split; reflexivity. } destruct OPT as [O1 O2].
  set (s := mkst qf qd qm qo qs w qfmt qtf qamb l qz). set (q := mkreq qf qd qm qo qmark qamb qs qfmt qtf qz qp qi qout).
  assert (TM : tm_stage t s = memory t q []) by reflexivity. assert (TMZ : tm_stage_z t s = memory t q [sx "-z"]) by (unfold tm_stage_z, memory; cbn; destruct qm; reflexivity).
  assert (RM : forall z, run_mode s z qp qmark = mode q z) by reflexivity.
  assert (TRA : forall r, translation t q ++ r = tm_stage t s ++ [run_mode s (o_z s) qp qmark] ++ r) by (intros r; unfold translation; rewrite <- app_assoc; reflexivity).
  unfold by_format. cbn [o_uwords s]. fold s. change (if str_eqb w (sx "no") then sx "-n" else sx "-g") with (if str_eqb w (u "no") then u "-n" else u "-g"). rewrite O1. change (o_format s) with qf. split.
  - intros H. cbn [In formats] in IN.
    assert (TR : forall f, transfuse t s f qi qp qmark qout = Start p -> tf_format qf f -> transfuse_wanted e t -> pipeline e t q p).
    { intros f K. injection K as <-. intros K1 K2. exact (p_transfuse e t q f K1 K2). }
    assert (PL : In qf [u "txt"; u "rtf"; u "xpresstag"; u "mediawiki"; u "wxml"] -> generic t s qi qp qout qf qmark = Start p -> pipeline e t q p).
    { intros K. unfold generic. replace (str_eqb qf (sx "none")) with false by (cbn [In] in K; repeat (destruct K as [<-|K]; [reflexivity|]); contradiction). intros K'. injection K' as <-. pose proof (p_plain e t q K) as X. rewrite TRA in X. exact X. }
    assert (TX : forall tf first re, translate_text e t s qi qp qout tf first re qmark = Start p -> text_format q qf first re ->
       (forall f, tf = Some f -> tf_format qf f) -> (tf = None -> ~ exists f, tf_format qf f) -> pipeline e t q p).
    { intros tf first re K X K1 K2. unfold translate_text in K. destruct tf as [f|].
      - destruct (check_transfuse e t); [exact (TR f K (K1 f eq_refl) TF)| |discriminate]. injection K as <-. assert (X' : pipeline e t q (mkplan (first ++ translation t q ++ [Exec [re]]) (q_out q) false None [])) by (apply (p_text e t q _ _ X); tauto). rewrite TRA in X'. exact X'.
      - injection K as <-. specialize (K2 eq_refl). assert (X' : pipeline e t q (mkplan (first ++ translation t q ++ [Exec [re]]) (q_out q) false None [])) by (apply (p_text e t q _ _ X); tauto). rewrite TRA in X'. exact X'. }
    assert (ZI : forall tf what first des re emb drop, translate_zip e t s qi qp qout tf what first des re emb drop qmark = Start p -> zip_format qf what first des re emb drop ->
       (forall f, tf = Some f -> tf_format qf f) -> (tf = None -> ~ exists f, tf_format qf f) -> pipeline e t q p).
    { intros tf what first des re emb drop K X K1 K2. unfold translate_zip, has_zip in K. rewrite HB in K. change (str_eqb [] (sx "true")) with false in K. change (o_uwords s) with w in K. change (str_eqb w (sx "no")) with (str_eqb w (u "no")) in K. change (sx "-u") with (u "-u") in K. rewrite O2 in K.
      destruct qi as [|qi0 qi1]; [congruence|]. cbn [orb] in K.
      assert (Z : (if s_command t (sx "zip") && s_command t (sx "unzip") then
          Start (mkplan (FindIn what :: first ++ [Exec (des :: o_n s)] ++ tm_stage t s ++ [run_mode s (o_z s) qp qmark; Exec [re]; Spread]) qout false
             (Some (qi0 :: qi1, if emb then [[sx "apertium"; sx "-f"; sx "xlsx"; sx "-d"; o_datadir s; if str_eqb qmark (u "-n") then u "-u" else []; qp]] else [], drop)) []) else OError NoZip) = Start p ->
          ~ ((exists f, tf_format qf f) /\ transfuse_wanted e t) -> ~ ((exists f, tf_format qf f) /\ In (e_transfuse e) [u "1"; u "yes"]) -> pipeline e t q p).
      { intros K' N1 N2. destruct (s_command t (sx "zip")) eqn:Z1; [|discriminate]. destruct (s_command t (sx "unzip")) eqn:Z2; [|discriminate]. injection K' as <-. pose proof (p_zip e t q _ _ _ _ _ _ X N1 N2 Z1 Z2) as X'. rewrite TRA in X'. exact X'. }
      destruct tf as [f|].
      - destruct (check_transfuse e t); [exact (TR f K (K1 f eq_refl) TF)| |discriminate]. apply (Z K); tauto.
      - specialize (K2 eq_refl). apply (Z K); tauto. }
    assert (LA : In qf [u "latex"; u "latex-raw"] -> translate_latex e t s qi qp qout qmark = Start p -> pipeline e t q p).
    { intros K. unfold translate_latex. rewrite HB. change (str_eqb [] (sx "true")) with false. rewrite orb_false_r. destruct (s_command t (sx "gawk")) eqn:GA; [|discriminate].
      replace (match qi with [] => true | _ => str_eqb qi (sx "/dev/stdin") end) with (str_eqb qi (u "/dev/stdin")) by (destruct qi; [congruence|reflexivity]).
      set (f := if str_eqb qi (u "/dev/stdin") then s_tmp t 1 else qi). destruct (str_eqb (s_encoding t f) (sx "utf-8") || str_eqb (s_encoding t f) (sx "us-ascii")) eqn:EN; [|discriminate]. intros K'. injection K' as <-.
      assert (X : pipeline e t q (mkplan ([Exec [u "apertium-prelatex"; f]; Exec [u "apertium-utils-fixlatex"]; Exec ([u "apertium-deslatex"] ++ q_fmt q)] ++ translation t q ++
         [Exec [u "apertium-relatex"]; Contents; Exec [u "apertium-postlatex-raw"]]) (q_out q) false None (if str_eqb (q_in q) (u "/dev/stdin") then [f] else []))); [|rewrite TRA in X; exact X].
      apply (p_latex e t q f K GA).
      - change (q_in q) with qi. unfold f. destruct (str_eqb qi (u "/dev/stdin")) eqn:D; [left; split; [apply str_eqb_eq, D|reflexivity]|right; split; [apply str_eqb_neq, D|reflexivity]].
      - apply orb_prop in EN. rewrite !str_eqb_eq in EN. cbn [In]. intuition. }
    repeat (destruct IN as [<-|IN]); try contradiction; revert H; names.
    + intros K. injection K as <-. exact (p_none e t q eq_refl).
    + apply PL. cbn [In]. tauto.
    + apply PL. cbn [In]. tauto.
    + apply PL. cbn [In]. tauto.
    + apply PL. cbn [In]. tauto.
    + apply PL. cbn [In]. tauto.
    + intros K. apply (TX _ _ _ K); [constructor|intros f [= <-]; apply tf_html; left; reflexivity|discriminate].
    + intros K. apply (TX _ _ _ K); [constructor|intros f [= <-]; apply tf_html; right; left; reflexivity|discriminate].
    + intros K. apply (TX _ _ _ K); [constructor|discriminate|intros _; exact no_tf_alt].
    + intros K. apply (TX _ _ _ K); [constructor|intros f [= <-]; apply tf_line|discriminate].
    + apply LA. cbn [In]. tauto.
    + apply LA. cbn [In]. tauto.
    + intros K. apply (ZI _ _ _ _ _ _ _ K); [apply z_odt; left; reflexivity|intros f [= <-]; apply tf_odt; left; reflexivity|discriminate].
    + intros K. apply (ZI _ _ _ _ _ _ _ K); [apply z_odt; right; left; reflexivity|intros f [= <-]; apply tf_odt; right; left; reflexivity|discriminate].
    + intros K. apply (ZI _ _ _ _ _ _ _ K); [apply z_docx|intros f [= <-]; apply tf_docx|discriminate].
    + intros K. apply (ZI _ _ _ _ _ _ _ K); [apply z_pptx|intros f [= <-]; apply tf_pptx|discriminate].
    + intros K. apply (ZI _ _ _ _ _ _ _ K); [apply z_xlsx|discriminate|intros _; exact no_tf_xlsx].
  - intros H. clear IN.
    assert (TFN : ~ ((exists f, tf_format qf f) /\ transfuse_wanted e t) -> ~ ((exists f, tf_format qf f) /\ In (e_transfuse e) [u "1"; u "yes"]) -> (exists f, tf_format qf f) -> check_transfuse e t = TfNo).
    { intros N1 N2 X. destruct (check_transfuse e t); [tauto|reflexivity|tauto]. }
    assert (TFY : transfuse_wanted e t -> check_transfuse e t = TfYes) by (intros X; destruct (check_transfuse e t); tauto).
    destruct H as [F|F|first re F N1 N2|f F W|f F GA FI EN|what first des re emb drop F N1 N2 Z1 Z2]; change (q_format q) with qf in *; rewrite ?TRA.
    + subst qf. reflexivity.
    + cbn [In] in F. repeat (destruct F as [<-|F]); try contradiction; names; reflexivity.
    + inversion F; subst; names.
      * unfold translate_html, translate_text. rewrite TFN; [reflexivity|assumption|assumption|exists (u "html"); apply tf_html; left; reflexivity].
      * unfold translate_htmlnoent, translate_text. rewrite TFN; [reflexivity|assumption|assumption|exists (u "html"); apply tf_html; right; left; reflexivity].
      * reflexivity.
      * unfold translate_line, translate_text. rewrite TFN; [reflexivity|assumption|assumption|exists (u "line"); apply tf_line].
    + pose proof (TFY W) as Y. destruct (tf_name _ _ F) as [[[-> | ->] ->]|[[-> ->]|[[-> ->]|[[[-> | ->] ->]|[-> ->]]]]]; names;
        unfold translate_html, translate_htmlnoent, translate_line, translate_text, translate_odt, translate_docx, translate_pptx, translate_zip; rewrite Y; reflexivity.
    + assert (LA : translate_latex e t s qi qp qout qmark = Start (mkplan ([Exec [u "apertium-prelatex"; f]; Exec [u "apertium-utils-fixlatex"]; Exec ([u "apertium-deslatex"] ++ q_fmt q)] ++ translation t q ++
         [Exec [u "apertium-relatex"]; Contents; Exec [u "apertium-postlatex-raw"]]) (q_out q) false None (if str_eqb (q_in q) (u "/dev/stdin") then [f] else []))).
      { unfold translate_latex. rewrite HB. change (str_eqb [] (sx "true")) with false. rewrite orb_false_r. change (sx "gawk") with (u "gawk"). rewrite GA. change (q_in q) with qi in *.
        replace (match qi with [] => true | _ => str_eqb qi (sx "/dev/stdin") end) with (str_eqb qi (u "/dev/stdin")) by (destruct qi; [congruence|reflexivity]).
        assert (FE : (if str_eqb qi (u "/dev/stdin") then s_tmp t 1 else qi) = f). { destruct FI as [[E ->]|[E ->]]; [apply str_eqb_eq in E|apply str_eqb_neq in E]; rewrite E; reflexivity. }
        rewrite FE. replace (str_eqb (s_encoding t f) (sx "utf-8") || str_eqb (s_encoding t f) (sx "us-ascii")) with true; [rewrite TRA; reflexivity|]. symmetry. apply orb_true_intro. rewrite !str_eqb_eq. cbn [In] in EN. intuition. }
      cbn [In] in F. destruct F as [<-|[<-|[]]]; names; rewrite LA, TRA; reflexivity.
    + assert (ZI : forall tf, (forall f, tf = Some f -> tf_format qf f) -> translate_zip e t s qi qp qout tf what first des re emb drop qmark =
         Start (mkplan ([FindIn what] ++ first ++ [Exec ([des] ++ q_fmt q)] ++ translation t q ++ [Exec [re]; Spread]) (q_out q) false (Some (q_in q, if emb then [embedded_command q] else [], drop)) [])).
      { intros tf TN. unfold translate_zip, has_zip. rewrite HB. change (str_eqb [] (sx "true")) with false. change (o_uwords s) with w. change (str_eqb w (sx "no")) with (str_eqb w (u "no")). change (sx "-u") with (u "-u"). rewrite O2.
        change (sx "zip") with (u "zip"). change (sx "unzip") with (u "unzip"). rewrite Z1, Z2. change (q_in q) with qi. destruct qi as [|qi0 qi1]; [congruence|]. cbn [orb andb].
        assert (E : forall a b : list stage, a ++ [] ++ b = a ++ b) by reflexivity.
        destruct tf as [g|]; [rewrite (TFN N1 N2 (ex_intro _ g (TN g eq_refl)))|]; rewrite TRA; reflexivity. }
      inversion F as [g I| | |]; subst; names.
      * destruct I as [<-|[<-|[]]]; names; rewrite <- TRA; apply ZI; intros g [= <-]; apply tf_odt; cbn [In]; tauto.
      * rewrite <- TRA. apply ZI. intros g [= <-]. apply tf_docx.
      * rewrite <- TRA. apply ZI. intros g [= <-]. apply tf_pptx.
      * rewrite <- TRA. apply ZI. discriminate.
Qed.
End Formats.

(** ** The whole script *)
Lemma preopt_spec args pre r : preopt args = (pre, r) <-> args = pre ++ r /\ Forall no_dash pre /\ (forall a x, r = a :: x -> ~ no_dash a).
Proof.
  revert pre r. induction args as [|a args IH]; intros pre r; cbn [preopt].
  - split; [intros [= <- <-]; repeat split; [constructor|discriminate]|]. intros (E & _ & _). destruct pre, r; try discriminate. reflexivity.
  - assert (X : no_dash a -> (let (p, q) := preopt args in (a :: p, q)) = (pre, r) <-> a :: args = pre ++ r /\ Forall no_dash pre /\ (forall a x, r = a :: x -> ~ no_dash a)).
    { intros ND. destruct (preopt args) as [p q] eqn:P. destruct (proj1 (IH p q) eq_refl) as (E & F & G). split.
      - intros [= <- <-]. subst args. repeat split; [constructor; assumption|exact G].
      - intros (E' & F' & G'). destruct pre as [|b pre]; cbn [app] in E'; [subst r; destruct (G' _ _ eq_refl ND)|]. injection E' as <- E'. inversion_clear F' as [|? ? _ F'']. pose proof (proj2 (IH pre r) (conj E' (conj F'' G'))) as K. congruence. }
    destruct a as [|c a]; [apply X; exact I|]. destruct (N.eq_dec c cDASH) as [->|E].
    + rewrite ceq_refl. split.
      * intros [= <- <-]. repeat split; [constructor|]. intros b x [= <- <-] K. cbn in K. congruence.
      * intros (E & F & G). destruct pre as [|b pre]; cbn [app] in E; [congruence|]. injection E as <- E. inversion_clear F as [|? ? F1 _]. cbn in F1. congruence.
    + rewrite (proj2 (ceq_neq _ _) E). apply X. exact E.
Qed.
Lemma cmdline_pre args pre r its pos : preopt args = (pre, r) -> (cmdline args its pos <-> exists rest post, reads its r rest /\ ends rest post /\ pos = pre ++ post).
Proof.
  intros P. split.
  - intros (pre' & r' & rest & post & E & F & G & R & D & ->). pose proof (proj2 (preopt_spec args pre' r') (conj E (conj F G))) as K. rewrite P in K. injection K as <- <-. exists rest, post. auto.
  - intros (rest & post & R & D & ->). apply preopt_spec in P as (E & F & G). exists pre, r, rest, post. repeat (split; [assumption|]). reflexivity.
Qed.
Lemma given_valid l its : given l its \/ ~ given l its.
Proof. unfold given. destruct (in_dec (fun a b : item => ltac:(decide equality; (apply N.eq_dec || apply (list_eq_dec N.eq_dec))) : {a = b} + {a <> b}) (Flag (chr l)) its); auto. Qed.
Section Whole.
Variable e : env.
Variable t : sys.
Hypothesis HC : clean e.
Hypothesis HU : s_utf8 t = true.
Hypothesis HE : s_exists t [] = false.
(** what the checks do once the request is known *)
Lemma checks_spec s q infile pair out : fits s q infile pair out -> checks e t s infile pair out =
  if s_exists t (q_in q) && s_readable t (q_in q) && match q_memory q with [] => true | m => s_tmx t (q_direction q) m end && s_dir t (q_dir q ++ u "/modes") then
    if s_exists t (mode_of q) then by_format e t s infile pair out else OError NoMode
  else OUsage.
Proof.
  intros [G1 G2 G3 G4 G5 G6 G7 G8 G9 G10 G11 G12 G13]. unfold checks, mode_file, mode_of. rewrite G2, G3, G4, G12. change sx with u.
  rewrite <- G11. clear G11. destruct (s_exists t infile), (s_readable t infile); cbn [andb]; try reflexivity. destruct (match q_memory q with [] => true | _ :: _ => _ end); [|reflexivity]. destruct (s_dir t (q_dir q ++ u "/modes")); reflexivity.
Qed.
Lemma usable_spec q : usable t q <-> s_exists t (q_in q) && s_readable t (q_in q) && match q_memory q with [] => true | m => s_tmx t (q_direction q) m end && s_dir t (q_dir q ++ u "/modes") = true.
Proof.
  unfold usable. rewrite !andb_true_iff. destruct (q_memory q) as [|x y]; split; intros H.
  - tauto.
  - destruct H as [[[A B] C] D]. split; [exact A|]. split; [exact B|]. split; [intros K; congruence|exact D].
  - destruct H as (A & B & C & D). repeat split; try assumption. apply C. discriminate.
  - tauto.
Qed.
Lemma not_version s i p o : checks e t s i p o <> OVersion.
Proof.
  assert (G : forall f k, generic t s i p o f k <> OVersion) by discriminate.
  assert (T : forall tf a b k, translate_text e t s i p o tf a b k <> OVersion) by (intros tf a b k; unfold translate_text, transfuse; destruct tf; [destruct (check_transfuse e t)|]; discriminate).
  assert (Z : forall tf a b c d x y k, translate_zip e t s i p o tf a b c d x y k <> OVersion) by (intros tf a b c d x y k; unfold translate_zip, transfuse; destruct tf; [destruct (check_transfuse e t); try discriminate|]; (destruct (has_zip t); discriminate)).
  assert (L : forall k, translate_latex e t s i p o k <> OVersion) by (intros k; unfold translate_latex; cbv zeta; repeat (match goal with |- (if ?b then _ else _) <> _ => destruct b end; try discriminate)).
  unfold checks. do 4 (match goal with |- (if ?b then _ else _) <> _ => destruct b end; [|discriminate]).
  unfold by_format. cbv zeta. set (k := if str_eqb (o_uwords s) (sx "no") then sx "-n" else sx "-g").
  repeat (match goal with |- (if ?b then _ else _) <> _ => destruct b end; [first [apply G|apply T|apply Z|apply L|destruct (s_latin1 t); discriminate]|]). apply G.
Qed.
(** the request of a command line that is read completely *)
Lemma run_request args its pos : cmdline args its pos -> quiet its ->
  (given "l" its -> exists d, value_of "d" its (e_datadir e) d /\ main e t args = OList d) /\
  (~ given "l" its -> (length pos = 0 \/ length pos > 3) /\ main e t args = OUsage \/
     exists q s, requests e its pos q /\ fits s q (q_in q) (q_pair q) (q_out q) /\ main e t args = checks e t s (q_in q) (q_pair q) (q_out q)).
Proof.
  intros H Q. destruct (preopt args) as [pre r] eqn:P. apply (cmdline_pre _ _ _ _ _ P) in H as (rest & post & R & D & ->).
  pose proof (getopts_reads _ _ _ R Q (st_init e)) as G. rewrite (getopts_ends _ _ _ D) in G. pose proof (state_said (st_init e) its (reads_valid _ _ _ R) Q) as S.
  unfold main. rewrite HU, P, G. set (s := state its (st_init e)) in *. destruct S as [Hf Hd Hm Ho Hu Ha Hl Hs Hn Htf Hz]. cbn [st_init o_format o_datadir o_tm o_tmdir o_uwords o_tagger o_list o_s o_n o_tf o_z app] in *.
  destruct HC as (C1 & C2 & C3 & C4 & C5 & C6). rewrite C1 in Hu. rewrite C2 in Ha. rewrite C3 in Hm. split.
  - intros L. rewrite (proj2 Hl (or_introl L)). exists (o_datadir s). auto.
  - intros NL. assert (OL : o_list s = false). { destruct (o_list s); [|reflexivity]. destruct (proj1 Hl eq_refl); [contradiction|discriminate]. } rewrite OL. rewrite C4. cbn [out_of].
    pose (mk := fun p i o => mkreq (o_format s) (o_datadir s) (o_tm s) (o_tmdir s) (if str_eqb (o_uwords s) (u "no") then u "-n" else u "-g") (o_tagger s) (o_s s) (o_n s) (o_tf s) (o_z s) p i o).
    assert (RQ : forall p i o, (pre ++ post = [p] /\ i = u "/dev/stdin" /\ o = None \/ pre ++ post = [p; i] /\ o = None \/ exists o', pre ++ post = [p; i; o'] /\ o = Some o') -> requests e its (pre ++ post) (mk p i o)).
    { intros p i o X. unfold requests, mk. cbn [q_format q_dir q_memory q_direction q_mark q_ambiguity q_s q_fmt q_tf q_z q_pair q_in q_out]. repeat (split; [assumption|]). split; [|repeat (split; [assumption|]); exact X].
      destruct Hu as [[A B]|[A B]]; rewrite B; [left|right]; split; try assumption; reflexivity. }
    assert (FT : forall p i o, fits s (mk p i o) i p o).
    { intros p i o. constructor; try reflexivity. unfold mk. cbn [q_mark]. destruct Hu as [[A B]|[A B]]; rewrite B; [left|right]; split; reflexivity. }
    destruct (pre ++ post) as [|p [|i [|o [|x y]]]] eqn:EP; [left; split; [left; reflexivity|reflexivity]| | | |left; split; [right; cbn; lia|reflexivity]]; right.
    + exists (mk p (u "/dev/stdin") None), s. split; [apply RQ; left; auto|]. split; [apply FT|reflexivity].
    + exists (mk p i None), s. split; [apply RQ; right; left; auto|]. split; [apply FT|reflexivity].
    + exists (mk p i (Some o)), s. split; [apply RQ; right; right; exists o; auto|]. split; [apply FT|reflexivity].
Qed.
Lemma requests_fun its pos q q' : requests e its pos q -> requests e its pos q' -> q = q'.
Proof.
  intros (A1 & A2 & A3 & A4 & A5 & A6 & A7 & A8 & A9 & A10 & A11) (B1 & B2 & B3 & B4 & B5 & B6 & B7 & B8 & B9 & B10 & B11). destruct q as [a1 a2 a3 a4 a5 a6 a7 a8 a9 a10 a11 a12 a13], q' as [b1 b2 b3 b4 b5 b6 b7 b8 b9 b10 b11 b12 b13]. cbn [q_format q_dir q_memory q_direction q_mark q_ambiguity q_s q_fmt q_tf q_z q_pair q_in q_out] in *.
  pose proof (value_fun _ _ _ _ _ A1 B1). pose proof (value_fun _ _ _ _ _ A2 B2). pose proof (value_fun _ _ _ _ _ A3 B3). pose proof (value_fun _ _ _ _ _ A4 B4).
  assert (a5 = b5) by (destruct A5 as [[? ?]|[? ?]], B5 as [[? ?]|[? ?]]; congruence || contradiction). assert (a6 = b6) by (destruct A6 as [[? ?]|[? ?]], B6 as [[? ?]|[? ?]]; congruence || contradiction).
  assert (a11 = b11 /\ a12 = b12 /\ a13 = b13) as (? & ? & ?) by (destruct A11 as [(? & ? & ?)|[(? & ?)|(? & ? & ?)]], B11 as [(? & ? & ?)|[(? & ?)|(? & ? & ?)]]; repeat split; congruence). congruence.
Qed.
Lemma cmdline_fun args its pos its' pos' : quiet its -> quiet its' -> cmdline args its pos -> cmdline args its' pos' -> state its (st_init e) = state its' (st_init e) /\ pos = pos'.
Proof.
  intros Q Q' H K. destruct (preopt args) as [pre r] eqn:P. apply (cmdline_pre _ _ _ _ _ P) in H as (rest & post & R & D & ->). apply (cmdline_pre _ _ _ _ _ P) in K as (rest' & post' & R' & D' & ->).
  pose proof (getopts_reads _ _ _ R Q (st_init e)) as G. rewrite (getopts_ends _ _ _ D) in G. pose proof (getopts_reads _ _ _ R' Q' (st_init e)) as G'. rewrite (getopts_ends _ _ _ D') in G'. rewrite G in G'. injection G' as -> ->. auto.
Qed.
Lemma main_cases args :
  (exists its pos, quiet its /\ cmdline args its pos) \/
  (exists pre args' its cs rest, args = pre ++ args' /\ Forall no_dash pre /\ quiet its /\ reads its args' ((cDASH :: chr "V" :: cs) :: rest)) /\ main e t args = OVersion \/
  main e t args = OUsage.
Proof.
  destruct (preopt args) as [pre r] eqn:P. destruct (getopts_total _ r (le_n _)) as [(its & rest & post & Q & R & D)|[(its & cs & rest & Q & R)|U]].
  - left. exists its, (pre ++ post). split; [exact Q|]. apply (cmdline_pre _ _ _ _ _ P). exists rest, post. auto.
  - right. left. split.
    + exists pre, r, its, cs, rest. apply preopt_spec in P as (E & F & _). auto.
    + unfold main. rewrite HU, P, (getopts_version _ _ _ _ (st_init e) R Q). reflexivity.
  - right. right. unfold main. rewrite HU, P, (U (st_init e)). reflexivity.
Qed.
Theorem starts args p : (forall its pos f, cmdline args its pos -> value_of "f" its (u "txt") f -> In f formats) ->
  (main e t args = Start p <-> exists its pos q, cmdline args its pos /\ ~ given "V" its /\ ~ given "h" its /\ ~ given "l" its /\ requests e its pos q /\ usable t q /\ s_exists t (mode_of q) = true /\ pipeline e t q p).
Proof.
  intros HF. split.
  - intros H. destruct (main_cases args) as [(its & pos & Q & C)|[[_ K]|K]]; [|congruence|congruence]. destruct (run_request args its pos C Q) as [L NL]. destruct (given_valid "l" its) as [G|G]; [destruct (L G) as (d & _ & K); congruence|].
    destruct (NL G) as [[_ K]|(q & s & R & F & K)]; [congruence|]. rewrite H, (checks_spec _ _ _ _ _ F) in K.
    match type of K with _ = if ?b then _ else _ => destruct b eqn:U end; [|discriminate]. destruct (s_exists t (mode_of q)) eqn:M; [|discriminate]. pose proof (proj2 (usable_spec q) U) as US.
    exists its, pos, q. split; [exact C|]. destruct Q as [Q1 Q2]. repeat (split; [assumption|]). symmetry in K. refine (proj1 (by_format_spec e t (proj2 (proj2 (proj2 (proj2 (proj2 HC))))) s q _ _ _ p F _ _) K).
    + intros E. destruct US as [US _]. rewrite E, HE in US. discriminate.
    + apply (HF its pos _ C). apply R.
  - intros (its & pos & q & C & Q1 & Q2 & G & R & US & M & PL). destruct (run_request args its pos C (conj Q1 Q2)) as [_ NL]. destruct (NL G) as [[K _]|(q' & s & R' & F & K)].
    + exfalso. destruct R as (_ & _ & _ & _ & _ & _ & _ & _ & _ & _ & R). destruct R as [(E & _)|[(E & _)|(o & E & _)]]; rewrite E in K; cbn in K; lia.
    + pose proof (requests_fun _ _ _ _ R' R) as E. subst q'. rewrite K, (checks_spec _ _ _ _ _ F), (proj1 (usable_spec q) US), M. refine (proj2 (by_format_spec e t (proj2 (proj2 (proj2 (proj2 (proj2 HC))))) s q _ _ _ p F _ _) PL).
      * intros E. destruct US as [US _]. rewrite E, HE in US. discriminate.
      * apply (HF its pos _ C). apply R.
Qed.
Theorem versions args : main e t args = OVersion <-> exists pre args' its cs rest, args = pre ++ args' /\ Forall no_dash pre /\ quiet its /\ reads its args' ((cDASH :: chr "V" :: cs) :: rest).
Proof.
  split.
  - intros H. destruct (main_cases args) as [(its & pos & Q & C)|[[K _]|K]]; [|exact K|congruence]. exfalso. destruct (run_request args its pos C Q) as [L NL]. destruct (given_valid "l" its) as [G|G]; [destruct (L G) as (d & _ & K); congruence|].
    destruct (NL G) as [[_ K]|(q & s & R & F & K)]; [congruence|]. rewrite H in K. symmetry in K. exact (not_version _ _ _ _ K).
  - intros (pre & args' & its & cs & rest & E & F & Q & R). destruct (preopt args) as [pre' r'] eqn:P.
    assert (E' : pre' = pre /\ r' = args').
    { assert (K : preopt args = (pre, args')). { apply preopt_spec. split; [exact E|]. split; [exact F|]. intros a x -> ND. inversion R; subst; cbn in ND; congruence. } rewrite P in K. injection K as -> ->. auto. }
    destruct E' as [-> ->]. unfold main. rewrite HU, P, (getopts_version _ _ _ _ (st_init e) R Q). reflexivity.
Qed.
End Whole.
