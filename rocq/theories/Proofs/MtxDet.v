From Coq Require Import String.
From Verif Require Import Model.Base Model.Serialiser Model.Stream Model.FeatureVec Model.PerceptronVM.
Open Scope nat_scope.

Section Det.
Variables (u8 : str -> str) (show : Z -> str) (co : option (morpheme -> str)) (ltr : bool).
Variables (tagged : list (option (list morpheme))) (untagged : list lexunit) (ti wi : Z).
Section Code.
Variables (STRS : list str) (SETS : list (list str)) (GL : list value) (PRG : code).
Notation stepm := (step u8 show co ltr STRS SETS GL tagged untagged ti wi PRG).
Notation starm := (star u8 show co ltr STRS SETS GL tagged untagged ti wi PRG).
Definition stops (b : bool) (m : mach) : Prop := forall m', stepm b m <> Next m'.
Lemma star_det b m a1 a2 : starm b m a1 -> starm b m a2 -> stops b a1 -> stops b a2 -> a1 = a2.
Proof.
  intros H1. revert a2. induction H1 as [m|m m1 m2 Hs H IH]; intros a2 H2 S1 S2.
  - inversion H2; subst; [reflexivity|]. exfalso. eapply S1. eassumption.
  - inversion H2; subst; [exfalso; eapply S2; eassumption|]. assert (m1 = m3) by congruence. subst. auto.
Qed.
Ltac st := unfold stops; intros; try congruence; match goal with H : _ \/ _ |- _ => destruct H; congruence end.
Ltac det H1 H2 := match type of H1 with star _ _ _ _ _ _ _ _ _ _ _ _ ?b _ ?x => match type of H2 with star _ _ _ _ _ _ _ _ _ _ _ _ _ _ ?y =>
  assert (x = y) by (apply (star_det b _ _ _ H1 H2); st); subst y end end.
Lemma gf_det f r1 r2 : get_feature u8 show co ltr STRS SETS GL tagged untagged ti wi PRG f r1 -> get_feature u8 show co ltr STRS SETS GL tagged untagged ti wi PRG f r2 -> r1 = r2.
Proof.
  intros H1 H2. inversion H1 as [? m1 m1' A1 B1 C1|? m1 m1' A1 B1 C1|? m1 A1 B1|? m1 A1 B1]; inversion H2 as [? m2 m2' A2 B2 C2|? m2 m2' A2 B2 C2|? m2 A2 B2|? m2 A2 B2]; subst; det A1 A2; try congruence;
  try (destruct B1; congruence); try (destruct B2; congruence);
  assert (m1' = m2') by congruence; subst; congruence.
Qed.
(* running it *)
Fixpoint run_for (n : nat) (b : bool) (m : mach) : mach :=
  match n with 0 => m | S n => match stepm b m with Next m' => run_for n b m' | _ => m end end.
Lemma run_star b n : forall m, starm b m (run_for n b m).
Proof. induction n as [|n IH]; intros m; [apply star_refl|]. cbn. destruct (stepm b m) eqn:E; try apply star_refl. eapply star_step; [exact E|apply IH]. Qed.
Definition feature_of (n : nat) (f : ufvec) : option (option ufvec) :=
  match stepm true (run_for n true (mkmach 0 [] [] (fun _ => None) f)) with
  | Halt m => Some (match stk m with [] => Some (fv m) | _ => None end)
  | Dead => Some (Some []) | Exn | Crash => Some None | Next _ => None
  end.
Lemma feature_of_ok n f r : feature_of n f = Some r -> get_feature u8 show co ltr STRS SETS GL tagged untagged ti wi PRG f r.
Proof.
  unfold feature_of. pose proof (run_star true n (mkmach 0 [] [] (fun _ => None) f)) as R. set (m := run_for _ _ _) in *. destruct (stepm true m) as [m'|m'| | |] eqn:E; try discriminate; intros H; injection H as <-.
  - destruct (stk m') eqn:K; [eapply gf_end; eassumption|eapply gf_assert; [exact R|exact E|congruence]].
  - eapply gf_dead; eassumption.
  - eapply gf_crash; eauto.
  - eapply gf_crash; eauto.
Qed.
Definition value_of (n : nat) : option (out value) :=
  match stepm false (run_for n false (mkmach 0 [] [] (fun _ => None) [])) with
  | Halt m => Some (match stk m with [] => Exc | [v] => PerceptronVM.Ok v | _ => Bad end)
  | Exn => Some Exc | Crash => Some Bad | _ => None
  end.
Lemma value_of_ok n r : value_of n = Some r -> get_value u8 show co ltr STRS SETS GL tagged untagged ti wi PRG r.
Proof.
  unfold value_of. pose proof (run_star false n (mkmach 0 [] [] (fun _ => None) [])) as R. set (m := run_for _ _ _) in *. destruct (stepm false m) as [m'|m'| | |] eqn:E; try discriminate; intros H; injection H as <-.
  - destruct (stk m') as [|v [|w l]] eqn:K; [eapply gv_empty; eassumption|eapply gv_end; eassumption|]. eapply gv_assert; [exact R|exact E|]. rewrite K. cbn. lia.
  - eapply gv_exn; eassumption.
  - eapply gv_crash; eassumption.
Qed.
Lemma gv_det r1 r2 : get_value u8 show co ltr STRS SETS GL tagged untagged ti wi PRG r1 -> get_value u8 show co ltr STRS SETS GL tagged untagged ti wi PRG r2 -> r1 = r2.
Proof.
  intros H1 H2.
  inversion H1 as [m1 m1' v1 A1 B1 C1|m1 m1' A1 B1 C1|m1 m1' A1 B1 C1|m1 A1 B1|m1 A1 B1]; inversion H2 as [m2 m2' v2 A2 B2 C2|m2 m2' A2 B2 C2|m2 m2' A2 B2 C2|m2 A2 B2|m2 A2 B2]; subst; det A1 A2; try congruence;
  assert (m1' = m2') by congruence; subst; try congruence; try (rewrite C1 in C2; cbn in C2; lia); try (rewrite C2 in C1; cbn in C1; lia).
Qed.
End Code.
Variable sp : spec.
Lemma ph_det r1 r2 : pred_holds u8 show co ltr sp tagged untagged ti wi r1 -> pred_holds u8 show co ltr sp tagged untagged ti wi r2 -> r1 = r2.
Proof.
  intros H1 H2. inversion H1 as [A|b1 A B|A B|v1 A B C]; inversion H2 as [A2|b2 A2 B2|A2 B2|v2 A2 B2 C2]; subst; try congruence;
  pose proof (gv_det _ _ _ _ _ _ B B2) as E; try congruence; try (subst; destruct C2 as [C2|(x & C2 & C3)]; [congruence|injection C2 as <-; exfalso; eapply C3; reflexivity]);
  try (subst; destruct C as [C|(x & C & C3)]; [congruence|injection C as <-; exfalso; eapply C3; reflexivity]).
  - subst; destruct C2 as [C2|(x & C2 & C3)]; congruence.
  - subst; destruct C as [C|(x & C & C3)]; congruence.
Qed.
Lemma gr_det cs : forall done r1 r2, global_results u8 show co ltr sp tagged untagged ti wi cs done r1 -> global_results u8 show co ltr sp tagged untagged ti wi cs done r2 -> r1 = r2.
Proof.
  induction cs as [|c cs IH]; intros done r1 r2 H1 H2; inversion H1; inversion H2; subst; try congruence;
  match goal with A : get_value _ _ _ _ _ _ _ _ _ _ _ _ _, B : get_value _ _ _ _ _ _ _ _ _ _ _ _ _ |- _ => pose proof (gv_det _ _ _ _ _ _ A B) as E end;
  try congruence; try (match goal with H : _ \/ _ |- _ => destruct H; congruence end). injection E as <-. eauto.
Qed.
Lemma fr_det gl cs : forall i r1 r2, feature_results u8 show co ltr sp tagged untagged ti wi gl i cs r1 -> feature_results u8 show co ltr sp tagged untagged ti wi gl i cs r2 -> r1 = r2.
Proof.
  induction cs as [|c cs IH]; intros i r1 r2 H1 H2; inversion H1; inversion H2; subst; try congruence;
  match goal with A : get_feature _ _ _ _ _ _ _ _ _ _ _ _ _ _, B : get_feature _ _ _ _ _ _ _ _ _ _ _ _ _ _ |- _ => pose proof (gf_det _ _ _ _ _ _ _ A B) as E end; try congruence;
  match goal with A : feature_results _ _ _ _ _ _ _ _ _ _ _ _ _, B : feature_results _ _ _ _ _ _ _ _ _ _ _ _ _ |- _ => pose proof (IH _ _ _ A B) end; congruence.
Qed.
Theorem gfs_det r1 r2 : get_features u8 show co ltr sp tagged untagged ti wi r1 -> get_features u8 show co ltr sp tagged untagged ti wi r2 -> r1 = r2.
Proof.
  intros H1 H2. inversion H1 as [A|A|A B|gl1 ? A B C]; inversion H2 as [A2|A2|A2 B2|gl2 ? A2 B2 C2]; subst; try congruence; pose proof (ph_det _ _ A A2); try congruence;
  pose proof (gr_det _ _ _ _ B B2) as E; try congruence. injection E as <-. eapply fr_det; eassumption.
Qed.
(* one condition, no variables, some features *)
Definition pred_of (n : nat) : option (option bool) :=
  match sp_pred sp with
  | [] => Some (Some true)
  | c => match value_of (sp_strs sp) (sp_sets sp) [] c n with
         | Some (PerceptronVM.Ok (VBool b)) => Some (Some b) | Some Exc => Some (Some false) | Some _ => Some None | None => None end
  end.
Lemma pred_of_ok n r : pred_of n = Some r -> pred_holds u8 show co ltr sp tagged untagged ti wi r.
Proof.
  unfold pred_of. destruct (sp_pred sp) as [|b c] eqn:E; [intros H; injection H as <-; apply ph_none; exact E|].
  assert (sp_pred sp <> []) as Hn by (rewrite E; discriminate). rewrite <- E. destruct (value_of _ _ _ _ n) as [v|] eqn:Ev; [|discriminate]. apply value_of_ok in Ev.
  destruct v as [v| |]; [|intros H; injection H as <-; apply ph_exc; assumption|intros H; injection H as <-; eapply ph_bad; eauto].
  assert ((exists b, v = VBool b) \/ forall b, v <> VBool b) as [[b' ->]|Hv] by (destruct v; eauto; right; discriminate).
  - intros H; injection H as <-. apply ph_val; assumption.
  - intros H. assert (r = None) as -> by (destruct v; try (injection H; auto; fail); exfalso; eapply Hv; reflexivity). eapply ph_bad; eauto.
Qed.
Fixpoint feats_of (n : nat) (i : nat) (cs : list code) : option (option ufvec) :=
  match cs with
  | [] => Some (Some [])
  | c :: cs => match feature_of (sp_strs sp) (sp_sets sp) [] c n [[[N.of_nat (i mod 256)]]] with
               | Some (Some f) => match feats_of n (S i) cs with Some (Some r) => Some (Some (f ++ r)) | x => x end
               | x => x
               end
  end.
Lemma feats_of_ok n cs : forall i r, feats_of n i cs = Some r -> feature_results u8 show co ltr sp tagged untagged ti wi [] i cs r.
Proof.
  induction cs as [|c cs IH]; intros i r; cbn [feats_of]; [intros H; injection H as <-; apply fr_nil|].
  destruct (feature_of _ _ _ _ _ _) as [[f|]|] eqn:Ef; [|intros H; injection H as <-; apply feature_of_ok in Ef; apply fr_bad; exact Ef|discriminate]. apply feature_of_ok in Ef.
  destruct (feats_of n (S i) cs) as [[r'|]|] eqn:Er; [| |discriminate]; apply IH in Er; intros H; injection H as <-; [apply fr_cons; assumption|eapply fr_later; eassumption].
Qed.
Definition features_of (n : nat) : option (option ufvec) :=
  match sp_globals sp with
  | [] => match pred_of n with Some (Some false) => Some (Some []) | Some (Some true) => feats_of n 0 (sp_feats sp) | Some None => Some None | None => None end
  | _ => None
  end.
Theorem features_of_ok n r : features_of n = Some r -> get_features u8 show co ltr sp tagged untagged ti wi r.
Proof.
  unfold features_of. destruct (sp_globals sp) eqn:G; [|discriminate]. destruct (pred_of n) as [[[|]|]|] eqn:E; try discriminate; apply pred_of_ok in E; intros H.
  - eapply gfs_yes; [exact E|rewrite G; apply gr_nil|]. eapply feats_of_ok. exact H.
  - injection H as <-. apply gfs_no. exact E.
  - injection H as <-. apply gfs_pbad. exact E.
Qed.
End Det.
