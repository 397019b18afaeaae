(** The compiled machine over documents. *)
From Coq Require Import String ZArith.
From Verif Require Import Model.Base Model.Codec Model.FeatureVec Model.Caps Model.CapsRules Spec.Caps Spec.CapsRules.
From Verif Require Import Proofs.Base Proofs.CapsCompile Proofs.CapsState Proofs.CapsAlign Proofs.CapsRun Proofs.Caps.
Open Scope nat_scope.

(** ** what the machine may have read, after words (the last first) *)
Fixpoint YN (rs : list word) (e : list etk) : Prop :=
  match rs with
  | [] => e = [] \/ e = [XT TBegin]
  | w :: rs => (exists e0, YN rs e0 /\ (e = e0 ++ [XT (TWord w)] \/ e = e0 ++ [XT (TWord w); XE])) \/ e = []
  end.
Lemma xt_snoc ts e0 x : map XT ts = e0 ++ [x] -> exists ts' y, ts = ts' ++ [y] /\ e0 = map XT ts' /\ x = XT y.
Proof.
  destruct ts as [|z ts0 _] using rev_ind.
  - intros H. destruct e0; discriminate.
  - rewrite map_app. cbn [map]. intros H. apply app_inj_tail in H. destruct H as [H1 H2]. eauto 6.
Qed.
Lemma xe_snoc ts e0 x : map XT ts ++ [XE] = e0 ++ [x] -> e0 = map XT ts /\ x = XE.
Proof. intros H. apply app_inj_tail in H. destruct H; auto. Qed.
Lemma ends_snoc ws w ts : ends (ws ++ [w]) ts /\ has_word ts <-> exists ts', ts = ts' ++ [TWord w] /\ ends ws ts'.
Proof.
  split.
  - intros [[pre r E|] [v Hv]].
    + destruct r as [|y r0 _] using rev_ind; [destruct Hv|]. rewrite app_assoc in E. apply app_inj_tail in E. destruct E as [-> ->]. exists (map TWord r0). rewrite map_app. split; [reflexivity|]. econstructor. reflexivity.
    + exists (TBegin :: map TWord ws). rewrite map_app. split; [reflexivity|]. apply E_all.
  - intros (ts' & -> & H). split; [|exists w; apply in_or_app; right; left; reflexivity]. inversion H as [pre r E|]; subst.
    + change [TWord w] with (map TWord [w]). rewrite <- map_app. apply E_part with (pre := pre). rewrite app_assoc. reflexivity.
    + change ((TBegin :: map TWord ws) ++ [TWord w]) with (TBegin :: map TWord ws ++ map TWord [w]). rewrite <- map_app. apply E_all.
Qed.
Lemma ends_dec ws w ts : ends (ws ++ [w]) ts <-> ts = [] \/ exists ts', ts = ts' ++ [TWord w] /\ ends ws ts'.
Proof.
  rewrite <- ends_snoc. split.
  - intros H. inversion H as [pre r E|]; subst.
    + destruct r as [|y r]; [left; reflexivity|]. right. split; [exact H|]. exists y. left; reflexivity.
    + right. split; [exact H|]. exists w. right. apply in_map, in_or_app. right; left; reflexivity.
  - intros [->|[H _]]; [|exact H]. apply (E_part _ (ws ++ [w]) []). rewrite app_nil_r. reflexivity.
Qed.
Lemma yn_ends rs : forall ts, YN rs (map XT ts) <-> ends (rev rs) ts.
Proof.
  induction rs as [|w rs IH]; intros ts; cbn [YN rev].
  - split.
    + intros [H|H]; [destruct ts; [apply (E_part [] [] []); reflexivity|discriminate]|]. destruct ts as [|y [|]]; try discriminate. injection H as ->. apply E_all.
    + intros H. inversion H as [pre r E|]; subst; [|right; reflexivity]. symmetry in E. apply app_eq_nil in E. destruct E as [-> ->]. left; reflexivity.
  - rewrite ends_dec. split.
    + intros [(e0 & H & [E|E])|E].
      * apply xt_snoc in E. destruct E as (ts' & y & -> & -> & E). injection E as <-. right. exists ts'. split; [reflexivity|apply IH; exact H].
      * change [XT (TWord w); XE] with ([XT (TWord w)] ++ [XE]) in E. rewrite app_assoc in E. apply xt_snoc in E. destruct E as (ts' & y & _ & _ & E). discriminate.
      * left. destruct ts; [reflexivity|discriminate].
    + intros [->|(ts' & -> & H)]; [right; reflexivity|]. left. exists (map XT ts'). split; [apply IH; exact H|]. left. rewrite map_app. reflexivity.
Qed.
Definition YA (rs : list word) (w : word) (e : list etk) : Prop := exists e0, YN rs e0 /\ (e = e0 ++ [XT (TWord w)] \/ e = e0 ++ [XT (TWord w); XE]).
Lemma ya_ends rs w ts : YA rs w (map XT ts ++ [XE]) <-> ends (rev rs ++ [w]) ts /\ has_word ts.
Proof.
  rewrite ends_snoc. split.
  - intros (e0 & H & [E|E]); [apply xe_snoc in E; destruct E; discriminate|]. change [XT (TWord w); XE] with ([XT (TWord w)] ++ [XE]) in E. rewrite app_assoc in E. apply xe_snoc in E. destruct E as [E _]. symmetry in E.
    apply xt_snoc in E. destruct E as (ts' & y & -> & -> & E). injection E as <-. exists ts'. split; [reflexivity|apply yn_ends; exact H].
  - intros (ts' & -> & H). exists (map XT ts'). split; [apply yn_ends; exact H|]. right. rewrite map_app, <- app_assoc. reflexivity.
Qed.
Lemma yb_ends rs ts : (YN rs (map XT ts ++ [XE]) \/ exists e, YN rs e /\ map XT ts ++ [XE] = e ++ [XE]) <-> ends (rev rs) ts.
Proof.
  split.
  - intros [H|(e & H & E)]; [|apply xe_snoc in E; destruct E as [-> _]; apply yn_ends; exact H]. destruct rs as [|w rs]; cbn [YN] in H.
    + destruct H as [H|H]; [destruct ts; discriminate|]. destruct ts as [|y [|]]; discriminate.
    + destruct H as [H|H]; [|destruct ts; discriminate]. cbn [rev]. apply (ya_ends rs w ts) in H. exact (proj1 H).
  - intros H. right. exists (map XT ts). split; [apply yn_ends; exact H|reflexivity].
Qed.
Fixpoint nwe (e : list etk) : nat := match e with [] => 0 | XT (TWord _) :: r => S (nwe r) | _ :: r => nwe r end.
Lemma nwe_app a b : nwe (a ++ b) = nwe a + nwe b.
Proof. induction a as [|[[|w]|] a IH]; cbn [app nwe]; lia. Qed.
Lemma nwe_xt ts : nwe (map XT ts ++ [XE]) = nw ts.
Proof. rewrite nwe_app. cbn [nwe]. induction ts as [|[|w] ts IH]; cbn [map nwe nw]; lia. Qed.

Section D.
Variable isupper : char -> bool.
Variables (rules : list (list cnode)) (t : trans).
Hypothesis C : compile isupper rules = Some t.
Hypothesis PL : Forall (Forall plain_node) rules.
Variables (W : Type) (w0 : W) (weights : list W).
Notation Wt := (weight_of w0 (load_weights weights)).
Notation ini := (st_init t).
Notation snul := (st_step_optional t null_boundary).
Notation swb := (st_step_optional t word_boundary).
Notation sw := (st_word isupper t).
Notation fin := (st_finals t).
Notation mrg := (st_merge t).
Notation has := (has isupper t).
Notation aft := (Spec.Caps.after (list conf) swb sw).
Notation nxt := (next (list conf) ini st_dead mrg).
Notation votes := (all_votes W Wt (list conf) ini swb sw fin st_dead mrg).
Notation Fits := (fits W Wt (list conf) ini swb sw fin st_dead mrg).
Lemma has_start : has (start (list conf) ini snul) (YN []).
Proof.
  unfold start. eapply has_iff; [|eapply has_null; [exact C|apply (has_init isupper rules t C)]]. intros e. cbn [YN]. split; [intros [H|(e0 & -> & ->)]; auto|]. intros [->| ->]; [auto|]. right. exists []. auto.
Qed.
Lemma has_after_word st rs w : good_word w -> has st (YN rs) -> has (aft st (Some w)) (YA rs w).
Proof.
  intros G H. destruct w as [[src form] surf]. unfold Spec.Caps.after. eapply has_iff; [|eapply has_wb; [exact C|]; eapply has_read; [exact C|exact G|exact H]]. intros e. unfold YA. split.
  - intros [(e0 & H0 & ->)|(e1 & (e0 & H0 & ->) & ->)]; exists e0; (split; [exact H0|]); [auto|]. right. rewrite <- app_assoc. reflexivity.
  - intros (e0 & H0 & [->| ->]); [left; eauto|]. right. exists (e0 ++ [XT (TWord (src, form, surf))]). split; [eauto|]. rewrite <- app_assoc. reflexivity.
Qed.
Lemma doc_votes_run l : forall st rs (blank : bool), Forall good_word l -> has st (YN rs) ->
  doc_votes isupper W w0 weights rules (rev rs) l blank (votes st (map Some l ++ if blank then [None] else [])).
Proof.
  induction l as [|w l IH]; intros st rs blank G H; cbn [map app all_votes doc_votes].
  - destruct blank; cbn [app all_votes]; [|reflexivity]. eexists. split; [reflexivity|]. unfold after_blank. eapply (votes_counted isupper rules t C PL); [unfold Spec.Caps.after; eapply has_wb; [exact C|exact H]|]. intros ts. apply yb_ends.
  - inversion G as [|? ? G1 G2]; subst. pose proof (has_after_word st rs w G1 H) as HA. eexists _, _. split; [reflexivity|]. split.
    + unfold after_words. eapply (votes_counted isupper rules t C PL); [exact HA|]. intros ts. apply ya_ends.
    + change (rev rs ++ [w]) with (rev (w :: rs)). apply IH; [exact G2|]. unfold next. eapply has_iff; [|eapply has_next; [exact C|exact HA]]. intros e. cbn [YN]. reflexivity.
Qed.
(** no path is longer than what was read *)
Definition bounded (st : list conf) (n : nat) : Prop := exists Y, has st Y /\ forall e, Y e -> nwe e <= n.
Lemma votes_short st n : bounded st n -> Forall (fun v => length (snd v) <= n) (votes_at W Wt (list conf) fin st).
Proof.
  intros (Y & H & B). destruct (st_finals_spec isupper rules t C PL st Y H) as [_ F]. unfold votes_at.
  assert (K : forall l seen v, In v (firsts W Wt l seen) -> exists r, In (r, snd v) l).
  { induction l as [|[r p] l IH]; intros seen v Hv; cbn [firsts] in Hv; [destruct Hv|]. destruct (existsb (str_eqb r) seen); [destruct (IH _ _ Hv) as (r' & K); exists r'; right; exact K|].
    destruct Hv as [<-|Hv]; [exists r; left; reflexivity|]. destruct (IH _ _ Hv) as (r' & K); exists r'; right; exact K. }
  apply Forall_forall. intros v Hv. apply K in Hv. destruct Hv as (r & Hr). apply F in Hr. destruct Hr as (i & _ & r' & ts & _ & HY & Hs). apply B in HY. rewrite nwe_xt in HY.
  rewrite (proj2 (seq_path_len isupper) _ _ _ Hs). exact HY.
Qed.
Lemma bounded_wb st n : bounded st n -> bounded (swb st) n.
Proof. intros (Y & H & B). eexists. split; [eapply has_wb; [exact C|exact H]|]. intros e' [He|(e & He & ->)]; [auto|]. rewrite nwe_app. cbn. rewrite Nat.add_0_r. auto. Qed.
Lemma bounded_word st n w : good_word w -> bounded st n -> bounded (aft st (Some w)) (S n).
Proof.
  intros G (Y & H & B). destruct w as [[src form] surf]. unfold Spec.Caps.after. apply bounded_wb. eexists. split; [eapply has_read; [exact C|exact G|exact H]|]. intros e' (e & He & ->). rewrite nwe_app. cbn. apply B in He. lia.
Qed.
Lemma bounded_next st n : bounded st n -> bounded (nxt st) (if st_dead st then 0 else n).
Proof.
  intros (Y & H & B). unfold next. destruct (st_dead st) eqn:D.
  - eexists. split; [apply (has_init isupper rules t C)|]. intros e ->. cbn. lia.
  - pose proof (has_next isupper rules t C st Y H) as K. rewrite D in K. eexists. split; [exact K|]. intros e [He| ->]; [auto|cbn; lia].
Qed.
Lemma bounded_le st n m : n <= m -> bounded st n -> bounded st m.
Proof. intros L (Y & H & B). exists Y. split; [exact H|]. intros e He. apply B in He. lia. Qed.
Lemma words_fit l : forall st n tl, tl = [] \/ tl = [None] -> Forall good_word l -> bounded st n -> Fits st n (map Some l ++ tl).
Proof.
  induction l as [|w l IH]; intros st n tl T G H; cbn [map app].
  - destruct T as [->| ->]; cbn [fits]; [exact I|]. split; [|exact I]. apply votes_short. eapply bounded_le; [|unfold Spec.Caps.after; apply bounded_wb; exact H]. lia.
  - inversion G as [|? ? G1 G2]; subst. cbn [fits]. pose proof (bounded_word st n w G1 H) as HA. split; [apply votes_short; exact HA|]. apply IH; auto. apply bounded_next. exact HA.
Qed.
Lemma bounded_start : bounded (start (list conf) ini snul) 0.
Proof. exists (YN []). split; [exact has_start|]. intros e [->| ->]; cbn; lia. Qed.
(** ** documents *)
Lemma items_words l is : items_of l is -> exists ws, words_of l ws /\ is = map Some ws.
Proof.
  intros H. induction H as [|w l src kept is K H (ws & H1 & ->)]; [exists []; split; [constructor|reflexivity]|]. eexists. split; [econstructor; [exact K|exact H1]|reflexivity].
Qed.
Lemma good_words d ws : good_doc d -> words_of (cd_words d) ws -> Forall good_word ws.
Proof.
  unfold good_doc. intros G H. induction H as [|w l src kept r K H IH]; constructor; inversion G as [|? ? G1 G2]; subst; [|auto]. destruct G1 as [Gf Gs]. cbn. split; [|exact Gs].
  destruct (c_form w) as [f|]; [apply Gf; reflexivity|]. exists []. split; [constructor|constructor].
Qed.
Variables (wadd : W -> W -> W) (wge : W -> W -> bool) (tolower totitle toupper : str -> str) (delete_wblanks late : bool).
Lemma tail_blank last e : tail_item late last e = if doc_blank late last e then [None] else [].
Proof. unfold tail_item, doc_blank. destruct e; reflexivity. Qed.
Lemma doc_fits_compiled last d : good_doc d -> doc_fits W Wt (list conf) ini snul swb sw fin st_dead mrg late last d.
Proof.
  intros G is H. destruct (items_words _ _ H) as (ws & H1 & ->). apply words_fit; [rewrite tail_blank; destruct (doc_blank late last (cd_end d)); auto|eapply good_words; eauto|exact bounded_start].
Qed.
Lemma docs_fit_compiled ds : forall d, Forall good_doc (d :: ds) -> docs_fit W Wt (list conf) ini snul swb sw fin st_dead mrg late d ds.
Proof.
  induction ds as [|d' ds IH]; intros d G; inversion G as [|? ? G1 G2]; subst; cbn [docs_fit]; [apply doc_fits_compiled; exact G1|]. split; [apply doc_fits_compiled; exact G1|apply IH; exact G2].
Qed.
Lemma doc_out_compiled last d s : good_doc d -> doc_out W w0 wadd wge Wt tolower totitle toupper (list conf) ini snul swb sw fin st_dead mrg delete_wblanks late last d s ->
  rdoc_out isupper W w0 weights rules wadd wge tolower totitle toupper delete_wblanks late last d s.
Proof.
  intros G H. inversion H as [is s' HI HW]; subst. destruct (items_words _ _ HI) as (ws & H1 & ->). econstructor; [exact H1| |exact HW].
  rewrite tail_blank. apply (doc_votes_run ws _ []); [eapply good_words; eauto|exact has_start].
Qed.
Lemma docs_out_compiled ds : forall d s, Forall good_doc (d :: ds) -> cdocs_out W w0 wadd wge Wt tolower totitle toupper (list conf) ini snul swb sw fin st_dead mrg delete_wblanks late d ds s ->
  rdocs_out isupper W w0 weights rules wadd wge tolower totitle toupper delete_wblanks late d ds s.
Proof.
  induction ds as [|d' ds IH]; intros d s G H; inversion G as [|? ? G1 G2]; subst; inversion H; subst; constructor; auto; apply doc_out_compiled; assumption.
Qed.
End D.
