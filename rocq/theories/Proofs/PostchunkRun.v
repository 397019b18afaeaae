From Coq Require Import String ZArith.
From Verif Require Import Model.Base Proofs.Base Model.ChunkLoop Proofs.ChunkLoop Model.TransferRules Spec.TransferRules Proofs.TransferRules Model.TransferUnit Spec.TransferUnit Model.TrxPatterns Model.TrxMachine Spec.TrxPatterns
  Model.Interchunk Model.Postchunk Spec.Postchunk Proofs.Postchunk Model.PostchunkRules Spec.PostchunkRules Proofs.PostchunkRules Model.PostchunkRun Spec.PostchunkRun Spec.ChunkTokens Model.ChunkTokens
  Proofs.TrxMatch Proofs.TrxMachine Proofs.TransferRun Proofs.PostchunkMachine Props.C27 Props.C43 Props.C31.

(** ** words *)
Inductive Steady : str -> Prop :=
| sd_nil : Steady []
| sd_char c s : in_word c -> Steady s -> Steady (c :: s)
| sd_esc c s : Steady s -> Steady (cBS :: c :: s).
Lemma sd_app a b : Steady a -> Steady b -> Steady (a ++ b).
Proof. induction 1; intros K; cbn [app]; [exact K|apply sd_char; auto|apply sd_esc; auto]. Qed.
Lemma sd_chars t : Forall in_word t -> Steady t.
Proof. induction 1; constructor; assumption. Qed.
Lemma sd_tag t : Forall in_word t -> Steady (cLT :: t ++ [cGT]).
Proof. intros H. apply sd_char; [intros [K|[K|[K|[]]]]; discriminate K|]. apply sd_app; [apply sd_chars, H|]. apply sd_char; [intros [K|[K|[K|[]]]]; discriminate K|constructor]. Qed.
Lemma inword_neq c : in_word c -> c <> cBS /\ c <> cRB /\ c <> cLC.
Proof. intros H. repeat split; intros ->; apply H; cbn; tauto. Qed.
Lemma scan_steady s : Steady s -> forall r pre b, iw_scan (s ++ r) pre false b = iw_scan r (pre ++ s) false b.
Proof.
  induction 1 as [|c s Hc _ IH|c s _ IH]; intros r pre b; cbn [app].
  - rewrite app_nil_r. reflexivity.
  - apply inword_neq in Hc as (A & B & C). cbn [iw_scan]. rewrite (proj2 (ceq_neq _ _) A), (proj2 (ceq_neq _ _) B), (proj2 (ceq_neq _ _) C), IH, <- app_assoc. reflexivity.
  - cbn [iw_scan]. rewrite ceq_refl, IH, <- !app_assoc. reflexivity.
Qed.
Lemma init_steady s : Steady s -> pw_init s = Some (mkpw s [] []).
Proof. intros H. unfold pw_init. rewrite <- (app_nil_r s) at 1. rewrite scan_steady by exact H. reflexivity. Qed.
Lemma wblank_steady wb : WBlank wb -> ~ In cLC wb -> Steady wb.
Proof.
  induction 1 as [|c s A B H IH|c s A H IH]; intros K; [constructor| |].
  - apply sd_char; [intros [E|[E|[E|[]]]]; subst c; try congruence; apply K; left; reflexivity|]. apply IH. intros E. apply K. right. exact E.
  - apply sd_esc, IH. intros E. apply K. right. right. exact E.
Qed.
Lemma wblank_last wb d l : WBlank wb -> rev (cLB :: cLB :: wb) = d :: l -> d <> cRB.
Proof.
  intros H E. assert (A : Forall (fun c => c <> cRB) (cLB :: cLB :: wb)). { constructor; [discriminate|]. constructor; [discriminate|]. clear E. induction H; repeat constructor; auto. discriminate. }
  apply Forall_rev in A. rewrite E in A. inversion A; assumption.
Qed.
Lemma init_wblank wb s : WBlank wb -> ~ In cLC wb -> Steady s ->
  pw_init (([cLB; cLB] ++ wb ++ [cRB; cRB]) ++ s) = Some (mkpw s [] ([cLB; cLB] ++ wb ++ [cRB; cRB])).
Proof.
  intros H K SS. unfold pw_init. assert (E : ([cLB; cLB] ++ wb ++ [cRB; cRB]) ++ s = (cLB :: cLB :: wb) ++ cRB :: cRB :: s) by appeq.
  assert (SC : iw_scan (([cLB; cLB] ++ wb ++ [cRB; cRB]) ++ s) [] false None = IEnd (Some (S (S (List.length (cLB :: cLB :: wb)))))).
  { rewrite E. rewrite scan_steady; [|apply sd_char; [intros [X|[X|[X|[]]]]; discriminate X|]; apply sd_char; [intros [X|[X|[X|[]]]]; discriminate X|]; apply wblank_steady; assumption].
    cbn [app]. remember (cLB :: cLB :: wb) as p eqn:EP. cbn [iw_scan]. change (cRB =?c cBS) with false. change (cRB =?c cLC) with false. rewrite ceq_refl. cbn iota.
    destruct (rev p) as [|d l] eqn:R. { subst p. apply (f_equal (@List.length _)) in R. rewrite rev_length in R. discriminate R. }
    assert (D : d <> cRB) by (subst p; exact (wblank_last wb d l H R)). rewrite (proj2 (ceq_neq _ _) D). rewrite rev_app_distr. cbn [rev app]. rewrite ceq_refl.
    rewrite <- (app_nil_r s), scan_steady by exact SS. cbn [iw_scan]. rewrite app_length, Nat.add_comm. reflexivity. }
  rewrite SC. assert (LN : S (S (List.length (cLB :: cLB :: wb))) = List.length ([cLB; cLB] ++ wb ++ [cRB; cRB])) by (rewrite !app_length; cbn; lia). rewrite LN.
  rewrite skipn_app, skipn_all, Nat.sub_diag, firstn_app, firstn_all, Nat.sub_diag. cbn [skipn firstn]. rewrite app_nil_r. reflexivity.
Qed.
(** ** the words of a chunk *)
Definition nice (e : celem) : Prop :=
  match e with CLu l => Forall plain_elem l | CWLu wb l => WBlank wb /\ ~ In cLC wb /\ Forall plain_elem l | _ => True end.
Section Nice.
Variable up : char -> char.
Variable alnum : char -> bool.
Hypothesis up_in : forall c, in_word c -> in_word (up c).
Lemma lup_plain l : Forall plain_elem l -> Forall plain_elem (map (lup up) l).
Proof. intros H. apply Forall_map. eapply Forall_impl; [|exact H]. intros [c|c|s|d] K; cbn in *; auto. Qed.
Lemma lfirst_plain l : Forall plain_elem l -> forall l', lfirst up alnum l = Some l' -> Forall plain_elem l'.
Proof.
  induction 1 as [|e l He Hl IH]; intros l' E; [discriminate|]. destruct e as [c|c|s|d]; cbn [lfirst] in E; [destruct (alnum c); [injection E as <-; constructor; cbn; auto|]| | |];
    (destruct (lfirst up alnum l) as [x|]; [|discriminate]); injection E as <-; constructor; auto.
Qed.
Lemma recase_nice k c : Forall nice c -> Forall nice (recase up alnum k c).
Proof.
  intros H. destruct k; cbn [recase]; [| |exact H].
  - apply Forall_map. eapply Forall_impl; [|exact H]. intros [x|x|x|l|wb l] K; cbn in *; auto; [apply lup_plain, K|destruct K as (A & B & K); auto using lup_plain].
  - induction H as [|e c He Hc IH]; [constructor|]. destruct e as [x|x|x|l|wb l]; cbn [first_up]; try (constructor; assumption).
    + destruct (lfirst up alnum l) as [l'|] eqn:E; constructor; try assumption. cbn. exact (lfirst_plain l He l' E).
    + destruct (lfirst up alnum l) as [l'|] eqn:E; constructor; try assumption. cbn. destruct He as (A & B & He). auto. split; [exact A|]. split; [exact B|]. exact (lfirst_plain l He l' E).
Qed.
Lemma blc_nice c : Forall nice c -> Forall nice (but_last_char c).
Proof.
  induction 1 as [|e c He Hc IH]; [constructor|]. destruct c as [|e2 c].
  - destruct e; cbn [but_last_char]; try (apply Forall_nil); (apply Forall_cons; [exact He|apply Forall_nil]).
  - rewrite blc_cons by (left; discriminate). constructor; assumption.
Qed.
End Nice.
Lemma ok_nice c : Forall celem_ok c -> Forall plain_unit c -> Forall nice c.
Proof.
  intros A B. rewrite Forall_forall in *. intros e He. specialize (A e He). specialize (B e He). destruct e; cbn in *; tauto.
Qed.
Section Words.
Variable tags : list str.
Hypothesis tags_in : Forall (Forall in_word) tags.
Lemma resolved_steady e : plain_elem e -> Steady (resolved tags e).
Proof.
  destruct e as [c|c|s|d]; cbn [plain_elem resolved ltext]; intros H.
  - apply sd_char; [exact H|constructor].
  - apply sd_esc. constructor.
  - apply sd_tag, H.
  - destruct (value d =? 0)%N; [constructor|]. destruct (nth_error tags _) as [s|] eqn:E; [|constructor]. apply sd_tag. apply nth_error_In in E. exact (proj1 (Forall_forall _ _) tags_in s E).
Qed.
Lemma unit_steady l : Forall plain_elem l -> Steady (flat_map (resolved tags) l).
Proof. induction 1 as [|e l He _ IH]; [constructor|]. cbn [flat_map]. apply sd_app; [apply resolved_steady, He|exact IH]. Qed.
Definition raw (w : pword) : str := pw_wb w ++ pw_chunk w.
Lemma cut_words c : forall g, cut tags g c = (map (fun gw => (fst gw, raw (snd gw))) (fst (word_list tags g c)), snd (word_list tags g c)).
Proof.
  induction c as [|e c IH]; intros g; [reflexivity|]. destruct e as [x|x|x|l|wb l]; cbn [cut word_list]; try apply IH;
    specialize (IH []); destruct (word_list tags [] c) as [x g']; rewrite IH; [reflexivity|]. cbn [fst snd map]. unfold raw at 2. cbn [pw_wb pw_chunk]. repeat f_equal. appeq.
Qed.
Lemma words_fine c : Forall nice c -> forall g, Forall (fun gw => pw_init (raw (snd gw)) = Some (snd gw) /\ good_wb (pw_wb (snd gw))) (fst (word_list tags g c)).
Proof.
  induction 1 as [|e c He _ IH]; intros g; [constructor|]. destruct e as [x|x|x|l|wb l]; cbn [word_list]; try apply IH;
    specialize (IH []); destruct (word_list tags [] c) as [x g']; cbn [fst]; (constructor; [|exact IH]); cbn [snd nice] in *.
  - split; [|apply good_nil]. apply init_steady. apply unit_steady, He.
  - destruct He as (A & B & He). split; [apply init_wblank; auto using unit_steady|]. cbn [pw_wb]. apply (good_in cLB _ [] (cLB :: wb ++ [cRB; cRB])); [reflexivity|discriminate|]. cbn. rewrite app_length. cbn. lia.
Qed.
Lemma load_words ws : Forall (fun w => pw_init (raw w) = Some w) ws -> p_load (map raw ws) = Some ws.
Proof. induction 1 as [|w ws H _ IH]; [reflexivity|]. cbn [map p_load]. rewrite H, IH. reflexivity. Qed.
End Words.
(** ** headers *)
Lemma special_word c : ~ special c -> in_word c.
Proof. intros H K. apply H. unfold special. cbn in *. tauto. Qed.
Lemma special_neq c : ~ special c -> c <> cBS /\ c <> cLB /\ c <> cRB /\ c <> cLC /\ c <> cLT /\ c <> cGT /\ c <> cDOL /\ c <> cCARET /\ c <> cNUL.
Proof. intros H. repeat split; intros ->; apply H; cbn; tauto. Qed.
Lemma lemma_header r : Forall lemma_item_ok r -> Header (reading_str r).
Proof.
  induction 1 as [|i r Hi _ IH]; [constructor|]. change (reading_str (i :: r)) with (item_str i ++ reading_str r). destruct i as [c|c|g]; cbn [item_str app lemma_item_ok] in *; [| |contradiction].
  - apply special_neq in Hi. apply h_char; tauto.
  - apply h_esc, IH.
Qed.
Lemma lemma_steady r : Forall lemma_item_ok r -> Steady (reading_str r).
Proof.
  induction 1 as [|i r Hi _ IH]; [constructor|]. change (reading_str (i :: r)) with (item_str i ++ reading_str r). destruct i as [c|c|g]; cbn [item_str app lemma_item_ok] in *; [| |contradiction].
  - apply sd_char; [apply special_word, Hi|exact IH].
  - apply sd_esc, IH.
Qed.
Lemma tags_header ts : Forall (Forall (fun c => ~ special c)) ts -> Forall tag_ok ts.
Proof. intros H. eapply Forall_impl; [|exact H]. intros t Ht. eapply Forall_impl; [|exact Ht]. intros c Hc. apply special_neq in Hc. tauto. Qed.
Lemma tags_word ts : Forall (Forall (fun c => ~ special c)) ts -> Forall (Forall in_word) ts.
Proof. intros H. eapply Forall_impl; [|exact H]. intros t Ht. eapply Forall_impl; [|exact Ht]. intros c Hc. apply special_word, Hc. Qed.
Lemma tags_steady ts : Forall (Forall in_word) ts -> Steady (flat_map (fun t => cLT :: t ++ [cGT]) ts).
Proof. induction 1 as [|t ts Ht _ IH]; [constructor|]. cbn [flat_map]. apply sd_app; [apply sd_tag, Ht|exact IH]. Qed.
Lemma upto_plain s : Forall (fun c => c <> cBS /\ c <> cLC) s -> forall r acc, upto [cLC] (s ++ r) acc = upto [cLC] r (acc ++ s).
Proof.
  induction 1 as [|c s [A B] _ IH]; intros r acc; cbn [app]; [rewrite app_nil_r; reflexivity|]. cbn [upto]. rewrite (proj2 (ceq_neq _ _) A).
  assert (M : mem c [cLC] = false) by (apply mem_nIn; cbn; intuition congruence). rewrite M, IH, <- app_assoc. reflexivity.
Qed.
Section Apply.
Variable up : char -> char.
Variable alnum : char -> bool.
Variable getcase : str -> ckind.
Hypothesis up_in : forall c, in_word c -> in_word (up c).
Lemma zero_word x : pchunk_ok x -> wordzero (pchunk_str x) = Some (pw_chunk (chunk_zero x)) /\ pw_init (pw_chunk (chunk_zero x)) = Some (chunk_zero x).
Proof.
  intros (A & B & _). split.
  - unfold wordzero, pchunk_str, chunk_text. rewrite upto_header; [|intros c H1 H2 H3; apply mem_nIn; cbn; intuition congruence|apply lemma_header, A].
    rewrite upto_plain; [|apply (tags_plain _ (tags_header _ B))]. reflexivity.
  - apply init_steady. apply sd_app; [apply lemma_steady, A|]. apply tags_steady, tags_word, B.
Qed.
Lemma chunk_view x after : pchunk_ok x ->
  rule_view up alnum getcase [after] (pchunk_str x) =
  Some (map raw (map snd (fst (chunk_words up alnum getcase x))), map fst (tl (fst (chunk_words up alnum getcase x))), after ++ chunk_lead up alnum getcase x).
Proof.
  intros (A & B & C & _). unfold pchunk_str. rewrite C43_rule_view_partial; [|apply lemma_header, A|apply tags_header, B|exact C]. rewrite cut_words. unfold chunk_lead.
  change (word_list (h_tags x) [] (recase up alnum (getcase (reading_str (h_lemma x))) (but_last_char (h_content x)))) with (chunk_words up alnum getcase x).
  destruct (chunk_words up alnum getcase x) as [[|[g w] ws] tr]; cbn [fst snd map tl]; [reflexivity|]. f_equal. f_equal. f_equal; [f_equal; rewrite !map_map; reflexivity|]. rewrite map_map. reflexivity.
Qed.
Lemma chunk_words_fine x : pchunk_ok x -> Forall (fun gw => pw_init (raw (snd gw)) = Some (snd gw) /\ good_wb (pw_wb (snd gw))) (fst (chunk_words up alnum getcase x)).
Proof.
  intros (A & B & C & D & _). unfold chunk_words. apply words_fine; [apply tags_word, B|]. apply recase_nice; [exact up_in|]. apply blc_nice, ok_nice; assumption.
Qed.
End Apply.
(** ** a rule on a chunk *)
Section NoReject.
Variable attr_match : str -> str -> str.
Variable attr_replace : str -> str -> str -> str.
Variable copy_case case_from : str -> str -> str.
Variable get_case lower_str : str -> str.
Variable itoa : nat -> str.
Variable lists : str -> list str.
Variable dict_case : bool.
Variable macros : str -> nat.
Variable macro_map : list (nat * list pinstr).
Notation PSeq := (PSeq attr_match attr_replace copy_case case_from get_case lower_str itoa lists dict_case macros macro_map).
Notation PExec := (PExec attr_match attr_replace copy_case case_from get_case lower_str itoa lists dict_case macros macro_map).
Notation PChoose_ := (PChoose_ attr_match attr_replace copy_case case_from get_case lower_str itoa lists dict_case macros macro_map).
Lemma seq_go l : Forall (fun i => no_reject i = true -> forall s z s', PExec i s z s' -> z = (-1)%Z) l -> forallb no_reject l = true -> forall s z s', PSeq l s z s' -> z = (-1)%Z.
Proof.
  induction 1 as [|i l Hi _ IH]; intros K s z s' X; inversion X; subst; try reflexivity; cbn [forallb] in K; apply andb_prop in K as [K1 K2].
  - eapply IH; eassumption.
  - exfalso. match goal with H : z <> _ |- _ => apply H end. eapply Hi; eassumption.
Qed.
Lemma exec_go i : no_reject i = true -> forall s z s', PExec i s z s' -> z = (-1)%Z.
Proof.
  induction i using pinstr_ind2; intros K s z0 s' X; inversion X; subst; try reflexivity; [discriminate K|].
  match goal with Y : PChoose_ _ _ _ _ |- _ => rename Y into C end. clear X. cbn [no_reject] in K.
  match goal with Y : Forall _ l |- _ => rename Y into F end.
  revert s C. induction F as [|[c b] l Hb _ IH]; intros s C; inversion C; subst; try reflexivity; cbn [forallb snd] in K, Hb; apply andb_prop in K as [K1 K2].
  - eapply seq_go; eassumption.
  - eapply IH; eassumption.
  - eapply seq_go; eassumption.
  - eapply IH; eassumption.
Qed.
Lemma body_go l : forallb no_reject l = true -> forall s z s', PSeq l s z s' -> z = (-1)%Z.
Proof. intros K. apply seq_go; [|exact K]. apply Forall_forall. intros i _. apply exec_go. Qed.
End NoReject.
Definition GOK (N : list (nat * qinstr)) (g : pglob) : Prop :=
  (forall id x, g_cache g id = Some x -> In (id, x) N) /\ (forall n, good_wb (g_vwb g n)) /\ good_wb (g_owb g).
Section Loop.
Variable attr_match : str -> str -> str.
Variable attr_replace : str -> str -> str -> str.
Variable copy_case case_from : str -> str -> str.
Variable get_case lower_str : str -> str.
Variable itoa : nat -> str.
Variable lists : str -> list str.
Variable dict_case : bool.
Variable macros : str -> nat.
Variable macro_map : list (nat * list pinstr).
Variable bodies : list (list pinstr).
Variable up : char -> char.
Variable alnum : char -> bool.
Variable getcase : str -> ckind.
Variable lower : char -> char.
Variable defs : list (str * list cat_item).
Variable ps : list (list str).
Variable t : trans.
Hypothesis up_in : forall c, in_word c -> in_word (up c).
Hypothesis fok : pfile_ok macro_map bodies.
Hypothesis wf : forall c items, lookup_cat defs c = Some items -> Forall item_wf items.
Hypothesis comp : compile defs ps = Some t.
Hypothesis ones : Forall (fun cs => exists c, cs = [c]) ps.
Notation PRule := (PRule attr_match attr_replace copy_case case_from get_case lower_str itoa lists dict_case macros macro_map).
Notation p_apply := (p_apply attr_match attr_replace copy_case case_from get_case lower_str itoa lists dict_case macros macro_map up alnum getcase).
Notation p_process := (p_process attr_match attr_replace copy_case case_from get_case lower_str itoa lists dict_case macros macro_map).
Notation rule_start := (rule_start up alnum getcase).
Notation chunk_lead := (chunk_lead up alnum getcase).
Notation chunk_words := (chunk_words up alnum getcase).
Let N := pfile_nodes macro_map bodies.
Definition gof (st : pst) : pglob := mkpg (p_vars st) (p_vwb st) (p_owb st) (p_vv st) (p_cache st).
Definition pstart_of (x : pchunk) (g : pglob) : pst := p_start g (chunk_zero x) (map snd (fst (chunk_words x))) (map fst (tl (fst (chunk_words x)))).
Lemma apply_eq k body g x after : pchunk_ok x ->
  p_apply k body g (pchunk_str x) after =
  match p_process k body (pstart_of x g) with Some (z, st) => Some (p_out st, after ++ chunk_lead x, z, gof st) | None => None end.
Proof.
  intros H. unfold PostchunkRules.p_apply. rewrite chunk_view by exact H. destruct (zero_word alnum x H) as [E1 E2]. rewrite E1, E2, load_words; [reflexivity|].
  apply Forall_map. eapply Forall_impl; [|apply (chunk_words_fine up alnum getcase up_in x H)]. cbn. tauto.
Qed.
Lemma start_inv x g : pchunk_ok x -> GOK N g -> PInv N Spec.TransferRules.plain (pstart_of x g).
Proof.
  intros H (A & B & C). split; [split; [reflexivity|split; reflexivity]|]. split; [exact A|]. split; [|split; [exact B|exact C]]. cbn. constructor; [apply good_nil|].
  apply Forall_map. eapply Forall_impl; [|apply (chunk_words_fine up alnum getcase up_in x H)]. cbn. tauto.
Qed.
Lemma start_proj x g : pproj (pstart_of x g) = rule_start x (g_vars g) (g_vwb g).
Proof. unfold pproj, pstart_of, p_start, Spec.PostchunkRun.rule_start. cbn [p_words p_frame p_n p_vars p_vwb p_bq p_out]. rewrite map_length. reflexivity. Qed.
Lemma inv_gok st : PInv N Spec.TransferRules.plain st -> GOK N (gof st).
Proof. intros (_ & A & _ & B & C). split; [exact A|]. split; [exact B|exact C]. Qed.
Lemma body_ok r body : nth_error bodies r = Some body -> incl (flat_map pnodes_i body) N /\ forallb psimple_i body = true /\ forallb no_reject body = true.
Proof.
  intros E. apply nth_error_In in E. destruct fok as (_ & _ & B). destruct (proj1 (Forall_forall _ _) B body E) as [K1 K2]. split; [|auto].
  intros n H. unfold N, pfile_nodes. apply in_or_app. right. apply in_flat_map. exists body. auto.
Qed.
Lemma macros_ok : Forall (fun m => incl (flat_map pnodes_i (snd m)) N /\ forallb psimple_i (snd m) = true) macro_map.
Proof.
  destruct fok as (_ & A & _). rewrite Forall_forall in *. intros m Hm. split; [|exact (A m Hm)]. intros n H. unfold N, pfile_nodes. apply in_or_app. left. apply in_flat_map. exists m. auto.
Qed.
Lemma apply_sound k r body g x after o a z g' : pchunk_ok x -> GOK N g -> nth_error bodies r = Some body -> p_apply k body g (pchunk_str x) after = Some (o, a, z, g') ->
  exists s, PRule body (rule_start x (g_vars g) (g_vwb g)) (-1) s /\ z = (-1)%Z /\ o = q_out s /\ a = after ++ chunk_lead x /\ g_vars g' = q_vars s /\ g_vwb g' = q_vwb s /\ GOK N g'.
Proof.
  intros H G B E. destruct (body_ok _ _ B) as (K1 & K2 & K3). rewrite apply_eq in E by exact H. destruct (p_process k body (pstart_of x g)) as [[z1 st]|] eqn:P; [|discriminate]. injection E as <- <- <- <-.
  destruct (prule_correct attr_match attr_replace copy_case case_from get_case lower_str itoa lists dict_case macros macro_map N (proj1 fok) macros_ok body (pstart_of x g) (start_inv x g H G) K1 K2) as [SO _].
  destruct (SO _ _ _ P) as [R I]. rewrite start_proj in R. exists (pproj st). assert (Z : z1 = (-1)%Z). { destruct R as (s1 & X & _). exact (body_go _ _ _ _ _ _ _ _ _ _ _ body K3 _ _ _ X). }
  subst z1. split; [exact R|]. split; [reflexivity|]. split; [reflexivity|]. split; [reflexivity|]. split; [reflexivity|]. split; [reflexivity|]. apply inv_gok, I.
Qed.
Lemma apply_complete r body g x s : pchunk_ok x -> GOK N g -> nth_error bodies r = Some body -> PRule body (rule_start x (g_vars g) (g_vwb g)) (-1) s ->
  exists k0 g', (forall k after, k0 <= k -> p_apply k body g (pchunk_str x) after = Some (q_out s, after ++ chunk_lead x, (-1)%Z, g')) /\ g_vars g' = q_vars s /\ g_vwb g' = q_vwb s /\ GOK N g'.
Proof.
  intros H G B R. destruct (body_ok _ _ B) as (K1 & K2 & K3). rewrite <- start_proj in R.
  destruct (prule_correct attr_match attr_replace copy_case case_from get_case lower_str itoa lists dict_case macros macro_map N (proj1 fok) macros_ok body (pstart_of x g) (start_inv x g H G) K1 K2) as [_ CO].
  destruct (CO _ _ R) as (k0 & st & P & <- & I). exists k0, (gof st). split; [|split; [reflexivity|split; [reflexivity|apply inv_gok, I]]].
  intros k after Hk. rewrite apply_eq by exact H. rewrite (P k Hk). reflexivity.
Qed.
(** ** the loop *)
Definition pre (o : str) (r : option (str * pglob)) : option (str * pglob) := match r with Some (o2, g) => Some (o ++ o2, g) | None => None end.
Lemma pre_pre a b r : pre a (pre b r) = pre (a ++ b) r.
Proof. destruct r as [[o g]|]; [|reflexivity]. cbn. rewrite app_assoc. reflexivity. Qed.
Lemma pre_nil r : pre [] r = r.
Proof. destruct r as [[o g]|]; reflexivity. Qed.
Lemma open_eq x : pchunk_ok x -> unchunk up alnum getcase dict_case (pchunk_str x) = Some (chunk_open up alnum getcase dict_case x).
Proof. intros (A & B & C & _). unfold pchunk_str. rewrite C27_all; [reflexivity|apply lemma_header, A|apply tags_header, B|exact C]. Qed.
Lemma name_eq x : pchunk_ok x -> em_name lower t (em_init t) (pchunk_str x) = em_run t (fed lower [h_lemma x]).
Proof.
  intros (A & _). rewrite fed_one. unfold pchunk_str, chunk_text. apply em_name_run.
  - eapply Forall_impl; [|exact A]. intros [c|c|g] K; cbn in *; auto. apply special_neq in K. tauto.
  - right. destruct (h_tags x) as [|g gs]; cbn; eauto.
Qed.
Fixpoint toks_from (pend : str) (l : list (str * pchunk)) (final : str) : list tkn :=
  match l with [] => [KEof (final ++ pend)] | (b, x) :: r => KBlank (b ++ pend) :: KWord (pchunk_str x) :: toks_from [] r final end.
Definition boundary (tk : tkn) : Prop := match tk with KWord _ => False | _ => True end.
Lemma toks_head l final : exists tk r, toks_from [] l final = tk :: r /\ boundary tk /\ forall pend, toks_from pend l final = tok_set tk (tok_text tk ++ pend) :: r.
Proof. destruct l as [|[b x] l]; cbn; eexists; eexists; (split; [reflexivity|]); (split; [exact I|]); intros pend; rewrite app_nil_r; reflexivity. Qed.
Lemma put_head before tk r s : tok_put (before ++ tk :: r) (List.length before) s = before ++ tok_set tk s :: r.
Proof. induction before as [|a before IH]; [reflexivity|]. cbn. rewrite IH. reflexivity. Qed.
Lemma nth_head (before : list tkn) tk r : nth_error (before ++ tk :: r) (List.length before) = Some tk.
Proof. rewrite nth_error_app2, Nat.sub_diag by lia. reflexivity. Qed.
Lemma nth_next (before : list tkn) tk tk2 r : nth_error (before ++ tk :: tk2 :: r) (S (List.length before)) = Some tk2.
Proof. rewrite nth_error_app2 by lia. replace (S (List.length before) - List.length before) with 1 by lia. reflexivity. Qed.
Definition chunk_fine (bx : str * pchunk) : Prop := pchunk_ok (snd bx) /\ no_dollar lower (h_lemma (snd bx)).
Definition matches (n : nat) (x : pchunk) : Prop := rule_matches lower defs ps n [h_lemma x].
Definition means (n : nat) (s s' : qst) : Prop := exists body, nth_error bodies (n - 1) = Some body /\ PRule body s (-1) s'.
Notation Post := (Postchunked up alnum getcase dict_case matches means).
Section Depth.
Variable k : nat.
Notation L := (o_loop attr_match attr_replace copy_case case_from get_case lower_str itoa lists dict_case macros macro_map bodies up alnum getcase lower t k).
Notation settle := (o_settle attr_match attr_replace copy_case case_from get_case lower_str itoa lists dict_case macros macro_map bodies up alnum getcase t k).
Definition rest (toks : list tkn) (p hi la pv : nat) (tb : list nat) (g : pglob) : post := mko toks p hi la pv None [] (Some (em_init t)) [] tb g.
Lemma settle_alive st m : o_ms st = Some m -> em_empty m = false -> settle st = Some ([], st).
Proof. intros E A. unfold o_settle, o_dead. rewrite E, A. reflexivity. Qed.
Lemma settle_rest toks p hi la pv tb g : settle (rest toks p hi la pv tb g) = Some ([], rest toks p hi la pv tb g).
Proof. apply (settle_alive _ (em_init t)); reflexivity. Qed.
Lemma loop_settled f st o toks p hi la pv tb g : settle st = Some (o, rest toks p hi la pv tb g) -> L (S f) st = pre o (L (S f) (rest toks p hi la pv tb g)).
Proof.
  intros E. cbn [o_loop]. rewrite E, settle_rest. destruct (o_consume lower t (o_mark t (rest toks p hi la pv tb g))) as [[[c g']|st2]|]; [reflexivity| |reflexivity].
  destruct (L f st2) as [[o2 g2]|]; reflexivity.
Qed.
Lemma loop_alive f st m st2 : o_ms st = Some m -> em_empty m = false -> o_consume lower t (o_mark t st) = Some (inr st2) -> L (S f) st = L f st2.
Proof. intros E A C. cbn [o_loop]. rewrite (settle_alive st m E A), C. destruct (L f st2) as [[o2 g2]|]; reflexivity. Qed.
Lemma mark_rest toks p hi la pv tb g : o_mark t (rest toks p hi la pv tb g) = rest toks p hi la pv tb g.
Proof. unfold o_mark, rest. cbn [o_ms o_banned]. rewrite (proj2 (classify_none t (em_init t)) (init_rules lower defs ps t wf comp ones)). reflexivity. Qed.
Lemma loop_blank f toks p hi la pv tb g b : nth_error toks p = Some (KBlank b) -> (tb = [] \/ tb = [p]) ->
  exists hi', L (S (S f)) (rest toks p hi la pv tb g) = pre b (L (S f) (rest toks (S p) hi' (S p) la [] g)).
Proof.
  intros E HT. exists (Nat.max hi (S p)).
  transitivity (L (S f) (mko toks (S p) (Nat.max hi (S p)) la pv None [] (Some []) [] (tb ++ [p]) g)).
  - apply (loop_alive _ _ (em_init t)); try reflexivity. rewrite mark_rest. unfold o_consume, rest. cbn [o_pos o_toks o_ms o_hi o_last o_prev o_rule o_banned o_tw o_tb o_g option_map].
    rewrite E. rewrite (init_blank defs ps t wf comp). reflexivity.
  - apply loop_settled. unfold o_settle, o_dead. cbn [o_ms em_empty o_rule o_tw o_tb o_toks o_pos o_hi o_last o_banned o_g].
    destruct HT as [-> | ->]; cbn [app]; rewrite E; reflexivity.
Qed.
(** the state after the word; the state after the blank behind it *)
Definition got (toks : list tkn) (q hi la pv : nat) (r : option nat) (m : option (list (list nat))) (w : str) (tb : list nat) (g : pglob) : post :=
  mko toks q hi la pv r [] m [w] tb g.
Lemma loop_word f toks p hi la pv g w : nth_error toks p = Some (KWord w) ->
  exists hi', L (S f) (rest toks p hi la pv [] g) = L f (got toks (S p) hi' la pv None (Some (em_name lower t (em_init t) w)) w [] g).
Proof.
  intros E. exists (Nat.max hi (S p)). apply (loop_alive _ _ (em_init t)); try reflexivity. rewrite mark_rest. unfold o_consume, rest. cbn [o_pos o_toks o_ms o_hi o_last o_prev o_rule o_banned o_tw o_tb o_g option_map app].
  rewrite E. reflexivity.
Qed.
Lemma loop_more f toks q hi la pv g x tk : let M := em_run t (fed lower [h_lemma x]) in
  nth_error toks q = Some tk -> boundary tk -> em_empty M = false ->
  exists hi' m, (m = None \/ m = Some []) /\ L (S f) (got toks q hi la pv None (Some M) (pchunk_str x) [] g) =
    L f (got toks (S q) hi' (match classify (list (list nat)) (em_rules t) M [] with Some _ => q | None => la end) pv (classify (list (list nat)) (em_rules t) M []) m (pchunk_str x) [q] g).
Proof.
  intros M E B A. exists (Nat.max hi (S q)), (match tk with KEof _ => None | _ => Some [] end). split; [destruct tk; auto|].
  apply (loop_alive _ _ M); [reflexivity|exact A|]. unfold o_mark, got. cbn [o_ms o_banned]. destruct (classify _ _ _ _) as [r|] eqn:C; unfold o_consume; cbn [o_pos o_toks o_ms o_hi o_last o_prev o_rule o_banned o_tw o_tb o_g option_map app];
    rewrite E; (destruct tk as [w|b|c]; [destruct B| |reflexivity]); unfold M; rewrite fed_one, (blank_kills defs ps t wf comp ones); reflexivity.
Qed.
Lemma loop_end f toks p hi la pv tb g c : nth_error toks p = Some (KEof c) -> L (S f) (rest toks p hi la pv tb g) = Some (c, g).
Proof.
  intros E. cbn [o_loop]. rewrite settle_rest, mark_rest. unfold o_consume, rest. cbn [o_pos o_toks o_tw o_g]. rewrite E. reflexivity.
Qed.
Lemma settle_open toks q hi la pv m x tb g : m = None \/ m = Some [] -> pchunk_ok x -> settle (got toks q hi la pv None m (pchunk_str x) tb g) =
  Some (chunk_open up alnum getcase dict_case x, rest toks (S la) hi (S la) la tb g).
Proof.
  intros Hm H. unfold o_settle, got, o_dead. cbn [o_ms o_rule o_tw o_toks o_hi o_last o_tb o_g]. assert (D : match m with None => true | Some m0 => em_empty m0 end = true) by (destruct Hm as [-> | ->]; reflexivity). rewrite D.
  rewrite open_eq by exact H. reflexivity.
Qed.
Lemma settle_rule toks q hi la pv r m x i tk g body o a g' : m = None \/ m = Some [] -> nth_error bodies (r - 1) = Some body -> nth_error toks i = Some tk ->
  p_apply k body g (pchunk_str x) (tok_text tk) = Some (o, a, (-1)%Z, g') ->
  settle (got toks q hi la pv (Some r) m (pchunk_str x) [i] g) = Some (o, rest (tok_put toks i a) la hi la pv [] g').
Proof.
  intros Hm B E A. unfold o_settle, got, o_dead. cbn [o_ms o_rule o_tw o_toks o_hi o_last o_prev o_tb o_g]. assert (D : match m with None => true | Some m0 => em_empty m0 end = true) by (destruct Hm as [-> | ->]; reflexivity). rewrite D.
  rewrite B, E, A. reflexivity.
Qed.
Lemma settle_rule_inv toks q hi la pv r m x i tk g y : m = None \/ m = Some [] -> nth_error toks i = Some tk ->
  settle (got toks q hi la pv (Some r) m (pchunk_str x) [i] g) = Some y -> exists body o a z g', nth_error bodies (r - 1) = Some body /\ p_apply k body g (pchunk_str x) (tok_text tk) = Some (o, a, z, g').
Proof.
  intros Hm E. unfold o_settle, got, o_dead. cbn [o_ms o_rule o_tw o_toks o_hi o_last o_prev o_tb o_g]. assert (D : match m with None => true | Some m0 => em_empty m0 end = true) by (destruct Hm as [-> | ->]; reflexivity). rewrite D.
  destruct (nth_error bodies (r - 1)) as [body|] eqn:B; [|discriminate]. rewrite E. destruct (p_apply k body g (pchunk_str x) (tok_text tk)) as [[[[o a] z] g']|] eqn:A; [|discriminate].
  intros _. exists body, o, a, z, g'. auto.
Qed.

Theorem loop_sound l final : Forall chunk_fine l -> forall before p hi la pv tb g pend F o g', GOK N g -> List.length before = p -> (tb = [] \/ tb = [p]) ->
  L F (rest (before ++ toks_from pend l final) p hi la pv tb g) = Some (o, g') -> Post (g_vars g) (g_vwb g) pend l final o (g_vars g') (g_vwb g').
Proof.
  induction 1 as [|[b x] l [Hx ND] _ IH]; intros before p hi la pv tb g pend F o g' G LP HT E; cbn [fst snd] in *.
  - destruct F as [|f]; [discriminate|]. rewrite (loop_end f _ p hi la pv tb g (final ++ pend)) in E by (rewrite <- LP; apply nth_head). injection E as <- <-. constructor.
  - cbn [toks_from] in E. set (toks := before ++ KBlank (b ++ pend) :: KWord (pchunk_str x) :: toks_from [] l final) in *.
    assert (N0 : nth_error toks p = Some (KBlank (b ++ pend))) by (rewrite <- LP; apply nth_head). assert (N1 : nth_error toks (S p) = Some (KWord (pchunk_str x))) by (rewrite <- LP; apply nth_next).
    assert (TE : toks = (before ++ [KBlank (b ++ pend); KWord (pchunk_str x)]) ++ toks_from [] l final) by (unfold toks; rewrite <- app_assoc; reflexivity).
    set (before2 := before ++ [KBlank (b ++ pend); KWord (pchunk_str x)]) in *. assert (LQ : List.length before2 = S (S p)) by (unfold before2; rewrite app_length; cbn; lia).
    destruct F as [|[|f]]; [discriminate| |].
    { exfalso. cbn [o_loop] in E. rewrite settle_rest, mark_rest in E. unfold o_consume, rest in E. cbn [o_pos o_toks o_tw o_g] in E. rewrite N0 in E. discriminate E. }
    destruct (loop_blank f toks p hi la pv tb g _ N0 HT) as [h1 E1]. rewrite E1 in E. clear E1.
    destruct (loop_word f toks (S p) h1 (S p) la g _ N1) as [h2 E2]. rewrite E2 in E. clear E2. rewrite (name_eq x Hx) in E.
    destruct (L f _) as [[o2 g2]|] eqn:E3; [|discriminate]. cbn [pre] in E. injection E as <- <-.
    destruct (toks_head l final) as (tk & r & TH & BT & TP). assert (NQ : nth_error toks (S (S p)) = Some tk) by (rewrite TE, TH, <- LQ; apply nth_head).
    destruct f as [|f]; [discriminate|].
    destruct (em_empty (em_run t (fed lower [h_lemma x]))) eqn:DE.
    + (* dead *)
      assert (NM := proj1 (name_none lower defs ps t wf comp (h_lemma x) ND) (dead_none t _ DE)).
      destruct (em_run t (fed lower [h_lemma x])) as [|? ?]; [|discriminate DE].
      rewrite (loop_settled f _ _ toks (S (S p)) h2 (S (S p)) (S p) [] g) in E3 by (apply settle_open; [right; reflexivity|exact Hx]).
      destruct (L (S f) _) as [[o3 g3]|] eqn:E4; [|discriminate]. cbn [pre] in E3. injection E3 as <- <-. apply po_open; [exact NM|].
      rewrite TE in E4. refine (IH before2 _ _ _ _ _ g [] _ _ _ G LQ (or_introl eq_refl) E4).
    + destruct (loop_more f toks (S (S p)) h2 (S p) la g x tk NQ BT DE) as (h3 & m & Hm & E4). rewrite E4 in E3. clear E4. destruct f as [|f]; [discriminate|].
      destruct (classify _ _ _ _) as [n|] eqn:CL.
      * (* a rule *)
        destruct (proj1 (name_chosen lower defs ps t wf comp (h_lemma x) n ND) CL) as [M1 M2].
        assert (SE : exists y, settle (got toks (S (S (S p))) h3 (S (S p)) la (Some n) m (pchunk_str x) [S (S p)] g) = Some y).
        { cbn [o_loop] in E3. destruct (settle _) as [y|]; [eauto|discriminate]. }
        destruct SE as [y SE]. destruct (settle_rule_inv _ _ _ _ _ _ _ _ _ _ _ _ Hm NQ SE) as (body & o1 & a & z & g1 & B & A).
        destruct (apply_sound k _ body g x _ _ _ _ _ Hx G B A) as (s & R & -> & -> & -> & V1 & V2 & G1).
        rewrite (loop_settled f _ _ _ _ _ _ _ _ _ (settle_rule toks _ h3 (S (S p)) la n m x _ tk g body _ _ g1 Hm B NQ A)) in E3.
        destruct (L (S f) _) as [[o3 g3]|] eqn:E4; [|discriminate]. cbn [pre] in E3. injection E3 as <- <-.
        apply (po_rule up alnum getcase dict_case matches means) with (n := n) (s := s); [exact M1|exact M2|exists body; split; [exact B|exact R]|]. rewrite <- V1, <- V2.
        assert (TQ : tok_put toks (S (S p)) (tok_text tk ++ chunk_lead x) = before2 ++ toks_from (chunk_lead x) l final) by (rewrite TE, TH, TP, <- LQ; apply put_head).
        rewrite TQ in E4. refine (IH before2 _ _ _ _ _ g1 _ _ _ _ G1 LQ (or_introl eq_refl) E4).
      * assert (NM := proj1 (name_none lower defs ps t wf comp (h_lemma x) ND) CL).
        rewrite (loop_settled f _ _ toks (S (S p)) h3 (S (S p)) (S p) [S (S p)] g) in E3 by (apply settle_open; [exact Hm|exact Hx]).
        destruct (L (S f) _) as [[o3 g3]|] eqn:E4; [|discriminate]. cbn [pre] in E3. injection E3 as <- <-. apply po_open; [exact NM|].
        rewrite TE in E4. refine (IH before2 _ _ _ _ _ g [] _ _ _ G LQ (or_intror eq_refl) E4).
Qed.
End Depth.
Notation Lk := (o_loop attr_match attr_replace copy_case case_from get_case lower_str itoa lists dict_case macros macro_map bodies up alnum getcase lower t).
Theorem loop_complete final l vars vwb pend o vars' vwb' : Post vars vwb pend l final o vars' vwb' -> Forall chunk_fine l ->
  forall g, GOK N g -> g_vars g = vars -> g_vwb g = vwb -> exists k0 f0 g', g_vars g' = vars' /\ g_vwb g' = vwb' /\
    forall k f before p hi la pv tb, k0 <= k -> f0 <= f -> List.length before = p -> (tb = [] \/ tb = [p]) ->
      Lk k f (rest (before ++ toks_from pend l final) p hi la pv tb g) = Some (o, g').
Proof.
  induction 1 as [vars vwb pend final|vars vwb pend b x l final n s o vars' vwb' M1 M2 MM PO IH|vars vwb pend b x l final o vars' vwb' NM PO IH]; intros HL g G V1 V2.
  - exists 0, 1, g. split; [exact V1|]. split; [exact V2|]. intros k [|f] before p hi la pv tb _ Hf LP HT; [lia|]. rewrite (loop_end k f _ p hi la pv tb g (final ++ pend)); [reflexivity|]. rewrite <- LP. apply nth_head.
  - inversion_clear HL as [|? ? [Hx ND] HL']. cbn [fst snd] in *. destruct MM as (body & B & R). subst vars vwb.
    destruct (apply_complete _ body g x s Hx G B R) as (k1 & g1 & A & W1 & W2 & G1).
    destruct (IH HL' g1 G1 W1 W2) as (k0 & f0 & g' & X1 & X2 & K). exists (Nat.max k0 k1), (f0 + 5), g'. split; [exact X1|]. split; [exact X2|].
    intros k f before p hi la pv tb Hk Hf LP HT. cbn [toks_from]. set (toks := before ++ KBlank (b ++ pend) :: KWord (pchunk_str x) :: toks_from [] l final) in *.
    assert (N0 : nth_error toks p = Some (KBlank (b ++ pend))) by (rewrite <- LP; apply nth_head). assert (N1 : nth_error toks (S p) = Some (KWord (pchunk_str x))) by (rewrite <- LP; apply nth_next).
    assert (TE : toks = (before ++ [KBlank (b ++ pend); KWord (pchunk_str x)]) ++ toks_from [] l final) by (unfold toks; rewrite <- app_assoc; reflexivity).
    set (before2 := before ++ [KBlank (b ++ pend); KWord (pchunk_str x)]) in *. assert (LQ : List.length before2 = S (S p)) by (unfold before2; rewrite app_length; cbn; lia).
    destruct (toks_head l final) as (tk & r & TH & BT & TP). assert (NQ : nth_error toks (S (S p)) = Some tk) by (rewrite TE, TH, <- LQ; apply nth_head).
    destruct f as [|[|[|[|f]]]]; try (exfalso; clear - Hf; lia).
    destruct (loop_blank k (S (S f)) toks p hi la pv tb g _ N0 HT) as [h1 E1]. rewrite E1. clear E1.
    destruct (loop_word k (S (S f)) toks (S p) h1 (S p) la g _ N1) as [h2 E2]. rewrite E2. clear E2. rewrite (name_eq x Hx).
    assert (CL := proj2 (name_chosen lower defs ps t wf comp (h_lemma x) n ND) (conj M1 M2)).
    assert (DE : em_empty (em_run t (fed lower [h_lemma x])) = false). { destruct (em_empty _) eqn:D; [|reflexivity]. apply (dead_none t) in D. congruence. }
    destruct (loop_more k (S f) toks (S (S p)) h2 (S p) la g x tk NQ BT DE) as (h3 & m & Hm & E4). rewrite E4, CL. clear E4.
    assert (AK := A k (tok_text tk) ltac:(clear - Hk; lia)).
    rewrite (loop_settled k f _ _ _ _ _ _ _ _ _ (settle_rule k toks _ h3 (S (S p)) la n m x _ tk g body _ _ g1 Hm B NQ AK)).
    assert (TQ : tok_put toks (S (S p)) (tok_text tk ++ chunk_lead x) = before2 ++ toks_from (chunk_lead x) l final) by (rewrite TE, TH, TP, <- LQ; apply put_head). rewrite TQ.
    rewrite (K k (S f) before2 (S (S p)) h3 (S (S p)) la []); [reflexivity|clear - Hk; lia|clear - Hf; lia|exact LQ|left; reflexivity].
  - inversion_clear HL as [|? ? [Hx ND] HL']. cbn [fst snd] in *. subst vars vwb.
    destruct (IH HL' g G eq_refl eq_refl) as (k0 & f0 & g' & X1 & X2 & K). exists k0, (f0 + 5), g'. split; [exact X1|]. split; [exact X2|].
    intros k f before p hi la pv tb Hk Hf LP HT. cbn [toks_from]. set (toks := before ++ KBlank (b ++ pend) :: KWord (pchunk_str x) :: toks_from [] l final) in *.
    assert (N0 : nth_error toks p = Some (KBlank (b ++ pend))) by (rewrite <- LP; apply nth_head). assert (N1 : nth_error toks (S p) = Some (KWord (pchunk_str x))) by (rewrite <- LP; apply nth_next).
    assert (TE : toks = (before ++ [KBlank (b ++ pend); KWord (pchunk_str x)]) ++ toks_from [] l final) by (unfold toks; rewrite <- app_assoc; reflexivity).
    set (before2 := before ++ [KBlank (b ++ pend); KWord (pchunk_str x)]) in *. assert (LQ : List.length before2 = S (S p)) by (unfold before2; rewrite app_length; cbn; lia).
    destruct (toks_head l final) as (tk & r & TH & BT & TP). assert (NQ : nth_error toks (S (S p)) = Some tk) by (rewrite TE, TH, <- LQ; apply nth_head).
    destruct f as [|[|[|[|f]]]]; try (exfalso; clear - Hf; lia).
    destruct (loop_blank k (S (S f)) toks p hi la pv tb g _ N0 HT) as [h1 E1]. rewrite E1. clear E1.
    destruct (loop_word k (S (S f)) toks (S p) h1 (S p) la g _ N1) as [h2 E2]. rewrite E2. clear E2. rewrite (name_eq x Hx).
    destruct (em_empty (em_run t (fed lower [h_lemma x]))) eqn:DE.
    + destruct (em_run t (fed lower [h_lemma x])) as [|? ?]; [|discriminate DE].
      rewrite (loop_settled k (S f) _ _ toks (S (S p)) h2 (S (S p)) (S p) [] g) by (apply settle_open; [right; reflexivity|exact Hx]). rewrite TE.
      rewrite (K k (S (S f)) before2 (S (S p)) h2 (S (S p)) (S p) []); [reflexivity|exact Hk|clear - Hf; lia|exact LQ|left; reflexivity].
    + assert (CL := proj2 (name_none lower defs ps t wf comp (h_lemma x) ND) NM).
      destruct (loop_more k (S f) toks (S (S p)) h2 (S p) la g x tk NQ BT DE) as (h3 & m & Hm & E4). rewrite E4, CL. clear E4.
      rewrite (loop_settled k f _ _ toks (S (S p)) h3 (S (S p)) (S p) [S (S p)] g) by (apply settle_open; [exact Hm|exact Hx]). rewrite TE.
      rewrite (K k (S f) before2 (S (S p)) h3 (S (S p)) (S p) [S (S p)]); [reflexivity|exact Hk|clear - Hf; lia|exact LQ|right; reflexivity].
Qed.
End Loop.
(** ** tokens *)
Lemma wt_app a b : WText a -> WText b -> WText (a ++ b).
Proof. induction 1; intros K; cbn [app]; [exact K|apply wt_char; auto|apply wt_esc; auto]. Qed.
Lemma wt_specials s : Forall (fun c => ~ special c) s -> WText s.
Proof. induction 1 as [|c s Hc _ IH]; [constructor|]. apply special_neq in Hc. apply wt_char; tauto. Qed.
Lemma wt_lemma r : Forall lemma_item_ok r -> WText (reading_str r).
Proof.
  induction 1 as [|i r Hi _ IH]; [constructor|]. change (reading_str (i :: r)) with (item_str i ++ reading_str r). destruct i as [c|c|g]; cbn [item_str app lemma_item_ok] in *; [| |contradiction].
  - apply special_neq in Hi. apply wt_char; tauto.
  - apply wt_esc, IH.
Qed.
Lemma wt_tags ts : Forall (Forall (fun c => ~ special c)) ts -> WText (flat_map (fun t => cLT :: t ++ [cGT]) ts).
Proof.
  induction 1 as [|t ts Ht _ IH]; [constructor|]. cbn [flat_map app]. apply wt_char; try discriminate. rewrite <- app_assoc. apply wt_app; [apply wt_specials, Ht|]. cbn [app]. apply wt_char; try discriminate. exact IH.
Qed.
Lemma pchunk_chunk x : pchunk_ok x -> ChunkText (pchunk_str x).
Proof.
  intros (A & B & _ & _ & C). unfold pchunk_str, chunk_text. rewrite app_assoc. apply ct_chunk; [|exact C]. apply wt_app; [apply wt_lemma, A|apply wt_tags, B].
Qed.
Lemma pchunks_toks l final : Forall (fun bx => BText (fst bx) /\ pchunk_ok (snd bx)) l -> BText final ->
  klex false false KTop (pchunks_text l final) [] = Some (toks_from [] l final, None).
Proof.
  intros HL HF. set (sl := map (fun bx => (fst bx, pchunk_str (snd bx))) l).
  assert (HS : Forall (fun bw : str * str => BText (fst bw) /\ ChunkText (snd bw)) sl).
  { apply Forall_map. eapply Forall_impl; [|exact HL]. intros [b x] [A B]. split; [exact A|apply pchunk_chunk, B]. }
  destruct (C31_interchunk_tokens false sl final HS HF) as [E _].
  assert (T1 : pchunks_text l final = stream sl final). { unfold sl. clear. induction l as [|[b x] l IH]; [reflexivity|]. cbn. rewrite IH. reflexivity. }
  assert (T2 : map Proofs.ChunkLoop.ktok (stream_items sl) ++ [KEof final] = toks_from [] l final).
  { unfold sl. clear. induction l as [|[b x] l IH]; [cbn; rewrite app_nil_r; reflexivity|]. cbn. rewrite app_nil_r. f_equal. f_equal. exact IH. }
  rewrite T1, E, T2. reflexivity.
Qed.
