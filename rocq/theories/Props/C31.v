(** C31: the loop of transfer, interchunk and postchunk is left-to-right longest match.
    Spec/ChunkLoop.v: [Run].  [good] (Proofs/ChunkLoop.v) says that the matcher is a pattern matcher (shown for every list of
    patterns below) and that a rule looks only at the words its pattern matched; [shifts_whole] is the condition under which
    the claim holds for rules rejecting themselves with shifting="N". *)
From Coq Require Import String ZArith.
From Verif Require Import Model.Base Proofs.Base Model.ChunkLoop Model.ChunkTokens Spec.ChunkLoop Spec.ChunkTokens Proofs.TransferMult Proofs.ChunkLoop Proofs.ChunkTokens Proofs.Patterns.

(** partial: [shifts_whole] is needed (refuted without, below) *)
Theorem C31_longest_match_partial : forall clear MS i w b e rs G act default plen nrules items last g,
  good MS i w b e rs G act plen nrules -> shifts_whole act plen -> Sep items ->
  forall out g',
  (exists fuel st, lloop clear MS i w b e rs G act default fuel (map ktok items ++ [KEof last]) (lstart MS i G [] g) = Some (out, st) /\ l_g MS G st = g')
  <-> Run (laccepts MS i w b rs) G act default [] g items last out g'.
Proof.
  intros clear MS i w b e rs G act default plen nrules items last g HG HS Hsep out g'.
  destruct (loop_correct clear MS i w b e rs G act default plen nrules items last g HG HS Hsep) as (f0 & o & st & H1 & H2 & _). split.
  - intros (fuel & st2 & E & <-). assert (E2 := lloop_mono_le _ _ _ _ _ _ _ _ _ _ _ _ _ _ _ (Nat.le_max_l fuel f0) E).
    rewrite H1 in E2 by apply Nat.le_max_r. injection E2 as <- <-. exact H2.
  - intros HR. exists f0, st. destruct (run_det _ _ _ _ (fun r m => good_start _ _ _ _ _ _ _ _ _ _ r m HG) _ _ _ _ _ _ H2 _ _ HR) as [<- <-]. split; [apply H1, le_n|reflexivity].
Qed.
Print Assumptions C31_longest_match_partial.
(** and it always ends, with exactly one result *)
Theorem C31_ends : forall clear MS i w b e rs G act default plen nrules items last g,
  good MS i w b e rs G act plen nrules -> shifts_whole act plen -> Sep items ->
  exists f0 out st, forall fuel, f0 <= fuel -> lloop clear MS i w b e rs G act default fuel (map ktok items ++ [KEof last]) (lstart MS i G [] g) = Some (out, st).
Proof.
  intros. destruct (loop_correct clear MS i w b e rs G act default plen nrules items last g) as (f0 & o & st & H2 & _); try assumption. exists f0, o, st. exact H2.
Qed.
Print Assumptions C31_ends.
(** every list of patterns (lists of tests on words) is such a matcher, whatever the rules do with their words *)
Theorem C31_patterns : forall ps G (act : nat -> G -> list str -> list str -> str * list str * Z * G), ps <> [] ->
  (forall r g ws bs, act r g ws bs = act r g (firstn (length (nth r ps [])) ws) bs) ->
  good PM (pm_init ps) pm_word pm_blank pm_empty pm_rules G act (fun r => length (nth r ps [])) (length ps).
Proof.
  intros ps G act Hps Hl. constructor.
  - apply pm_init_live, Hps.
  - apply pm_fin.
  - apply pm_dead.
  - apply pm_alt.
  - intros r l H. apply (pm_accepts ps) in H. apply H.
  - intros r l H. apply (pm_accepts ps) in H. apply H.
  - exact Hl.
  - intros r l H. apply (pm_accepts ps) in H. apply H.
Qed.
Print Assumptions C31_patterns.
(** the tokenisers deliver exactly the blanks and lexical units of a stream *)
Theorem C31_interchunk_tokens : forall nf l last, Forall (fun bw => BText (fst bw) /\ ChunkText (snd bw)) l -> BText last ->
  klex nf false KTop (stream l last) [] = Some (map ktok (stream_items l) ++ [KEof last], None) /\ Sep (stream_items l).
Proof.
  intros nf l last H HL. split; [|apply sep_stream]. rewrite <- (app_nil_r (stream l last)), k_stream by assumption. reflexivity.
Qed.
Print Assumptions C31_interchunk_tokens.
Theorem C31_transfer_tokens : forall nf l last, Forall (fun bw => BText (fst bw) /\ BText (snd bw)) l -> BText last ->
  tlex nf TTop (stream l last) [] = Some (map ktok (stream_items l) ++ [KEof last], None) /\ Sep (stream_items l).
Proof.
  intros nf l last H HL. split; [|apply sep_stream]. rewrite <- (app_nil_r (stream l last)), t_stream by assumption. reflexivity.
Qed.
Print Assumptions C31_transfer_tokens.
(** a lexical unit with a word-bound blank [[wb]]^w$ is one word of transfer, the text before it one blank *)
Theorem C31_transfer_wblank : forall nf b c wb r, BText b -> c <> cBS -> c <> cNUL -> NoDol wb ->
  tlex nf TTop (b ++ [cLB; cLB] ++ c :: wb ++ cDOL :: r) [] =
  kcons (KBlank b) (kcons (KWord ([cLB; cLB] ++ c :: wb)) (tlex nf TTop r [])).
Proof.
  intros nf b c wb r Hb H1 H2 H3. rewrite t_btext by exact Hb. cbn [app].
  transitivity (kcons (KBlank (removelast (b ++ [cLB]))) (tlex nf TWb0 (c :: wb ++ cDOL :: r) [])).
  { cbn [tlex]. change (cLB =?c cNUL) with false. rewrite andb_false_r. reflexivity. }
  rewrite removelast_last. f_equal. cbn [tlex]. destruct (ceq_spec c cNUL); [contradiction|]. rewrite andb_false_r.
  change (([cLB; cLB] ++ [c])) with ([cLB; cLB; c]). rewrite t_wb by exact H3. reflexivity.
Qed.
Print Assumptions C31_transfer_wblank.

(** ** Findings *)
Definition is (s : string) : str -> bool := str_eqb (u s).
Definition exps : list wpat := [[is "a"; is "b"]; [is "b"]].
(* rule 0 (a b): reject with shifting="yes"; rule 1 (b): reject with shifting="no" *)
Definition exact1 (r : nat) (g : unit) (ws bs : list str) : str * list str * Z * unit :=
  match r with 0 => ([], bs, 1%Z, g) | _ => ([], bs, 0%Z, g) end.
Definition exdefault (w : str) : str := cCARET :: w ++ [cDOL].
Definition extoks (s : string) : list tkn := match klex false false KTop (u s) [] with Some (t, _) => t | None => [] end.
Definition exrun act (s : string) : option str :=
  match lloop true PM (pm_init exps) pm_word pm_blank pm_empty pm_rules unit act exdefault 50 (extoks s) (lstart PM (pm_init exps) unit [] tt) with
  | Some (o, _) => Some o | None => None end.
(** A rule of two words that rejects itself with shifting="1" leaves a wrong position behind: if the rule for the next word
    rejects too, that word disappears (and so do the blanks around it). *)
Theorem C31_shift_refuted : good PM (pm_init exps) pm_word pm_blank pm_empty pm_rules unit exact1 (fun r => length (nth r exps [])) (length exps) /\
  exrun exact1 "^a$ ^b$ ^c$" = Some (u " ^c$").
Proof. split; [|vm_compute; reflexivity]. apply C31_patterns; [discriminate|]. intros [|r] g ws bs; reflexivity. Qed.
Print Assumptions C31_shift_refuted.
(** A rejected rule prints the blanks between its words (unless a single space), and they are printed again with the words. *)
Definition exact0 (r : nat) (g : unit) (ws bs : list str) : str * list str * Z * unit := ([], bs, 0%Z, g).
Theorem C31_reject_duplicates_blanks_refuted : exrun exact0 "^a$[<br/>]^b$" = Some (u "[<br/>]^a$[<br/>]^b$").
Proof. vm_compute. reflexivity. Qed.
Print Assumptions C31_reject_duplicates_blanks_refuted.

(** Case: rules 0 = a b -> X, 1 = b -> rejects; longest match, then default *)
Definition exact2 (r : nat) (g : unit) (ws bs : list str) : str * list str * Z * unit :=
  match r with 0 => (u "X", bs, (-1)%Z, g) | _ => ([], bs, 0%Z, g) end.
Example C31_case : exrun exact2 "^a$ ^b$ ^b$.^a$[x]^b$" = Some (u "X ^b$.X[x]").
Proof. vm_compute. reflexivity. Qed.
Example C31_case_hyps : good PM (pm_init exps) pm_word pm_blank pm_empty pm_rules unit exact2 (fun r => length (nth r exps [])) (length exps) /\
  shifts_whole exact2 (fun r => length (nth r exps [])).
Proof.
  split; [apply C31_patterns; [discriminate|]; intros [|r] g ws bs; reflexivity|].
  intros [|r] g ws bs o lf z g' E Hz; injection E as <- <- <- <-; lia.
Qed.
