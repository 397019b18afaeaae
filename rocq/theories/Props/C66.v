(** C66: what a command line of the script apertium starts.  Model: Model/ApertiumCmd.v (apertium-header.sh); Spec/ApertiumCmd.v: how options
    are written, what they ask for, the pipeline of each format. *)
From Coq Require Import String.
From Verif Require Import Model.Base Model.ApertiumCmd Spec.ApertiumCmd Proofs.Base Proofs.ApertiumCmd.
Open Scope nat_scope.

(** a pipeline is started if and only if the command line is well written, the files and the mode exist and the programs of the format
    are there, and then it is the pipeline of the format with all the options; for the formats of the usage text and an environment that does
    not set variables of the script *)
Theorem C66_pipeline_partial : forall e t args p, clean e -> s_utf8 t = true -> s_exists t [] = false ->
  (forall its pos f, cmdline args its pos -> value_of "f" its (u "txt") f -> In f formats) ->
  (main e t args = Start p <-> exists its pos q, cmdline args its pos /\ ~ given "V" its /\ ~ given "h" its /\ ~ given "l" its /\
     requests e its pos q /\ usable t q /\ s_exists t (mode_of q) = true /\ pipeline e t q p).
Proof. intros e t args p C U E. apply starts; assumption. Qed.
Print Assumptions C66_pipeline_partial.

Theorem C66_version : forall e t args, clean e -> s_utf8 t = true ->
  (main e t args = OVersion <-> exists pre args' its cs rest, args = pre ++ args' /\ Forall no_dash pre /\ (~ given "V" its /\ ~ given "h" its) /\ reads its args' ((cDASH :: chr "V" :: cs) :: rest)).
Proof. intros e t args C U. apply versions; assumption. Qed.
Print Assumptions C66_version.

(** -l lists the modes of the data directory, whatever else is given *)
Theorem C66_list : forall e t args its pos, clean e -> s_utf8 t = true -> cmdline args its pos -> ~ given "V" its -> ~ given "h" its -> given "l" its ->
  exists d, value_of "d" its (e_datadir e) d /\ main e t args = OList d.
Proof. intros e t args its pos C U H V Hh L. apply (run_request e t C U args its pos H (conj V Hh)). exact L. Qed.
Print Assumptions C66_list.

(** a wrong number of arguments, a missing input file, directory or mode: nothing is started *)
Theorem C66_rejects : forall e t args its pos, clean e -> s_utf8 t = true -> cmdline args its pos -> ~ given "V" its -> ~ given "h" its -> ~ given "l" its ->
  (length pos = 0 \/ length pos > 3 -> main e t args = OUsage) /\
  (forall q, requests e its pos q -> ~ usable t q -> main e t args = OUsage) /\
  (forall q, requests e its pos q -> usable t q -> s_exists t (mode_of q) = false -> main e t args = OError NoMode).
Proof.
  intros e t args its pos C U H V Hh L. destruct (run_request e t C U args its pos H (conj V Hh)) as [_ NL]. destruct (NL L) as [[N K]|(q & s & R & F & K)].
  - split; [auto|]. assert (X : forall q, ~ requests e its pos q). { intros q (_ & _ & _ & _ & _ & _ & _ & _ & _ & _ & R). destruct R as [(E & _)|[(E & _)|(o & E & _)]]; rewrite E in N; cbn in N; destruct N as [N|N]; [discriminate N|repeat apply le_S_n in N; inversion N|discriminate N|repeat apply le_S_n in N; inversion N|discriminate N|repeat apply le_S_n in N; inversion N]. }
    split; intros q R; destruct (X q R).
  - split; [|split].
    + intros N. exfalso. destruct R as (_ & _ & _ & _ & _ & _ & _ & _ & _ & _ & R). destruct R as [(E & _)|[(E & _)|(o & E & _)]]; rewrite E in N; cbn in N; destruct N as [N|N]; [discriminate N|repeat apply le_S_n in N; inversion N|discriminate N|repeat apply le_S_n in N; inversion N|discriminate N|repeat apply le_S_n in N; inversion N].
    + intros q' R' NU. rewrite (requests_fun e its pos q' q R' R) in NU. rewrite K, (checks_spec e t s q _ _ _ F). destruct (_ && _) eqn:B; [destruct NU; apply usable_spec; exact B|reflexivity].
    + intros q' R' US M. rewrite (requests_fun e its pos q' q R' R) in US, M. rewrite K, (checks_spec e t s q _ _ _ F), (proj1 (usable_spec t q) US), M. reflexivity.
Qed.
Print Assumptions C66_rejects.

(** ** Examples *)
Definition ex_env := mkenv (u "/data") [] [] [] [] [] [] [].
Definition ex_sys := mksys true true (fun f => existsb (str_eqb f) [u "/dev/stdin"; u "in.html"; u "d.docx"; u "/data/modes/en-es.mode"]) (fun _ => true) (str_eqb (u "/data/modes")) (fun d _ => str_eqb d (u "en-es"))
  (fun _ => u "utf-8") (fun c => negb (str_eqb c (u "tf-extract"))) (fun n => u "/tmp/apertium." ++ repeat 65%N n).
Definition ex_args := [u "en-es"; u "-uf"; u "html"; u "-n"; u "in.html"; u "out.html"].
Example ex_run : main ex_env ex_sys ex_args = Start (mkplan [Exec [u "apertium-deshtml"; u "-n"; u "in.html"]; Mode [u "apertium-wblank-mode"; u "/data/modes/en-es.mode"] (u "-n") []; Exec [u "apertium-rehtml"]] (Some (u "out.html")) false None []).
Proof. reflexivity. Qed.
Example ex_cmdline : cmdline ex_args [Flag (chr "u"); Value (chr "f") (u "html"); Flag (chr "n")] [u "en-es"; u "in.html"; u "out.html"].
Proof.
  exists [u "en-es"], [u "-uf"; u "html"; u "-n"; u "in.html"; u "out.html"], [u "in.html"; u "out.html"], [u "in.html"; u "out.html"]. split; [reflexivity|]. split; [repeat constructor; discriminate|].
  split; [intros a r [= <- <-] K; apply K; reflexivity|]. split; [|split; [|reflexivity]].
  - apply r_flags; [cbn; tauto|discriminate|]. apply r_separate; [cbn; tauto|]. apply r_flag; [cbn; tauto|]. constructor.
  - constructor. left. discriminate.
Qed.
Example ex_clean : clean ex_env /\ s_utf8 ex_sys = true /\ s_exists ex_sys [] = false.
Proof. repeat split. Qed.
Example ex_memory : main ex_env ex_sys [u "-mm.tmx"; u "-o"; u "en-es"; u "-s"; u "-a"; u "en-es"] =
  Start (mkplan [Exec [u "apertium-destxt"; u "/dev/stdin"]; Exec [u "lt-tmxproc"; u "-s"; u "/tmp/apertium."]; Mode [u "apertium-wblank-mode"; u "/data/modes/en-es.mode"] (u "-g") (u "-m"); Exec [u "apertium-retxt"]] None true None []).
Proof. reflexivity. Qed.
Example ex_others : main ex_env ex_sys [u "-f"; u "html"; u "en-es"; u "-u"] = OUsage /\ main ex_env ex_sys [u "--"; u "en-es"] = main ex_env ex_sys [u "en-es"] /\ main ex_env ex_sys [u "-ulx"] = OUsage /\
  main ex_env ex_sys [u "a"; u "-lu"; u "-d"; u "x"] = OList (u "x") /\ main ex_env ex_sys [u "-uV-x"] = OVersion /\ main ex_env ex_sys [u "-f"] = OUsage /\ main ex_env ex_sys [u "es-en"] = OError NoMode /\ main ex_env ex_sys [] = OUsage.
Proof. repeat split. Qed.

(** ** What is not so *)
(** "by default 'direction' is used" for the translation memory: the direction handed to lt-tmxcomp is empty *)
Theorem C66_memory_direction_refuted :
  (forall e t args p its pos q, clean e -> s_utf8 t = true -> s_exists t [] = false -> (forall its pos f, cmdline args its pos -> value_of "f" its (u "txt") f -> In f formats) ->
     cmdline args its pos -> ~ given "V" its -> ~ given "h" its -> ~ given "l" its -> requests e its pos q -> q_memory q <> [] -> (forall d, ~ In (Value (chr "o") d) its) -> main e t args = Start p -> s_tmx t [] (q_memory q) = true) /\
  main ex_env ex_sys [u "-m"; u "m.tmx"; u "en-es"] = OUsage /\ (exists p, main ex_env ex_sys [u "-m"; u "m.tmx"; u "-o"; u "en-es"; u "en-es"] = Start p).
Proof.
  split; [|split; [reflexivity|eexists; reflexivity]]. intros e t args p its pos q C U E F CL V H L R M O K.
  destruct (C66_rejects e t args its pos C U CL V H L) as (_ & X & _). assert (D : q_direction q = []). { destruct R as (_ & _ & _ & R & _). destruct R as [(a & b & -> & _)|[_ R]]; [|exact R]. destruct (O (q_direction q)). apply in_or_app. right. left. reflexivity. }
  destruct (s_exists t (q_in q) && s_readable t (q_in q) && match q_memory q with [] => true | m => s_tmx t (q_direction q) m end && s_dir t (q_dir q ++ u "/modes")) eqn:B.
  - apply usable_spec in B as (_ & _ & B & _). rewrite D in B. exact (B M).
  - rewrite (X q R) in K; [discriminate|]. intros US. apply usable_spec in US. congruence.
Qed.
Print Assumptions C66_memory_direction_refuted.
(** the command for a sheet embedded in a docx or pptx document has, without -u, an empty argument before the pair: it translates nothing
    unless there is a file whose name is the pair, and then not with the mode of the pair *)
Theorem C66_embedded_refuted :
  (exists p f cmd, main ex_env ex_sys [u "-f"; u "docx"; u "en-es"; u "d.docx"] = Start p /\ Model.ApertiumCmd.p_zip p = Some (f, [cmd], false) /\ cmd = [u "apertium"; u "-f"; u "xlsx"; u "-d"; u "/data"; []; u "en-es"] /\ main ex_env ex_sys (tl cmd) = OUsage) /\
  (forall e t d pair p, clean e -> s_utf8 t = true -> s_exists t [] = false -> main e t [u "-f"; u "xlsx"; u "-d"; d; []; pair] = Start p ->
     s_exists t pair = true /\ s_exists t (d ++ u "/modes/.mode") = true /\ exists w, Model.ApertiumCmd.p_zip p = Some w /\ fst (fst w) = pair).
Proof.
  split; [do 3 eexists; repeat split|]. intros e t d pair p (C1 & C2 & C3 & C4 & C5 & C6) U EX. destruct e as [e1 e2 e3 e4 e5 e6 e7 e8]. cbn in C1, C2, C3, C4, C5, C6. subst. unfold main. rewrite U. 
  assert (P : preopt [u "-f"; u "xlsx"; u "-d"; d; []; pair] = ([], [u "-f"; u "xlsx"; u "-d"; d; []; pair])) by reflexivity. rewrite P.
  assert (G : getopts [u "-f"; u "xlsx"; u "-d"; d; []; pair] (st_init (mkenv e1 e2 [] [] [] [] [] [])) = Rest (mkst (u "xlsx") d [] [] [] [] [] [] [] false []) [[]; pair]) by reflexivity. rewrite G. cbn match. cbn [app]. unfold checks. cbn [o_list o_tm o_datadir].
  destruct (s_exists t pair) eqn:XP; [|discriminate]. destruct (s_readable t pair); [|discriminate]. destruct (s_dir t _); [|discriminate]. cbn [andb]. unfold mode_file. cbn [o_datadir app]. destruct (s_exists t (d ++ sx "/modes/" ++ sx ".mode")) eqn:M; [|discriminate].
  intros H. split; [reflexivity|]. split; [exact M|].
  assert (H' : translate_xlsx (mkenv e1 e2 [] [] [] [] [] []) t (mkst (u "xlsx") d [] [] [] [] [] [] [] false []) pair [] None (u "-g") = Start p) by exact H.
  unfold translate_xlsx, translate_zip in H'. destruct (has_zip t); [|discriminate]. injection H' as <-. cbn [Model.ApertiumCmd.p_zip]. eexists. split; [reflexivity|]. cbn [fst]. destruct pair; [congruence|reflexivity].
Qed.
Print Assumptions C66_embedded_refuted.
(** the exit status: only for the plain formats a failure in the pipeline is reported *)
Theorem C66_status_refuted : (forall e t q p, pipeline e t q p -> (p_status p = true <-> In (q_format q) [u "none"; u "txt"; u "rtf"; u "xpresstag"; u "mediawiki"; u "wxml"])) /\
  exists p, main ex_env ex_sys ex_args = Start p /\ p_status p = false.
Proof.
  split; [|eexists; split; reflexivity]. intros e t q p H. destruct H as [F|F|first re F N1 N2|f F W|f F GA FI EN|what first des re emb drop F N1 N2 Z1 Z2]; cbn [p_status].
  - rewrite F. cbn [In]. tauto.
  - split; [intros _; cbn [In] in *; tauto|reflexivity].
  - split; [discriminate|]. intros K. exfalso. destruct F; cbn in K; intuition discriminate.
  - split; [discriminate|]. intros K. exfalso. destruct (tf_name _ _ F) as [[[E|E] _]|[[E _]|[[E _]|[[[E|E] _]|[E _]]]]]; rewrite E in K; cbn in K; intuition discriminate.
  - split; [discriminate|]. intros K. exfalso. destruct F as [E|[E|[]]]; rewrite <- E in K; cbn in K; intuition discriminate.
  - split; [discriminate|]. intros K. exfalso. destruct F as [g [E|[E|[]]]| | |]; try rewrite <- E in K; cbn in K; intuition discriminate.
Qed.
Print Assumptions C66_status_refuted.
(** -u has no effect with a format that is not known; the format wxmlu calls programs that do not exist; -H has no effect with line; -z does
    not reach the program of the translation memory *)
Theorem C66_options_refuted :
  main ex_env ex_sys [u "-u"; u "-f"; u "text"; u "en-es"] = main ex_env ex_sys [u "en-es"] /\
  (exists a b z c, main ex_env ex_sys [u "-f"; u "wxmlu"; u "en-es"] = Start (mkplan [Exec (u "apertium-deswxmlu" :: a); b; c] None true z [])) /\
  main ex_env ex_sys [u "-H"; u "-f"; u "line"; u "en-es"] = main ex_env ex_sys [u "-f"; u "line"; u "en-es"] /\
  (exists a b c d, main ex_env ex_sys [u "-z"; u "-m"; u "m"; u "-o"; u "en-es"; u "en-es"] = Start (mkplan [a; Exec [u "lt-tmxproc"; s_tmp ex_sys 0]; b; c] None true d [])).
Proof. split; [reflexivity|]. split; [do 4 eexists; reflexivity|]. split; [reflexivity|]. do 4 eexists. reflexivity. Qed.
Print Assumptions C66_options_refuted.
(** variables of the environment with the names of the script's own: UWORDS switches the marks off, REDIR sends the output to a file,
    and BORRAFICHERO deletes the document that was to be translated *)
Theorem C66_environment_refuted :
  (exists a b, main (mkenv (u "/data") [] (u "no") [] [] [] [] []) ex_sys [u "en-es"] = Start (mkplan [a; Mode [u "apertium-wblank-mode"; u "/data/modes/en-es.mode"] (u "-n") []; b] None true None [])) /\
  (exists p, main (mkenv (u "/data") [] [] [] [] (u "1") (u "f") []) ex_sys [u "en-es"] = Start p /\ p_out p = Some (u "f")) /\
  (exists p, main (mkenv (u "/data") [] [] [] [] [] [] (u "true")) ex_sys [u "-fdocx"; u "en-es"; u "d.docx"] = Start p /\ p_delete p = [u "d.docx"]).
Proof. split; [do 2 eexists; reflexivity|]. split; eexists; split; reflexivity. Qed.
Print Assumptions C66_environment_refuted.
