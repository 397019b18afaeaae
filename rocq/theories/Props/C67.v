(** C67: preferences of the user (AP_SETVAR) reach the stages before every message, exceptions are turned into the other options, and the commands
    do not show in the translation. *)
From Coq Require Import String.
From Verif Require Import Model.Base Proofs.Base Model.Setvar Spec.Setvar Proofs.Setvar.
Open Scope nat_scope.

(** The file of the preferences of a pair. *)
Definition file (d name : str) : str := d ++ u "/prefs/"%string ++ name ++ u ".xml"%string.

(** Whatever list of preferences is written, the new value is the list that is meant: keys and wanted options as they are, "all but these" as the
    options of the file that are not among these, in the order of the file. *)
Theorem C67_value_partial (files : str -> option prefs) (d pair : str) (o : prefs) (ps : list pref) :
  files (file d pair) = Some o -> (forall k, Forall name_ok (o k)) -> Forall pref_ok ps ->
  setvar files d pair (write_all ps) = write_all (map (meant o) ps).
Proof. intros F O H. apply setvar_spec; [unfold found; unfold file in F; cbv zeta; rewrite F; reflexivity|exact O|exact H]. Qed.
(** Without a file for the pair, the one named by what is before the last hyphen is used. *)
Theorem C67_value_base_partial (files : str -> option prefs) (d a b : str) (o : prefs) (ps : list pref) :
  ~ In cDASH b -> files (file d (a ++ u "-"%string ++ b)) = None -> files (file d a) = Some o -> (forall k, Forall name_ok (o k)) -> Forall pref_ok ps ->
  setvar files d (a ++ u "-"%string ++ b) (write_all ps) = write_all (map (meant o) ps).
Proof.
  intros B F G O H. apply setvar_spec; [|exact O|exact H]. unfold found. unfold file in *. cbv zeta. rewrite F.
  change (a ++ u "-"%string ++ b) with (a ++ cDASH :: b). rewrite base_spec by exact B. exact G.
Qed.
(** Without any file nothing is changed, unless the value looks like options of echo or ends with a newline. *)
Theorem C67_no_file (files : str -> option prefs) (d pair var : str) :
  files (file d pair) = None -> files (file d (base pair)) = None -> hd 0%N var <> cDASH -> ~ In cNL var -> setvar files d pair var = var.
Proof.
  intros F G H K. rewrite setvar_none; [|unfold found; unfold file in *; cbv zeta; rewrite F; exact G]. rewrite echo_id by exact H. apply chomp_id, K.
Qed.
(** Resolving a second time changes nothing, if every exception leaves something and no option of the file begins with a hyphen ... *)
Theorem C67_again_partial (files : str -> option prefs) (d pair : str) (o : prefs) (ps : list pref) :
  files (file d pair) = Some o -> (forall k, Forall name_ok (o k)) -> Forall pref_ok ps ->
  (forall k x, In x (o k) -> hd 0%N x <> cDASH) ->
  (forall k l, In (k, Except l) ps -> exists x, In x (o k) /\ ~ In x l) ->
  setvar files d pair (setvar files d pair (write_all ps)) = setvar files d pair (write_all ps).
Proof.
  intros F O H D L. assert (Fo : found files d pair = Some o) by (unfold found; unfold file in F; cbv zeta; rewrite F; reflexivity).
  rewrite (setvar_spec _ _ _ _ _ Fo O H). rewrite (setvar_spec _ _ _ o _ Fo O).
  - f_equal. rewrite map_map. apply map_ext. intros [k w]. unfold meant. cbn [fst snd]. destruct w; reflexivity.
  - apply Forall_forall. intros q Hq. apply in_map_iff in Hq. destruct Hq as [[k w] [<- Hp]]. rewrite Forall_forall in H. destruct (H _ Hp) as [K W].
    split; [exact K|]. unfold meant. cbn [fst snd] in *. destruct w as [|l|l]; [exact I|exact W|].
    destruct (L k l Hp) as [x [Hx Nx]].
    assert (Fx : In x (filter (fun o0 => negb (existsb (str_eqb o0) l)) (o k))).
    { apply filter_In. split; [exact Hx|]. destruct (existsb (str_eqb x) l) eqn:E; [|reflexivity]. exfalso. apply existsb_exists in E. destruct E as [y [Hy E]].
      apply str_eqb_eq in E. subst y. exact (Nx Hy). }
    split; [intros E; rewrite E in Fx; exact Fx|]. split; [apply filter_ok, O|].
    destruct (filter (fun o0 => negb (existsb (str_eqb o0) l)) (o k)) as [|y r] eqn:E; [destruct Fx|].
    cbn [hd]. apply (D k). apply (proj1 (filter_In (fun o0 => negb (existsb (str_eqb o0) l)) y (o k))). rewrite E. left. reflexivity.
Qed.

(** The stages read a command before the first message and after every NUL, and otherwise what came in; nothing if nothing came in. *)
Theorem C67_wrap (var : str) (ms : list str) (rest : str) :
  on var = true -> Forall (fun m => ~ In 0%N m) (rest :: ms) -> messages ms rest <> [] ->
  wrap var (messages ms rest) = cmd var ++ flat_map (fun m => m ++ [0]%N ++ cmd var) ms ++ rest.
Proof. apply wrap_spec. Qed.
(** Values with a character that is in no number are told (see C67_zero_refuted for others). *)
Theorem C67_told (var : str) (c : char) : In c var -> ~ In c ([32; 9; 10; 11; 12; 13]%N ++ u "+-.0123456789eE"%string) -> on var = true.
Proof. apply on_spec. Qed.
Theorem C67_wrap_nothing (var : str) : wrap var [] = [].
Proof. reflexivity. Qed.
(** Of a text with commands in it the text is left, wherever the stages put the commands. *)
Theorem C67_unwrap (var t : str) (l : list (str * str)) :
  on var = true -> free t -> Forall (fun x => value_ok (fst x) /\ free (snd x)) l -> unwrap var (weave t l) = plain_text t l.
Proof. apply unwrap_weave. Qed.
(** Stages that do nothing: out comes what went in. *)
Theorem C67_identity (var s : str) : value_ok var -> free s -> unwrap var (wrap var s) = s.
Proof. apply roundtrip. Qed.
(** Without preferences neither filter touches anything. *)
Theorem C67_off (s : str) : wrap [] s = s /\ unwrap [] s = s.
Proof. split; [apply wrap_off|apply unwrap_off]; reflexivity. Qed.

(** *** What does not hold *)
(** ... otherwise it may: an exception that leaves nothing is "key=" first and "key" then, which means all of it. *)
Theorem C67_again_refuted : exists (files : str -> option prefs) d pair o ps,
  files (file d pair) = Some o /\ (forall k, Forall name_ok (o k)) /\ Forall pref_ok ps /\
  setvar files d pair (write_all ps) = u "x="%string /\ setvar files d pair (setvar files d pair (write_all ps)) = u "x"%string.
Proof.
  set (o := fun k : str => if str_eqb k (u "x"%string) then [u "a"%string] else []).
  exists (fun _ => Some o), [], (u "eng"%string), o, [(u "x"%string, Except [u "a"%string])].
  assert (NO : forall c, c = 97%N \/ c = 120%N -> without (u ",=:"%string ++ [10]%N) [c]).
  { intros c C d D [E|[]]. subst d. destruct C as [-> | ->]; cbn in D; intuition discriminate. }
  split; [reflexivity|]. split.
  { intros k. unfold o. destruct (str_eqb k (u "x"%string)); [|constructor]. constructor; [|constructor]. split; [discriminate|apply NO; tauto]. }
  split; [|split; vm_compute; reflexivity].
  constructor; [|constructor]. split.
  - split; [discriminate|]. split; [discriminate|]. intros c C. apply (NO 120%N); [tauto|]. cbn in *. tauto.
  - constructor; [|constructor]. split; [discriminate|apply NO; tauto].
Qed.
(** The value 0 (or 0.0, 00 ...) is not told to the stages. *)
Theorem C67_zero_refuted : wrap (u "0"%string) (u "text"%string) = u "text"%string /\ wrap (u "0.0e5 "%string) (u "text"%string) = u "text"%string.
Proof. split; vm_compute; reflexivity. Qed.
(** Commands that were in the text of the user are removed too, whatever their value; the comment in the script promises to keep them. *)
Theorem C67_manual_refuted (var v a b : str) : on var = true -> value_ok v -> free a -> free b -> unwrap var (a ++ cmd v ++ b) = a ++ b.
Proof.
  intros O V A B. assert (E := unwrap_weave var a [(v, b)] O A). unfold weave, plain_text in E. cbn [flat_map fst snd] in E. rewrite !app_nil_r in E.
  apply E. constructor; [split; assumption|constructor].
Qed.
(** A command can be left, when another one stood inside it. *)
Theorem C67_left_refuted : unwrap (u "x"%string) (u "[<STREAM[<STREAMCMD:SETVAR:x>]CMD:SETVAR:y>]"%string) = u "[<STREAMCMD:SETVAR:y>]"%string.
Proof. vm_compute. reflexivity. Qed.
(** A key that looks like an option of echo is lost. *)
Theorem C67_echo_refuted : setvar (fun _ => None) [] (u "eng"%string) (u "-n"%string) = [].
Proof. reflexivity. Qed.

(** *** Cases that meet the hypotheses *)
(** the example in the script *)
Example C67_ex_script :
  setvar (fun f => if str_eqb f (u "/usr/share/apertium/prefs/eng.xml"%string)
                   then Some (fun k => if str_eqb k (u "ise_ize"%string) then map u ["agonise"; "idolise"; "exorcise"; "lionise"]%string else []) else None)
         (u "/usr/share/apertium"%string) (u "eng-spa"%string) (u "ise_ize=-agonise:idolise,color_colour"%string)
  = u "ise_ize=exorcise:lionise,color_colour"%string.
Proof. vm_compute. reflexivity. Qed.
Example C67_ex_written : write_all [(u "ise_ize"%string, Except [u "agonise"%string; u "idolise"%string]); (u "color_colour"%string, Key)]
  = u "ise_ize=-agonise:idolise,color_colour"%string.
Proof. reflexivity. Qed.
Example C67_ex_ok : pref_ok (u "ise_ize"%string, Except [u "agonise"%string; u "idolise"%string]).
Proof.
  split; [split; [discriminate|split; [discriminate|]]|repeat constructor; try discriminate];
  intros c C K; cbn in C; repeat (destruct C as [<-|C]; [cbn in K; intuition discriminate|]); exact C.
Qed.
Example C67_ex_stream : wrap (u "x=a"%string) (u "one"%string ++ [0]%N ++ u "two"%string)
  = u "[<STREAMCMD:SETVAR:x=a>]one"%string ++ [0]%N ++ u "[<STREAMCMD:SETVAR:x=a>]two"%string
  /\ on (u "x=a"%string) = true /\ unwrap (u "x=a"%string) (u "[<STREAMCMD:SETVAR:x=a>]one"%string ++ [0; 10]%N) = u "one"%string ++ [0; 10]%N.
Proof. repeat split; vm_compute; reflexivity. Qed.

Print Assumptions C67_value_partial.
Print Assumptions C67_value_base_partial.
Print Assumptions C67_no_file.
Print Assumptions C67_again_partial.
Print Assumptions C67_wrap.
Print Assumptions C67_told.
Print Assumptions C67_wrap_nothing.
Print Assumptions C67_unwrap.
Print Assumptions C67_identity.
Print Assumptions C67_off.
Print Assumptions C67_again_refuted.
Print Assumptions C67_zero_refuted.
Print Assumptions C67_manual_refuted.
Print Assumptions C67_left_refuted.
Print Assumptions C67_echo_refuted.
