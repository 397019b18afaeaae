(** What a command line of apertium asks for: the usage text of apertium-header.sh (lines 19-42) and apertium.1. *)
From Coq Require Import String.
From Verif Require Import Model.Base Model.ApertiumCmd.
Open Scope nat_scope.

Definition chr (s : string) : char := hd 0%N (u s).
(** ** How options are written *)
Inductive item := Flag (c : char) | Value (c : char) (v : str).
Definition flag_letter (c : char) : Prop := In c (u "uahlVzsnH").
Definition value_letter (c : char) : Prop := In c (u "fdmo").
(** [reads its args rest]: the arguments begin with the options its, rest is what follows; of an argument with several letters the rest
    is what follows with the dash before it *)
Inductive reads : list item -> list str -> list str -> Prop :=
| r_nil args : reads [] args args
| r_flag c its args rest : flag_letter c -> reads its args rest -> reads (Flag c :: its) ([cDASH; c] :: args) rest
| r_flags c d r its args rest : flag_letter c -> d <> cDASH -> reads its ((cDASH :: d :: r) :: args) rest -> reads (Flag c :: its) ((cDASH :: c :: d :: r) :: args) rest
| r_joined c v its args rest : value_letter c -> v <> [] -> reads its args rest -> reads (Value c v :: its) ((cDASH :: c :: v) :: args) rest
| r_separate c v its args rest : value_letter c -> reads its args rest -> reads (Value c v :: its) ([cDASH; c] :: v :: args) rest.
Definition no_dash (a : str) : Prop := match a with c :: _ => c <> cDASH | [] => True end.
(** where options end: at the end, at --, at an argument that is not an option *)
Inductive ends : list str -> list str -> Prop :=
| e_end : ends [] []
| e_dashes pos : ends ([cDASH; cDASH] :: pos) pos
| e_arg a pos : no_dash a \/ a = [cDASH] -> ends (a :: pos) (a :: pos).
(** the options and the other arguments of a command line: others may come before and after the options *)
Definition cmdline (args : list str) (its : list item) (pos : list str) : Prop :=
  exists pre args' rest post, args = pre ++ args' /\ Forall no_dash pre /\ (forall a r, args' = a :: r -> ~ no_dash a) /\ reads its args' rest /\ ends rest post /\ pos = pre ++ post.

Definition given (s : string) (its : list item) : Prop := In (Flag (chr s)) its.
(** the last value given for a letter, or the default *)
Definition value_of (s : string) (its : list item) (default v : str) : Prop :=
  (exists a b, its = a ++ Value (chr s) v :: b /\ forall w, ~ In (Value (chr s) w) b) \/ ((forall w, ~ In (Value (chr s) w) its) /\ v = default).
(** options handed on: one for each time the letter is given, in order *)
Definition hand_on (tab : list (string * string)) (its : list item) : list str :=
  flat_map (fun i => match i with Flag c => map (fun xy => u (snd xy)) (filter (fun xy => N.eqb c (chr (fst xy))) tab) | Value _ _ => [] end) its.

(** ** What is to be done *)
Record request := mkreq { q_format : str; q_dir : str; q_memory : str (* empty: none *); q_direction : str (* of the memory *);
  q_mark : str; q_ambiguity : str; q_s : list str; q_fmt : list str; q_tf : list str; q_z : list str; q_pair : str; q_in : str; q_out : option str }.
Definition requests (e : env) (its : list item) (pos : list str) (q : request) : Prop :=
  value_of "f" its (u "txt") (q_format q) /\ value_of "d" its (e_datadir e) (q_dir q) /\ value_of "m" its [] (q_memory q) /\ value_of "o" its [] (q_direction q) /\
  (given "u" its /\ q_mark q = u "-n" \/ ~ given "u" its /\ q_mark q = u "-g") /\ (given "a" its /\ q_ambiguity q = u "-m" \/ ~ given "a" its /\ q_ambiguity q = []) /\
  q_s q = hand_on [("s", "-s")]%string its /\ q_fmt q = hand_on [("n", "-n"); ("H", "-o")]%string its /\ q_tf q = hand_on [("n", "--apertium-n"); ("H", "-H")]%string its /\
  q_z q = hand_on [("z", "-z")]%string its /\
  (pos = [q_pair q] /\ q_in q = u "/dev/stdin" /\ q_out q = None \/ pos = [q_pair q; q_in q] /\ q_out q = None \/ exists o, pos = [q_pair q; q_in q; o] /\ q_out q = Some o).
(** the files are there and the memory can be compiled *)
Definition usable (t : sys) (q : request) : Prop :=
  s_exists t (q_in q) = true /\ s_readable t (q_in q) = true /\ (q_memory q <> [] -> s_tmx t (q_direction q) (q_memory q) = true) /\ s_dir t (q_dir q ++ u "/modes") = true.
Definition mode_of (q : request) : str := q_dir q ++ u "/modes/" ++ q_pair q ++ u ".mode".

(** the translation: memory, then the mode with the marks wanted *)
Definition memory (t : sys) (q : request) (z : list str) : list stage := match q_memory q with [] => [] | _ => [Exec ([u "lt-tmxproc"] ++ z ++ q_s q ++ [s_tmp t 0])] end.
Definition mode (q : request) (z : list str) : stage := Mode ([u "apertium-wblank-mode"] ++ z ++ [mode_of q]) (q_mark q) (q_ambiguity q).
Definition translation (t : sys) (q : request) : list stage := memory t q [] ++ [mode q (q_z q)].

Definition transfuse_wanted (e : env) (t : sys) : Prop := s_command t (u "tf-extract") = true /\ e_transfuse e <> u "0" /\ e_transfuse e <> u "no".
(** formats that transfuse can do, and its name for them *)
Inductive tf_format : str -> str -> Prop :=
| tf_odt f : In f [u "odt"; u "odp"] -> tf_format f (u "odt") | tf_docx : tf_format (u "docx") (u "docx") | tf_pptx : tf_format (u "pptx") (u "pptx")
| tf_html f : In f [u "html"; u "html-noent"] -> tf_format f (u "html") | tf_line : tf_format (u "line") (u "line").
(** text formats: how the document becomes a stream, and what turns the stream back *)
Inductive text_format (q : request) : str -> list stage -> str -> Prop :=
| x_html : text_format q (u "html") [Exec ([u "apertium-deshtml"] ++ q_fmt q ++ [q_in q])] (u "apertium-rehtml")
| x_noent : text_format q (u "html-noent") [Exec ([u "apertium-deshtml"] ++ q_fmt q ++ [q_in q])] (u "apertium-rehtml-noent")
| x_alt : text_format q (u "html-alt") [Exec ([u "apertium-deshtml-alt"] ++ q_fmt q ++ [q_in q])] (u "apertium-rehtml-noent")
| x_line : text_format q (u "line") [Exec [u "apertium-destxt"; u "-n"; q_in q]; SedLine] (u "apertium-retxt").
Inductive zip_format : str -> str -> list stage -> str -> str -> bool -> bool -> Prop :=
| z_odt f : In f [u "odt"; u "odp"] -> zip_format f (u "-name content.xml -o -name styles.xml") [Concat] (u "apertium-desodt") (u "apertium-reodt") false true
| z_docx : zip_format (u "docx") (u "-name *.xml | grep -E -v -i (settings|theme|styles|font|rels|docProps|Content_Types|customXml)") [Exec [u "apertium-adapt-docx"; u "-n"]] (u "apertium-deswxml") (u "apertium-rewxml") true false
| z_pptx : zip_format (u "pptx") (u "-path **/slides/slide*.xml") [Concat] (u "apertium-despptx") (u "apertium-repptx") true false
| z_xlsx : zip_format (u "xlsx") (u "-name sharedStrings.xml") [Concat] (u "apertium-desxlsx") (u "apertium-rexlsx") false false.
Definition embedded_command (q : request) : list str :=
  [u "apertium"; u "-f"; u "xlsx"; u "-d"; q_dir q; (if str_eqb (q_mark q) (u "-n") then u "-u" else []); q_pair q].

Inductive pipeline (e : env) (t : sys) (q : request) : plan -> Prop :=
| p_none : q_format q = u "none" -> pipeline e t q (mkplan ([Exec [u "cat"; q_in q]] ++ translation t q) (q_out q) true None [])
| p_plain : In (q_format q) [u "txt"; u "rtf"; u "xpresstag"; u "mediawiki"; u "wxml"] ->
    pipeline e t q (mkplan ([Exec ([u "apertium-des" ++ q_format q] ++ q_fmt q ++ [q_in q])] ++ translation t q ++ [Exec [u "apertium-re" ++ q_format q]]) (q_out q) true None [])
| p_text first re : text_format q (q_format q) first re -> ~ ((exists f, tf_format (q_format q) f) /\ transfuse_wanted e t) ->
    ~ ((exists f, tf_format (q_format q) f) /\ In (e_transfuse e) [u "1"; u "yes"]) ->
    pipeline e t q (mkplan (first ++ translation t q ++ [Exec [re]]) (q_out q) false None [])
| p_transfuse f : tf_format (q_format q) f -> transfuse_wanted e t ->
    pipeline e t q (mkplan ([Exec ([u "tf-extract"] ++ q_tf q ++ [u "-f"; f; q_in q])] ++ memory t q [u "-z"] ++ [mode q [u "-z"]] ++ [Exec [u "tf-inject"]]) (q_out q) false None [])
| p_latex f : In (q_format q) [u "latex"; u "latex-raw"] -> s_command t (u "gawk") = true ->
    (q_in q = u "/dev/stdin" /\ f = s_tmp t 1 \/ q_in q <> u "/dev/stdin" /\ f = q_in q) -> In (s_encoding t f) [u "utf-8"; u "us-ascii"] ->
    pipeline e t q (mkplan ([Exec [u "apertium-prelatex"; f]; Exec [u "apertium-utils-fixlatex"]; Exec ([u "apertium-deslatex"] ++ q_fmt q)] ++ translation t q ++
      [Exec [u "apertium-relatex"]; Contents; Exec [u "apertium-postlatex-raw"]]) (q_out q) false None (if str_eqb (q_in q) (u "/dev/stdin") then [f] else []))
| p_zip what first des re emb drop : zip_format (q_format q) what first des re emb drop ->
    ~ ((exists f, tf_format (q_format q) f) /\ transfuse_wanted e t) -> ~ ((exists f, tf_format (q_format q) f) /\ In (e_transfuse e) [u "1"; u "yes"]) ->
    s_command t (u "zip") = true -> s_command t (u "unzip") = true ->
    pipeline e t q (mkplan ([FindIn what] ++ first ++ [Exec ([des] ++ q_fmt q)] ++ translation t q ++ [Exec [re]; Spread]) (q_out q) false
      (Some (q_in q, if emb then [embedded_command q] else [], drop)) []).
Definition formats : list str := [u "none"; u "txt"; u "rtf"; u "xpresstag"; u "mediawiki"; u "wxml"; u "html"; u "html-noent"; u "html-alt"; u "line"; u "latex"; u "latex-raw"; u "odt"; u "odp"; u "docx"; u "pptx"; u "xlsx"].
(** nothing of the script's own variables comes from the environment *)
Definition clean (e : env) : Prop := e_uwords e = [] /\ e_tagger e = [] /\ e_tm e = [] /\ e_redir e = [] /\ e_out e = [] /\ e_borra e = [].
