(** The script "apertium" (apertium/apertium-header.sh): options, checks, and the pipeline that is started for a format.
    Simplifications: what the script asks the system (which files exist, which commands are there, what mktemp answers) is a record [sys];
    variables of the script that it does not set are read from the environment, a record [env]; programs are not run: the result is the
    pipeline, as command lines with all their arguments.  The filters written in awk and sed are named, not modelled.  The option loop is
    bash's getopts in silent mode.  A "cat" in the middle or at the end of a pipeline is left out, and so are messages: the kind of exit is kept. *)
From Coq Require Import String.
From Verif Require Import Model.Base.
Open Scope nat_scope.

Record env := mkenv { e_datadir : str; e_transfuse : str;                                     (* APERTIUM_DATADIR, APERTIUM_TRANSFUSE: meant to be read *)
  e_uwords : str; e_tagger : str; e_tm : str; e_redir : str; e_out : str; e_borra : str }.    (* UWORDS, OPTION_TAGGER, TRANSLATION_MEMORY_FILE, REDIR, OUT_FILE, BORRAFICHERO *)
Record sys := mksys { s_utf8 : bool; s_latin1 : bool; s_exists : str -> bool; s_readable : str -> bool; s_dir : str -> bool;
  s_tmx : str -> str -> bool;              (* lt-tmxcomp direction file *)
  s_encoding : str -> str; s_command : str -> bool; s_tmp : nat -> str }.

(** ** Options, 483-533 *)
Record st := mkst { o_format : str; o_datadir : str; o_tm : str; o_tmdir : str; o_s : list str; o_uwords : str; o_n : list str; o_tf : list str; o_tagger : str; o_list : bool; o_z : list str }.
(* 483-498 *)
Definition st_init (e : env) : st := mkst (u "txt"%string) (e_datadir e) (e_tm e) [] [] (e_uwords e) [] [] (e_tagger e) false [].
Inductive opt_result := Go (s : st) | Version | Usage.
(* the optstring of 513: letters with an argument *)
Definition takes (c : char) : bool := mem c (u "fdmo"%string).
Definition with_value (c : char) (v : str) (s : st) : st :=
  let '(mkst f d m o ss w n tf t l z) := s in
  if (c =? 102)%N then mkst v d m o ss w n tf t l z                 (* f *)
  else if (c =? 100)%N then mkst f v m o ss w n tf t l z            (* d *)
  else if (c =? 109)%N then mkst f d v o ss w n tf t l z            (* m *)
  else mkst f d m v ss w n tf t l z.                                (* o *)
Definition flag (c : char) (s : st) : opt_result :=
  let '(mkst f d m o ss w n tf t l z) := s in
  if (c =? 115)%N then Go (mkst f d m o (ss ++ [u "-s"%string]) w n tf t l z)
  else if (c =? 117)%N then Go (mkst f d m o ss (u "no"%string) n tf t l z)
  else if (c =? 110)%N then Go (mkst f d m o ss w (n ++ [u "-n"%string]) (tf ++ [u "--apertium-n"%string]) t l z)
  else if (c =? 72)%N then Go (mkst f d m o ss w (n ++ [u "-o"%string]) (tf ++ [u "-H"%string]) t l z)
  else if (c =? 97)%N then Go (mkst f d m o ss w n tf (u "-m"%string) l z)
  else if (c =? 108)%N then Go (mkst f d m o ss w n tf t true z)
  else if (c =? 86)%N then Version
  else if (c =? 122)%N then Go (mkst f d m o ss w n tf t l (z ++ [u "-z"%string]))
  else Usage.                                                       (* h, unknown letters *)
(* getopts inside one argument: [Need c] = the letter c is last and wants the next argument *)
Inductive cl_result := Done (s : st) | Need (c : char) (s : st) | Stop (r : opt_result).
Fixpoint cluster (cs : str) (s : st) : cl_result :=
  match cs with
  | [] => Done s
  | c :: r =>
      if takes c then match r with [] => Need c s | _ => Done (with_value c r s) end
      else match flag c s with Go s' => cluster r s' | x => Stop x end
  end.
Inductive loop_result := Rest (s : st) (args : list str) | Exit (r : opt_result).
Fixpoint getopts (args : list str) (s : st) : loop_result :=
  match args with
  | [] => Rest s []
  | a :: r =>
      match a with
      | c0 :: c1 :: cs =>
          if c0 =?c cDASH then
            if (c1 =?c cDASH) && match cs with [] => true | _ => false end then Rest s r
            else match cluster (c1 :: cs) s with
                 | Done s' => getopts r s'
                 | Need c s' => match r with [] => Exit Usage | v :: r' => getopts r' (with_value c v s') end
                 | Stop x => Exit x
                 end
          else Rest s args
      | _ => Rest s args
      end
  end.
(* 500-511: the arguments before the first that begins with a dash *)
Fixpoint preopt (args : list str) : list str * list str :=
  match args with
  | [] => ([], [])
  | a :: r => match a with
              | c :: _ => if c =?c cDASH then ([], args) else let (p, q) := preopt r in (a :: p, q)
              | [] => let (p, q) := preopt r in (a :: p, q)
              end
  end.

(** ** Pipelines *)
Inductive stage :=
| Exec (argv : list str)
| Mode (wblank : list str) (a1 a2 : str)        (* 154-162: setvar_wrap, bash with the output of the command, setvar_unwrap *)
| FindIn (what : str)                           (* find in the unpacked document, for docx with grep *)
| Concat                                        (* the awk program that prints the files with their names *)
| Spread                                        (* the awk program that writes the parts back to their files *)
| Contents                                      (* the awk program of 212 *)
| SedLine.                                      (* the sed program of 468 *)
Record plan := mkplan { p_stages : list stage; p_out : option str; p_status : bool (* whether a failure of a stage is the exit status *);
  p_zip : option (str * list (list str) * bool) (* the document unpacked, command for embedded sheets, ObjectReplacements removed *); p_delete : list str }.
Inductive err := NoUtf8 | NoMode | BadEncoding | NoTransfuse | NoZip | NoGawk | NoLatin1.
Inductive outcome := OUsage | OVersion | OList (dir : str) | OError (e : err) | Start (p : plan).

Definition sx (s : string) : str := u s.
Definition tm_stage (t : sys) (s : st) : list stage := match o_tm s with [] => [] | _ => [Exec (sx "lt-tmxproc" :: o_s s ++ [s_tmp t 0])] end.
(* 164-171 *)
Definition tm_stage_z (t : sys) (s : st) : list stage := match o_tm s with [] => [] | _ => [Exec (sx "lt-tmxproc" :: [sx "-z"] ++ o_s s ++ [s_tmp t 0])] end.
Definition mode_file (s : st) (pair : str) : str := o_datadir s ++ sx "/modes/" ++ pair ++ sx ".mode".
Definition run_mode (s : st) (z : list str) (pair option : str) : stage := Mode (sx "apertium-wblank-mode" :: z ++ [mode_file s pair]) option (o_tagger s).
(* REDIR and OUT_FILE *)
Definition out_of (redir out : str) : option str := match redir with [] => None | _ => Some out end.
(* 71-87 *)
Inductive tf_use := TfYes | TfNo | TfError.
Definition check_transfuse (e : env) (t : sys) : tf_use :=
  let x := e_transfuse e in
  let yes := str_eqb x (sx "1") || str_eqb x (sx "yes") in
  let has := s_command t (sx "tf-extract") in
  if yes && negb has then TfError
  else if str_eqb x (sx "0") || str_eqb x (sx "no") || negb has then TfNo else TfYes.
(* the transfuse pipelines, e.g. 232 *)
Definition transfuse (t : sys) (s : st) (format infile pair option : str) (out : Datatypes.option str) : outcome :=
  Start (mkplan (Exec ((sx "tf-extract" :: o_tf s) ++ [sx "-f"; format; infile]) :: tm_stage_z t s ++ [run_mode s [sx "-z"] pair option; Exec [sx "tf-inject"]]) out false None []).
Definition has_zip (t : sys) : bool := s_command t (sx "zip") && s_command t (sx "unzip").

Section Run.
Variable e : env.
Variable t : sys.
Variable s : st.
Variable infile pair : str.
Variable out : option str.
(* 193-219, 224-226 *)
Definition translate_latex (opt : str) : outcome :=
  if s_command t (sx "gawk") then
    let copied := match infile with [] => true | _ => str_eqb infile (sx "/dev/stdin") end in
    let f := if copied then s_tmp t 1 else infile in
    let enc := s_encoding t f in
    if str_eqb enc (sx "utf-8") || str_eqb enc (sx "us-ascii") then
      Start (mkplan ([Exec [sx "apertium-prelatex"; f]; Exec [sx "apertium-utils-fixlatex"]; Exec (sx "apertium-deslatex" :: o_n s)] ++ tm_stage t s ++ [run_mode s (o_z s) pair opt;
                     Exec [sx "apertium-relatex"]; Contents; Exec [sx "apertium-postlatex-raw"]]) out false None
                    (if copied || str_eqb (e_borra e) (sx "true") then [f] else []))
    else OError BadEncoding
  else OError NoGawk.
(* 229-268, 270-325, 327-384, 386-418 *)
Definition translate_zip (tf : option str) (what : str) (first : list stage) (des re : str) (embedded drop : bool) (opt : str) : outcome :=
  let body :=
    if has_zip t then
      let copied := match infile with [] => true | _ => false end in
      let f := if copied then s_tmp t 1 else infile in
      let opcionu := if str_eqb (o_uwords s) (sx "no") then sx "-u" else [] in
      Start (mkplan (FindIn what :: first ++ [Exec (des :: o_n s)] ++ tm_stage t s ++ [run_mode s (o_z s) pair opt; Exec [re]; Spread]) out false
        (Some (f, if embedded then [[sx "apertium"; sx "-f"; sx "xlsx"; sx "-d"; o_datadir s; opcionu; pair]] else [], drop))
        (if copied || str_eqb (e_borra e) (sx "true") then [f] else []))
    else OError NoZip in
  match tf with
  | Some f => match check_transfuse e t with TfError => OError NoTransfuse | TfYes => transfuse t s f infile pair opt out | TfNo => body end
  | None => body
  end.
Definition translate_odt := translate_zip (Some (sx "odt")) (sx "-name content.xml -o -name styles.xml") [Concat] (sx "apertium-desodt") (sx "apertium-reodt") false true.
Definition translate_docx := translate_zip (Some (sx "docx")) (sx "-name *.xml | grep -E -v -i (settings|theme|styles|font|rels|docProps|Content_Types|customXml)") [Exec [sx "apertium-adapt-docx"; sx "-n"]] (sx "apertium-deswxml") (sx "apertium-rewxml") true false.
Definition translate_pptx := translate_zip (Some (sx "pptx")) (sx "-path **/slides/slide*.xml") [Concat] (sx "apertium-despptx") (sx "apertium-repptx") true false.
Definition translate_xlsx := translate_zip None (sx "-name sharedStrings.xml") [Concat] (sx "apertium-desxlsx") (sx "apertium-rexlsx") false false.
(* 420-476 *)
Definition translate_text (tf : option str) (first : list stage) (re : str) (opt : str) : outcome :=
  let body := Start (mkplan (first ++ tm_stage t s ++ [run_mode s (o_z s) pair opt; Exec [re]]) out false None []) in
  match tf with
  | Some f => match check_transfuse e t with TfError => OError NoTransfuse | TfYes => transfuse t s f infile pair opt out | TfNo => body end
  | None => body
  end.
Definition translate_html := translate_text (Some (sx "html")) [Exec ((sx "apertium-deshtml" :: o_n s) ++ [infile])] (sx "apertium-rehtml").
Definition translate_htmlnoent := translate_text (Some (sx "html")) [Exec ((sx "apertium-deshtml" :: o_n s) ++ [infile])] (sx "apertium-rehtml-noent").
Definition translate_htmlalt := translate_text None [Exec ((sx "apertium-deshtml-alt" :: o_n s) ++ [infile])] (sx "apertium-rehtml-noent").
Definition translate_line := translate_text (Some (sx "line")) [Exec [sx "apertium-destxt"; sx "-n"; infile]; SedLine] (sx "apertium-retxt").
(* 746-773 *)
Definition generic (format opt : str) : outcome :=
  let none := str_eqb format (sx "none") in
  Start (mkplan ([if none then Exec [sx "cat"; infile] else Exec ((sx "apertium-des" ++ format) :: o_n s ++ [infile])] ++ tm_stage t s ++ [run_mode s (o_z s) pair opt] ++
                 if none then [] else [Exec [sx "apertium-re" ++ format]]) out true None []).
(* 600-744 *)
Definition by_format : outcome :=
  let opt := if str_eqb (o_uwords s) (sx "no") then sx "-n" else sx "-g" in
  let f := o_format s in
  let is (x : string) := str_eqb f (sx x) in
  if is "none"%string || is "txt"%string || is "rtf"%string || is "xpresstag"%string || is "mediawiki"%string then generic f opt
  else if is "odt"%string || is "odp"%string then translate_odt opt
  else if is "latex"%string || is "latex-raw"%string then translate_latex opt
  else if is "line"%string then translate_line opt
  else if is "docx"%string then translate_docx opt
  else if is "xlsx"%string then translate_xlsx opt
  else if is "pptx"%string then translate_pptx opt
  else if is "html"%string then translate_html opt
  else if is "html-noent"%string then translate_htmlnoent opt
  else if is "html-alt"%string then translate_htmlalt opt
  else if is "wxml"%string then generic f opt
  else if is "txtu"%string then generic (sx "txt") (sx "-n")
  else if is "htmlu"%string then generic (sx "html") (sx "-n")
  else if is "xpresstagu"%string then generic (sx "xpresstag") (sx "-n")
  else if is "rtfu"%string then if s_latin1 t then generic (sx "rtf") (sx "-n") else OError NoLatin1
  else if is "odtu"%string || is "odpu"%string then translate_odt (sx "-n")
  else if is "docxu"%string then translate_docx (sx "-n")
  else if is "xlsxu"%string then translate_xlsx (sx "-n")
  else if is "pptxu"%string then translate_pptx (sx "-n")
  else if is "wxmlu"%string then generic f (sx "-n")
  else generic (sx "txt") (sx "-g").
(* 556-596 *)
Definition checks : outcome :=
  if s_exists t infile && s_readable t infile then
    if match o_tm s with [] => true | m => s_tmx t (o_tmdir s) m end then
      if s_dir t (o_datadir s ++ sx "/modes") then
        if s_exists t (mode_file s pair) then by_format else OError NoMode
      else OUsage
    else OUsage
  else OUsage.
End Run.
(* 478-554 *)
Definition main (e : env) (t : sys) (args : list str) : outcome :=
  if s_utf8 t then
    let (pre, r) := preopt args in
    match getopts r (st_init e) with
    | Exit Version => OVersion
    | Exit _ => OUsage
    | Rest s post =>
        if o_list s then OList (o_datadir s)
        else match pre ++ post with
             | [p; i; o] => checks e t s i p (Some o)
             | [p; i] => checks e t s i p (out_of (e_redir e) (e_out e))
             | [p] => checks e t s (sx "/dev/stdin") p (out_of (e_redir e) (e_out e))
             | _ => OUsage
             end
    end
  else OError NoUtf8.
