(** The command line of apertium-tagger: apertium/tagger.cc:53-290 (options, dispatch), 423-528 (checks and arguments), 553-767
    (which files play which role), apertium/tagger_flags.cc:19-22, shell_utils.cc expect_file_arguments.
    Simplifications: the options are given in the order in which getopt_long returns them (an option it does not know is [OBad]); the
    effect of the tagger itself is the action [Run]; opening of files is left out.  The bit-fields SentSeg and SkipErrors are not
    initialised by TaggerFlags(): what they hold at the start are parameters. *)
From Verif Require Import Model.Base.
Open Scope nat_scope.

Inductive flag := FSentSeg | FDebug | FSkip | FFirst | FMark | FShow | FNull.
Inductive alg := Unigram | Window | Perceptron.
Inductive func := Tagger | Retrain | Supervised | Train.
Inductive opt :=
| OFlag (f : flag)
| OAlg (a : alg) (arg : str)          (* the argument is that of -u *)
| OFun (f : func) (arg : str)         (* the argument is that of -r, -s, -t *)
| OHelp | OBad.
Record flags := mkfl { fl_b : bool; fl_d : bool; fl_e : bool; fl_f : bool; fl_m : bool; fl_p : bool; fl_z : bool }.
Definition get_flag (f : flag) (s : flags) : bool :=
  match f with FSentSeg => fl_b s | FDebug => fl_d s | FSkip => fl_e s | FFirst => fl_f s | FMark => fl_m s | FShow => fl_p s | FNull => fl_z s end.
Definition set_flag (f : flag) (s : flags) : flags :=
  let '(mkfl b d e f' m p z) := s in
  match f with
  | FSentSeg => mkfl true d e f' m p z | FDebug => mkfl b true e f' m p z | FSkip => mkfl b d true f' m p z | FFirst => mkfl b d e true m p z
  | FMark => mkfl b d e f' true p z | FShow => mkfl b d e f' m true z | FNull => mkfl b d e f' m p true
  end.
(* tagger_flags.cc:19-22 *)
Definition flags_init (b e : bool) : flags := mkfl b false e false false false false.

(** ** strtoul in base 10, 64 bits *)
Definition digit (c : char) : bool := (48 <=? c)%N && (c <=? 57)%N.
Definition space (c : char) : bool := (c =? 32)%N || ((9 <=? c)%N && (c <=? 13)%N).
Fixpoint skip_spaces (s : str) : str := match s with c :: r => if space c then skip_spaces r else s | [] => [] end.
Definition take_sign (s : str) : bool * str := match s with c :: r => if c =?c cDASH then (true, r) else if c =?c cPLUS then (false, r) else (false, s) | [] => (false, []) end.
Fixpoint digits (s : str) (acc : N) : N * str := match s with c :: r => if digit c then digits r (10 * acc + (c - 48))%N else (acc, s) | [] => (acc, []) end.
Definition two64 : N := 18446744073709551616%N.
Inductive conv := NoConv | Range (rest : str) | Val (v : N) (rest : str).
Definition strtoul (s : str) : conv :=
  let '(neg, s1) := take_sign (skip_spaces s) in
  match s1 with
  | c :: _ => if digit c then
      let '(v, rest) := digits s1 0%N in
      if (v <? two64)%N then Val (if neg then (two64 - v) mod two64 else v)%N rest else Range rest
      else NoConv
  | [] => NoConv
  end.
(* tagger.cc:493-522: None = an exception *)
Definition iterations (s : str) : option N :=
  match strtoul s with
  | NoConv => None                            (* str_end is the beginning: not at the end, or the argument is empty *)
  | Range _ => None
  | Val v [] => Some v
  | Val _ (_ :: _) => None
  end.

(** ** The loop over the options, 61-157 *)
Record st := mkst { s_alg : option alg; s_model : nat; s_fun : option func; s_iter : N; s_flags : flags }.
Inductive step_result := Continue (s : st) | Help | Fail.
(* 103-128: strncmp(optarg, "1", 1) *)
Definition model_of (arg : str) : option nat :=
  match arg with c :: _ => if (c =? 49)%N then Some 1 else if (c =? 50)%N then Some 2 else if (c =? 51)%N then Some 3 else None | [] => None end.
Definition step (s : st) (o : opt) : step_result :=
  match o with
  | OFlag f => if get_flag f (s_flags s) then Fail else Continue (mkst (s_alg s) (s_model s) (s_fun s) (s_iter s) (set_flag f (s_flags s)))
  | OAlg a arg =>
      match s_alg s with
      | Some _ => Fail
      | None => match a with
                | Unigram => match model_of arg with Some k => Continue (mkst (Some a) k (s_fun s) (s_iter s) (s_flags s)) | None => Fail end
                | _ => Continue (mkst (Some a) (s_model s) (s_fun s) (s_iter s) (s_flags s))
                end
      end
  | OFun f arg =>
      match s_fun s with
      | Some _ => Fail
      | None => match f with
                | Tagger => Continue (mkst (s_alg s) (s_model s) (Some f) (s_iter s) (s_flags s))
                | _ => match iterations arg with Some n => Continue (mkst (s_alg s) (s_model s) (Some f) n (s_flags s)) | None => Fail end
                end
      end
  | OHelp => Help
  | OBad => Fail
  end.
Fixpoint loop (s : st) (l : list opt) : step_result :=
  match l with
  | [] => Continue s
  | o :: r => match step s o with Continue s' => loop s' r | x => x end
  end.

(** ** What is done.  Perceptron or hidden Markov: 165-173, the first that can read the file *)
Inductive tagger := THmm | TPerceptronOrHmm | TPerceptron | TWindow | TUnigram (model : nat).
Inductive action :=
| DoTag (t : tagger) (f : flags) (model : str) (input output : option str)
| DoRetrain (t : tagger) (n : N) (corpus model : str)
| DoSupervised (t : tagger) (n : N) (dictionary corpus spec model tagged untagged : str)        (* with unsupervised iterations *)
| DoSupervisedOnly (t : tagger) (dictionary spec model tagged untagged : str)
| DoTrainUnigram (t : tagger) (model tagged : str)
| DoTrainPerceptron (n : N) (model tagged untagged spec : str) (f : flags)
| DoTrain (t : tagger) (n : N) (dictionary corpus spec model : str).
Inductive outcome := OutHelp | OutReject | OutAbort | Run (a : action).

(* 537-572 and 620-639: 1 to 3 files *)
Definition g_tagger (t : tagger) (s : st) (files : list str) : outcome :=
  match files with
  | [m] => Run (DoTag t (s_flags s) m None None)
  | [m; i] => Run (DoTag t (s_flags s) m (Some i) None)
  | [m; i; o] => Run (DoTag t (s_flags s) m (Some i) (Some o))
  | _ => OutReject
  end.
(* 641-674 with 524-551 *)
Definition r_tagger (t : tagger) (s : st) (files : list str) : outcome :=
  match files with [c; m] => Run (DoRetrain t (s_iter s) c m) | _ => OutReject end.
(* 676-711 with 524-551 *)
Definition s_tagger (t : tagger) (s : st) (files : list str) : outcome :=
  match files with
  | [d; sp; m; tg; un] => if (s_iter s =? 0)%N then Run (DoSupervisedOnly t d sp m tg un) else OutReject
  | [d; c; sp; m; tg; un] => Run (DoSupervised t (s_iter s) d c sp m tg un)
  | _ => OutReject
  end.
(* 713-740 with 524-551 *)
Definition t_tagger (t : tagger) (s : st) (files : list str) : outcome :=
  match files with [d; c; sp; m] => Run (DoTrain t (s_iter s) d c sp m) | _ => OutReject end.
(* 574-618 *)
Definition s_unigram (s : st) (files : list str) : outcome :=
  if (s_iter s =? 0)%N then match files with [m; tg] => Run (DoTrainUnigram (TUnigram (s_model s)) m tg) | _ => OutReject end else OutReject.
Definition s_perceptron (s : st) (files : list str) : outcome :=
  match files with [m; tg; un; sp] => Run (DoTrainPerceptron (s_iter s) m tg un sp (s_flags s)) | _ => OutReject end.

(* 159-290 *)
Definition dispatch (s : st) (files : list str) : outcome :=
  match s_fun s with
  | None => OutHelp
  | Some Tagger => match s_alg s with
                   | None => g_tagger TPerceptronOrHmm s files
                   | Some Unigram => g_tagger (TUnigram (s_model s)) s files
                   | Some Window => g_tagger TWindow s files
                   | Some Perceptron => g_tagger TPerceptron s files
                   end
  | Some Retrain => match s_alg s with None => r_tagger THmm s files | Some Unigram => OutReject | Some Window => r_tagger TWindow s files | Some Perceptron => OutAbort end
  | Some Supervised => match s_alg s with None => s_tagger THmm s files | Some Unigram => s_unigram s files | Some Window => OutReject | Some Perceptron => s_perceptron s files end
  | Some Train => match s_alg s with None => t_tagger THmm s files | Some Unigram => OutReject | Some Window => t_tagger TWindow s files | Some Perceptron => OutAbort end
  end.
Definition main (b0 e0 : bool) (opts : list opt) (files : list str) : outcome :=
  match loop (mkst None 0 None 0%N (flags_init b0 e0)) opts with
  | Continue s => dispatch s files
  | Help => OutHelp
  | Fail => OutReject
  end.
