(** apertium-gen-modes: apertium/gen_modes.cc (33-340).
    Strings are bytes (here: [str]); std::map is a list sorted by name.  [None]: a null pointer is followed (an attribute with an
    empty value has no text node).  Not modelled: command line, directories (an absolute path is a parameter), error messages. *)
From Coq Require Import String.
From Verif Require Import Model.Base.

Record program := mkp { p_cmd : str; p_suff : list str; p_args : list (str * bool) }.
Record pipeline := mkm { m_name : str; m_install : bool; m_debug : bool; m_steps : list program }.
(** the XML tree: elements with attributes and child elements *)
Inductive xml := El (name : str) (attrs : list (str * str)) (kids : list xml).

(** ** std::map<string, pipeline> *)
Fixpoint str_ltb (a b : str) : bool :=
  match a, b with [], [] => false | [], _ => true | _, [] => false | x :: a', y :: b' => (x <? y)%N || ((x =?c y) && str_ltb a' b') end.
Definition modes := list (str * pipeline).
Fixpoint get (k : str) (m : modes) : option pipeline :=
  match m with [] => None | (k', v) :: r => if str_eqb k k' then Some v else get k r end.
Fixpoint put (k : str) (v : pipeline) (m : modes) : modes :=
  match m with
  | [] => [(k, v)]
  | (k', v') :: r => if str_eqb k k' then (k, v) :: r else if str_ltb k k' then (k, v) :: (k', v') :: r else (k', v') :: put k v r
  end.

(** ** reading: 58-104 *)
Definition text (v : str) : option str := match v with [] => None | _ => Some v end.      (* xml2str *)
(* the last attribute of a name, 61-67 *)
Fixpoint fold_opt {A B} (f : A -> B -> option A) (l : list B) (a : A) : option A :=
  match l with [] => Some a | x :: r => match f a x with Some a' => fold_opt f r a' | None => None end end.
(* the first attribute "name" of an argument, 68-76 *)
Fixpoint arg_of (el : str) (attrs : list (str * str)) (acc : list (str * bool)) : option (list (str * bool)) :=
  match attrs with
  | [] => Some acc
  | (n, v) :: r => if str_eqb n (u "name") then match text v with Some t => Some (acc ++ [(t, str_eqb el (u "file"))]) | None => None end
                   else arg_of el r acc
  end.
Definition read_program (steps : list program) (x : xml) : option (list program) :=
  match x with
  | El _ attrs kids =>
      match fold_opt (fun p a => if str_eqb (fst a) (u "name") then match text (snd a) with Some t => Some (mkp t (p_suff p) (p_args p)) | None => None end
                                 else if str_eqb (fst a) (u "debug-suff") then match text (snd a) with Some t => Some (mkp (p_cmd p) (p_suff p ++ [cDASH :: t]) (p_args p)) | None => None end
                                 else Some p) attrs (mkp [] [] []) with
      | None => None
      | Some p => match fold_opt (fun acc k => match k with El n at_ _ => arg_of n at_ acc end) kids [] with
                  | Some l => Some (steps ++ [mkp (p_cmd p) (p_suff p) l])
                  | None => None
                  end
      end
  end.
Definition read_mode (x : xml) : option pipeline :=
  match x with
  | El _ attrs kids =>
      match fold_opt (fun m a => if str_eqb (fst a) (u "name") then match text (snd a) with Some t => Some (mkm t (m_install m) (m_debug m) []) | None => None end
                                 else if str_eqb (fst a) (u "install") then match text (snd a) with Some t => Some (mkm (m_name m) (str_eqb t (u "yes")) (m_debug m) []) | None => None end
                                 else if str_eqb (fst a) (u "gendebug") then match text (snd a) with Some t => Some (mkm (m_name m) (m_install m) (str_eqb t (u "yes")) []) | None => None end
                                 else Some m) attrs (mkm [] false false []) with
      | None => None
      | Some m => match fold_opt (fun st k => match k with El n _ progs => if str_eqb n (u "pipeline") then fold_opt read_program progs st else Some st end) kids [] with
                  | Some st => Some (mkm (m_name m) (m_install m) (m_debug m) st)
                  | None => None
                  end
      end
  end.
Definition read_modes (doc : list xml) : option modes :=
  fold_opt (fun ms x => match read_mode x with Some p => Some (put (m_name p) p ms) | None => None end) doc [].

(** ** strings *)
Definition starts_with (cmd prog : str) : bool := str_eqb (firstn (length prog) cmd) prog.      (* 107-110 *)
Fixpoint has (cmd sub : str) : bool := starts_with cmd sub || match cmd with [] => false | _ :: r => has r sub end.    (* rfind != npos *)
(* find and replace *)
Fixpoint replace_first (s a b : str) : str :=
  if starts_with s a then b ++ skipn (length a) s else match s with [] => [] | c :: r => c :: replace_first r a b end.
(* rfind and replace *)
Fixpoint replace_last (s a b : str) : str :=
  match s with
  | [] => if starts_with s a then b ++ skipn (length a) s else []
  | c :: r => if has r a then c :: replace_last r a b else if starts_with s a then b ++ skipn (length a) s else s
  end.

(** ** 112-178 *)
Definition default_suffixes (c : str) : list str :=
  if starts_with c (u "cg-proc") then [u "-disam"]
  else if starts_with c (u "apertium-tagger") then [u "-tagger"]
  else if starts_with c (u "apertium-pretransfer") then [u "-pretransfer"]
  else if starts_with c (u "apertium-posttransfer") then [u "-posttransfer"]
  else if starts_with c (u "lrx-proc") then [u "-lex"; u "-lextor"]
  else if starts_with c (u "apertium-transfer") then (if has c (u " -n") then [u "-transfer2"] else [u "-chunker"; u "-transfer"])
  else if starts_with c (u "apertium-interchunk") then [u "-interchunk"]
  else if starts_with c (u "apertium-postchunk") then [u "-postchunk"]
  else if has c (u "$1") then [u "-dgen"; u "-generador"]
  else if starts_with c (u "lt-proc") then
    (if has c (u " -b") then [u "-biltrans"] else if has c (u " -p") then [u "-pgen"]
     else u "-morph" :: (if has c (u " -g") then [] else [u "-anmor"]))
  else if starts_with c (u "hfst-proc") then u "-morph" :: (if has c (u " -g") then [] else [u "-anmor"])
  else if starts_with c (u "lsx-proc") then (if has c (u " -p") then [u "-pgen"] else [u "-autoseq"])
  else if starts_with c (u "rtx-proc") then [u "-transfer"]
  else if starts_with c (u "apertium-anaphora") then [u "-anaph"]
  else if starts_with c (u "apertium-extract-caps") then [u "-decase"]
  else if starts_with c (u "apertium-restore-caps") then [u "-recase"]
  else [u "-NAMEME"].
Definition set_suffix (p : program) : program :=
  match p_suff p with [] => mkp (p_cmd p) (default_suffixes (p_cmd p)) (p_args p) | _ => p end.
Definition set_suffixes (m : pipeline) : pipeline := mkm (m_name m) (m_install m) (m_debug m) (map set_suffix (m_steps m)).
(** 180-203 *)
Definition trace_cmd (cmd : str) : str :=
  if starts_with cmd (u "cg-proc") || starts_with cmd (u "lrx-proc") || starts_with cmd (u "apertium-transfer") ||
     starts_with cmd (u "apertium-interchunk") || starts_with cmd (u "apertium-postchunk") then cmd ++ u " -t"
  else if starts_with cmd (u "rtx-proc") then cmd ++ u " -r"
  else if starts_with cmd (u "apertium-anaphora") then cmd ++ u " -d"
  else if has cmd (u "$1") then replace_first cmd (u "$1") (u "-d")
  else cmd.
Fixpoint trace_last (l : list program) : list program :=
  match l with
  | [] => []
  | [p] => [mkp (trace_cmd (p_cmd p)) (p_suff p) (p_args p)]
  | p :: r => p :: trace_last r
  end.
Definition untrim (p : program) : program :=
  mkp (p_cmd p) (p_suff p) (map (fun a => (replace_last (fst a) (u ".automorf.") (u ".automorf-untrimmed."), snd a)) (p_args p)).

(** ** 205-256 *)
Definition step_debug (mname : str) (steps : list program) (i : nat) (ms : modes) (suff : str) : modes :=
  let dn := mname ++ suff in
  match get dn ms with
  | Some _ => ms                                             (* "generated multiple times" *)
  | None =>
      let dsteps := trace_last (firstn (S i) steps) in
      let ms1 := put dn (mkm dn false false dsteps) ms in
      let un := cAT :: dn in
      match get un ms1 with
      | Some _ => ms1
      | None => put un (mkm un false false (trace_last (map untrim dsteps))) ms1
      end
  end.
Definition debug_mode (ms : modes) (name : str) : modes :=
  match get name ms with
  | None => ms
  | Some mode => fold_left (fun acc i => match nth_error (m_steps mode) i with
                                         | Some p => fold_left (step_debug name (m_steps mode) i) (p_suff p) acc
                                         | None => acc
                                         end) (seq 0 (length (m_steps mode))) ms
  end.
Definition gen_debug (ms : modes) : modes :=
  let todo := map fst (filter (fun kv => m_debug (snd kv)) ms) in
  let ms1 := map (fun kv => if m_debug (snd kv) then (fst kv, set_suffixes (snd kv)) else kv) ms in
  fold_left debug_mode todo ms1.

(** ** writing: 258-307 *)
Section Write.
Variable abs_path : str -> str.        (* fs::absolute(file_dir / name) *)
Definition arg_text (a : str * bool) : str := if snd a then u " '" ++ abs_path (fst a) ++ u "'" else cSP :: fst a.
Definition step_text (p : program) : str := p_cmd p ++ flat_map arg_text (p_args p).
Fixpoint pipe_text (first : bool) (l : list program) : str :=
  match l with [] => [cNL] | p :: r => (if first then [] else u " | ") ++ step_text p ++ pipe_text false r end.
(* the files: name and content *)
Definition gen_modes (installing : bool) (ms : modes) : list (str * str) :=
  map (fun kv => (m_name (snd kv) ++ u ".mode", pipe_text true (m_steps (snd kv)))) (filter (fun kv => negb installing || m_install (snd kv)) ms).
End Write.
Definition gen (abs_path : str -> str) (installing : bool) (doc : list xml) : option (list (str * str)) :=
  match read_modes doc with Some ms => Some (gen_modes abs_path installing (gen_debug ms)) | None => None end.
