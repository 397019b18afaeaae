(** Specification for C32. *)
From Coq Require Import String.
From Verif Require Import Model.Base Model.Modes.

(** the trace option of a command: appended for the programs that have one; a generator's "$1" becomes "-d" *)
Definition trace_options : list (str * str) :=
  [(u "cg-proc", u " -t"); (u "lrx-proc", u " -t"); (u "apertium-transfer", u " -t"); (u "apertium-interchunk", u " -t");
   (u "apertium-postchunk", u " -t"); (u "rtx-proc", u " -r"); (u "apertium-anaphora", u " -d")].
Inductive Traced : str -> str -> Prop :=
| tr_opt prog opt args : In (prog, opt) trace_options -> Traced (prog ++ args) ((prog ++ args) ++ opt)
| tr_gen a b : (forall prog opt r, In (prog, opt) trace_options -> a ++ u "$1" ++ b <> prog ++ r) -> (forall p q, a ++ u "$1" = p ++ u "$1" ++ q -> q = []) ->
    Traced (a ++ u "$1" ++ b) (a ++ u "-d" ++ b)
| tr_none c : (forall prog opt r, In (prog, opt) trace_options -> c <> prog ++ r) -> (forall a b, c <> a ++ u "$1" ++ b) -> Traced c c.

(** a program up to its debug suffixes, which are not written to mode files *)
Definition same_prog (p q : program) : Prop := p_cmd p = p_cmd q /\ p_args p = p_args q.
Definition TracedLast (l l' : list program) : Prop :=
  exists pre p p', l = pre ++ [p] /\ l' = pre ++ [p'] /\ Traced (p_cmd p) (p_cmd p') /\ p_args p' = p_args p.
(** the debug mode for step [i] (from 0): the steps up to i, the last one with its trace option *)
Definition DebugOf (steps : list program) (i : nat) (d : list program) : Prop :=
  exists f, Forall2 same_prog (firstn (S i) steps) f /\ TracedLast f d.
(** its untrimmed variant: .automorf. becomes .automorf-untrimmed. (last occurrence) in each argument.
    FINDING: the trace option is added once more *)
Definition UArg (a a' : str * bool) : Prop :=
  snd a' = snd a /\
  ((exists x y, fst a = x ++ u ".automorf." ++ y /\ fst a' = x ++ u ".automorf-untrimmed." ++ y /\
     forall x1 y1, fst a = x1 ++ u ".automorf." ++ y1 -> length x1 <= length x) \/
   (fst a' = fst a /\ forall x y, fst a <> x ++ u ".automorf." ++ y)).
Definition UntrimmedOf (d1 d : list program) : Prop :=
  exists d0, Forall2 (fun p q => p_cmd p = p_cmd q /\ Forall2 UArg (p_args p) (p_args q)) d1 d0 /\ TracedLast d0 d.

(** where a generated mode comes from: mode, step, suffix; in the order of the modes' names *)
Definition suffixes (p : program) : list str := match p_suff p with [] => default_suffixes (p_cmd p) | l => l end.
Definition steps_from (m : pipeline) : list (pipeline * nat * str) :=
  flat_map (fun i => match nth_error (m_steps m) i with Some p => map (fun s => (m, i, s)) (suffixes p) | None => [] end) (seq 0 (length (m_steps m))).
Definition origins (ms : modes) : list (pipeline * nat * str) := flat_map (fun kv => if m_debug (snd kv) then steps_from (snd kv) else []) ms.
Definition origin_name (o : pipeline * nat * str) : str := match o with (m, _, s) => m_name m ++ s end.
(** the first origin of a name *)
Definition first_origin (ms : modes) (n : str) : option (pipeline * nat * str) := find (fun o => str_eqb (origin_name o) n) (origins ms).

(** what a modes file says (an XML element has each attribute at most once) *)
Definition values (n : str) (attrs : list (str * str)) : list str := map snd (filter (fun a => str_eqb (fst a) n) attrs).
Definition said_yes (n : str) (attrs : list (str * str)) : bool := str_eqb (last (values n attrs) []) (u "yes").
Definition argument (k : xml) : list (str * bool) :=
  match k with El n attrs _ => match values (u "name") attrs with v :: _ => [(v, str_eqb n (u "file"))] | [] => [] end end.
Definition ProgramOf (x : xml) (p : program) : Prop :=
  match x with El _ attrs kids =>
    p_cmd p = last (values (u "name") attrs) [] /\ p_suff p = map (cons cDASH) (values (u "debug-suff") attrs) /\ p_args p = flat_map argument kids end.
Definition programs_in (k : xml) : list xml := match k with El n _ progs => if str_eqb n (u "pipeline") then progs else [] end.
Definition ModeOf (x : xml) (m : pipeline) : Prop :=
  match x with El _ attrs kids =>
    m_name m = last (values (u "name") attrs) [] /\ m_install m = said_yes (u "install") attrs /\ m_debug m = said_yes (u "gendebug") attrs /\
    Forall2 ProgramOf (flat_map programs_in kids) (m_steps m) end.
(** no attribute of any element has an empty value *)
Inductive no_empty : xml -> Prop :=
| NE n attrs kids : Forall (fun a => snd a <> []) attrs -> Forall no_empty kids -> no_empty (El n attrs kids).
