(** apertium-interchunk: chunks (apertium/interchunk_word.cc 62-137), the interpreter of its rules (apertium/interchunk.cc 28-360,
    apertium/transfer_base.cc 178-555), the application of a rule (interchunk.cc 590-631) and what the pattern matcher is fed
    (interchunk.cc 633-676).
    [None]: undefined behaviour, an exception, exit, or macro calls nested deeper than the fuel.
    Simplifications as in Model/TransferRules.v: rule files are syntax trees ([id] stands for the address of a node, on which the
    cache of compiled nodes depends); children are in the order of interchunk.dtd; regular expressions of attributes, case functions and
    lower-casing are parameters; messages and tracing are omitted; positions are those of the file minus one. *)
From Coq Require Import String ZArith.
From Verif Require Import Model.Base Model.TransferRules Model.TransferUnit Model.TrxPatterns Model.TrxMachine.

Inductive iexpr :=
| JClip (id : nat) (part : str) (pos : Z)
| JLit (id : nat) (v : str)
| JLitTag (id : nat) (v : str)
| JB (id : nat)
| JVar (id : nat) (n : str)
| JCaseOf (id : nat) (part : str) (pos : Z)
| JCaseFrom (id : nat) (pos : Z) (e : iexpr)
| JConcat (l : list iexpr)
| JChunk (l : list iexpr)
| JOther.                                       (* lu, mlu, lu-count and unknown elements: exit *)
Inductive icond :=
| DEqual (caseless : bool) (a b : iexpr) | DBegins (caseless : bool) (a b : iexpr) | DEnds (caseless : bool) (a b : iexpr)
| DContains (caseless : bool) (a b : iexpr)
| DBeginsList (caseless : bool) (a : iexpr) (l : str) | DEndsList (caseless : bool) (a : iexpr) (l : str) | DIn (caseless : bool) (a : iexpr) (l : str)
| DAnd (l : list icond) | DOr (l : list icond) | DNot (c : icond).
Inductive ilhs := MVar (id : nat) (n : str) | MClip (id : nat) (part : str) (pos : Z).
Inductive iinstr :=
| KLet (l : ilhs) (e : iexpr) | KAppend (n : str) (l : list iexpr) | KOut (l : list iexpr) | KModCase (l : ilhs) (e : iexpr)
| KCall (n : str) (args : list Z) | KReject (z : Z)
| KChoose (l : list (option icond * list iinstr)).       (* None: otherwise *)
(* TransferInstr *)
Inductive jinstr := JiClip (part : str) (pos : Z) | JiVar (n : str) | JiLit (v : str) | JiB | JiCaseOf (part : str) (pos : Z) | JiCaseFrom (pos : Z).

(** ** InterchunkWord *)
Record iword := mkiw { iw_chunk : str; iw_queue : str }.       (* its wblank is not used by interchunk *)
(* init, 62-98.  [pre]: what has been read; [bend]: b_end.  The character before the first one is undefined *)
Inductive iscan := ICut (pre rest : str) | IEnd (bend : option nat) | IUndef.
Fixpoint iw_scan (s pre : str) (esc : bool) (bend : option nat) : iscan :=
  match s with
  | [] => IEnd bend
  | c :: r =>
      if esc then iw_scan r (pre ++ [c]) false bend
      else if c =?c cBS then iw_scan r (pre ++ [c]) true bend
      else if c =?c cLC then ICut pre s
      else if c =?c cRB then
        match rev pre with
        | [] => IUndef
        | d :: _ => iw_scan r (pre ++ [c]) false (if d =?c cRB then Some (S (List.length pre)) else bend)
        end
      else iw_scan r (pre ++ [c]) false bend
  end.
Definition iw_init (s : str) : option iword :=
  match iw_scan s [] false None with
  | ICut a b => Some (mkiw a b)
  | IEnd None => Some (mkiw s [])
  | IEnd (Some n) => Some (mkiw (skipn n s) [])
  | IUndef => None
  end.
(* TransferBase::tags, transfer_base.cc:564-573 *)
Definition lit_tags (v : str) : str := cLT :: flat_map (fun c => if c =?c cDOT then [cGT; cLT] else [c]) v ++ [cGT].

Record ist := mki {
  i_words : list iword;
  i_frame : list (option nat);          (* word: array of pointers; its length is lword; None: not initialised *)
  i_vars : str -> str; i_in_out : bool; i_bq : list str; i_out : str;
  i_cache : nat -> option jinstr }.
Definition iset_words st x := mki x (i_frame st) (i_vars st) (i_in_out st) (i_bq st) (i_out st) (i_cache st).
Definition iset_frame st x := mki (i_words st) x (i_vars st) (i_in_out st) (i_bq st) (i_out st) (i_cache st).
Definition iset_vars st x := mki (i_words st) (i_frame st) x (i_in_out st) (i_bq st) (i_out st) (i_cache st).
Definition iset_in_out st x := mki (i_words st) (i_frame st) (i_vars st) x (i_bq st) (i_out st) (i_cache st).
Definition iset_bq st x := mki (i_words st) (i_frame st) (i_vars st) (i_in_out st) x (i_out st) (i_cache st).
Definition iset_out st x := mki (i_words st) (i_frame st) (i_vars st) (i_in_out st) (i_bq st) x (i_cache st).
Definition iset_cache st x := mki (i_words st) (i_frame st) (i_vars st) (i_in_out st) (i_bq st) (i_out st) x.
Definition icache_add st id ti := iset_cache st (fun x => if Nat.eqb x id then Some ti else i_cache st x).

Section Interp.
Variable attr_match : str -> str -> str.            (* attr_items[part].match(text) *)
Variable attr_replace : str -> str -> str -> str.   (* attr_items[part].replace(text, value) *)
Variable copy_case : str -> str -> str.             (* StringUtils::copycase(src, dest) *)
Variable case_from : str -> str -> str.             (* TransferBase::copycase(src, dest) *)
Variable get_case : str -> str.
Variable lower : str -> str.
Variable lists : str -> list str.
Variable dict_case : bool.
Variable macros : str -> nat.                       (* macros[n]: 0 when there is no such macro *)
Variable macro_map : list (nat * list iinstr).      (* npar (0 also for less), instructions *)

(* chunkPart, 100-126 *)
Definition chunk_part (w : iword) (part : str) : str :=
  match attr_match part (iw_chunk w) with
  | [] => let q := attr_match part (iw_queue w) in if Nat.eqb (List.length q) (List.length (iw_queue w)) then q else []
  | m => if Nat.eqb (List.length m) (List.length (iw_chunk w)) then attr_match part (iw_chunk w ++ iw_queue w) else m
  end.
(* setChunkPart, 133-137 *)
Definition set_part (w : iword) (part v : str) : iword := mkiw (attr_replace part (iw_chunk w) v) (iw_queue w).

(* checkIndex, interchunk.cc:28-47: [Some None] there is no such word; None undefined *)
Definition i_at (st : ist) (pos : Z) : option (option iword) :=
  if ((pos <? 0) || (Z.of_nat (List.length (i_frame st)) <=? pos))%Z then Some None
  else match nth_error (i_frame st) (Z.to_nat pos) with
       | Some (Some i) => match nth_error (i_words st) i with Some w => Some (Some w) | None => None end
       | _ => None
       end.
(* wf.substr(1, wf.length()-2), 56-57: throws for the empty string *)
Definition trim_braces (s : str) : option str := match s with [] => None | _ :: r => Some (removelast r) end.
(* evalCachedString, 49-108 *)
Definition i_instr (ti : jinstr) (sub : ist -> option (str * ist)) (st : ist) : option (str * ist) :=
  match ti with
  | JiClip part pos =>
      match i_at st pos with
      | None => None
      | Some None => Some ([], st)
      | Some (Some w) => if str_eqb part (u "content") then match trim_braces (chunk_part w part) with Some v => Some (v, st) | None => None end
                         else Some (chunk_part w part, st)
      end
  | JiVar n => Some (i_vars st n, st)
  | JiLit v => Some (v, st)
  | JiB => match i_bq st with [] => Some ([cSP], st) | b :: q => Some (b, if i_in_out st then iset_bq st q else st) end
  | JiCaseFrom pos =>
      match i_at st pos with
      | None => None
      | Some None => Some ([], st)
      | Some (Some w) => match sub st with Some (d, st1) => Some (case_from (chunk_part w (u "lem")) d, st1) | None => None end
      end
  | JiCaseOf part pos =>
      match i_at st pos with None => None | Some None => Some ([], st) | Some (Some w) => Some (get_case (chunk_part w part), st) end
  end.
(* transfer_base.cc:206-241: from the cache, else compiled and cached *)
Definition i_fetch (st : ist) (id : nat) (ti : jinstr) : jinstr * ist :=
  match i_cache st id with Some t => (t, st) | None => (ti, icache_add st id ti) end.
(* evalString, transfer_base.cc:201-252, with processClip, processBlank, processCaseOf, processChunk (interchunk.cc:110-211) *)
Fixpoint ieval (e : iexpr) (st : ist) {struct e} : option (str * ist) :=
  let evals := fix evals (l : list iexpr) (st : ist) {struct l} : option (str * ist) :=
    match l with
    | [] => Some ([], st)
    | x :: r => match ieval x st with
                | Some (a, st1) => match evals r st1 with Some (b, st2) => Some (a ++ b, st2) | None => None end
                | None => None
                end
    end in
  let leaf := fun id ti sub => let '(t, st1) := i_fetch st id ti in i_instr t sub st1 in
  match e with
  | JClip id part pos => leaf id (JiClip part pos) (fun _ => None)
  | JLit id v => leaf id (JiLit v) (fun _ => None)
  | JLitTag id v => leaf id (JiLit (lit_tags v)) (fun _ => None)
  | JB id => leaf id JiB (fun _ => None)
  | JVar id n => leaf id (JiVar n) (fun _ => None)
  | JCaseOf id part pos => leaf id (JiCaseOf part pos) (fun _ => None)
  | JCaseFrom id pos x => leaf id (JiCaseFrom pos) (ieval x)
  | JConcat l => evals l st
  | JChunk l => match evals l st with Some (v, st1) => Some (cCARET :: v ++ [cDOL], st1) | None => None end
  | JOther => None
  end.
Fixpoint ieval_list (l : list iexpr) (st : ist) : option (str * ist) :=
  match l with
  | [] => Some ([], st)
  | x :: r => match ieval x st with
              | Some (a, st1) => match ieval_list r st1 with Some (b, st2) => Some (a ++ b, st2) | None => None end
              | None => None
              end
  end.

(** conditions: transfer_base.cc:374-555 *)
Definition itwo (a b : iexpr) (f : str -> str -> bool) (st : ist) : option (bool * ist) :=
  match ieval a st with
  | Some (x, st1) => match ieval b st1 with Some (y, st2) => Some (f x y, st2) | None => None end
  | None => None
  end.
Definition ione (a : iexpr) (f : str -> bool) (st : ist) : option (bool * ist) :=
  match ieval a st with Some (x, st1) => Some (f x, st1) | None => None end.
Notation low := (low lower).
Notation list_of := (list_of lower lists).
Fixpoint itest (c : icond) (st : ist) {struct c} : option (bool * ist) :=
  let all := fix all (l : list icond) (st : ist) {struct l} : option (bool * ist) :=
    match l with
    | [] => Some (true, st)
    | x :: r => match itest x st with Some (true, st1) => all r st1 | o => o end
    end in
  let some := fix some (l : list icond) (st : ist) {struct l} : option (bool * ist) :=
    match l with
    | [] => Some (false, st)
    | x :: r => match itest x st with Some (false, st1) => some r st1 | o => o end
    end in
  match c with
  | DEqual cl a b => itwo a b (fun x y => str_eqb (low cl x) (low cl y)) st
  | DBegins cl a b => itwo a b (fun x y => begins_with (low cl x) (low cl y)) st
  | DEnds cl a b => itwo a b (fun x y => ends_with (low cl x) (low cl y)) st
  | DContains cl a b => itwo a b (fun x y => contains (low cl x) (low cl y)) st
  | DBeginsList cl a l => ione a (fun x => existsb (begins_with (low cl x)) (list_of cl l)) st
  | DEndsList cl a l => ione a (fun x => existsb (ends_with (low cl x)) (list_of cl l)) st
  | DIn cl a l => ione a (fun x => existsb (str_eqb (low cl x)) (list_of cl l)) st
  | DAnd l => all l st
  | DOr l => some l st
  | DNot c => match itest c st with Some (b, st1) => Some (negb b, st1) | None => None end
  end.

(** instructions *)
(* word[pos], not checked: undefined outside the array and for an uninitialised pointer *)
Definition i_ptr (st : ist) (pos : Z) : option nat :=
  if (pos <? 0)%Z then None else match nth_error (i_frame st) (Z.to_nat pos) with Some (Some i) => Some i | _ => None end.
Definition i_put (st : ist) (i : nat) (w : iword) : ist := iset_words st (set_nth i w (i_words st)).
(* the assignments of processLet, 213-284 *)
Definition ilet_var (n : str) (e : iexpr) (st : ist) : option ist :=
  match ieval e st with Some (v, st1) => Some (iset_vars st1 (upd (i_vars st1) n v)) | None => None end.
Definition ilet_clip (part : str) (pos : Z) (e : iexpr) (st : ist) : option ist :=
  match ieval e st with
  | None => None
  | Some (v, st1) => match i_ptr st1 pos with
                     | Some i => match nth_error (i_words st1) i with Some w => Some (i_put st1 i (set_part w part v)) | None => None end
                     | None => None
                     end
  end.
(* processLet *)
Definition ido_let (l : ilhs) (e : iexpr) (st : ist) : option ist :=
  let id := match l with MVar id _ => id | MClip id _ _ => id end in
  match i_cache st id with
  | Some (JiVar n) => ilet_var n e st
  | Some (JiClip part pos) => ilet_clip part pos e st
  | Some _ => Some st
  | None =>
      match l with
      | MVar id n => match ilet_var n e st with Some st1 => Some (icache_add st1 id (JiVar n)) | None => None end
      | MClip id part pos => match ilet_clip part pos e st with Some st1 => Some (icache_add st1 id (JiClip part pos)) | None => None end
      end
  end.
(* processModifyCase, 286-334 *)
Definition ido_modcase (l : ilhs) (e : iexpr) (st : ist) : option ist :=
  if dict_case then Some st else
  match ieval e st with
  | None => None
  | Some (c, st1) =>
      match l with
      | MVar _ n => Some (iset_vars st1 (upd (i_vars st1) n (copy_case c (i_vars st1 n))))
      | MClip _ part pos => match i_ptr st1 pos with
                            | Some i => match nth_error (i_words st1) i with
                                        | Some w => Some (i_put st1 i (set_part w part (copy_case c (chunk_part w part)))) | None => None end
                            | None => None
                            end
      end
  end.
(* processAppend, transfer_base.cc:362-372 *)
Fixpoint ido_append (n : str) (l : list iexpr) (st : ist) : option ist :=
  match l with
  | [] => Some st
  | x :: r => match ieval x st with
              | Some (v, st1) => ido_append n r (iset_vars st1 (upd (i_vars st1) n (i_vars st1 n ++ v)))
              | None => None
              end
  end.
(* processOut, 182-196 *)
Fixpoint iout_list (l : list iexpr) (st : ist) : option ist :=
  match l with
  | [] => Some st
  | x :: r => match ieval x st with Some (v, st1) => iout_list r (iset_out st1 (i_out st1 ++ v)) | None => None end
  end.
Definition ido_out (l : list iexpr) (st : ist) : option ist :=
  match iout_list l (iset_in_out st true) with Some st1 => Some (iset_in_out st1 false) | None => None end.

Section Instr.
Variable call : str -> list Z -> ist -> option ist.
(* processInstruction, processChoose: transfer_base.cc:275-360; the number is words_to_consume, -1 when the rule goes on *)
Fixpoint irun (i : iinstr) (st : ist) {struct i} : option (Z * ist) :=
  let runs := fix runs (l : list iinstr) (st : ist) {struct l} : option (Z * ist) :=
    match l with
    | [] => Some ((-1)%Z, st)
    | x :: r => match irun x st with
                | Some (z, st1) => if (z =? -1)%Z then runs r st1 else Some (z, st1)
                | None => None
                end
    end in
  let opts := fix opts (l : list (option icond * list iinstr)) (st : ist) {struct l} : option (Z * ist) :=
    match l with
    | [] => Some ((-1)%Z, st)
    | (Some c, b) :: r => match itest c st with
                          | Some (true, st1) => runs b st1
                          | Some (false, st1) => opts r st1
                          | None => None
                          end
    | (None, b) :: r => match runs b st with
                        | Some (z, st1) => if (z =? -1)%Z then opts r st1 else Some (z, st1)
                        | None => None
                        end
    end in
  let go_on := fun o : option ist => match o with Some st1 => Some ((-1)%Z, st1) | None => None end in
  match i with
  | KLet l e => go_on (ido_let l e st)
  | KAppend n l => go_on (ido_append n l st)
  | KOut l => go_on (ido_out l st)
  | KModCase l e => go_on (ido_modcase l e st)
  | KCall n args => go_on (call n args st)
  | KReject z => Some (z, st)
  | KChoose l => opts l st
  end.
Fixpoint irun_list (l : list iinstr) (st : ist) : option (Z * ist) :=
  match l with
  | [] => Some ((-1)%Z, st)
  | x :: r => match irun x st with
              | Some (z, st1) => if (z =? -1)%Z then irun_list r st1 else Some (z, st1)
              | None => None
              end
  end.
(* the body of a macro, 350-352: results are ignored *)
Fixpoint irun_macro (l : list iinstr) (st : ist) : option ist :=
  match l with [] => Some st | x :: r => match irun x st with Some (_, st1) => irun_macro r st1 | None => None end end.
End Instr.
(* 340-344: copying pointers (an uninitialised one is copied as such; reading outside the array is undefined) *)
Fixpoint i_ptrs (st : ist) (args : list Z) : option (list (option nat)) :=
  match args with
  | [] => Some []
  | a :: r => if (a <? 0)%Z then None else
              match nth_error (i_frame st) (Z.to_nat a) with
              | Some p => match i_ptrs st r with Some l => Some (p :: l) | None => None end
              | None => None
              end
  end.
(* processCallMacro, 336-360: without parameters [word] is null; arguments beyond npar are written behind the array *)
Fixpoint icall (fuel : nat) (n : str) (args : list Z) (st : ist) {struct fuel} : option ist :=
  match fuel with
  | 0 => None
  | S f =>
      match nth_error macro_map (macros n) with
      | None => None
      | Some (npar, body) =>
          match (match npar with
                 | 0 => Some []
                 | S _ => if npar <? List.length args then None
                          else match i_ptrs st args with Some l => Some (l ++ repeat None (npar - List.length args)) | None => None end
                 end) with
          | None => None
          | Some fr => match irun_macro (icall f) body (iset_frame st fr) with Some st1 => Some (iset_frame st1 (i_frame st)) | None => None end
          end
      end
  end.
(* applyRule, 590-631, and processRule (transfer_base.cc:253-273) up to its flush: all words read so far are loaded, not only those
   of the pattern.  State between rules: the variables and the cache *)
Fixpoint load_words (ws : list str) : option (list iword) :=
  match ws with
  | [] => Some []
  | w :: r => match iw_init w, load_words r with Some x, Some l => Some (x :: l) | _, _ => None end
  end.
Definition iglob := ((str -> str) * (nat -> option jinstr))%type.
Definition iapply (fuel : nat) (body : list iinstr) (g : iglob) (ws bs : list str) : option (str * list str * Z * iglob) :=
  match load_words ws with
  | None => None
  | Some l => match irun_list (icall fuel) body (mki l (map Some (seq 0 (List.length l))) (fst g) false bs [] (snd g)) with
              | Some (z, st) => Some (i_out st, i_bq st, z, (i_vars st, i_cache st))
              | None => None
              end
  end.
(* 590-631 with the rule's body rule_map[r - 1]; [None]: the program has aborted (nothing is printed from then on) *)
Definition iact (fuel : nat) (bodies : list (list iinstr)) (r : nat) (g : option iglob) (ws bs : list str) : str * list str * Z * option iglob :=
  let aborted := ([], [], (-1)%Z, None) in
  match g, nth_error bodies (r - 1) with
  | Some g, Some body => match iapply fuel body g ws bs with Some (o, lf, z, g1) => (o, lf, z, Some g1) | None => aborted end
  | _, _ => aborted
  end.
End Interp.

(** ** applyWord, 633-676 *)
Section Match.
Variable lower : char -> char.
Fixpoint iword_syms (fuel : nat) (s : str) : list msym :=
  match fuel with
  | 0 => []
  | S f =>
      match s with
      | [] => [MMark cDOL]
      | c :: r =>
          if c =?c cBS then match r with d :: r' => MChar (lower d) :: iword_syms f r' | [] => [MChar (lower cNUL); MMark cDOL] end
          else if c =?c cLT then match find_gt r [c] with Some (t, r') => MTag t :: iword_syms f r' | None => iword_syms f r end
          else if c =?c cLC then [MMark cDOL]
          else MChar (lower c) :: iword_syms f r
      end
  end.
Definition ichunk_syms (s : str) : list msym := MMark cCARET :: iword_syms (S (List.length s)) s.
Definition em_chunk (t : trans) (M : list (list nat)) (w : str) : list (list nat) := fold_left (em_step t) (ichunk_syms w) M.
End Match.
