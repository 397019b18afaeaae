(** The interpreter of postchunk rules: apertium/postchunk.cc (28-453: evaluation, assignments, output, macros), apertium/interchunk_word.cc
    (62-137) and apertium/transfer_base.cc (201-570: evaluation of expressions, tests and instructions); the application of a rule to a
    chunk (postchunk.cc 681-729) and what the pattern matcher is fed (731-779).
    [None]: undefined behaviour, an exception, exit, or macro calls nested deeper than the fuel.
    Simplifications as in Model/TransferRules.v: rule files are syntax trees ([id] stands for the address of a node, on which the cache of
    compiled nodes depends); children are in the order of postchunk.dtd; the regular expressions of attributes, case functions, lower-casing
    and the printing of numbers are parameters; messages and tracing are omitted; the pointer stored in a cached get-case-from is taken from
    the node itself; operands whose order of evaluation C++ leaves open are evaluated from left to right.  Position 0 is the chunk itself. *)
From Coq Require Import String ZArith.
From Verif Require Import Model.Base Model.TransferRules Model.TransferUnit Model.TrxPatterns Model.TrxMachine Model.Interchunk Model.Postchunk.

Inductive pexpr :=
| QClip (id : nat) (part : str) (pos : Z)
| QLit (id : nat) (v : str)
| QLitTag (id : nat) (v : str)
| QB (id : nat)
| QVar (id : nat) (n : str)
| QCount (id : nat)                            (* lu-count *)
| QCaseOf (id : nat) (part : str) (pos : Z)
| QCaseFrom (id : nat) (pos : Z) (e : pexpr)
| QConcat (l : list pexpr)
| QLu (l : list pexpr)
| QMlu (l : list (list pexpr))
| QOther.                                      (* chunk and unknown elements: exit *)
Inductive pcond :=
| EEqual (caseless : bool) (a b : pexpr) | EBegins (caseless : bool) (a b : pexpr) | EEnds (caseless : bool) (a b : pexpr)
| EContains (caseless : bool) (a b : pexpr)
| EBeginsList (caseless : bool) (a : pexpr) (l : str) | EEndsList (caseless : bool) (a : pexpr) (l : str) | EIn (caseless : bool) (a : pexpr) (l : str)
| EAnd (l : list pcond) | EOr (l : list pcond) | ENot (c : pcond).
Inductive plhs := NVar (id : nat) (n : str) | NClip (id : nat) (part : str) (pos : Z).
Inductive pinstr :=
| PLet (l : plhs) (e : pexpr) | PAppend (n : str) (l : list pexpr) | POut (l : list pexpr) | PModCase (l : plhs) (e : pexpr)
| PCall (n : str) (args : list Z) | PReject (z : Z)
| PChoose (l : list (option pcond * list pinstr)).       (* None: otherwise *)
(* TransferInstr *)
Inductive qinstr := QiClip (part : str) (pos : Z) | QiVar (n : str) | QiLit (v : str) | QiB | QiCount | QiCaseOf (part : str) (pos : Z) | QiCaseFrom (pos : Z).

(** ** InterchunkWord, with its word-bound blank *)
Record pword := mkpw { pw_chunk : str; pw_queue : str; pw_wb : str }.
(* init, interchunk_word.cc:62-98 *)
Definition pw_init (s : str) : option pword :=
  match iw_scan s [] false None with
  | ICut a b => Some (mkpw a b [])
  | IEnd None => Some (mkpw s [] [])
  | IEnd (Some n) => Some (mkpw (skipn n s) [] (firstn n s))
  | IUndef => None
  end.

Record pst := mkp {
  p_words : list pword;                 (* the InterchunkWord objects *)
  p_frame : list (option nat);          (* word[0..lword]: array of pointers; None: not initialised *)
  p_n : nat;                            (* tmpword.size() *)
  p_vars : str -> str; p_vwb : str -> str;
  p_owb : str; p_in_lu : bool; p_in_let : bool; p_in_out : bool; p_vv : str;
  p_bq : list str; p_out : str;
  p_cache : nat -> option qinstr }.
Definition pset_words st x := mkp x (p_frame st) (p_n st) (p_vars st) (p_vwb st) (p_owb st) (p_in_lu st) (p_in_let st) (p_in_out st) (p_vv st) (p_bq st) (p_out st) (p_cache st).
Definition pset_frame st x := mkp (p_words st) x (p_n st) (p_vars st) (p_vwb st) (p_owb st) (p_in_lu st) (p_in_let st) (p_in_out st) (p_vv st) (p_bq st) (p_out st) (p_cache st).
Definition pset_vars st x := mkp (p_words st) (p_frame st) (p_n st) x (p_vwb st) (p_owb st) (p_in_lu st) (p_in_let st) (p_in_out st) (p_vv st) (p_bq st) (p_out st) (p_cache st).
Definition pset_vwb st x := mkp (p_words st) (p_frame st) (p_n st) (p_vars st) x (p_owb st) (p_in_lu st) (p_in_let st) (p_in_out st) (p_vv st) (p_bq st) (p_out st) (p_cache st).
Definition pset_owb st x := mkp (p_words st) (p_frame st) (p_n st) (p_vars st) (p_vwb st) x (p_in_lu st) (p_in_let st) (p_in_out st) (p_vv st) (p_bq st) (p_out st) (p_cache st).
Definition pset_lu st x := mkp (p_words st) (p_frame st) (p_n st) (p_vars st) (p_vwb st) (p_owb st) x (p_in_let st) (p_in_out st) (p_vv st) (p_bq st) (p_out st) (p_cache st).
Definition pset_let st x := mkp (p_words st) (p_frame st) (p_n st) (p_vars st) (p_vwb st) (p_owb st) (p_in_lu st) x (p_in_out st) (p_vv st) (p_bq st) (p_out st) (p_cache st).
Definition pset_inout st x := mkp (p_words st) (p_frame st) (p_n st) (p_vars st) (p_vwb st) (p_owb st) (p_in_lu st) (p_in_let st) x (p_vv st) (p_bq st) (p_out st) (p_cache st).
Definition pset_vv st x := mkp (p_words st) (p_frame st) (p_n st) (p_vars st) (p_vwb st) (p_owb st) (p_in_lu st) (p_in_let st) (p_in_out st) x (p_bq st) (p_out st) (p_cache st).
Definition pset_bq st x := mkp (p_words st) (p_frame st) (p_n st) (p_vars st) (p_vwb st) (p_owb st) (p_in_lu st) (p_in_let st) (p_in_out st) (p_vv st) x (p_out st) (p_cache st).
Definition pset_out st x := mkp (p_words st) (p_frame st) (p_n st) (p_vars st) (p_vwb st) (p_owb st) (p_in_lu st) (p_in_let st) (p_in_out st) (p_vv st) (p_bq st) x (p_cache st).
Definition pset_cache st x := mkp (p_words st) (p_frame st) (p_n st) (p_vars st) (p_vwb st) (p_owb st) (p_in_lu st) (p_in_let st) (p_in_out st) (p_vv st) (p_bq st) (p_out st) x.
Definition pcache_add st id ti := pset_cache st (fun x => if Nat.eqb x id then Some ti else p_cache st x).
Definition lword (st : pst) : nat := List.length (p_frame st) - 1.

Section Interp.
Variable attr_match : str -> str -> str.            (* attr_items[part].match(text) *)
Variable attr_replace : str -> str -> str -> str.   (* attr_items[part].replace(text, value) *)
Variable copy_case : str -> str -> str.             (* StringUtils::copycase(src, dest) *)
Variable case_from : str -> str -> str.             (* TransferBase::copycase(src, dest) *)
Variable get_case : str -> str.
Variable lower : str -> str.
Variable itoa : nat -> str.                         (* StringUtils::itoa *)
Variable lists : str -> list str.
Variable dict_case : bool.
Variable macros : str -> nat.                       (* macros[n]: 0 when there is no such macro *)
Variable macro_map : list (nat * list pinstr).      (* npar (0 also for less), instructions *)

(* chunkPart, interchunk_word.cc:100-126 *)
Definition pw_part (w : pword) (part : str) : str :=
  match attr_match part (pw_chunk w) with
  | [] => let q := attr_match part (pw_queue w) in if Nat.eqb (List.length q) (List.length (pw_queue w)) then q else []
  | m => if Nat.eqb (List.length m) (List.length (pw_chunk w)) then attr_match part (pw_chunk w ++ pw_queue w) else m
  end.
(* setChunkPart, 133-137 *)
Definition pw_put (w : pword) (part v : str) : pword := mkpw (attr_replace part (pw_chunk w) v) (pw_queue w) (pw_wb w).

(* word[pos]: None outside the array, uninitialised or dangling (undefined) *)
Definition p_ptr (st : pst) (pos : Z) : option nat :=
  if (pos <? 0)%Z then None else match nth_error (p_frame st) (Z.to_nat pos) with Some (Some i) => Some i | _ => None end.
Definition p_obj (st : pst) (i : nat) : option pword := nth_error (p_words st) i.
(* checkIndex, postchunk.cc:28-47 (index = lword is allowed): false, or the word; the pointer is read, so it has to be initialised *)
Definition p_check (st : pst) (pos : Z) : option (option nat) :=
  if ((Z.of_nat (lword st) <? pos) || (pos <? 0))%Z then Some None
  else match p_ptr st pos with Some i => Some (Some i) | None => None end.
Definition p_at (st : pst) (pos : Z) (f : pword -> option (str * pst)) : option (str * pst) :=
  match p_check st pos with
  | None => None
  | Some None => Some ([], st)
  | Some (Some i) => match p_obj st i with Some w => f w | None => None end
  end.
(* postchunk.cc:55-64: a lemma carries the word-bound blank of its word along *)
Definition p_take_wb (st : pst) (part : str) (wb : str) : option pst :=
  if is_lemma part && (1 <? lword st) then
    if p_in_lu st then match combine_wblanks (p_owb st) wb with Some x => Some (pset_owb st x) | None => None end
    else if p_in_let st then match combine_wblanks (p_vwb st (p_vv st)) wb with Some x => Some (pset_vwb st (upd (p_vwb st) (p_vv st) x)) | None => None end
    else Some st
  else Some st.
(* evalCachedString, postchunk.cc:49-112; get-case-from stores pos - 1 (transfer_base.cc:222) and uses that + 1 *)
Definition p_instr (ti : qinstr) (sub : pst -> option (str * pst)) (st : pst) : option (str * pst) :=
  match ti with
  | QiClip part pos => p_at st pos (fun w => match p_take_wb st part (pw_wb w) with Some st' => Some (pw_part w part, st') | None => None end)
  | QiCount => Some (itoa (p_n st), st)
  | QiVar n =>
      if 1 <? lword st then
        match combine_wblanks (p_owb st) (p_vwb st n) with Some x => Some (p_vars st n, pset_owb st x) | None => None end
      else Some (p_vars st n, st)
  | QiLit v => Some (v, st)
  | QiB => match p_bq st with [] => Some ([cSP], st) | b :: q => Some (b, if p_in_out st then pset_bq st q else st) end
  | QiCaseFrom pos => p_at st pos (fun w => match sub st with Some (d, st') => Some (case_from (pw_part w (u "lem")) d, st') | None => None end)
  | QiCaseOf part pos => p_at st pos (fun w => Some (get_case (pw_part w part), st))
  end.
(* transfer_base.cc:206-241: from the cache, else compiled (postchunk.cc:114-165) and cached *)
Definition p_fetch (st : pst) (id : nat) (ti : qinstr) : qinstr * pst :=
  match p_cache st id with Some t => (t, st) | None => (ti, pcache_add st id ti) end.
(* 180-182, 230-232: with one word the blank is that of the word *)
Definition p_single (st : pst) : option pst :=
  if Nat.eqb (lword st) 1 then
    match p_ptr st 1 with Some i => match p_obj st i with Some w => Some (pset_owb st (pw_wb w)) | None => None end | None => None end
  else Some st.
(* 184-188, 234-238 *)
Definition p_unit (wb w : str) : str := match w with [] => [] | _ => wb ++ cCARET :: w ++ [cDOL] end.
(* 209-222: + between the words, except before a queue and before the first non-empty one *)
Definition p_mlu_add (value : str) (first : bool) (w : str) : str * bool :=
  if first then (value ++ w, match w with [] => true | _ => false end)
  else ((match w with [] => value | c :: _ => if c =?c cHASH then value else value ++ [cPLUS] end) ++ w, false).
(* evalString, transfer_base.cc:201-252, with processLu and processMlu (postchunk.cc:167-240) *)
Fixpoint peval (e : pexpr) (st : pst) {struct e} : option (str * pst) :=
  let evals := fix evals (l : list pexpr) (st : pst) {struct l} : option (str * pst) :=
    match l with
    | [] => Some ([], st)
    | x :: r => match peval x st with
                | Some (a, st1) => match evals r st1 with Some (b, st2) => Some (a ++ b, st2) | None => None end
                | None => None
                end
    end in
  let mlus := fix mlus (l : list (list pexpr)) (value : str) (first : bool) (st : pst) {struct l} : option (str * pst) :=
    match l with
    | [] => Some (value, st)
    | x :: r => match evals x st with
                | Some (w, st1) => let '(v, f) := p_mlu_add value first w in mlus r v f st1
                | None => None
                end
    end in
  match e with
  | QConcat l => evals l st
  | QLu l =>
      match evals l (pset_owb (pset_lu st true) []) with
      | Some (w, st1) => match p_single (pset_lu st1 false) with Some st2 => Some (p_unit (p_owb st2) w, st2) | None => None end
      | None => None
      end
  | QMlu l =>
      match mlus l [] true (pset_owb (pset_lu st true) []) with
      | Some (w, st1) => match p_single (pset_lu st1 false) with Some st2 => Some (p_unit (p_owb st2) w, st2) | None => None end
      | None => None
      end
  | QOther => None
  | QCaseFrom id pos x => let '(ti, st1) := p_fetch st id (QiCaseFrom pos) in p_instr ti (peval x) st1
  | QClip id part pos => let '(ti, st1) := p_fetch st id (QiClip part pos) in p_instr ti (fun _ => None) st1
  | QLit id v => let '(ti, st1) := p_fetch st id (QiLit v) in p_instr ti (fun _ => None) st1
  | QLitTag id v => let '(ti, st1) := p_fetch st id (QiLit (lit_tags v)) in p_instr ti (fun _ => None) st1
  | QB id => let '(ti, st1) := p_fetch st id QiB in p_instr ti (fun _ => None) st1
  | QVar id n => let '(ti, st1) := p_fetch st id (QiVar n) in p_instr ti (fun _ => None) st1
  | QCount id => let '(ti, st1) := p_fetch st id QiCount in p_instr ti (fun _ => None) st1
  | QCaseOf id part pos => let '(ti, st1) := p_fetch st id (QiCaseOf part pos) in p_instr ti (fun _ => None) st1
  end.
Fixpoint peval_list (l : list pexpr) (st : pst) : option (str * pst) :=
  match l with
  | [] => Some ([], st)
  | x :: r => match peval x st with
              | Some (a, st1) => match peval_list r st1 with Some (b, st2) => Some (a ++ b, st2) | None => None end
              | None => None
              end
  end.
Fixpoint peval_mlu (l : list (list pexpr)) (value : str) (first : bool) (st : pst) : option (str * pst) :=
  match l with
  | [] => Some (value, st)
  | x :: r => match peval_list x st with
              | Some (w, st1) => let '(v, f) := p_mlu_add value first w in peval_mlu r v f st1
              | None => None
              end
  end.

(** ** conditions: transfer_base.cc:374-555 *)
Definition ptwo (a b : pexpr) (f : str -> str -> bool) (st : pst) : option (bool * pst) :=
  match peval a st with
  | Some (x, st1) => match peval b st1 with Some (y, st2) => Some (f x y, st2) | None => None end
  | None => None
  end.
Definition pone (a : pexpr) (f : str -> bool) (st : pst) : option (bool * pst) :=
  match peval a st with Some (x, st1) => Some (f x, st1) | None => None end.
Fixpoint ptest (c : pcond) (st : pst) {struct c} : option (bool * pst) :=
  let all := fix all (l : list pcond) (st : pst) {struct l} : option (bool * pst) :=
    match l with
    | [] => Some (true, st)
    | x :: r => match ptest x st with Some (true, st1) => all r st1 | o => o end
    end in
  let some := fix some (l : list pcond) (st : pst) {struct l} : option (bool * pst) :=
    match l with
    | [] => Some (false, st)
    | x :: r => match ptest x st with Some (false, st1) => some r st1 | o => o end
    end in
  match c with
  | EEqual cl a b => ptwo a b (fun x y => str_eqb (low lower cl x) (low lower cl y)) st
  | EBegins cl a b => ptwo a b (fun x y => begins_with (low lower cl x) (low lower cl y)) st
  | EEnds cl a b => ptwo a b (fun x y => ends_with (low lower cl x) (low lower cl y)) st
  | EContains cl a b => ptwo a b (fun x y => contains (low lower cl x) (low lower cl y)) st
  | EBeginsList cl a l => pone a (fun x => existsb (begins_with (low lower cl x)) (list_of lower lists cl l)) st
  | EEndsList cl a l => pone a (fun x => existsb (ends_with (low lower cl x)) (list_of lower lists cl l)) st
  | EIn cl a l => pone a (fun x => existsb (str_eqb (low lower cl x)) (list_of lower lists cl l)) st
  | EAnd l => all l st
  | EOr l => some l st
  | ENot c => match ptest c st with Some (b, st1) => Some (negb b, st1) | None => None end
  end.

(** ** instructions *)
Definition pput (st : pst) (i : nat) (w : pword) : pst := pset_words st (set_nth i w (p_words st)).
(* processLet, 279-365 *)
Definition plet_var (n : str) (e : pexpr) (st : pst) : option pst :=
  match peval e (pset_vwb (pset_vv (pset_let st true) n) (upd (p_vwb st) n [])) with
  | Some (v, st1) => Some (pset_let (pset_vars st1 (upd (p_vars st1) n v)) false)
  | None => None
  end.
Definition plet_clip (part : str) (pos : Z) (e : pexpr) (st : pst) : option pst :=
  match peval e st with
  | Some (v, st1) => match p_ptr st1 pos with
                     | Some i => match p_obj st1 i with Some w => Some (pput st1 i (pw_put w part v)) | None => None end
                     | None => None
                     end
  | None => None
  end.
Definition pdo_let (l : plhs) (e : pexpr) (st : pst) : option pst :=
  let id := match l with NVar id _ => id | NClip id _ _ => id end in
  match p_cache st id with
  | Some (QiVar n) => plet_var n e st
  | Some (QiClip part pos) => plet_clip part pos e st
  | Some _ => Some st
  | None =>
      match l with
      | NVar id n => match plet_var n e st with Some st1 => Some (pcache_add st1 id (QiVar n)) | None => None end
      | NClip id part pos => match plet_clip part pos e st with Some st1 => Some (pcache_add st1 id (QiClip part pos)) | None => None end
      end
  end.
(* processModifyCase, 367-417 *)
Definition pdo_modcase (l : plhs) (e : pexpr) (st : pst) : option pst :=
  if dict_case then Some st else
  match peval e st with
  | None => None
  | Some (c, st1) =>
      match l with
      | NClip _ part pos => match p_ptr st1 pos with
                            | Some i => match p_obj st1 i with Some w => Some (pput st1 i (pw_put w part (copy_case c (pw_part w part)))) | None => None end
                            | None => None
                            end
      | NVar _ n => Some (pset_vars st1 (upd (p_vars st1) n (copy_case c (p_vars st1 n))))
      end
  end.
(* processAppend, transfer_base.cc:362-372 *)
Fixpoint pdo_append (n : str) (l : list pexpr) (st : pst) : option pst :=
  match l with
  | [] => Some st
  | x :: r => match peval x (pset_vv (pset_let st true) n) with
              | Some (v, st1) => pdo_append n r (pset_let (pset_vars st1 (upd (p_vars st1) n (p_vars st1 n ++ v))) false)
              | None => None
              end
  end.
(* processOut, 250-266 *)
Fixpoint pout_list (l : list pexpr) (st : pst) : option pst :=
  match l with
  | [] => Some st
  | x :: r => match peval x st with Some (v, st1) => pout_list r (pset_out st1 (p_out st1 ++ v)) | None => None end
  end.
Definition pdo_out (l : list pexpr) (st : pst) : option pst :=
  match pout_list l (pset_inout st true) with Some st1 => Some (pset_inout st1 false) | None => None end.

Section Instr.
Variable call : str -> list Z -> pst -> option pst.
(* processInstruction, processChoose: transfer_base.cc:275-360; the number is words_to_consume, -1 when the rule goes on *)
Fixpoint prun (i : pinstr) (st : pst) {struct i} : option (Z * pst) :=
  let runs := fix runs (l : list pinstr) (st : pst) {struct l} : option (Z * pst) :=
    match l with
    | [] => Some ((-1)%Z, st)
    | x :: r => match prun x st with
                | Some (z, st1) => if (z =? -1)%Z then runs r st1 else Some (z, st1)
                | None => None
                end
    end in
  let opts := fix opts (l : list (option pcond * list pinstr)) (st : pst) {struct l} : option (Z * pst) :=
    match l with
    | [] => Some ((-1)%Z, st)
    | (Some c, b) :: r => match ptest c st with
                          | Some (true, st1) => runs b st1
                          | Some (false, st1) => opts r st1
                          | None => None
                          end
    | (None, b) :: r => match runs b st with
                        | Some (z, st1) => if (z =? -1)%Z then opts r st1 else Some (z, st1)
                        | None => None
                        end
    end in
  let go_on := fun o : option pst => match o with Some st1 => Some ((-1)%Z, st1) | None => None end in
  match i with
  | PLet l e => go_on (pdo_let l e st)
  | PAppend n l => go_on (pdo_append n l st)
  | POut l => go_on (pdo_out l st)
  | PModCase l e => go_on (pdo_modcase l e st)
  | PCall n args => go_on (call n args st)
  | PReject z => Some (z, st)
  | PChoose l => opts l st
  end.
Fixpoint prun_list (l : list pinstr) (st : pst) : option (Z * pst) :=
  match l with
  | [] => Some ((-1)%Z, st)
  | x :: r => match prun x st with
              | Some (z, st1) => if (z =? -1)%Z then prun_list r st1 else Some (z, st1)
              | None => None
              end
  end.
Fixpoint prun_opts (l : list (option pcond * list pinstr)) (st : pst) : option (Z * pst) :=
  match l with
  | [] => Some ((-1)%Z, st)
  | (Some c, b) :: r => match ptest c st with
                        | Some (true, st1) => prun_list b st1
                        | Some (false, st1) => prun_opts r st1
                        | None => None
                        end
  | (None, b) :: r => match prun_list b st with
                      | Some (z, st1) => if (z =? -1)%Z then prun_opts r st1 else Some (z, st1)
                      | None => None
                      end
  end.
(* the body of a macro: results are ignored *)
Fixpoint prun_macro (l : list pinstr) (st : pst) : option pst :=
  match l with [] => Some st | x :: r => match prun x st with Some (_, st1) => prun_macro r st1 | None => None end end.
End Instr.
(* processCallMacro, 439-448: the arguments; false: an index was not good, in which case word[1] is read *)
Fixpoint p_args (st : pst) (args : list Z) : option (list nat * bool) :=
  match args with
  | [] => Some ([], true)
  | a :: r => match (match p_check st a with
                     | None => None
                     | Some (Some i) => Some (i, true)
                     | Some None => match p_ptr st 1 with Some i => Some (i, false) | None => None end
                     end) with
              | None => None
              | Some (i, ok) => match p_args st r with Some (l, ok') => Some (i :: l, ok && ok') | None => None end
              end
  end.
(* 419-467: throws without parameters; arguments beyond npar are written behind the array *)
Fixpoint pcall (fuel : nat) (n : str) (args : list Z) (st : pst) {struct fuel} : option pst :=
  match fuel with
  | 0 => None
  | S f =>
      match nth_error macro_map (macros n) with
      | None => None
      | Some (npar, body) =>
          if (npar =? 0) || (npar <? List.length args) then None
          else match p_frame st, p_args st args with
               | w0 :: _, Some (l, true) =>
                   match prun_macro (pcall f) body (pset_frame st (w0 :: map Some l ++ repeat None (npar - List.length l))) with
                   | Some st1 => Some (pset_frame st1 (p_frame st)) | None => None end
               | _ :: _, Some (_, false) => Some st
               | _, _ => None
               end
      end
  end.
(* processRule, transfer_base.cc:253-273 *)
Definition p_process (fuel : nat) (body : list pinstr) (st : pst) : option (Z * pst) :=
  match prun_list (pcall fuel) body st with
  | Some (z, st1) => Some (z, pset_bq (pset_out st1 (p_out st1 ++ flush (p_bq st1))) [])
  | None => None
  end.
(* applyRule, 681-729.  Between rules: the variables with their blanks, out_wblank, the cache (the flags are false).
   [after]: the blank read after the chunk; its new contents are the second result *)
Record pglob := mkpg { g_vars : str -> str; g_vwb : str -> str; g_owb : str; g_vv : str; g_cache : nat -> option qinstr }.
Fixpoint p_load (ws : list str) : option (list pword) :=
  match ws with [] => Some [] | w :: r => match pw_init w, p_load r with Some x, Some l => Some (x :: l) | _, _ => None end end.
Section Apply.
Variable up : char -> char.
Variable alnum : char -> bool.
Variable getcase : str -> ckind.
Definition p_start (g : pglob) (zero : pword) (ws : list pword) (q : list str) : pst :=
  mkp (zero :: ws) (map Some (seq 0 (S (List.length ws)))) (List.length ws) (g_vars g) (g_vwb g) (g_owb g) false false false (g_vv g) q [] (g_cache g).
Definition p_apply (fuel : nat) (body : list pinstr) (g : pglob) (chunk after : str) : option (str * str * Z * pglob) :=
  match rule_view up alnum getcase [after] chunk, wordzero chunk with
  | Some (ws, q, after'), Some z0 =>
      match pw_init z0, p_load ws with
      | Some zero, Some l =>
          match p_process fuel body (p_start g zero l q) with
          | Some (z, st) => Some (p_out st, after', z, mkpg (p_vars st) (p_vwb st) (p_owb st) (p_vv st) (p_cache st))
          | None => None
          end
      | _, _ => None
      end
  | _, _ => None
  end.
End Apply.
End Interp.

(** ** applyWord, 731-779: the characters of the chunk's name; tags and content are not fed *)
Section Match.
Variable lower : char -> char.
Fixpoint pname_syms (s : str) (esc : bool) : list msym :=
  match s with
  | [] => if esc then [MChar (lower cNUL); MMark cDOL] else [MMark cDOL]       (* word_str[size()] is 0 *)
  | c :: r => if esc then MChar (lower c) :: pname_syms r false
              else if c =?c cBS then pname_syms r true
              else if (c =?c cLT) || (c =?c cLC) then [MMark cDOL]
              else MChar (lower c) :: pname_syms r false
  end.
Definition em_name (t : trans) (M : list (list nat)) (w : str) : list (list nat) := fold_left (em_step t) (MMark cCARET :: pname_syms w false) M.
End Match.
