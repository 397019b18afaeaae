(** The interpreter of transfer rules: apertium/transfer_base.cc (137-176, 201-272, 275-420, 462-570),
    apertium/transfer.cc (76-232, 233-300, 302-409, 411-497, 499-645, 647-742, 744-788) and apertium/transfer_word.cc (75-180).
    The state is that of the C++ objects: the words (TransferWord objects, reached through the pointer array [word], which a macro
    call replaces), the variables, the flags in_lu / in_let_var / in_out, the accumulators for word-bound blanks and the cache
    of compiled nodes (evalStringCache).  [None]: undefined behaviour, exit, or macro calls nested deeper than the fuel.
    Simplifications: rule files are syntax trees instead of libxml nodes ([id] stands for the address of a node); element orders
    are those of transfer.dtd (test first in when, tags first in chunk); the regular expressions of attributes, case functions and
    lower-casing are parameters; error messages and tracing are omitted; the pointer stored in a cached get-case-from is taken
    from the node itself; operands whose order of evaluation C++ leaves open are evaluated from left to right. *)
From Coq Require Import String ZArith.
From Verif Require Import Model.Base.

Inductive side := SL | TL | REF.
Inductive expr :=
| XClip (id : nat) (sd : side) (part : str) (pos : Z) (queue : bool) (link : str)     (* link = [] : no link-to attribute *)
| XLit (id : nat) (v : str)                         (* lit, and lit-tag with its value already turned into tags *)
| XB (id : nat)
| XVar (id : nat) (n : str)
| XCaseOf (id : nat) (sd : side) (part : str) (pos : Z)
| XCaseFrom (id : nat) (pos : Z) (e : expr)
| XConcat (l : list expr)
| XLu (l : list expr)
| XMlu (l : list (list expr))
| XChunk (name namefrom : str) (ccase : str) (tags : list expr) (body : list expr).   (* ccase: default "aa" *)
Inductive cond :=
| CEqual (caseless : bool) (a b : expr) | CBegins (caseless : bool) (a b : expr) | CEnds (caseless : bool) (a b : expr)
| CContains (caseless : bool) (a b : expr)
| CBeginsList (caseless : bool) (a : expr) (l : str) | CEndsList (caseless : bool) (a : expr) (l : str) | CIn (caseless : bool) (a : expr) (l : str)
| CAnd (l : list cond) | COr (l : list cond) | CNot (c : cond).
Inductive lhs := LVar (id : nat) (n : str) | LClip (id : nat) (sd : side) (part : str) (pos : Z) (queue : bool).
Inductive instr :=
| ILet (l : lhs) (e : expr) | IAppend (n : str) (l : list expr) | IOut (l : list expr) | IModCase (l : lhs) (e : expr)
| ICall (n : str) (args : list Z) | IReject (z : Z)
| IChoose (l : list (option cond * list instr)).       (* None: otherwise *)

(* TransferInstr *)
Inductive tinstr :=
| TiClip (sd : side) (part : str) (pos : Z) (queue : bool)
| TiLink (sd : side) (part : str) (pos : Z) (queue : bool) (link : str)
| TiVar (n : str) | TiLit (v : str) | TiB | TiCaseOf (sd : side) (part : str) (pos : Z) | TiCaseFrom (pos : Z).

Record tword := mkw { w_s : str; w_t : str; w_r : str; w_wb : str; w_q : nat }.
Record rst := mkr {
  r_words : list tword;                       (* the TransferWord objects *)
  r_frame : option (list (option nat));       (* word: array of pointers (or nullptr); its length is lword *)
  r_ll : nat;                                 (* last_lword *)
  r_vars : str -> str; r_vwb : str -> str;    (* variables, var_out_wblank *)
  r_owb : str; r_in_lu : bool; r_in_let : bool; r_in_out : bool; r_vv : str;
  r_bq : list str; r_out : str;
  r_cache : nat -> option tinstr }.

Definition upd (f : str -> str) (n v : str) : str -> str := fun x => if str_eqb x n then v else f x.
Definition with_words st x := mkr x (r_frame st) (r_ll st) (r_vars st) (r_vwb st) (r_owb st) (r_in_lu st) (r_in_let st) (r_in_out st) (r_vv st) (r_bq st) (r_out st) (r_cache st).
Definition with_frame st x := mkr (r_words st) x (r_ll st) (r_vars st) (r_vwb st) (r_owb st) (r_in_lu st) (r_in_let st) (r_in_out st) (r_vv st) (r_bq st) (r_out st) (r_cache st).
Definition with_vars st x := mkr (r_words st) (r_frame st) (r_ll st) x (r_vwb st) (r_owb st) (r_in_lu st) (r_in_let st) (r_in_out st) (r_vv st) (r_bq st) (r_out st) (r_cache st).
Definition with_vwb st x := mkr (r_words st) (r_frame st) (r_ll st) (r_vars st) x (r_owb st) (r_in_lu st) (r_in_let st) (r_in_out st) (r_vv st) (r_bq st) (r_out st) (r_cache st).
Definition with_owb st x := mkr (r_words st) (r_frame st) (r_ll st) (r_vars st) (r_vwb st) x (r_in_lu st) (r_in_let st) (r_in_out st) (r_vv st) (r_bq st) (r_out st) (r_cache st).
Definition with_lu st x := mkr (r_words st) (r_frame st) (r_ll st) (r_vars st) (r_vwb st) (r_owb st) x (r_in_let st) (r_in_out st) (r_vv st) (r_bq st) (r_out st) (r_cache st).
Definition with_let st x := mkr (r_words st) (r_frame st) (r_ll st) (r_vars st) (r_vwb st) (r_owb st) (r_in_lu st) x (r_in_out st) (r_vv st) (r_bq st) (r_out st) (r_cache st).
Definition with_inout st x := mkr (r_words st) (r_frame st) (r_ll st) (r_vars st) (r_vwb st) (r_owb st) (r_in_lu st) (r_in_let st) x (r_vv st) (r_bq st) (r_out st) (r_cache st).
Definition with_vv st x := mkr (r_words st) (r_frame st) (r_ll st) (r_vars st) (r_vwb st) (r_owb st) (r_in_lu st) (r_in_let st) (r_in_out st) x (r_bq st) (r_out st) (r_cache st).
Definition with_bq st x := mkr (r_words st) (r_frame st) (r_ll st) (r_vars st) (r_vwb st) (r_owb st) (r_in_lu st) (r_in_let st) (r_in_out st) (r_vv st) x (r_out st) (r_cache st).
Definition with_out st x := mkr (r_words st) (r_frame st) (r_ll st) (r_vars st) (r_vwb st) (r_owb st) (r_in_lu st) (r_in_let st) (r_in_out st) (r_vv st) (r_bq st) x (r_cache st).
Definition with_cache st x := mkr (r_words st) (r_frame st) (r_ll st) (r_vars st) (r_vwb st) (r_owb st) (r_in_lu st) (r_in_let st) (r_in_out st) (r_vv st) (r_bq st) (r_out st) x.

(** ** strings *)
(* transfer_base.cc:431-446 *)
Fixpoint begins_with (h n : str) : bool :=
  match n, h with [], _ => true | _ :: _, [] => false | b :: n', a :: h' => (a =?c b) && begins_with h' n' end.
(* transfer_base.cc:448-460: compares from the end *)
Definition ends_with (h n : str) : bool := begins_with (rev h) (rev n).
(* UString::find != npos *)
Fixpoint contains (h n : str) : bool := begins_with h n || match h with [] => false | _ :: h' => contains h' n end.
(* transfer_base.cc:140-176.  The loop counting backslashes before "]]" runs below index 0 when there is nothing else (undefined): None *)
Fixpoint odd_bs (l : str) (esc : bool) : option bool :=      (* l: the text before "]]", reversed *)
  match l with [] => None | c :: l' => if c =?c cBS then odd_bs l' (negb esc) else Some esc end.
Definition cut2 (s : str) : str := firstn (length s - 2) s.
Definition combine_wblanks (a b : str) : option str :=
  match a, b with
  | [], _ => Some b
  | _, [] => Some a
  | _, _ =>
      let tail := [cSEMI; cSP] ++ (if begins_with b [cLB; cLB] then skipn 2 b else b) in
      if ends_with a [cRB; cRB] then
        if 2 <? length a then
          match odd_bs (rev (cut2 a)) false with
          | None => None
          | Some true => Some (a ++ tail)
          | Some false => Some (cut2 a ++ tail)
          end
        else Some (cut2 a ++ tail)
      else Some (a ++ tail)
  end.
(* transfer_base.cc:134-138 *)
Definition is_lemma (part : str) : bool := str_eqb part (u "lem") || str_eqb part (u "lemh") || str_eqb part (u "whole").

Section Interp.
Variable attr_match : str -> str -> str.            (* attr_items[part].match(text) *)
Variable attr_replace : str -> str -> str -> str.   (* attr_items[part].replace(text, value) *)
Variable copy_case : str -> str -> str.             (* StringUtils::copycase(src, dest) *)
Variable case_from : str -> str -> str.             (* TransferBase::copycase(src, dest) *)
Variable get_case : str -> str.
Variable lower : str -> str.
Variable lists : str -> list str.                   (* lists; listslow contains the lower-cased values *)
Variable dict_case : bool.                          (* dictionary_case *)
Variable macros : str -> nat.                       (* macros[n]: 0 when there is no such macro *)
Variable macro_map : list (nat * list instr).       (* npar, instructions *)

(** ** words: transfer_word.cc *)
Definition w_text (sd : side) (w : tword) : str := match sd with SL => w_s w | TL => w_t w | REF => w_r w end.
Definition w_set (sd : side) (w : tword) (s : str) : tword :=
  match sd with SL => mkw s (w_t w) (w_r w) (w_wb w) (w_q w) | TL => mkw (w_s w) s (w_r w) (w_wb w) (w_q w) | REF => mkw (w_s w) (w_t w) s (w_wb w) (w_q w) end.
(* s.substr(0, s.size() - queue_length): the subtraction wraps around when the queue is longer *)
Definition no_queue (s : str) (q : nat) : str := if length s <? q then s else firstn (length s - q) s.
(* source, target, reference: 75-114 *)
Definition w_get (sd : side) (w : tword) (part : str) (queue : bool) : str :=
  let s := w_text sd w in attr_match part (if queue then s else no_queue s (w_q w)).
(* setSource, setTarget, setReference: 122-180; substr throws when the queue is longer than the text *)
Definition w_put (sd : side) (w : tword) (part v : str) (queue : bool) : option tword :=
  let s := w_text sd w in
  if queue then Some (w_set sd w (attr_replace part s v))
  else if length s <? w_q w then None
  else Some (w_set sd w (attr_replace part (no_queue s (w_q w)) v ++ skipn (length s - w_q w) s)).

(* checkIndex, transfer.cc:71-91: the word at this position, if any *)
Definition word_at (st : rst) (pos : Z) : option nat :=
  match r_frame st with
  | None => None
  | Some fr => if (pos <? 0)%Z then None else match nth_error fr (Z.to_nat pos) with Some (Some i) => Some i | _ => None end
  end.
(* the object behind a pointer (dangling: undefined) *)
Definition obj (st : rst) (i : nat) : option tword := nth_error (r_words st) i.
Fixpoint set_nth {A} (i : nat) (x : A) (l : list A) : list A :=
  match l, i with [], _ => [] | _ :: l', 0 => x :: l' | a :: l', S i' => a :: set_nth i' x l' end.

(* what compiling a node puts into the cache: processClip 233-280, processBlank, processCaseOf 282-308, transfer_base.cc:218-241 *)
Definition compile (e : expr) : option (nat * tinstr) :=
  match e with
  | XClip id sd part pos q [] => Some (id, TiClip sd part pos q)
  | XClip id sd part pos q link => Some (id, TiLink sd part pos q link)
  | XLit id v => Some (id, TiLit v)
  | XB id => Some (id, TiB)
  | XVar id n => Some (id, TiVar n)
  | XCaseOf id sd part pos => Some (id, TiCaseOf sd part pos)
  | XCaseFrom id pos _ => Some (id, TiCaseFrom pos)
  | _ => None
  end.
Definition cache_add (st : rst) (id : nat) (ti : tinstr) : rst :=
  with_cache st (fun x => if Nat.eqb x id then Some ti else r_cache st x).
(* a node's instruction: from the cache, else compiled and cached; transfer_base.cc:206-241 *)
Definition fetch (st : rst) (id : nat) (ti : tinstr) : tinstr * rst :=
  match r_cache st id with Some t => (t, st) | None => (ti, cache_add st id ti) end.
(* transfer.cc:100-107: a lemma carries the word-bound blank of its word along *)
Definition take_wb (st : rst) (part : str) (wb : str) : option rst :=
  if is_lemma part && (1 <? r_ll st) then
    if r_in_lu st then match combine_wblanks (r_owb st) wb with Some x => Some (with_owb st x) | None => None end
    else if r_in_let st then match combine_wblanks (r_vwb st (r_vv st)) wb with Some x => Some (with_vwb st (upd (r_vwb st) (r_vv st) x)) | None => None end
    else Some st
  else Some st.
(* evalCachedString, transfer.cc:93-231; [sub]: evaluation of the child of get-case-from *)
Definition eval_instr (ti : tinstr) (sub : rst -> option (str * rst)) (st : rst) : option (str * rst) :=
  match ti with
  | TiClip sd part pos q =>
      match word_at st pos with
      | None => Some ([], st)
      | Some i => match obj st i with
                  | None => None
                  | Some w => match (match sd with REF => Some st | _ => take_wb st part (w_wb w) end) with
                              | Some st' => Some (w_get sd w part q, st')
                              | None => None
                              end
                  end
      end
  | TiLink sd part pos q link =>
      match word_at st pos with
      | None => Some ([], st)
      | Some i => match obj st i with
                  | None => None
                  | Some w => Some (match w_get sd w part q with [] => [] | _ => cLT :: link ++ [cGT] end, st)
                  end
      end
  | TiVar n =>
      if 1 <? r_ll st then
        match combine_wblanks (r_owb st) (r_vwb st n) with Some x => Some (r_vars st n, with_owb st x) | None => None end
      else Some (r_vars st n, st)
  | TiLit v => Some (v, st)
  | TiB => match r_bq st with
           | [] => Some ([cSP], st)
           | b :: q => Some (b, if r_in_out st then with_bq st q else st)
           end
  | TiCaseFrom pos =>
      match word_at st pos with
      | None => Some ([], st)
      | Some i => match obj st i with
                  | None => None
                  | Some w => match sub st with Some (d, st') => Some (case_from (w_get SL w (u "lem") true) d, st') | None => None end
                  end
      end
  | TiCaseOf sd part pos =>
      match word_at st pos with
      | None => Some ([], st)
      | Some i => match obj st i with None => None | Some w => Some (get_case (w_get sd w part true), st) end
      end
  end.

(* transfer.cc:315-319, 365-367: with one matched word the blank is that of the first word; [strict]: no test for nullptr (mlu) *)
Definition single_wb (strict : bool) (st : rst) : option rst :=
  if Nat.eqb (r_ll st) 1 then
    match r_frame st with
    | None => if strict then None else Some st
    | Some (Some i :: _) => match obj st i with Some w => Some (with_owb st (w_wb w)) | None => None end
    | Some _ => None
    end
  else Some st.
(* transfer.cc:321-337 *)
Definition lu_text (wb w : str) : str :=
  match w with
  | [] => []
  | _ => if begins_with w [cLB; cLB] then w ++ [cDOL] else wb ++ cCARET :: w ++ [cDOL]
  end.
(* transfer.cc:369-378 *)
Definition mlu_text (wb w : str) : str := match w with [] => [] | _ => wb ++ cCARET :: w ++ [cDOL] end.
(* transfer.cc:349-363: + between the words, except before a queue and before the first non-empty one *)
Definition mlu_add (value : str) (first : bool) (w : str) : str * bool :=
  match w with
  | [] => (value, first)
  | c :: _ => ((if first then value else if c =?c cHASH then value else value ++ [cPLUS]) ++ w, false)
  end.
(* transfer.cc:434-466 *)
Definition chunk_name (st : rst) (name namefrom ccase : str) : option str :=
  match (match name with [] => match namefrom with [] => None | _ => Some (r_vars st namefrom) end | _ => Some name end) with
  | None => None
  | Some n => Some (match ccase with [] => n | _ => if dict_case then n else copy_case (r_vars st ccase) n end)
  end.

(* evalString, transfer_base.cc:201-252, with processLu, processMlu, processChunk, processTags *)
Fixpoint eval (e : expr) (st : rst) {struct e} : option (str * rst) :=
  let evals := fix evals (l : list expr) (st : rst) {struct l} : option (str * rst) :=
    match l with
    | [] => Some ([], st)
    | x :: r => match eval x st with
                | Some (a, st1) => match evals r st1 with Some (b, st2) => Some (a ++ b, st2) | None => None end
                | None => None
                end
    end in
  let mlus := fix mlus (l : list (list expr)) (value : str) (first : bool) (st : rst) {struct l} : option (str * rst) :=
    match l with
    | [] => Some (value, st)
    | x :: r => match evals x st with
                | Some (w, st1) => let '(v, f) := mlu_add value first w in mlus r v f st1
                | None => None
                end
    end in
  match e with
  | XConcat l => evals l st
  | XLu l =>
      match evals l (with_owb (with_lu st true) []) with
      | Some (w, st1) => match single_wb false (with_lu st1 false) with Some st2 => Some (lu_text (r_owb st2) w, st2) | None => None end
      | None => None
      end
  | XMlu l =>
      match mlus l [] true (with_lu (with_owb st []) true) with
      | Some (w, st1) => match single_wb true st1 with Some st2 => Some (mlu_text (r_owb st2) w, st2) | None => None end
      | None => None
      end
  | XChunk name namefrom ccase tags body =>
      match chunk_name st name namefrom ccase with
      | None => None
      | Some n => match evals tags st with
                  | None => None
                  | Some (t, st1) => match evals body st1 with
                                     | None => None
                                     | Some (b, st2) => Some (cCARET :: n ++ t ++ [cLC] ++ b ++ [cRC; cDOL], st2)
                                     end
                  end
      end
  | XCaseFrom id pos x => let '(ti, st1) := fetch st id (TiCaseFrom pos) in eval_instr ti (eval x) st1
  | XClip id sd part pos q link =>
      let '(ti, st1) := fetch st id (match link with [] => TiClip sd part pos q | _ => TiLink sd part pos q link end) in eval_instr ti (fun _ => None) st1
  | XLit id v => let '(ti, st1) := fetch st id (TiLit v) in eval_instr ti (fun _ => None) st1
  | XB id => let '(ti, st1) := fetch st id TiB in eval_instr ti (fun _ => None) st1
  | XVar id n => let '(ti, st1) := fetch st id (TiVar n) in eval_instr ti (fun _ => None) st1
  | XCaseOf id sd part pos => let '(ti, st1) := fetch st id (TiCaseOf sd part pos) in eval_instr ti (fun _ => None) st1
  end.
Fixpoint eval_list (l : list expr) (st : rst) : option (str * rst) :=
  match l with
  | [] => Some ([], st)
  | x :: r => match eval x st with
              | Some (a, st1) => match eval_list r st1 with Some (b, st2) => Some (a ++ b, st2) | None => None end
              | None => None
              end
  end.
Fixpoint eval_mlu (l : list (list expr)) (value : str) (first : bool) (st : rst) : option (str * rst) :=
  match l with
  | [] => Some (value, st)
  | x :: r => match eval_list x st with
              | Some (w, st1) => let '(v, f) := mlu_add value first w in eval_mlu r v f st1
              | None => None
              end
  end.

(** ** conditions: transfer_base.cc:374-555 *)
Definition low (caseless : bool) (s : str) : str := if caseless then lower s else s.
Definition list_of (caseless : bool) (l : str) : list str := if caseless then map lower (lists l) else lists l.
Definition two (a b : expr) (f : str -> str -> bool) (st : rst) : option (bool * rst) :=
  match eval a st with
  | Some (x, st1) => match eval b st1 with Some (y, st2) => Some (f x y, st2) | None => None end
  | None => None
  end.
Definition one (a : expr) (f : str -> bool) (st : rst) : option (bool * rst) :=
  match eval a st with Some (x, st1) => Some (f x, st1) | None => None end.
Fixpoint test (c : cond) (st : rst) {struct c} : option (bool * rst) :=
  let all := fix all (l : list cond) (st : rst) {struct l} : option (bool * rst) :=
    match l with
    | [] => Some (true, st)
    | x :: r => match test x st with Some (true, st1) => all r st1 | o => o end
    end in
  let some := fix some (l : list cond) (st : rst) {struct l} : option (bool * rst) :=
    match l with
    | [] => Some (false, st)
    | x :: r => match test x st with Some (false, st1) => some r st1 | o => o end
    end in
  match c with
  | CEqual cl a b => two a b (fun x y => str_eqb (low cl x) (low cl y)) st
  | CBegins cl a b => two a b (fun x y => begins_with (low cl x) (low cl y)) st
  | CEnds cl a b => two a b (fun x y => ends_with (low cl x) (low cl y)) st
  | CContains cl a b => two a b (fun x y => contains (low cl x) (low cl y)) st
  | CBeginsList cl a l => one a (fun x => existsb (begins_with (low cl x)) (list_of cl l)) st
  | CEndsList cl a l => one a (fun x => existsb (ends_with (low cl x)) (list_of cl l)) st
  | CIn cl a l => one a (fun x => existsb (str_eqb (low cl x)) (list_of cl l)) st
  | CAnd l => all l st
  | COr l => some l st
  | CNot c => match test c st with Some (b, st1) => Some (negb b, st1) | None => None end
  end.

(** ** instructions *)
(* word[pos] used without a check (modify-case, call-macro): undefined outside the array *)
Definition raw_ptr (st : rst) (pos : Z) : option (option nat) :=
  match r_frame st with None => None | Some fr => if (pos <? 0)%Z then None else nth_error fr (Z.to_nat pos) end.
Definition put_word (st : rst) (i : nat) (w : tword) : rst := with_words st (set_nth i w (r_words st)).
(* the assignment proper of let, transfer.cc:519-563 and 568-645 *)
Definition let_var (n : str) (e : expr) (st : rst) : option rst :=
  match eval e (with_vwb (with_vv (with_let st true) n) (upd (r_vwb st) n [])) with
  | Some (v, st1) => Some (with_let (with_vars st1 (upd (r_vars st1) n v)) false)
  | None => None
  end.
Definition let_clip (i : nat) (sd : side) (part : str) (queue : bool) (e : expr) (st : rst) : option rst :=
  match eval e st with
  | Some (v, st1) => match obj st1 i with
                     | Some w => match w_put sd w part v queue with Some w' => Some (put_word st1 i w') | None => None end
                     | None => None
                     end
  | None => None
  end.
(* processLet *)
Definition do_let (l : lhs) (e : expr) (st : rst) : option rst :=
  let id := match l with LVar id _ => id | LClip id _ _ _ _ => id end in
  match r_cache st id with
  | Some (TiVar n) => let_var n e st
  | Some (TiClip sd part pos queue) => match word_at st pos with Some i => let_clip i sd part queue e st | None => Some st end
  | Some _ => Some st
  | None =>
      match l with
      | LVar id n => match let_var n e st with Some st1 => Some (cache_add st1 id (TiVar n)) | None => None end
      | LClip id sd part pos queue =>
          if (Z.of_nat (match r_frame st with Some fr => length fr | None => 0 end) <=? pos)%Z then Some st
          else match raw_ptr st pos with
               | None => None
               | Some None => Some st
               | Some (Some i) => match let_clip i sd part queue e st with Some st1 => Some (cache_add st1 id (TiClip sd part pos queue)) | None => None end
               end
      end
  end.
(* processModifyCase, 647-742: reads with the queue attribute, writes without *)
Definition do_modcase (l : lhs) (e : expr) (st : rst) : option rst :=
  if dict_case then Some st else
  match l with
  | LClip _ sd part pos queue =>
      match eval e st with
      | None => None
      | Some (c, st1) => match raw_ptr st1 pos with
                         | Some (Some i) => match obj st1 i with
                                            | Some w => match w_put sd w part (copy_case c (w_get sd w part queue)) true with
                                                        | Some w' => Some (put_word st1 i w') | None => None end
                                            | None => None
                                            end
                         | _ => None
                         end
      end
  | LVar _ n => match eval e st with Some (c, st1) => Some (with_vars st1 (upd (r_vars st1) n (copy_case c (r_vars st1 n)))) | None => None end
  end.
(* processAppend, transfer_base.cc:362-372 *)
Fixpoint do_append (n : str) (l : list expr) (st : rst) : option rst :=
  match l with
  | [] => Some st
  | x :: r => match eval x (with_vv (with_let st true) n) with
              | Some (v, st1) => do_append n r (with_let (with_vars st1 (upd (r_vars st1) n (r_vars st1 n ++ v))) false)
              | None => None
              end
  end.
(* processOut, transfer.cc:386-410: in both modes every child is evaluated and written *)
Fixpoint out_list (l : list expr) (st : rst) : option rst :=
  match l with
  | [] => Some st
  | x :: r => match eval x st with Some (v, st1) => out_list r (with_out st1 (r_out st1 ++ v)) | None => None end
  end.
Definition do_out (l : list expr) (st : rst) : option rst :=
  match out_list l (with_inout st true) with Some st1 => Some (with_inout st1 false) | None => None end.

Section Instr.
Variable call : str -> list Z -> rst -> option rst.
(* processInstruction, processChoose: transfer_base.cc:275-360; the number is words_to_consume, -1 when the rule goes on *)
Fixpoint run (i : instr) (st : rst) {struct i} : option (Z * rst) :=
  let runs := fix runs (l : list instr) (st : rst) {struct l} : option (Z * rst) :=
    match l with
    | [] => Some ((-1)%Z, st)
    | x :: r => match run x st with
                | Some (z, st1) => if (z =? -1)%Z then runs r st1 else Some (z, st1)
                | None => None
                end
    end in
  let opts := fix opts (l : list (option cond * list instr)) (st : rst) {struct l} : option (Z * rst) :=
    match l with
    | [] => Some ((-1)%Z, st)
    | (Some c, b) :: r => match test c st with
                          | Some (true, st1) => runs b st1
                          | Some (false, st1) => opts r st1
                          | None => None
                          end
    | (None, b) :: r => match runs b st with
                        | Some (z, st1) => if (z =? -1)%Z then opts r st1 else Some (z, st1)
                        | None => None
                        end
    end in
  let go_on := fun o : option rst => match o with Some st1 => Some ((-1)%Z, st1) | None => None end in
  match i with
  | ILet l e => go_on (do_let l e st)
  | IAppend n l => go_on (do_append n l st)
  | IOut l => go_on (do_out l st)
  | IModCase l e => go_on (do_modcase l e st)
  | ICall n args => go_on (call n args st)
  | IReject z => Some (z, st)
  | IChoose l => opts l st
  end.
Fixpoint run_list (l : list instr) (st : rst) : option (Z * rst) :=
  match l with
  | [] => Some ((-1)%Z, st)
  | x :: r => match run x st with
              | Some (z, st1) => if (z =? -1)%Z then run_list r st1 else Some (z, st1)
              | None => None
              end
  end.
Fixpoint run_opts (l : list (option cond * list instr)) (st : rst) : option (Z * rst) :=
  match l with
  | [] => Some ((-1)%Z, st)
  | (Some c, b) :: r => match test c st with
                        | Some (true, st1) => run_list b st1
                        | Some (false, st1) => run_opts r st1
                        | None => None
                        end
  | (None, b) :: r => match run_list b st with
                      | Some (z, st1) => if (z =? -1)%Z then run_opts r st1 else Some (z, st1)
                      | None => None
                      end
  end.
(* the body of a macro: results are ignored *)
Fixpoint run_macro (l : list instr) (st : rst) : option rst :=
  match l with [] => Some st | x :: r => match run x st with Some (_, st1) => run_macro r st1 | None => None end end.
End Instr.
(* the pointers passed to a macro *)
Fixpoint ptrs (st : rst) (args : list Z) : option (list (option nat)) :=
  match args with
  | [] => Some []
  | a :: r => match raw_ptr st a with Some p => match ptrs st r with Some l => Some (p :: l) | None => None end | None => None end
  end.
(* processCallMacro, transfer.cc:744-788 *)
Fixpoint call (fuel : nat) (n : str) (args : list Z) (st : rst) {struct fuel} : option rst :=
  match fuel with
  | 0 => None
  | S f =>
      match nth_error macro_map (macros n) with
      | None => None
      | Some (npar, body) =>
          match npar with
          | 0 => match run_macro (call f) body (with_frame st None) with Some st1 => Some (with_frame st1 (r_frame st)) | None => None end
          | S _ => if npar <? length args then
                     (* an extra argument: return (after reading the first npar pointers) *)
                     match ptrs st (firstn npar args) with Some _ => Some st | None => None end
                   else match ptrs st args with
                        | None => None
                        | Some l => match run_macro (call f) body (with_frame st (Some (l ++ repeat None (npar - length args)))) with
                                    | Some st1 => Some (with_frame st1 (r_frame st)) | None => None end
                        end
          end
      end
  end.
(* processRule, transfer_base.cc:253-273 *)
Definition flush (l : list str) : str := flat_map (fun b => if str_eqb b [cSP] then [] else b) l.
Definition process_rule (fuel : nat) (body : list instr) (st : rst) : option (Z * rst) :=
  match run_list (call fuel) body st with
  | Some (z, st1) => Some (z, with_bq (with_out st1 (r_out st1 ++ flush (r_bq st1))) [])
  | None => None
  end.
(* applyRule, transfer.cc:1262-1368, for words already split into their parts: one object per word, and the blanks between
   the words are queued (the guard on the queue's size lets exactly those in, since the queue is empty between rules) *)
Definition push_blanks (n : nat) (q bl : list str) : list str :=
  fold_left (fun q b => if length q <? n then q ++ [b] else q) bl q.
Definition load (ws : list tword) (bl : list str) (st : rst) : rst :=
  mkr ws (Some (map Some (seq 0 (length ws)))) (length ws) (r_vars st) (r_vwb st) (r_owb st) (r_in_lu st) (r_in_let st) (r_in_out st) (r_vv st)
      (push_blanks (length ws - 1) (r_bq st) (firstn (length ws - 1) bl)) (r_out st) (r_cache st).
Definition apply_rule (fuel : nat) (ws : list tword) (bl : list str) (body : list instr) (st : rst) : option (Z * rst) :=
  match process_rule fuel body (load ws bl st) with
  | Some (z, st1) => Some (z, with_frame (with_words st1 []) None)
  | None => None
  end.
(* the successive applications of rules in a document *)
Fixpoint apply_rules (fuel : nat) (l : list (list tword * list str * list instr)) (st : rst) : option (list Z * rst) :=
  match l with
  | [] => Some ([], st)
  | (ws, bl, body) :: r => match apply_rule fuel ws bl body st with
                           | Some (z, st1) => match apply_rules fuel r st1 with Some (zs, st2) => Some (z :: zs, st2) | None => None end
                           | None => None
                           end
  end.
End Interp.
