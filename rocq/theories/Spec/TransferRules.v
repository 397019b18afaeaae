(** Specification for C29, C45: what a transfer rule means.
    There is no cache and no accumulator here: the meaning of an expression depends on the place where it is written
    ([ctx]), on the words, the variables and the blanks - and, after an <mlu>, on one flag that the program forgets to reset ([s_unit]); tests have no effect; macros are executed on the words passed to them. *)
From Coq Require Import String ZArith.
From Verif Require Import Model.Base Model.TransferRules.

(** what rules work on *)
Record sst := mkst {
  s_words : list tword; s_frame : option (list (option nat)); s_ll : nat;     (* words; those a rule or macro can name; words matched *)
  s_vars : str -> str; s_vwb : str -> str;                                    (* variables, and the word-bound blanks they carry *)
  s_bq : list str; s_out : str;                                               (* blanks not yet used, output *)
  (** whether the blanks of words go to a unit: in a unit, and (a defect) from an <mlu> up to the end of the next <lu> *)
  s_unit : bool }.
(** where an expression is written: in a lexical unit, in the value of a variable, in an <out> *)
Record ctx := mkc { c_lu : bool; c_let : option str; c_out : bool }.
Definition plain : ctx := mkc false None false.

Definition merge (a b : str) : str := match combine_wblanks a b with Some x => x | None => a end.
Definition merges (l : list str) : str := fold_left merge l [].
Definition s_word_at (s : sst) (pos : Z) : option nat :=
  match s_frame s with
  | None => None
  | Some fr => if (pos <? 0)%Z then None else match nth_error fr (Z.to_nat pos) with Some (Some i) => Some i | _ => None end
  end.
Definition s_set_vars s x := mkst (s_words s) (s_frame s) (s_ll s) x (s_vwb s) (s_bq s) (s_out s) (s_unit s).
Definition s_set_vwb s x := mkst (s_words s) (s_frame s) (s_ll s) (s_vars s) x (s_bq s) (s_out s) (s_unit s).
Definition s_set_bq s x := mkst (s_words s) (s_frame s) (s_ll s) (s_vars s) (s_vwb s) x (s_out s) (s_unit s).
Definition s_set_out s x := mkst (s_words s) (s_frame s) (s_ll s) (s_vars s) (s_vwb s) (s_bq s) x (s_unit s).
Definition s_set_unit s x := mkst (s_words s) (s_frame s) (s_ll s) (s_vars s) (s_vwb s) (s_bq s) (s_out s) x.
Definition s_set_frame s x := mkst (s_words s) x (s_ll s) (s_vars s) (s_vwb s) (s_bq s) (s_out s) (s_unit s).
Definition s_set_word s i w := mkst (set_nth i w (s_words s)) (s_frame s) (s_ll s) (s_vars s) (s_vwb s) (s_bq s) (s_out s) (s_unit s).

Section Spec.
Variable attr_match : str -> str -> str.
Variable attr_replace : str -> str -> str -> str.
Variable copy_case case_from : str -> str -> str.
Variable get_case lower : str -> str.
Variable lists : str -> list str.
Variable dict_case : bool.
Variable macros : str -> nat.
Variable macro_map : list (nat * list instr).
Notation get := (w_get attr_match).
Notation put := (w_put attr_replace).

(** the word at a position: [None] there is none, [Some None] undefined *)
Definition at_word {A} (s : sst) (pos : Z) (none : A) (f : tword -> option A) : option A :=
  match s_word_at s pos with
  | None => Some none
  | Some i => match nth_error (s_words s) i with Some w => f w | None => None end
  end.
(** the blank of a lexical unit: the word's own if one word was matched, else the merged blanks of what was put into it *)
Definition unit_wb (s : sst) (bl : list str) : option str :=
  if Nat.eqb (s_ll s) 1 then
    match s_frame s with
    | None => Some (merges bl)
    | Some (Some i :: _) => match nth_error (s_words s) i with Some w => Some (w_wb w) | None => None end
    | Some _ => None
    end
  else Some (merges bl).
Definition strict_wb (s : sst) (bl : list str) : option str :=        (* the same, in <mlu>: undefined without words *)
  match s_frame s with None => if Nat.eqb (s_ll s) 1 then None else Some (merges bl) | Some _ => unit_wb s bl end.
Definition name_of (s : sst) (name namefrom ccase : str) : option str :=
  match name, namefrom with
  | [], [] => None
  | [], _ => Some (match ccase with [] => s_vars s namefrom | _ => if dict_case then s_vars s namefrom else copy_case (s_vars s ccase) (s_vars s namefrom) end)
  | _, _ => Some (match ccase with [] => name | _ => if dict_case then name else copy_case (s_vars s ccase) name end)
  end.

(** value of an expression, the word-bound blanks it brings into the lexical unit around it, and the state after *)
Fixpoint den (c : ctx) (e : expr) (s : sst) {struct e} : option (str * list str * sst) :=
  let dens := fix dens (c : ctx) (l : list expr) (s : sst) {struct l} : option (str * list str * sst) :=
    match l with
    | [] => Some ([], [], s)
    | x :: r => match den c x s with
                | Some (a, b1, s1) => match dens c r s1 with Some (b, b2, s2) => Some (a ++ b, b1 ++ b2, s2) | None => None end
                | None => None
                end
    end in
  let mlus := fix mlus (c : ctx) (l : list (list expr)) (value : str) (first : bool) (s : sst) {struct l} : option (str * list str * sst) :=
    match l with
    | [] => Some (value, [], s)
    | x :: r => match dens c x s with
                | Some (w, b1, s1) => let '(v, f) := mlu_add value first w in
                                      match mlus c r v f s1 with Some (t, b2, s2) => Some (t, b1 ++ b2, s2) | None => None end
                | None => None
                end
    end in
  match e with
  | XClip _ sd part pos q [] =>
      at_word s pos ([], [], s) (fun w =>
        let t := get sd w part q in
        match sd with
        | REF => Some (t, [], s)
        | _ => if is_lemma part && (1 <? s_ll s) then
                 if s_unit s then Some (t, [w_wb w], s)
                 else match c_let c with
                      | Some n => Some (t, [], s_set_vwb s (upd (s_vwb s) n (merge (s_vwb s n) (w_wb w))))
                      | None => Some (t, [], s)
                      end
               else Some (t, [], s)
        end)
  | XClip _ sd part pos q link =>
      at_word s pos ([], [], s) (fun w => Some (match get sd w part q with [] => [] | _ => cLT :: link ++ [cGT] end, [], s))
  | XLit _ v => Some (v, [], s)
  | XB _ => match s_bq s with [] => Some ([cSP], [], s) | b :: q => Some (b, [], if c_out c then s_set_bq s q else s) end
  | XVar _ n => Some (s_vars s n, if 1 <? s_ll s then [s_vwb s n] else [], s)
  | XCaseOf _ sd part pos => at_word s pos ([], [], s) (fun w => Some (get_case (get sd w part true), [], s))
  | XCaseFrom _ pos x =>
      at_word s pos ([], [], s) (fun w => match den c x s with Some (d, bl, s1) => Some (case_from (get SL w (u "lem") true) d, bl, s1) | None => None end)
  | XConcat l => dens c l s
  | XLu l => match dens (mkc true (c_let c) (c_out c)) l (s_set_unit s true) with
             | Some (w, bl, s1) => match unit_wb s1 bl with Some wb => Some (lu_text wb w, [], s_set_unit s1 false) | None => None end
             | None => None
             end
  | XMlu l => match mlus (mkc true (c_let c) (c_out c)) l [] true (s_set_unit s true) with
              | Some (w, bl, s1) => match strict_wb s1 bl with Some wb => Some (mlu_text wb w, [], s1) | None => None end
              | None => None
              end
  | XChunk name namefrom ccase tags body =>
      match name_of s name namefrom ccase with
      | None => None
      | Some n => match dens c tags s with
                  | Some (t, b1, s1) => match dens c body s1 with
                                        | Some (b, b2, s2) => Some (cCARET :: n ++ t ++ [cLC] ++ b ++ [cRC; cDOL], b1 ++ b2, s2)
                                        | None => None end
                  | None => None
                  end
      end
  end.
Fixpoint den_list (c : ctx) (l : list expr) (s : sst) {struct l} : option (str * list str * sst) :=
  match l with
  | [] => Some ([], [], s)
  | x :: r => match den c x s with
              | Some (a, b1, s1) => match den_list c r s1 with Some (b, b2, s2) => Some (a ++ b, b1 ++ b2, s2) | None => None end
              | None => None
              end
  end.
(** the value of an expression in a test *)
Definition value (e : expr) (s : sst) : option str := match den plain e s with Some (t, _, _) => Some t | None => None end.

Definition cmp (f : str -> str -> bool) (a b : expr) (s : sst) : option bool :=
  match value a s, value b s with Some x, Some y => Some (f x y) | _, _ => None end.
Definition cmp_list (f : str -> str -> bool) (cl : bool) (a : expr) (l : str) (s : sst) : option bool :=
  match value a s with Some x => Some (existsb (f (low lower cl x)) (list_of lower lists cl l)) | None => None end.
(** whether a test holds; and / or stop at the first condition that decides *)
Fixpoint holds (t : cond) (s : sst) {struct t} : option bool :=
  match t with
  | CEqual cl a b => cmp (fun x y => str_eqb (low lower cl x) (low lower cl y)) a b s
  | CBegins cl a b => cmp (fun x y => begins_with (low lower cl x) (low lower cl y)) a b s
  | CEnds cl a b => cmp (fun x y => ends_with (low lower cl x) (low lower cl y)) a b s
  | CContains cl a b => cmp (fun x y => contains (low lower cl x) (low lower cl y)) a b s
  | CBeginsList cl a l => cmp_list begins_with cl a l s
  | CEndsList cl a l => cmp_list ends_with cl a l s
  | CIn cl a l => cmp_list str_eqb cl a l s
  | CAnd l => fold_right (fun x acc => match x with Some true => acc | o => o end) (Some true) (map (fun c => holds c s) l)
  | COr l => fold_right (fun x acc => match x with Some false => acc | o => o end) (Some false) (map (fun c => holds c s) l)
  | CNot c => match holds c s with Some b => Some (negb b) | None => None end
  end.

(** the words given to a macro *)
Definition arg (s : sst) (a : Z) (p : option nat) : Prop :=
  exists fr, s_frame s = Some fr /\ (0 <= a)%Z /\ nth_error fr (Z.to_nat a) = Some p.
Definition in_let (n : str) : ctx := mkc false (Some n) false.
Definition in_out : ctx := mkc false None true.
(** [Exec i s z s']: instruction i takes s to s'; z is -1 if the rule goes on, else it rejects itself using up z words *)
Inductive Exec : instr -> sst -> Z -> sst -> Prop :=
| ex_let_var id n e s t bl s1 :
    den (in_let n) e (s_set_vwb s (upd (s_vwb s) n [])) = Some (t, bl, s1) ->
    Exec (ILet (LVar id n) e) s (-1) (s_set_vars s1 (upd (s_vars s1) n t))
| ex_let_clip id sd part pos q e s i w t w' : s_word_at s pos = Some i ->
    value e s = Some t -> nth_error (s_words s) i = Some w -> put sd w part t q = Some w' ->
    Exec (ILet (LClip id sd part pos q) e) s (-1) (s_set_word s i w')
| ex_let_nowhere id sd part pos q e s : s_word_at s pos = None -> Exec (ILet (LClip id sd part pos q) e) s (-1) s
| ex_append n l s s1 : Appended n l s s1 -> Exec (IAppend n l) s (-1) s1
| ex_out l s s1 : Printed l s s1 -> Exec (IOut l) s (-1) s1
| ex_case_dict l e s : dict_case = true -> Exec (IModCase l e) s (-1) s
| ex_case_clip id sd part pos q e s i w t w' : dict_case = false -> value e s = Some t -> s_word_at s pos = Some i ->
    nth_error (s_words s) i = Some w -> put sd w part (copy_case t (get sd w part q)) true = Some w' ->
    Exec (IModCase (LClip id sd part pos q) e) s (-1) (s_set_word s i w')
| ex_case_var id n e s t : dict_case = false -> value e s = Some t ->
    Exec (IModCase (LVar id n) e) s (-1) (s_set_vars s (upd (s_vars s) n (copy_case t (s_vars s n))))
| ex_call n args npar body ps s s1 : nth_error macro_map (macros n) = Some (npar, body) -> npar <> 0 -> length args <= npar ->
    Forall2 (arg s) args ps -> Body body (s_set_frame s (Some (ps ++ repeat None (npar - length args)))) s1 ->
    Exec (ICall n args) s (-1) (s_set_frame s1 (s_frame s))
| ex_call0 n args body s s1 : nth_error macro_map (macros n) = Some (0, body) -> Body body (s_set_frame s None) s1 ->
    Exec (ICall n args) s (-1) (s_set_frame s1 (s_frame s))
| ex_call_extra n args npar body ps s : nth_error macro_map (macros n) = Some (npar, body) -> npar <> 0 -> npar < length args ->
    Forall2 (arg s) (firstn npar args) ps -> Exec (ICall n args) s (-1) s          (* too many arguments: not executed *)
| ex_reject z s : Exec (IReject z) s z s
| ex_choose l s z s1 : Choose l s z s1 -> Exec (IChoose l) s z s1
with Appended : str -> list expr -> sst -> sst -> Prop :=
| ap_nil n s : Appended n [] s s
| ap_cons n e l s t bl s1 s2 : den (in_let n) e s = Some (t, bl, s1) ->
    Appended n l (s_set_vars s1 (upd (s_vars s1) n (s_vars s1 n ++ t))) s2 -> Appended n (e :: l) s s2
with Printed : list expr -> sst -> sst -> Prop :=
| pr_nil s : Printed [] s s
| pr_cons e l s t bl s1 s2 : den in_out e s = Some (t, bl, s1) -> Printed l (s_set_out s1 (s_out s1 ++ t)) s2 -> Printed (e :: l) s s2
(** a sequence of instructions stops when the rule rejects itself *)
with Seq : list instr -> sst -> Z -> sst -> Prop :=
| sq_nil s : Seq [] s (-1) s
| sq_go i l s s1 z s2 : Exec i s (-1) s1 -> Seq l s1 z s2 -> Seq (i :: l) s z s2
| sq_stop i l s z s1 : Exec i s z s1 -> z <> (-1)%Z -> Seq (i :: l) s z s1
(** the first alternative whose test holds; an <otherwise> is executed when it is reached *)
with Choose : list (option cond * list instr) -> sst -> Z -> sst -> Prop :=
| ch_nil s : Choose [] s (-1) s
| ch_when c b l s z s1 : holds c s = Some true -> Seq b s z s1 -> Choose ((Some c, b) :: l) s z s1
| ch_skip c b l s z s1 : holds c s = Some false -> Choose l s z s1 -> Choose ((Some c, b) :: l) s z s1
| ch_other b l s z s1 : Seq b s z s1 -> z <> (-1)%Z -> Choose ((None, b) :: l) s z s1
| ch_other_go b l s s1 z s2 : Seq b s (-1) s1 -> Choose l s1 z s2 -> Choose ((None, b) :: l) s z s2
(** the body of a macro: every instruction; a rejection inside a macro is ignored *)
with Body : list instr -> sst -> sst -> Prop :=
| bd_nil s : Body [] s s
| bd_cons i l s z s1 s2 : Exec i s z s1 -> Body l s1 s2 -> Body (i :: l) s s2.

(** a rule: its instructions, then the blanks it has not used (single spaces are dropped) *)
Definition Rule (body : list instr) (s : sst) (z : Z) (s' : sst) : Prop :=
  exists s1, Seq body s z s1 /\ s' = s_set_bq (s_set_out s1 (s_out s1 ++ concat (filter (fun b => negb (str_eqb b [cSP])) (s_bq s1)))) [].
(** a rule applied to words with the blanks between them; afterwards there are no words any more *)
Definition s_load (ws : list tword) (bl : list str) (s : sst) : sst :=
  mkst ws (Some (map Some (seq 0 (length ws)))) (length ws) (s_vars s) (s_vwb s) bl (s_out s) (s_unit s).
Definition s_unload (s : sst) : sst := mkst [] None (s_ll s) (s_vars s) (s_vwb s) (s_bq s) (s_out s) (s_unit s).
Inductive Rules : list (list tword * list str * list instr) -> sst -> list Z -> sst -> Prop :=
| rs_nil s : Rules [] s [] s
| rs_cons ws bl body l s z s1 zs s2 : Rule body (s_load ws bl s) z s1 -> Rules l (s_unload s1) zs s2 ->
    Rules ((ws, bl, body) :: l) s (z :: zs) s2.
End Spec.

(** ** well-formed files *)
(** the nodes of a file with what they compile to *)
Fixpoint nodes_e (e : expr) : list (nat * tinstr) :=
  match e with
  | XConcat l | XLu l => flat_map nodes_e l
  | XMlu l => flat_map (flat_map nodes_e) l
  | XChunk _ _ _ t b => flat_map nodes_e t ++ flat_map nodes_e b
  | XCaseFrom id pos x => (id, TiCaseFrom pos) :: nodes_e x
  | _ => match compile e with Some p => [p] | None => [] end
  end.
Fixpoint nodes_c (c : cond) : list (nat * tinstr) :=
  match c with
  | CEqual _ a b | CBegins _ a b | CEnds _ a b | CContains _ a b => nodes_e a ++ nodes_e b
  | CBeginsList _ a _ | CEndsList _ a _ | CIn _ a _ => nodes_e a
  | CAnd l | COr l => flat_map nodes_c l
  | CNot c => nodes_c c
  end.
Definition nodes_l (l : lhs) : list (nat * tinstr) :=
  match l with LVar id n => [(id, TiVar n)] | LClip id sd part pos q => [(id, TiClip sd part pos q)] end.
Fixpoint nodes_i (i : instr) : list (nat * tinstr) :=
  match i with
  | ILet l e => nodes_l l ++ nodes_e e
  | IAppend _ l | IOut l => flat_map nodes_e l
  | IModCase _ e => nodes_e e
  | ICall _ _ | IReject _ => []
  | IChoose l => flat_map (fun o => match fst o with Some c => nodes_c c | None => [] end ++ flat_map nodes_i (snd o)) l
  end.
Definition functional (l : list (nat * tinstr)) : Prop := forall id t t', In (id, t) l -> In (id, t') l -> t = t'.

(** no unit inside a unit *)
Fixpoint simple_e (in_lu : bool) (e : expr) : bool :=
  match e with
  | XConcat l => forallb (simple_e in_lu) l
  | XLu l => negb in_lu && forallb (simple_e true) l
  | XMlu l => negb in_lu && forallb (forallb (simple_e true)) l
  | XChunk _ _ _ t b => forallb (simple_e in_lu) t && forallb (simple_e in_lu) b
  | XCaseFrom _ _ x => simple_e in_lu x
  | _ => true
  end.
(** ... and none in a test *)
Fixpoint simple_c (c : cond) : bool :=
  match c with
  | CEqual _ a b | CBegins _ a b | CEnds _ a b | CContains _ a b => simple_e true a && simple_e true b
  | CBeginsList _ a _ | CEndsList _ a _ | CIn _ a _ => simple_e true a
  | CAnd l | COr l => forallb simple_c l
  | CNot c => simple_c c
  end.
(** ... and none in the value given to a part of a word, or to its case; no <let> on a position below 1 *)
Fixpoint simple_i (i : instr) : bool :=
  match i with
  | ILet l e => match l with LClip _ _ _ pos _ => (0 <=? pos)%Z && simple_e true e | LVar _ _ => simple_e false e end
  | IAppend _ l | IOut l => forallb (simple_e false) l
  | IModCase _ e => simple_e true e
  | ICall _ _ | IReject _ => true
  | IChoose l => forallb (fun o => match fst o with Some c => simple_c c | None => true end && forallb simple_i (snd o)) l
  end.
(** the file has no <mlu> *)
Fixpoint no_mlu_e (e : expr) : bool :=
  match e with
  | XConcat l | XLu l => forallb no_mlu_e l
  | XMlu _ => false
  | XChunk _ _ _ t b => forallb no_mlu_e t && forallb no_mlu_e b
  | XCaseFrom _ _ x => no_mlu_e x
  | _ => true
  end.
Fixpoint no_mlu_i (i : instr) : bool :=
  match i with
  | ILet _ e => no_mlu_e e
  | IAppend _ l | IOut l => forallb no_mlu_e l
  | IModCase _ _ | ICall _ _ | IReject _ => true
  | IChoose l => forallb (fun o => forallb no_mlu_i (snd o)) l
  end.
