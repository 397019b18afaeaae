(** Specification for C61: what a postchunk rule means.
    There are no flags, no cache and no accumulators here: the meaning of an expression depends on the place where it is written
    ([ctx]), on the words, the variables and the blanks; tests have no effect; macros are executed on the words passed to them. *)
From Coq Require Import String ZArith.
From Verif Require Import Model.Base Model.TransferRules Spec.TransferRules Model.Interchunk Model.PostchunkRules.

(** what rules work on: the chunk and its words; those a rule or macro can name (position 0: the chunk itself); how many words the chunk
    has; variables and the word-bound blanks they carry; blanks not yet used; output *)
Record qst := mkq { q_words : list pword; q_frame : list (option nat); q_n : nat; q_vars : str -> str; q_vwb : str -> str; q_bq : list str; q_out : str }.
Definition q_set_vars s x := mkq (q_words s) (q_frame s) (q_n s) x (q_vwb s) (q_bq s) (q_out s).
Definition q_set_vwb s x := mkq (q_words s) (q_frame s) (q_n s) (q_vars s) x (q_bq s) (q_out s).
Definition q_set_bq s x := mkq (q_words s) (q_frame s) (q_n s) (q_vars s) (q_vwb s) x (q_out s).
Definition q_set_out s x := mkq (q_words s) (q_frame s) (q_n s) (q_vars s) (q_vwb s) (q_bq s) x.
Definition q_set_frame s x := mkq (q_words s) x (q_n s) (q_vars s) (q_vwb s) (q_bq s) (q_out s).
Definition q_set_word s i w := mkq (set_nth i w (q_words s)) (q_frame s) (q_n s) (q_vars s) (q_vwb s) (q_bq s) (q_out s).
(** the last position a rule or macro can name *)
Definition last_pos (s : qst) : nat := List.length (q_frame s) - 1.
(** the word at a position (an argument that was not given is undefined) *)
Definition named (s : qst) (pos : Z) : option nat :=
  if (pos <? 0)%Z then None else match nth_error (q_frame s) (Z.to_nat pos) with Some (Some i) => Some i | _ => None end.
Definition outside (s : qst) (pos : Z) : bool := ((pos <? 0) || (Z.of_nat (last_pos s) <? pos))%Z.

Section Spec.
Variable attr_match : str -> str -> str.
Variable attr_replace : str -> str -> str -> str.
Variable copy_case case_from : str -> str -> str.
Variable get_case lower : str -> str.
Variable itoa : nat -> str.
Variable lists : str -> list str.
Variable dict_case : bool.
Variable macros : str -> nat.
Variable macro_map : list (nat * list pinstr).
Notation get := (pw_part attr_match).
Notation put := (pw_put attr_replace).

(** nothing at a position outside the chunk *)
Definition at_pos {A} (s : qst) (pos : Z) (none : A) (f : pword -> option A) : option A :=
  if outside s pos then Some none
  else match named s pos with
       | None => None
       | Some i => match nth_error (q_words s) i with Some w => f w | None => None end
       end.
(** the blank of a lexical unit: the word's own if there is one word, else the merged blanks of what was put into it *)
Definition own_wb (s : qst) (bl : list str) : option str :=
  if Nat.eqb (last_pos s) 1 then match named s 1 with Some i => match nth_error (q_words s) i with Some w => Some (pw_wb w) | None => None end | None => None end
  else Some (merges bl).
(** the words of a <mlu> joined by +; empty ones do not count, and there is no + before a # *)
Definition join (ws : list str) : str :=
  match filter (fun w => match w with [] => false | _ => true end) ws with
  | [] => []
  | w :: r => w ++ flat_map (fun x => match x with c :: _ => if c =?c cHASH then x else cPLUS :: x | [] => [] end) r
  end.
Definition unit_text (wb w : str) : str := match w with [] => [] | _ => wb ++ [cCARET] ++ w ++ [cDOL] end.

(** value of an expression, the word-bound blanks it brings into the lexical unit around it, and the state after *)
Fixpoint pden (c : ctx) (e : pexpr) (s : qst) {struct e} : option (str * list str * qst) :=
  let dens := fix dens (c : ctx) (l : list pexpr) (s : qst) {struct l} : option (str * list str * qst) :=
    match l with
    | [] => Some ([], [], s)
    | x :: r => match pden c x s with
                | Some (a, b1, s1) => match dens c r s1 with Some (b, b2, s2) => Some (a ++ b, b1 ++ b2, s2) | None => None end
                | None => None
                end
    end in
  let parts := fix parts (c : ctx) (l : list (list pexpr)) (s : qst) {struct l} : option (list str * list str * qst) :=
    match l with
    | [] => Some ([], [], s)
    | x :: r => match dens c x s with
                | Some (w, b1, s1) => match parts c r s1 with Some (ws, b2, s2) => Some (w :: ws, b1 ++ b2, s2) | None => None end
                | None => None
                end
    end in
  match e with
  | QClip _ part pos =>
      at_pos s pos ([], [], s) (fun w =>
        let t := get w part in
        if is_lemma part && (1 <? last_pos s) then
          if c_lu c then Some (t, [pw_wb w], s)
          else match c_let c with
               | Some n => Some (t, [], q_set_vwb s (upd (q_vwb s) n (merge (q_vwb s n) (pw_wb w))))
               | None => Some (t, [], s)
               end
        else Some (t, [], s))
  | QLit _ v => Some (v, [], s)
  | QLitTag _ v => Some (lit_tags v, [], s)
  | QB _ => match q_bq s with [] => Some ([cSP], [], s) | b :: q => Some (b, [], if c_out c then q_set_bq s q else s) end
  | QVar _ n => Some (q_vars s n, if 1 <? last_pos s then [q_vwb s n] else [], s)
  | QCount _ => Some (itoa (q_n s), [], s)
  | QCaseOf _ part pos => at_pos s pos ([], [], s) (fun w => Some (get_case (get w part), [], s))
  | QCaseFrom _ pos x =>
      at_pos s pos ([], [], s) (fun w => match pden c x s with Some (d, bl, s1) => Some (case_from (get w (u "lem")) d, bl, s1) | None => None end)
  | QConcat l => dens c l s
  | QLu l => match dens (mkc true (c_let c) (c_out c)) l s with
             | Some (w, bl, s1) => match own_wb s1 bl with Some wb => Some (unit_text wb w, [], s1) | None => None end
             | None => None
             end
  | QMlu l => match parts (mkc true (c_let c) (c_out c)) l s with
              | Some (ws, bl, s1) => match own_wb s1 bl with Some wb => Some (unit_text wb (join ws), [], s1) | None => None end
              | None => None
              end
  | QOther => None
  end.
Fixpoint pden_list (c : ctx) (l : list pexpr) (s : qst) {struct l} : option (str * list str * qst) :=
  match l with
  | [] => Some ([], [], s)
  | x :: r => match pden c x s with
              | Some (a, b1, s1) => match pden_list c r s1 with Some (b, b2, s2) => Some (a ++ b, b1 ++ b2, s2) | None => None end
              | None => None
              end
  end.
(** the value of an expression in a test *)
Definition pvalue (e : pexpr) (s : qst) : option str := match pden plain e s with Some (t, _, _) => Some t | None => None end.

Definition pcmp (f : str -> str -> bool) (a b : pexpr) (s : qst) : option bool :=
  match pvalue a s, pvalue b s with Some x, Some y => Some (f x y) | _, _ => None end.
Definition pcmp_list (f : str -> str -> bool) (cl : bool) (a : pexpr) (l : str) (s : qst) : option bool :=
  match pvalue a s with Some x => Some (existsb (f (low lower cl x)) (list_of lower lists cl l)) | None => None end.
(** whether a test holds; and / or stop at the first condition that decides *)
Fixpoint pholds (t : pcond) (s : qst) {struct t} : option bool :=
  match t with
  | EEqual cl a b => pcmp (fun x y => str_eqb (low lower cl x) (low lower cl y)) a b s
  | EBegins cl a b => pcmp (fun x y => begins_with (low lower cl x) (low lower cl y)) a b s
  | EEnds cl a b => pcmp (fun x y => ends_with (low lower cl x) (low lower cl y)) a b s
  | EContains cl a b => pcmp (fun x y => contains (low lower cl x) (low lower cl y)) a b s
  | EBeginsList cl a l => pcmp_list begins_with cl a l s
  | EEndsList cl a l => pcmp_list ends_with cl a l s
  | EIn cl a l => pcmp_list str_eqb cl a l s
  | EAnd l => fold_right (fun x acc => match x with Some true => acc | o => o end) (Some true) (map (fun c => pholds c s) l)
  | EOr l => fold_right (fun x acc => match x with Some false => acc | o => o end) (Some false) (map (fun c => pholds c s) l)
  | ENot c => match pholds c s with Some b => Some (negb b) | None => None end
  end.

(** what a macro gets *)
Definition gets (s : qst) (a : Z) (i : nat) : Prop := outside s a = false /\ named s a = Some i.
(** [PExec i s z s']: instruction i takes s to s'; z is -1 if the rule goes on, else it rejects itself using up z words *)
Inductive PExec : pinstr -> qst -> Z -> qst -> Prop :=
| px_let_var id n e s t bl s1 :
    pden (in_let n) e (q_set_vwb s (upd (q_vwb s) n [])) = Some (t, bl, s1) ->
    PExec (PLet (NVar id n) e) s (-1) (q_set_vars s1 (upd (q_vars s1) n t))
| px_let_clip id part pos e s i w t : pvalue e s = Some t -> named s pos = Some i -> nth_error (q_words s) i = Some w ->
    PExec (PLet (NClip id part pos) e) s (-1) (q_set_word s i (put w part t))
| px_append n l s s1 : PAppended n l s s1 -> PExec (PAppend n l) s (-1) s1
| px_out l s s1 : PPrinted l s s1 -> PExec (POut l) s (-1) s1
| px_case_dict l e s : dict_case = true -> PExec (PModCase l e) s (-1) s
| px_case_clip id part pos e s i w t : dict_case = false -> pvalue e s = Some t -> named s pos = Some i -> nth_error (q_words s) i = Some w ->
    PExec (PModCase (NClip id part pos) e) s (-1) (q_set_word s i (put w part (copy_case t (get w part))))
| px_case_var id n e s t : dict_case = false -> pvalue e s = Some t ->
    PExec (PModCase (NVar id n) e) s (-1) (q_set_vars s (upd (q_vars s) n (copy_case t (q_vars s n))))
| px_call n args npar body w0 ws ps s s1 : nth_error macro_map (macros n) = Some (npar, body) -> npar <> 0 -> List.length args <= npar ->
    q_frame s = w0 :: ws -> Forall2 (gets s) args ps ->
    PBody body (q_set_frame s (w0 :: map Some ps ++ repeat None (npar - List.length args))) s1 ->
    PExec (PCall n args) s (-1) (q_set_frame s1 (q_frame s))
(** a position outside the chunk: the macro is not executed (if the chunk has a word at all) *)
| px_call_outside n args npar body s i : nth_error macro_map (macros n) = Some (npar, body) -> npar <> 0 -> List.length args <= npar ->
    q_frame s <> [] -> Exists (fun a => outside s a = true) args -> Forall (fun a => outside s a = true \/ exists j, gets s a j) args -> named s 1 = Some i ->
    PExec (PCall n args) s (-1) s
| px_reject z s : PExec (PReject z) s z s
| px_choose l s z s1 : PChoose_ l s z s1 -> PExec (PChoose l) s z s1
with PAppended : str -> list pexpr -> qst -> qst -> Prop :=
| pap_nil n s : PAppended n [] s s
| pap_cons n e l s t bl s1 s2 : pden (in_let n) e s = Some (t, bl, s1) ->
    PAppended n l (q_set_vars s1 (upd (q_vars s1) n (q_vars s1 n ++ t))) s2 -> PAppended n (e :: l) s s2
with PPrinted : list pexpr -> qst -> qst -> Prop :=
| ppr_nil s : PPrinted [] s s
| ppr_cons e l s t bl s1 s2 : pden in_out e s = Some (t, bl, s1) -> PPrinted l (q_set_out s1 (q_out s1 ++ t)) s2 -> PPrinted (e :: l) s s2
(** a sequence of instructions stops when the rule rejects itself *)
with PSeq : list pinstr -> qst -> Z -> qst -> Prop :=
| psq_nil s : PSeq [] s (-1) s
| psq_go i l s s1 z s2 : PExec i s (-1) s1 -> PSeq l s1 z s2 -> PSeq (i :: l) s z s2
| psq_stop i l s z s1 : PExec i s z s1 -> z <> (-1)%Z -> PSeq (i :: l) s z s1
(** the first alternative whose test holds; an <otherwise> is executed when it is reached *)
with PChoose_ : list (option pcond * list pinstr) -> qst -> Z -> qst -> Prop :=
| pch_nil s : PChoose_ [] s (-1) s
| pch_when c b l s z s1 : pholds c s = Some true -> PSeq b s z s1 -> PChoose_ ((Some c, b) :: l) s z s1
| pch_skip c b l s z s1 : pholds c s = Some false -> PChoose_ l s z s1 -> PChoose_ ((Some c, b) :: l) s z s1
| pch_other b l s z s1 : PSeq b s z s1 -> z <> (-1)%Z -> PChoose_ ((None, b) :: l) s z s1
| pch_other_go b l s s1 z s2 : PSeq b s (-1) s1 -> PChoose_ l s1 z s2 -> PChoose_ ((None, b) :: l) s z s2
(** the body of a macro: every instruction; a rejection inside a macro is ignored *)
with PBody : list pinstr -> qst -> qst -> Prop :=
| pbd_nil s : PBody [] s s
| pbd_cons i l s z s1 s2 : PExec i s z s1 -> PBody l s1 s2 -> PBody (i :: l) s s2.


(** a rule: its instructions, then the blanks it has not used (single spaces are dropped) *)
Definition PRule (body : list pinstr) (s : qst) (z : Z) (s' : qst) : Prop :=
  exists s1, PSeq body s z s1 /\ s' = q_set_bq (q_set_out s1 (q_out s1 ++ concat (filter (fun b => negb (str_eqb b [cSP])) (q_bq s1)))) [].
End Spec.

(** ** well-formed files *)
(** the nodes of a file with what they compile to *)
Fixpoint pnodes_e (e : pexpr) : list (nat * qinstr) :=
  match e with
  | QClip id part pos => [(id, QiClip part pos)]
  | QLit id v => [(id, QiLit v)]
  | QLitTag id v => [(id, QiLit (lit_tags v))]
  | QB id => [(id, QiB)]
  | QVar id n => [(id, QiVar n)]
  | QCount id => [(id, QiCount)]
  | QCaseOf id part pos => [(id, QiCaseOf part pos)]
  | QCaseFrom id pos x => (id, QiCaseFrom pos) :: pnodes_e x
  | QConcat l | QLu l => flat_map pnodes_e l
  | QMlu l => flat_map (flat_map pnodes_e) l
  | QOther => []
  end.
Fixpoint pnodes_c (c : pcond) : list (nat * qinstr) :=
  match c with
  | EEqual _ a b | EBegins _ a b | EEnds _ a b | EContains _ a b => pnodes_e a ++ pnodes_e b
  | EBeginsList _ a _ | EEndsList _ a _ | EIn _ a _ => pnodes_e a
  | EAnd l | EOr l => flat_map pnodes_c l
  | ENot c => pnodes_c c
  end.
Definition pnodes_l (l : plhs) : list (nat * qinstr) :=
  match l with NVar id n => [(id, QiVar n)] | NClip id part pos => [(id, QiClip part pos)] end.
Fixpoint pnodes_i (i : pinstr) : list (nat * qinstr) :=
  match i with
  | PLet l e => pnodes_l l ++ pnodes_e e
  | PAppend _ l | POut l => flat_map pnodes_e l
  | PModCase _ e => pnodes_e e
  | PCall _ _ | PReject _ => []
  | PChoose l => flat_map (fun o => match fst o with Some c => pnodes_c c | None => [] end ++ flat_map pnodes_i (snd o)) l
  end.
(** every node has one identity *)
Definition pfunctional (l : list (nat * qinstr)) : Prop := forall id t t', In (id, t) l -> In (id, t') l -> t = t'.

(** no <lu> or <mlu> inside a <lu> or <mlu> *)
Fixpoint psimple_e (in_lu : bool) (e : pexpr) : bool :=
  match e with
  | QConcat l => forallb (psimple_e in_lu) l
  | QLu l => negb in_lu && forallb (psimple_e true) l
  | QMlu l => negb in_lu && forallb (forallb (psimple_e true)) l
  | QCaseFrom _ _ x => psimple_e in_lu x
  | _ => true
  end.
Fixpoint psimple_c (c : pcond) : bool :=
  match c with
  | EEqual _ a b | EBegins _ a b | EEnds _ a b | EContains _ a b => psimple_e false a && psimple_e false b
  | EBeginsList _ a _ | EEndsList _ a _ | EIn _ a _ => psimple_e false a
  | EAnd l | EOr l => forallb psimple_c l
  | ENot c => psimple_c c
  end.
Fixpoint psimple_i (i : pinstr) : bool :=
  match i with
  | PLet l e => psimple_e false e
  | PAppend _ l | POut l => forallb (psimple_e false) l
  | PModCase _ e => psimple_e false e
  | PCall _ _ | PReject _ => true
  | PChoose l => forallb (fun o => match fst o with Some c => psimple_c c | None => true end && forallb psimple_i (snd o)) l
  end.
