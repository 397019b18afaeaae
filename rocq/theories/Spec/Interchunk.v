(** C60: what apertium-interchunk's rules mean, and the texts it reads.  No cache, no flags: an expression has a value, tests have no
    effect, macros are executed on the chunks passed to them. *)
From Coq Require Import String ZArith.
From Verif Require Import Model.Base Model.TransferRules Model.Interchunk Spec.TransferUnit Spec.ChunkTokens.

(** ** chunks: ^head{content}$ or ^head$ *)
Record chunk := mkch { c_head : reading; c_content : option str }.       (* the content with its closing brace *)
Definition head_item_ok (i : ritem) : Prop :=
  match i with
  | RChar c => ~ In c [cBS; cLB; cRB; cLC; cLT; cDOL; cCARET; cNUL]
  | REsc c => True
  | RTag t => Forall (fun c => ~ In c [cBS; cLB; cRB; cLC; cLT; cGT; cDOL; cCARET; cNUL]) t
  end.
Definition chunk_ok (x : chunk) : Prop := Forall head_item_ok (c_head x) /\ match c_content x with Some i => Inner i | None => True end.
Definition content_str (x : chunk) : str := match c_content x with Some i => cLC :: i | None => [] end.
Definition chunk_str (x : chunk) : str := reading_str (c_head x) ++ content_str x.
(** blank, chunk, blank, chunk, ..., final text *)
Fixpoint chunks_text (l : list (str * chunk)) (final : str) : str :=
  match l with [] => final | (b, x) :: r => b ++ cCARET :: chunk_str x ++ cDOL :: chunks_text r final end.
(** the chunk as rules see it *)
Definition as_word (x : chunk) : iword := mkiw (reading_str (c_head x)) (content_str x).

(** ** what rules work on *)
Record cst := mkcst {
  k_words : list iword; k_args : list nat;         (* chunks; those a rule or macro can name *)
  k_vars : str -> str; k_bq : list str; k_out : str }.      (* variables, blanks not yet used, output *)
Definition k_at (s : cst) (pos : Z) : option iword :=
  if (pos <? 0)%Z then None else match nth_error (k_args s) (Z.to_nat pos) with Some i => nth_error (k_words s) i | None => None end.
Definition k_set_vars s x := mkcst (k_words s) (k_args s) x (k_bq s) (k_out s).
Definition k_set_bq s x := mkcst (k_words s) (k_args s) (k_vars s) x (k_out s).
Definition k_set_out s x := mkcst (k_words s) (k_args s) (k_vars s) (k_bq s) x.
Definition k_set_args s x := mkcst (k_words s) x (k_vars s) (k_bq s) (k_out s).
Definition k_set_word s i w := mkcst (set_nth i w (k_words s)) (k_args s) (k_vars s) (k_bq s) (k_out s).

Section Spec.
Variable attr_match : str -> str -> str.
Variable attr_replace : str -> str -> str -> str.
Variable copy_case case_from : str -> str -> str.
Variable get_case lower : str -> str.
Variable lists : str -> list str.
Variable dict_case : bool.
Variable macros : str -> nat.
Variable macro_map : list (nat * list iinstr).
Notation get := (chunk_part attr_match).
Notation set := (set_part attr_replace).

(** value of an expression and the blanks left after it; only in <out> ([pop]) a blank is used up.  [None]: no value, the program aborts *)
Fixpoint den (pop : bool) (e : iexpr) (s : cst) {struct e} : option (str * list str) :=
  let dens := fix dens (l : list iexpr) (s : cst) {struct l} : option (str * list str) :=
    match l with
    | [] => Some ([], k_bq s)
    | x :: r => match den pop x s with
                | Some (a, q) => match dens r (k_set_bq s q) with Some (b, q2) => Some (a ++ b, q2) | None => None end
                | None => None
                end
    end in
  match e with
  | JClip _ part pos => match k_at s pos with
                        | None => Some ([], k_bq s)
                        | Some w => if str_eqb part (u "content")
                                    then match trim_braces (get w part) with Some v => Some (v, k_bq s) | None => None end
                                    else Some (get w part, k_bq s)
                        end
  | JLit _ v => Some (v, k_bq s)
  | JLitTag _ v => Some (lit_tags v, k_bq s)
  | JB _ => match k_bq s with [] => Some ([cSP], []) | b :: q => Some (b, if pop then q else k_bq s) end
  | JVar _ n => Some (k_vars s n, k_bq s)
  | JCaseOf _ part pos => match k_at s pos with None => Some ([], k_bq s) | Some w => Some (get_case (get w part), k_bq s) end
  | JCaseFrom _ pos x => match k_at s pos with
                         | None => Some ([], k_bq s)
                         | Some w => match den pop x s with Some (d, q) => Some (case_from (get w (u "lem")) d, q) | None => None end
                         end
  | JConcat l => dens l s
  | JChunk l => match dens l s with Some (v, q) => Some (cCARET :: v ++ [cDOL], q) | None => None end
  | JOther => None
  end.
Fixpoint den_list (pop : bool) (l : list iexpr) (s : cst) {struct l} : option (str * list str) :=
  match l with
  | [] => Some ([], k_bq s)
  | x :: r => match den pop x s with
              | Some (a, q) => match den_list pop r (k_set_bq s q) with Some (b, q2) => Some (a ++ b, q2) | None => None end
              | None => None
              end
  end.
Definition value (e : iexpr) (s : cst) : option str := match den false e s with Some (v, _) => Some v | None => None end.
Definition cmp (f : str -> str -> bool) (a b : iexpr) (s : cst) : option bool :=
  match value a s, value b s with Some x, Some y => Some (f x y) | _, _ => None end.
Definition cmp_list (f : str -> str -> bool) (cl : bool) (a : iexpr) (l : str) (s : cst) : option bool :=
  match value a s with Some x => Some (existsb (f (low lower cl x)) (list_of lower lists cl l)) | None => None end.
Fixpoint holds (t : icond) (s : cst) {struct t} : option bool :=
  match t with
  | DEqual cl a b => cmp (fun x y => str_eqb (low lower cl x) (low lower cl y)) a b s
  | DBegins cl a b => cmp (fun x y => begins_with (low lower cl x) (low lower cl y)) a b s
  | DEnds cl a b => cmp (fun x y => ends_with (low lower cl x) (low lower cl y)) a b s
  | DContains cl a b => cmp (fun x y => contains (low lower cl x) (low lower cl y)) a b s
  | DBeginsList cl a l => cmp_list begins_with cl a l s
  | DEndsList cl a l => cmp_list ends_with cl a l s
  | DIn cl a l => cmp_list str_eqb cl a l s
  | DAnd l => fold_right (fun x acc => match x with Some true => acc | o => o end) (Some true) (map (fun c => holds c s) l)
  | DOr l => fold_right (fun x acc => match x with Some false => acc | o => o end) (Some false) (map (fun c => holds c s) l)
  | DNot c => match holds c s with Some b => Some (negb b) | None => None end
  end.

(** [Exec i s s']: instruction i takes s to s' *)
Inductive Exec : iinstr -> cst -> cst -> Prop :=
| xe_let_var id n e s v : value e s = Some v -> Exec (KLet (MVar id n) e) s (k_set_vars s (upd (k_vars s) n v))
| xe_let_clip id part pos e s v i w : value e s = Some v -> (0 <= pos)%Z -> nth_error (k_args s) (Z.to_nat pos) = Some i -> nth_error (k_words s) i = Some w ->
    Exec (KLet (MClip id part pos) e) s (k_set_word s i (set w part v))
| xe_append n l s s1 : Appended n l s s1 -> Exec (KAppend n l) s s1
| xe_out l s s1 : Printed l s s1 -> Exec (KOut l) s s1
| xe_case_dict l e s : dict_case = true -> Exec (KModCase l e) s s
| xe_case_var id n e s c : dict_case = false -> value e s = Some c -> Exec (KModCase (MVar id n) e) s (k_set_vars s (upd (k_vars s) n (copy_case c (k_vars s n))))
| xe_case_clip id part pos e s c i w : dict_case = false -> value e s = Some c -> (0 <= pos)%Z -> nth_error (k_args s) (Z.to_nat pos) = Some i -> nth_error (k_words s) i = Some w ->
    Exec (KModCase (MClip id part pos) e) s (k_set_word s i (set w part (copy_case c (get w part))))
| xe_call n args npar body ps s s1 : nth_error macro_map (macros n) = Some (npar, body) ->
    Forall2 (fun a p => (0 <= a)%Z /\ nth_error (k_args s) (Z.to_nat a) = Some p) args ps -> List.length args = npar ->
    Seq body (k_set_args s ps) s1 -> Exec (KCall n args) s (k_set_args s1 (k_args s))
| xe_choose l s s1 : Choose l s s1 -> Exec (KChoose l) s s1
with Appended : str -> list iexpr -> cst -> cst -> Prop :=
| ap_nil n s : Appended n [] s s
| ap_cons n e l s v s2 : value e s = Some v -> Appended n l (k_set_vars s (upd (k_vars s) n (k_vars s n ++ v))) s2 -> Appended n (e :: l) s s2
with Printed : list iexpr -> cst -> cst -> Prop :=
| pr_nil s : Printed [] s s
| pr_cons e l s v q s2 : den true e s = Some (v, q) -> Printed l (k_set_out (k_set_bq s q) (k_out s ++ v)) s2 -> Printed (e :: l) s s2
with Seq : list iinstr -> cst -> cst -> Prop :=
| sq_nil s : Seq [] s s
| sq_cons i l s s1 s2 : Exec i s s1 -> Seq l s1 s2 -> Seq (i :: l) s s2
(** the first alternative whose test holds; an <otherwise> is executed when it is reached *)
with Choose : list (option icond * list iinstr) -> cst -> cst -> Prop :=
| cs_nil s : Choose [] s s
| cs_when c b l s s1 : holds c s = Some true -> Seq b s s1 -> Choose ((Some c, b) :: l) s s1
| cs_skip c b l s s1 : holds c s = Some false -> Choose l s s1 -> Choose ((Some c, b) :: l) s s1
| cs_other b l s s1 s2 : Seq b s s1 -> Choose l s1 s2 -> Choose ((None, b) :: l) s s2.

(** rule n on these chunks, with the blanks between them: its output, the blanks it has not printed, the variables afterwards *)
Definition rule_means (bodies : list (list iinstr)) (n : nat) (vars : str -> str) (us : list chunk) (bs : list str) (o : str) (left : list str) (vars' : str -> str) : Prop :=
  exists body s, nth_error bodies (n - 1) = Some body /\
    Seq body (mkcst (map as_word us) (seq 0 (List.length us)) vars bs []) s /\ o = k_out s /\ left = k_bq s /\ vars' = k_vars s.

(** ** well-formed rules: they name chunks of their pattern, macros are called with as many chunks as they have parameters and do not
    call each other in a circle; no <reject-current-rule>, no elements of the other modules *)
Definition in_range (n : nat) (pos : Z) : Prop := (0 <= pos < Z.of_nat n)%Z.
Section WF.
Variable n : nat.
Fixpoint wf_e (e : iexpr) : Prop :=
  match e with
  | JClip _ _ pos | JCaseOf _ _ pos => in_range n pos
  | JCaseFrom _ pos x => in_range n pos /\ wf_e x
  | JConcat l | JChunk l => fold_right and True (map wf_e l)
  | JOther => False
  | _ => True
  end.
Fixpoint wf_c (c : icond) : Prop :=
  match c with
  | DEqual _ a b | DBegins _ a b | DEnds _ a b | DContains _ a b => wf_e a /\ wf_e b
  | DBeginsList _ a _ | DEndsList _ a _ | DIn _ a _ => wf_e a
  | DAnd l | DOr l => fold_right and True (map wf_c l)
  | DNot c => wf_c c
  end.
Definition wf_l (l : ilhs) : Prop := match l with MVar _ _ => True | MClip _ _ pos => in_range n pos end.
Variable rank : nat -> nat.                 (* of the macros *)
Variable below : nat.
Fixpoint wf_i (i : iinstr) : Prop :=
  match i with
  | KLet l e | KModCase l e => wf_l l /\ wf_e e
  | KAppend _ l | KOut l => Forall wf_e l
  | KCall m args => Forall (in_range n) args /\ rank (macros m) < below /\ exists body, nth_error macro_map (macros m) = Some (List.length args, body)
  | KReject _ => False
  | KChoose l => fold_right and True (map (fun o => match fst o with Some c => wf_c c | None => True end /\ fold_right and True (map wf_i (snd o))) l)
  end.
End WF.
Definition wf_macros (rank : nat -> nat) : Prop :=
  forall k npar body, nth_error macro_map k = Some (npar, body) -> Forall (wf_i npar rank (rank k)) body.
Definition wf_rules (rank : nat -> nat) (depth : nat) (ps : list (list str)) (bodies : list (list iinstr)) : Prop :=
  List.length bodies = List.length ps /\ forall k p body, nth_error ps k = Some p -> nth_error bodies k = Some body -> Forall (wf_i (List.length p) rank depth) body.
End Spec.

(** the nodes of a file with what they compile to: one node, one instruction *)
Fixpoint jnodes_e (e : iexpr) : list (nat * jinstr) :=
  match e with
  | JClip id part pos => [(id, JiClip part pos)]
  | JLit id v => [(id, JiLit v)]
  | JLitTag id v => [(id, JiLit (lit_tags v))]
  | JB id => [(id, JiB)]
  | JVar id n => [(id, JiVar n)]
  | JCaseOf id part pos => [(id, JiCaseOf part pos)]
  | JCaseFrom id pos x => (id, JiCaseFrom pos) :: jnodes_e x
  | JConcat l | JChunk l => flat_map jnodes_e l
  | JOther => []
  end.
Fixpoint jnodes_c (c : icond) : list (nat * jinstr) :=
  match c with
  | DEqual _ a b | DBegins _ a b | DEnds _ a b | DContains _ a b => jnodes_e a ++ jnodes_e b
  | DBeginsList _ a _ | DEndsList _ a _ | DIn _ a _ => jnodes_e a
  | DAnd l | DOr l => flat_map jnodes_c l
  | DNot c => jnodes_c c
  end.
Definition jnodes_l (l : ilhs) : list (nat * jinstr) := match l with MVar id n => [(id, JiVar n)] | MClip id part pos => [(id, JiClip part pos)] end.
Fixpoint jnodes_i (i : iinstr) : list (nat * jinstr) :=
  match i with
  | KLet l e => jnodes_l l ++ jnodes_e e
  | KAppend _ l | KOut l => flat_map jnodes_e l
  | KModCase _ e => jnodes_e e
  | KCall _ _ | KReject _ => []
  | KChoose l => flat_map (fun o => match fst o with Some c => jnodes_c c | None => [] end ++ flat_map jnodes_i (snd o)) l
  end.
Definition file_nodes (macro_map : list (nat * list iinstr)) (bodies : list (list iinstr)) : list (nat * jinstr) :=
  flat_map (fun m => flat_map jnodes_i (snd m)) macro_map ++ flat_map (flat_map jnodes_i) bodies.
Definition one_instr (l : list (nat * jinstr)) : Prop := forall id t t', In (id, t) l -> In (id, t') l -> t = t'.
(** rules that use the content of a chunk *)
Definition uses_content (l : list (nat * jinstr)) : Prop := exists id pos, In (id, JiClip (u "content") pos) l.
(** what the expression for the content, \{.+ (transfer_data.cc 53-54), finds: everything from the first brace that is not the last character *)
Fixpoint from_brace (s : str) : str :=
  match s with
  | [] => []
  | c :: r => if (c =?c cLC) && negb (str_eqb r []) then s else from_brace r
  end.
