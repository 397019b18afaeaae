(** Structural transfer of a text with rules (C62).  What rules mean: Spec/TransferRules.v; lexical units: Spec/TransferUnit.v; left to
    right, longest match, first rule: Spec/TransferRun.v. *)
From Coq Require Import String ZArith.
From Verif Require Import Model.Base Model.TransferRules Spec.TransferUnit Spec.TransferRules.

(** the word a rule sees: source, target, reference, blank; no queue *)
Definition word_of (x : lunit) : tword := mkw (reading_str (u_sl x)) (reading_str (u_tl x)) (reference x) (wblank x) 0.
(** what passes from rule to rule: the variables, and the word-bound blanks that they carry; and (a defect) whether the last unit
    written was an <mlu>: if so, a lemma put into a variable does not take the blank of its word along (Spec/TransferRules.v, [s_unit]) *)
Record tglob := mkg { g_vars : str -> str; g_blanks : str -> str; g_mlu : bool }.

(** without a rule: the target reading with its blank, as a unit or (default="chunk") as a chunk of one unit; nothing if there is no target *)
Definition passed_on (chunk : bool) (x : lunit) : str :=
  let name := match u_tl x with RChar c :: _ => if c =?c cSTAR then u "unknown" else u "default" | _ => u "default" end in
  match u_tl x with
  | [] => []
  | _ => if chunk then cCARET :: name ++ cLT :: name ++ [cGT; cLC] ++ translated x ++ [cRC; cDOL] else translated x
  end.

Section S.
Variable attr_match : str -> str -> str.
Variable attr_replace : str -> str -> str -> str.
Variable copy_case case_from : str -> str -> str.
Variable get_case lower : str -> str.
Variable lists : str -> list str.
Variable dict_case : bool.
Variable macros : str -> nat.
Variable macro_map : list (nat * list instr).
Variable bodies : list (list instr).
(** rule n on these units, with these blanks between them: its instructions, executed on these words and no others *)
Definition unit_rule (n : nat) (g : tglob) (us : list lunit) (bs : list str) (o : str) (lf : list str) (g1 : tglob) : Prop :=
  exists b s, nth_error bodies (n - 1) = Some b /\
    Seq attr_match attr_replace copy_case case_from get_case lower lists dict_case macros macro_map b
      (mkst (map word_of us) (Some (map Some (seq 0 (length us)))) (length us) (g_vars g) (g_blanks g) bs [] (g_mlu g)) (-1) s /\
    o = s_out s /\ lf = s_bq s /\ g1 = mkg (s_vars s) (s_vwb s) (s_unit s).
End S.

(** ** well-formed rules *)
(** the positions a rule names are below n, the number of words of its pattern (position 0 is the first word) *)
Fixpoint pos_e (n : Z) (e : expr) : bool :=
  match e with
  | XClip _ _ _ p _ _ | XCaseOf _ _ _ p => (p <? n)%Z
  | XCaseFrom _ p x => (p <? n)%Z && pos_e n x
  | XLit _ _ | XB _ | XVar _ _ => true
  | XConcat l | XLu l => forallb (pos_e n) l
  | XMlu l => forallb (forallb (pos_e n)) l
  | XChunk _ _ _ t b => forallb (pos_e n) t && forallb (pos_e n) b
  end.
Fixpoint pos_c (n : Z) (c : cond) : bool :=
  match c with
  | CEqual _ a b | CBegins _ a b | CEnds _ a b | CContains _ a b => pos_e n a && pos_e n b
  | CBeginsList _ a _ | CEndsList _ a _ | CIn _ a _ => pos_e n a
  | CAnd l | COr l => forallb (pos_c n) l
  | CNot c => pos_c n c
  end.
Definition pos_l (n : Z) (l : lhs) : bool := match l with LVar _ _ => true | LClip _ _ _ p _ => (p <? n)%Z end.
Fixpoint pos_i (n : Z) (i : instr) : bool :=
  match i with
  | ILet l e | IModCase l e => pos_l n l && pos_e n e
  | IAppend _ l | IOut l => forallb (pos_e n) l
  | ICall _ args => forallb (fun a => (a <? n)%Z) args
  | IReject _ => true
  | IChoose l => forallb (fun o => match fst o with Some c => pos_c n c | None => true end && forallb (pos_i n) (snd o)) l
  end.
(** no reject-current-rule (outside macros, where it has no effect) *)
Fixpoint keeps_i (i : instr) : bool :=
  match i with
  | IReject _ => false
  | IChoose l => forallb (fun o => forallb keeps_i (snd o)) l
  | _ => true
  end.
Definition file_nodes (macro_map : list (nat * list instr)) (bodies : list (list instr)) : list (nat * tinstr) :=
  flat_map (fun m => flat_map nodes_i (snd m)) macro_map ++ flat_map (flat_map nodes_i) bodies.
(** one body per pattern; the restrictions of C45 on rules and macros; rules name only the words they match and do not reject themselves *)
Definition wf_file (ps : list (list str)) (macro_map : list (nat * list instr)) (bodies : list (list instr)) : Prop :=
  functional (file_nodes macro_map bodies) /\
  Forall (fun m => forallb simple_i (snd m) = true) macro_map /\
  Forall2 (fun p b => forallb simple_i b = true /\ forallb (pos_i (Z.of_nat (length p))) b = true /\ forallb keeps_i b = true) ps bodies.

(** ** rules that always do something defined: macros exist, are called with as many words as they have parameters and do not call each other in a
    circle; the words given to them and the words changed by <modify-case> are words of the rule; chunks have a name; no <mlu> in a macro
    without parameters *)
Section Defined.
Variable macros : str -> nat.
Variable macro_map : list (nat * list instr).
Variable rank : nat -> nat.                 (* of the macros *)
Section Words.
Variable n : nat.                           (* the number of words *)
Fixpoint def_e (e : expr) : Prop :=
  match e with
  | XConcat l | XLu l => fold_right and True (map def_e l)
  | XMlu l => 0 < n /\ fold_right and True (map (fun x => fold_right and True (map def_e x)) l)
  | XChunk name namefrom _ t b => (name <> [] \/ namefrom <> []) /\ fold_right and True (map def_e t) /\ fold_right and True (map def_e b)
  | XCaseFrom _ _ x => def_e x
  | _ => True
  end.
Fixpoint def_c (c : cond) : Prop :=
  match c with
  | CEqual _ a b | CBegins _ a b | CEnds _ a b | CContains _ a b => def_e a /\ def_e b
  | CBeginsList _ a _ | CEndsList _ a _ | CIn _ a _ => def_e a
  | CAnd l | COr l => fold_right and True (map def_c l)
  | CNot c => def_c c
  end.
Definition word_no (pos : Z) : Prop := (0 <= pos < Z.of_nat n)%Z.
Variable below : nat.
Fixpoint def_i (i : instr) : Prop :=
  match i with
  | ILet _ e => def_e e
  | IModCase l e => match l with LClip _ _ _ pos _ => word_no pos | LVar _ _ => True end /\ def_e e
  | IAppend _ l | IOut l => Forall def_e l
  | ICall m args => Forall word_no args /\ rank (macros m) < below /\ exists body, nth_error macro_map (macros m) = Some (length args, body)
  | IReject _ => True
  | IChoose l => fold_right and True (map (fun o => match fst o with Some c => def_c c | None => True end /\ fold_right and True (map def_i (snd o))) l)
  end.
End Words.
Definition defined_file (ps : list (list str)) (bodies : list (list instr)) : Prop :=
  (forall k npar body, nth_error macro_map k = Some (npar, body) -> Forall (def_i npar (rank k)) body) /\
  exists depth, Forall2 (fun p b => Forall (def_i (length p) depth) b) ps bodies.
End Defined.
