(** apertium/transfer_regex.cc and the matching part of apertium/apertium_re.cc.
    Characters outside the BMP are truncated by the code ([single += it->c] on UTF-16 strings); here a character is one
    unit.  Heap nodes become an inductive tree. *)
From Verif Require Import Model.Base.

Definition cLP : char := 40%N.     (* ( *)
Definition cRP : char := 41%N.     (* ) *)
Definition cAMP : char := 38%N.    (* & *)

(* transfer_regex.cc:3-7 *)
Inductive trie := Node (c : char) (fin : bool) (next : list trie).
Definition t_c (t : trie) : char := let 'Node c _ _ := t in c.
Definition t_fin (t : trie) : bool := let 'Node _ e _ := t in e.
Definition t_next (t : trie) : list trie := let 'Node _ _ n := t in n.

(* add_char, transfer_regex.cc:9-22: the child for c is found or appended, and [f] is what the caller does to it *)
Fixpoint at_child (f : trie -> trie) (c : char) (next : list trie) : list trie :=
  match next with
  | [] => [f (Node c false [])]
  | n :: r => if t_c n =?c c then f n :: r else n :: at_child f c r
  end.
(* add_entry, 24-44: characters that the loop hands to add_char ... *)
Fixpoint expand (escape : bool) (v : str) : str :=
  match v with
  | [] => []
  | c :: r => if escape then c :: expand false r
              else if c =?c cBS then expand true r
              else if c =?c cDOT then cGT :: cLT :: expand false r
              else c :: expand false r
  end.
(* ... and the walk down the trie *)
Fixpoint ins (w : str) (t : trie) : trie :=
  match w with
  | [] => Node (t_c t) true (t_next t)
  | c :: w' => Node (t_c t) (t_fin t) (at_child (ins w') c (t_next t))
  end.
Definition add_entry (t : trie) (v : str) : trie := ins (expand false v) t.

(* 46-101 *)
Definition quote (c : char) : str :=
  if (c =?c cPLUS) || (c =?c cSTAR) || (c =?c cQM) || (c =?c cDOT) then [cBS; c] else [c].
Definition leaf (t : trie) : bool := t_fin t && match t_next t with [] => true | _ => false end.
Fixpoint join_alt (gs : list str) : str :=
  match gs with [] => [] | [g] => g | g :: r => g ++ cPIPE :: join_alt r end.
Fixpoint unbuildTrie (t : trie) : str :=
  let 'Node c fin next := t in
  let singles := flat_map (fun it => if leaf it then quote (t_c it) else []) next in
  let count := length (filter leaf next) in
  let groups0 := flat_map (fun it => if leaf it then [] else [unbuildTrie it]) next in
  let groups := if count =? 0 then groups0
                else if count =? 1 then groups0 ++ [singles]
                else groups0 ++ [cLB :: singles ++ [cRB]] in
  quote c ++
  match groups with
  | [] => []
  | [g] => (if fin && (1 <? length g) && negb (match g with c0 :: _ => c0 =?c cLP | [] => false end)
            then cLP :: cQM :: cCOLON :: g ++ [cRP] else g) ++ (if fin then [cQM] else [])
  | _ => cLP :: cQM :: cCOLON :: join_alt groups ++ [cRP] ++ (if fin then [cQM] else [])
  end.
(* 103-121 *)
Definition build (options : list str) : trie := fold_left add_entry options (Node cLT false []).
Definition optimize_regex (options : list str) : str := cLP :: unbuildTrie (build options) ++ [cGT; cRP].

(** ** The regular expressions of ICU, as far as needed (icu::RegexPattern is outside the repository; flags DOTALL and
    CASE_INSENSITIVE: case folding is not modelled).  A parser for literals, escapes, sets with ranges and negation,
    groups, alternation and ?, and the backtracking semantics: [ms r s] lists what is left of s after each way of
    matching a prefix of s, in the order in which a backtracking matcher tries them. *)
Inductive re := Eps | Chr (c : char) | Any | Cls (neg : bool) (l : list (char * char)) | Seq (a b : re) | Alt (a b : re) | Opt (a : re).
Definition in_range (c : char) (p : char * char) : bool := (fst p <=? c)%N && (c <=? snd p)%N.
Fixpoint ms (r : re) (s : str) : list str :=
  match r with
  | Eps => [s]
  | Chr c => match s with x :: s' => if x =?c c then [s'] else [] | [] => [] end
  | Any => match s with _ :: s' => [s'] | [] => [] end
  | Cls neg l => match s with x :: s' => if xorb neg (existsb (in_range x) l) then [s'] else [] | [] => [] end
  | Seq a b => flat_map (ms b) (ms a s)
  | Alt a b => ms a s ++ ms b s
  | Opt a => ms a s ++ [s]
  end.
(* parser state: enclosing groups, current group (alternatives so far, current sequence reversed), mode *)
Definition frame := (option re * list re)%type.
Inductive pmode := PN | PEsc | POpen | POpen2 | PC0 | PC (neg : bool) (l : list (char * char)) | PCEsc (neg : bool) (l : list (char * char))
  | PCRng (neg : bool) (l : list (char * char)).
Definition pst := (list frame * frame * pmode)%type.
Fixpoint seqr (l : list re) : re := match l with [] => Eps | r :: l' => Seq (seqr l') r end.
Definition close (f : frame) : re := match fst f with None => seqr (snd f) | Some a => Alt a (seqr (snd f)) end.
Definition push (f : frame) (r : re) : frame := (fst f, r :: snd f).
Definition pnormal (stk : list frame) (f : frame) (c : char) : option pst :=
  if c =?c cLP then Some (stk, f, POpen)
  else if c =?c cRP then match stk with f0 :: stk' => Some (stk', push f0 (close f), PN) | [] => None end
  else if c =?c cPIPE then Some (stk, (Some (close f), []), PN)
  else if c =?c cQM then match snd f with r :: l => Some (stk, (fst f, Opt r :: l), PN) | [] => None end
  else if c =?c cLB then Some (stk, f, PC0)
  else if c =?c cBS then Some (stk, f, PEsc)
  else if c =?c cDOT then Some (stk, push f Any, PN)
  else if (c =?c cSTAR) || (c =?c cPLUS) || (c =?c cLC) || (c =?c cRC) || (c =?c cRB) || (c =?c cCARET) || (c =?c cDOL) then None
  else Some (stk, push f (Chr c), PN).
Definition pclass (stk : list frame) (f : frame) (neg : bool) (l : list (char * char)) (c : char) : option pst :=
  if c =?c cRB then (match l with [] => None | _ => Some (stk, push f (Cls neg l), PN) end)
  else if c =?c cBS then Some (stk, f, PCEsc neg l)
  else if (c =?c cLB) || (c =?c cAMP) then None
  else if (c =?c cDASH) && (match l with [] => false | _ => true end) then Some (stk, f, PCRng neg l)
  else Some (stk, f, PC neg ((c, c) :: l)).
Definition pstep (o : option pst) (c : char) : option pst :=
  match o with
  | None => None
  | Some (stk, f, m) =>
    match m with
    | PN => pnormal stk f c
    | PEsc => Some (stk, push f (Chr c), PN)
    | POpen => if c =?c cQM then Some (stk, f, POpen2) else pnormal (f :: stk) (None, []) c
    | POpen2 => if c =?c cCOLON then Some (f :: stk, (None, []), PN) else None
    | PC0 => if c =?c cCARET then Some (stk, f, PC true []) else pclass stk f false [] c
    | PC neg l => pclass stk f neg l c
    | PCEsc neg l => Some (stk, f, PC neg ((c, c) :: l))
    | PCRng neg l => if c =?c cRB then Some (stk, push f (Cls neg ((cDASH, cDASH) :: l)), PN)
                     else match l with (lo, _) :: l' => Some (stk, f, PC neg ((lo, c) :: l')) | [] => None end
    end
  end.
Definition parse_re (s : str) : option re :=
  match fold_left pstep s (Some ([], (None, []), PN)) with
  | Some ([], f, PN) => Some (close f)
  | _ => None
  end.

(** ** ApertiumRE::match, replace (apertium_re.cc:71-140): RegexMatcher::find is the leftmost position with a match,
    and there the first match of the backtracking order *)
Fixpoint find (r : re) (pre s : str) : option (str * str * str) :=      (* before, matched, after *)
  match ms r s with
  | rest :: _ => Some (rev pre, firstn (length s - length rest) s, rest)
  | [] => match s with [] => None | c :: s' => find r (c :: pre) s' end
  end.
Definition re_match (r : re) (s : str) : str := match find r [] s with Some (_, m, _) => m | None => [] end.
Definition re_replace (r : re) (s value : str) : option str :=          (* None: returned false, str unchanged *)
  match find r [] s with Some (a, _, b) => Some (a ++ value ++ b) | None => None end.
