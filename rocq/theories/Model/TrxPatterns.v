(** Compiling the patterns of a transfer rule file: trx_reader.cc (insertCatItem, procDefCats, procRules), transfer_data.cc
    (countToFinalSymbol, write), and the primitives of lttoolbox's Transducer they call (not in the repository: modelled from
    their documented behaviour, weights omitted).
    Simplifications: XML is given as data (def-cats with their items, the pattern of each rule); [ci_tags] is the attribute tags
    split at its dots (StringUtils::split_escaped), an absent or empty attribute being []. *)
From Verif Require Import Model.Base Model.TransferUnit.

Inductive lab := LChar (c : char) | LTag (t : str) | LAnyChar | LAnyTag | LEps | LRule (n : nat).
Definition lab_eq_dec (a b : lab) : {a = b} + {a <> b}.
Proof. decide equality; try apply N.eq_dec; try apply Nat.eq_dec; apply (list_eq_dec N.eq_dec). Defined.
Definition edge := (nat * lab * nat)%type.
Definition edge_eq_dec (a b : edge) : {a = b} + {a <> b}.
Proof. decide equality; [apply Nat.eq_dec|]. decide equality; [apply lab_eq_dec|apply Nat.eq_dec]. Defined.

(** ** lttoolbox Transducer; the initial state is 0 *)
Record trans := mkt { t_next : nat; t_edges : list edge; t_finals : list nat }.
Definition no_trans : trans := mkt 1 [] [].
Definition targets (t : trans) (p : nat) (l : lab) : list nat :=
  flat_map (fun e => match e with (a, m, q) => if (a =? p) then (if lab_eq_dec m l then [q] else []) else [] end) (t_edges t).
(* insertSingleTransduction: an existing transition with that symbol is taken; of two, the one that is not a loop *)
Definition insert1 (t : trans) (l : lab) (p : nat) : trans * nat :=
  match targets t p l with
  | [] => (mkt (S (t_next t)) (t_edges t ++ [(p, l, t_next t)]) (t_finals t), t_next t)
  | [q] => (t, q)
  | q :: qs => (t, match find (fun r => negb (r =? p)) (q :: qs) with Some r => r | None => q end)
  end.
(* linkStates *)
Definition link (t : trans) (p q : nat) (l : lab) : trans :=
  if in_dec edge_eq_dec (p, l, q) (t_edges t) then t else mkt (t_next t) (t_edges t ++ [(p, l, q)]) (t_finals t).
(* setFinal *)
Definition set_final (t : trans) (q : nat) : trans :=
  if in_dec Nat.eq_dec q (t_finals t) then t else mkt (t_next t) (t_edges t) (t_finals t ++ [q]).
(* joinFinals; None: "empty set of final states" *)
Definition join_finals (t : trans) : option (trans * nat) :=
  match t_finals t with
  | [] => None
  | [f] => Some (t, f)
  | fs => Some (mkt (S (t_next t)) (t_edges t ++ map (fun f => (f, LEps, t_next t)) fs) [t_next t], t_next t)
  end.
Definition shift (b : nat) (e : edge) : edge := match e with (p, l, q) => (b + p, l, b + q) end.
(* insertTransducer: the states of t are copied behind a new empty transition *)
Definition insert_trans (t : trans) (src : nat) (c : trans) : option (trans * nat) :=
  match join_finals c with
  | None => None
  | Some (c', f) => let b := t_next t in
      Some (mkt (b + t_next c') (t_edges t ++ map (shift b) (t_edges c') ++ [(src, LEps, b)]) (t_finals t), b + f)
  end.

(** ** insertCatItem, trx_reader.cc:36-73 *)
(* 42-45 and 53-54: one or more *)
Definition insert_plus (t : trans) (l : lab) (p : nat) : trans * nat :=
  let (t1, q) := insert1 t l p in (link t1 q q l, q).
(* 48-58 *)
Fixpoint insert_lemma (t : trans) (p : nat) (lemma : str) : trans * nat :=
  match lemma with
  | [] => (t, p)
  | c :: r =>
      if c =?c cBS then
        let (t1, q) := insert1 t (LChar cBS) p in
        match r with
        | d :: r' => let (t2, q2) := insert1 t1 (LChar d) q in insert_lemma t2 q2 r'
        | [] => insert1 t1 (LChar cNUL) q
        end
      else if c =?c cSTAR then let (t1, q) := insert_plus t LAnyChar p in insert_lemma t1 q r
      else let (t1, q) := insert1 t (LChar c) p in insert_lemma t1 q r
  end.
(* 60-71 *)
Fixpoint insert_tags (t : trans) (p : nat) (tags : list str) : trans * nat :=
  match tags with
  | [] => (t, p)
  | g :: r => let (t1, q) := if str_eqb g [cSTAR] then insert_plus t LAnyTag p else insert1 t (LTag (cLT :: g ++ [cGT])) p in insert_tags t1 q r
  end.
Definition insert_cat_item (t : trans) (lemma : str) (tags : list str) : trans :=
  let (t1, p) :=
    match lemma with
    | [] => let (t1, q) := insert_plus t LAnyChar 0 in
            let (t2, a) := insert1 t1 (LChar cBS) q in (link t2 a q LAnyChar, q)
    | _ => insert_lemma t 0 lemma
    end in
  let (t2, q) := insert_tags t1 p tags in set_final t2 q.
(** ** procDefCats, 297-342; minimize keeps the strings of symbols accepted: taken as the identity *)
Record cat_item := mkci { ci_lemma : str; ci_tags : list str; ci_name : str }.
Definition add_item (t : trans) (i : cat_item) : trans :=
  match ci_tags i with [] => insert_cat_item t (ci_name i) [] | ts => insert_cat_item t (ci_lemma i) ts end.
Definition def_cat (items : list cat_item) : trans := fold_left add_item items no_trans.
(* defcats: a later definition of a name replaces an earlier one *)
Fixpoint lookup_cat (defs : list (str * list cat_item)) (n : str) : option (list cat_item) :=
  match defs with
  | [] => None
  | (m, i) :: r => match lookup_cat r n with Some j => Some j | None => if str_eqb m n then Some i else None end
  end.
(** ** procRules, 133-224 *)
Record rst := mkrst { r_t : trans; r_states : list ((nat * str) * nat); r_seen : list (nat * nat); r_count : nat }.
Definition look_state (m : list ((nat * str) * nat)) (s : nat) (c : str) : option nat :=
  option_map snd (find (fun e => (fst (fst e) =? s) && str_eqb (snd (fst e)) c) m).
(* 167-195 *)
Definition pattern_item (defs : list (str * list cat_item)) (r : rst) (s : nat) (c : str) : option (rst * nat) :=
  match look_state (r_states r) s c with
  | Some q => Some (r, q)
  | None =>
      match lookup_cat defs c with
      | None => None                                                     (* parseError *)
      | Some items =>
          let (t1, tmp) := insert1 (r_t r) (LChar cCARET) s in
          let t2 := if s =? 0 then t1 else let (t2, alt) := insert1 t1 (LChar cSP) s in link t2 alt tmp (LChar cCARET) in
          match insert_trans t2 tmp (def_cat items) with
          | None => None
          | Some (t3, f) => let (t4, q) := insert1 t3 (LChar cDOL) f in
              Some (mkrst t4 (((s, c), q) :: r_states r) (r_seen r) (r_count r), q)
          end
      end
  end.
Fixpoint pattern (defs : list (str * list cat_item)) (r : rst) (s : nat) (cs : list str) : option (rst * nat) :=
  match cs with
  | [] => Some (r, s)
  | c :: cs' => match pattern_item defs r s c with Some (r', q) => pattern defs r' q cs' | None => None end
  end.
(* 143-165 *)
Definition rule (defs : list (str * list cat_item)) (r : rst) (cs : list str) : option rst :=
  let n := S (r_count r) in
  match pattern defs (mkrst (r_t r) (r_states r) (r_seen r) n) 0 cs with
  | None => None
  | Some (r1, s) =>
      if existsb (fun e => fst e =? s) (r_seen r1) then Some r1          (* 159-163: warning, skipped *)
      else let (t1, f) := insert1 (r_t r1) (LRule n) s in
           Some (mkrst (set_final t1 f) (r_states r1) ((s, n) :: r_seen r1) n)
  end.
Fixpoint rules (defs : list (str * list cat_item)) (r : rst) (ps : list (list str)) : option rst :=
  match ps with [] => Some r | cs :: ps' => match rule defs r cs with Some r' => rules defs r' ps' | None => None end end.
Definition compile (defs : list (str * list cat_item)) (ps : list (list str)) : option trans :=
  option_map r_t (rules defs (mkrst no_trans [] [] 0) ps).

(** ** Matching.  MatchState::step(symbol, any): transitions with the symbol itself or with any_char / any_tag; step(c): only c. *)
Definition takes (l : lab) (x : msym) : Prop :=
  match l, x with
  | LChar c, MChar d => c = d
  | LChar c, MMark d => c = d
  | LAnyChar, MChar _ => True
  | LTag t, MTag t' => t = t'
  | LAnyTag, MTag _ => True
  | _, _ => False
  end.
(** strings of symbols along the transitions *)
Inductive spath (E : list edge) : nat -> list lab -> nat -> Prop :=
| sp_nil s : spath E s [] s
| sp_eps s y q r : spath E s y q -> In (q, LEps, r) E -> spath E s y r
| sp_sym s y q l r : spath E s y q -> In (q, l, r) E -> l <> LEps -> (forall n, l <> LRule n) -> spath E s (y ++ [l]) r.
(** TransferData::write, transfer_data.cc:117-175: after minimize (same strings, one state per string) the state reached by [y] is
    final for the rule whose RULE_NUMBER transition comes last, i.e. (symbols being numbered downwards) the least one *)
Definition has_rule (t : trans) (y : list lab) (n : nat) : Prop := exists s f, spath (t_edges t) 0 y s /\ In (s, LRule n, f) (t_edges t) /\ In f (t_finals t).
Definition finals_rules (t : trans) (y : list lab) (n : nat) : Prop := has_rule t y n /\ forall m, has_rule t y m -> n <= m.
(** MatchState: all states reached by strings taking the input; classifyFinals: the least of their rules that is not banned *)
Definition visible (t : trans) (x : list msym) (n : nat) : Prop := exists y, Forall2 takes y x /\ finals_rules t y n.
Definition classifies (t : trans) (x : list msym) (banned : list nat) (n : nat) : Prop :=
  visible t x n /\ ~ In n banned /\ forall m, visible t x m -> ~ In m banned -> n <= m.
