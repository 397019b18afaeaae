(** apertium/caps_compiler.cc (apertium-compile-caps) and the machine of apertium/caps_restorer.cc.
    External (lttoolbox, not in the repository), modelled from its documented behaviour, without weights: Transducer
    (insertSingleTransduction, insertNewSingleTransduction, linkStates, setFinal, joinFinals, insertTransducer, optional),
    State (init, step, step_optional, merge, filterFinalsLRX), Alphabet::tokenize.
    Simplifications: XML is given as data (elements with their attributes; [cm_tags] is the attribute tags split at its dots
    by StringUtils::split_escaped, from and upto are the numbers stoi reads); minimize keeps the strings of symbol pairs accepted and is
    taken as the identity; writing and reading the file gives the same machine; a tag that the alphabet does not know is a symbol of its own,
    which no transition has; characters are code points. *)
From Coq Require Import String ZArith DecimalString.
From Verif Require Import Model.Base Model.Codec Model.FeatureVec.
Open Scope nat_scope.

(** ** symbols *)
Inductive isym := IChar (c : char) | ITag (t : str).
Definition isym_eq_dec (a b : isym) : {a = b} + {a <> b}.
Proof. decide equality; [apply N.eq_dec|apply (list_eq_dec N.eq_dec)]. Defined.
(* caps_compiler.cc:45-73; a symbol is a pair, None is 0 *)
Definition any_tag := ITag (u "<ANY_TAG>"%string).
Definition any_char := ITag (u "<ANY_CHAR>"%string).
Definition any_upper := ITag (u "<ANY_UPPER>"%string).
Definition any_lower := ITag (u "<ANY_LOWER>"%string).
Definition t_bound : str := u "<$>"%string.
Definition word_boundary := ITag t_bound.
Definition null_boundary := ITag (u "<$$>"%string).
Definition lab := (option isym * option str)%type.
Definition lab_eq_dec (a b : lab) : {a = b} + {a <> b}.
Proof. decide equality; decide equality; [apply (list_eq_dec N.eq_dec)|apply isym_eq_dec]. Defined.
Definition l_eps : lab := (None, None).
Definition l_in (i : isym) : lab := (Some i, None).
Definition l_out (o : str) : lab := (None, Some o).
Definition l_bound : lab := (Some word_boundary, Some t_bound).

(** ** Transducer *)
Definition edge := (nat * lab * nat)%type.
Record trans := mkt { t_next : nat; t_init : nat; t_edges : list edge; t_finals : list nat }.
Definition no_trans : trans := mkt 1 0 [] [].                             (* Transducer(), clear() *)
Definition targets (t : trans) (p : nat) (l : lab) : list nat :=
  flat_map (fun e => match e with (a, m, q) => if (a =? p) then (if lab_eq_dec m l then [q] else []) else [] end) (t_edges t).
(* insertNewSingleTransduction *)
Definition insert_new (t : trans) (l : lab) (p : nat) : trans * nat :=
  (mkt (S (t_next t)) (t_init t) (t_edges t ++ [(p, l, t_next t)]) (t_finals t), t_next t).
(* insertSingleTransduction: an existing transition with that symbol is taken; of two, the one that is not a loop *)
Definition insert1 (t : trans) (l : lab) (p : nat) : trans * nat :=
  match targets t p l with
  | [] => insert_new t l p
  | [q] => (t, q)
  | q :: qs => (t, match find (fun r => negb (r =? p)) (q :: qs) with Some r => r | None => q end)
  end.
Definition edge_eq_dec (a b : edge) : {a = b} + {a <> b}.
Proof. decide equality; [apply Nat.eq_dec|]. decide equality; [apply lab_eq_dec|apply Nat.eq_dec]. Defined.
(* linkStates *)
Definition link (t : trans) (p q : nat) (l : lab) : trans :=
  if in_dec edge_eq_dec (p, l, q) (t_edges t) then t else mkt (t_next t) (t_init t) (t_edges t ++ [(p, l, q)]) (t_finals t).
(* setFinal *)
Definition set_final (t : trans) (q : nat) : trans :=
  if in_dec Nat.eq_dec q (t_finals t) then t else mkt (t_next t) (t_init t) (t_edges t) (t_finals t ++ [q]).
(* joinFinals; None: "empty set of final states" *)
Definition join_finals (t : trans) : option (trans * nat) :=
  match t_finals t with
  | [] => None
  | [f] => Some (t, f)
  | fs => Some (mkt (S (t_next t)) (t_init t) (t_edges t ++ map (fun f => (f, l_eps, t_next t)) fs) [t_next t], t_next t)
  end.
Definition shift (b : nat) (e : edge) : edge := match e with (p, l, q) => (b + p, l, b + q) end.
(* insertTransducer: the states of c are copied behind a new empty transition *)
Definition insert_trans (t : trans) (src : nat) (c : trans) : option (trans * nat) :=
  match join_finals c with
  | None => None
  | Some (c', f) => let b := t_next t in
      Some (mkt (b + t_next c') (t_init t) (t_edges t ++ (src, l_eps, b + t_init c') :: map (shift b) (t_edges c')) (t_finals t), b + f)
  end.
(* optional: a new initial and a new final state, and an empty transition between them *)
Definition optional (t : trans) : option trans :=
  match join_finals t with
  | None => None
  | Some (t, f) => let n := t_next t in
      Some (mkt (S (S n)) n (t_edges t ++ [(n, l_eps, t_init t); (f, l_eps, S n); (n, l_eps, S n)]) [S n])
  end.

(** ** the rules, crx.dtd *)
Record cmatch := mkcm { cm_lemma : option str; cm_tags : option (list str); cm_surface : option str;
  cm_srcsurf : option str; cm_trgsurf : option str; cm_srclem : option str; cm_trglem : option str; cm_select : option str }.
Inductive cnode := NMatch (m : cmatch) | NOr (l : list cnode) | NRepeat (from upto : Z) (l : list cnode) | NBegin.
Definition attr (a : option str) : str := match a with Some s => s | None => [cSTAR] end.   (* getattr(node, name, "*") *)
Definition attr_tags (a : option (list str)) : list str := match a with Some l => l | None => [[cSTAR]] end.

Section C.
Variable isupper : char -> bool.                                          (* u_isupper *)
(* caps_compiler.cc:146-152 *)
Definition add_loop (sym : isym) (tp : trans * nat) : trans * nat :=
  let '(t, p) := tp in let (t, q) := insert1 t (l_in sym) p in (link t q q (l_in sym), q).
Definition add1 (sym : isym) (tp : trans * nat) : trans * nat := insert1 (fst tp) (l_in sym) (snd tp).
(* 154-169 *)
Definition spec_char (c : char) (tp : trans * nat) : trans * nat :=
  if c =?c cSTAR then add_loop any_char tp
  else if c =?c cSP then add_loop (IChar cSP) tp
  else if isupper c then add_loop any_upper tp
  else add_loop any_lower tp.
Definition caps_specifier (spec : str) (tp : trans * nat) : trans * nat := fold_left (fun tp c => spec_char c tp) spec tp.
(* 196-202, 224-230 *)
Definition literal_char (c : char) (tp : trans * nat) : trans * nat :=
  if c =?c cSTAR then add_loop any_char tp else add1 (IChar c) tp.
Definition literal (s : str) (tp : trans * nat) : trans * nat := fold_left (fun tp c => literal_char c tp) s tp.
(* 204-219 *)
Definition tag_item (it : str) (tp : trans * nat) : trans * nat :=
  if str_eqb it [cPLUS] then add_loop any_tag tp
  else if str_eqb it [cSTAR] then let (t, q) := insert_new (fst tp) l_eps (snd tp) in (link t q q (l_in any_tag), q)
  else if str_eqb it [cQM] then add1 any_tag tp
  else match it with [] => tp | _ => add1 (ITag (cLT :: it ++ [cGT])) tp end.
Definition tag_items (l : list str) (tp : trans * nat) : trans * nat := fold_left (fun tp c => tag_item c tp) l tp.
(* 235-247; None: "Unknown select value" *)
Definition select_sym (s : option str) : option str :=
  match s with
  | None | Some [] => Some (u "<skip>"%string)
  | Some s => if str_eqb s (u "AA"%string) then Some (u "<AA>"%string)
              else if str_eqb s (u "Aa"%string) then Some (u "<Aa>"%string)
              else if str_eqb s (u "aa"%string) then Some (u "<aa>"%string)
              else if str_eqb s (u "dix"%string) then Some (u "<dix>"%string)
              else None
  end.
(* 171-250; None: an error message *)
Definition is_star (s : str) : bool := str_eqb s [cSTAR].
Definition compile_match (m : cmatch) (tp : trans * nat) : option (trans * nat) :=
  let lemma := attr (cm_lemma m) in
  let surf := attr (cm_surface m) in
  if negb (is_star lemma) && negb (is_star (attr (cm_trglem m))) then None
  else if negb (is_star surf) && negb (is_star (attr (cm_trgsurf m))) then None
  else
    let tp := caps_specifier (attr (cm_srcsurf m)) tp in
    let tp := add1 (IChar cSLASH) tp in
    let tp := caps_specifier (attr (cm_srclem m)) tp in
    let tp := add1 (IChar cSLASH) tp in
    let tp := if is_star lemma then caps_specifier (attr (cm_trglem m)) tp else literal lemma tp in
    let tp := tag_items (attr_tags (cm_tags m)) tp in
    let tp := add1 (IChar cSLASH) tp in
    let tp := if is_star surf then caps_specifier (attr (cm_trgsurf m)) tp else literal surf tp in
    let (t, p) := insert1 (fst tp) l_bound (snd tp) in
    match select_sym (cm_select m) with
    | Some s => Some (insert1 t (l_out s) p)
    | None => None
    end.
(* insertTransducer n times *)
Fixpoint insert_times (n : nat) (c : trans) (tp : trans * nat) : option (trans * nat) :=
  match n with
  | 0 => Some tp
  | S n => match insert_trans (fst tp) (snd tp) c with Some tp => insert_times n c tp | None => None end
  end.
(* 126-144, 252-290 *)
Fixpoint compile_node (n : cnode) (tp : trans * nat) : option (trans * nat) :=
  match n with
  | NMatch m => compile_match m tp
  | NBegin => Some (add1 null_boundary tp)
  | NOr l =>
      let start := snd tp in
      (fix alts l (t : trans) (fin : nat) :=
         match l with
         | [] => Some (t, fin)
         | n :: l => match compile_node n (insert_new t l_eps start) with
                     | None => None
                     | Some (t, next) => if fin =? start then alts l t next else alts l (link t next fin l_eps) fin
                     end
         end) l (fst tp) start
  | NRepeat from upto l =>
      if ((from <? 0) || (upto <? 0))%Z then None
      else if (from >? upto)%Z then None
      else match (fix seq l tp := match l with
                                  | [] => Some tp
                                  | n :: l => match compile_node n tp with Some tp => seq l tp | None => None end
                                  end) l (no_trans, t_init no_trans) with
           | None => None
           | Some (c, f) =>
               let c := set_final c f in
               match insert_times (Z.to_nat from) c tp with
               | None => None
               | Some tp => match optional c with
                            | None => None
                            | Some c => insert_times (Z.to_nat (upto - from)) c tp
                            end
               end
           end
  end.
Fixpoint compile_seq (l : list cnode) (tp : trans * nat) : option (trans * nat) :=
  match l with
  | [] => Some tp
  | n :: l => match compile_node n tp with Some tp => compile_seq l tp | None => None end
  end.
(* 104-124, without the weight *)
Definition itoa (n : nat) : str := u (NilZero.string_of_uint (Nat.to_uint n)).
Definition rule_id (i : nat) : str := cLT :: itoa i ++ [cGT].
Definition compile_rule (i : nat) (l : list cnode) (t : trans) : option trans :=
  match compile_seq l (insert_new t l_eps (t_init t)) with
  | None => None
  | Some (t, p) =>
      let (t, p) := insert1 t l_bound p in
      let (t, p) := insert1 t (l_out (rule_id i)) p in
      Some (set_final t p)
  end.
(* 85-102 *)
Fixpoint compile_from (i : nat) (rules : list (list cnode)) (t : trans) : option trans :=
  match rules with
  | [] => Some t
  | r :: rules => match compile_rule i r t with Some t => compile_from (S i) rules t | None => None end
  end.
Definition compile (rules : list (list cnode)) : option trans := compile_from 0 rules no_trans.

(** ** the machine: State *)
Definition conf := (nat * list str)%type.                                 (* node, symbols written *)
Definition outs (l : lab) : list str := match snd l with Some o => [o] | None => [] end.
(* epsilonClosure of one state; the compiled machine has no cycle of transitions that read nothing *)
Fixpoint eps (fuel : nat) (E : list edge) (x : conf) : list conf :=
  x :: match fuel with
       | 0 => []
       | S f => flat_map (fun e => match e with (p, l, q) => if p =? fst x then match fst l with None => eps f E (q, snd x ++ outs l) | Some _ => [] end else [] end) E
       end.
Definition closure (t : trans) (S : list conf) : list conf := flat_map (eps (length (t_edges t)) (t_edges t)) S.
Definition st_init (t : trans) : list conf := closure t [(t_init t, [])].
(* the transitions that read one of the symbols [a] *)
Definition move (t : trans) (a : list isym) (S : list conf) : list conf :=
  flat_map (fun x => flat_map (fun e => match e with (p, l, q) =>
    if p =? fst x then match fst l with Some i => if in_dec isym_eq_dec i a then [(q, snd x ++ outs l)] else [] | None => [] end else [] end) (t_edges t)) S.
Definition st_step (t : trans) (a : list isym) (S : list conf) : list conf := closure t (move t a S).
Definition st_step_optional (t : trans) (i : isym) (S : list conf) : list conf := S ++ closure t (move t [i] S).
Definition st_merge (t : trans) (S : list conf) : list conf := S ++ st_init t.
Definition st_dead (S : list conf) : bool := match S with [] => true | _ => false end.
(* filterFinalsLRX: the symbols between the word boundaries, and the last symbol *)
Fixpoint pieces (o : list str) (cur : str) : list str :=
  match o with
  | [] => []
  | s :: o => if str_eqb s t_bound then match cur with [] => pieces o [] | _ => cur :: pieces o [] end else pieces o (cur ++ s)
  end.
(* a set of pairs, ordered: the rule and then its path *)
Definition st_finals (t : trans) (S : list conf) : list (str * list str) :=
  map (fun k => match k with [] => ([], []) | r :: p => (r, p) end)
    (set_of_list vec_lt [] (flat_map (fun x => if in_dec Nat.eq_dec (fst x) (t_finals t) then [last (snd x) [] :: pieces (snd x) []] else []) S)).
(** ** caps_restorer.cc *)
(* Alphabet::tokenize *)
Fixpoint tokenize (s : str) : list isym :=
  match s with
  | [] => []
  | c :: r =>
      if c =?c cBS then match r with d :: r' => IChar d :: tokenize r' | [] => [IChar c] end
      else if c =?c cLT then
        (fix tag (r acc : str) := match r with
                                  | [] => [IChar c]
                                  | d :: r' => if d =?c cGT then ITag (acc ++ [d]) :: tokenize r' else tag r' (acc ++ [d])
                                  end) r [c]
      else IChar c :: tokenize r
  end.
(* 134-145: the symbols one step follows *)
Definition alts (x : isym) : list isym :=
  match x with
  | ITag _ => [x; any_tag]
  | IChar c => if isupper c then [x; any_char; any_upper] else [x; any_char; any_lower]
  end.
(* 198-213 *)
Definition note_syms (src : str) : list (list isym) := map (fun c => if c =?c cSLASH then [IChar c] else alts (IChar c)) src.
Definition word_syms (src form surf : str) : list (list isym) :=
  note_syms src ++ [[IChar cSLASH]] ++ map alts (tokenize form) ++ [[IChar cSLASH]] ++ map alts (tokenize surf) ++ [[word_boundary]].
Definition st_word (t : trans) (S : list conf) (src form surf : str) : list conf := fold_left (fun S a => st_step t a S) (word_syms src form surf) S.
End C.
(* 28-31, and weights[...] at 66-72, which is 0.0 for a key that is not there *)
Definition load_weights {W} (ws : list W) : list (str * W) := combine (map rule_id (seq 0 (length ws))) ws.
Definition weight_of {W} (w0 : W) (m : list (str * W)) (tag : str) : W :=
  match find (fun kv => str_eqb (fst kv) tag) m with Some kv => snd kv | None => w0 end.
