(** The compiled rule file of structural transfer: what TRXReader collects from the declarations of the rule file
    (apertium/trx_reader.cc:121-131, 250-295, 345-460), how TransferData writes it (transfer_data.cc:43-56, 117-245) and how the
    transfer programs read it (transfer_base.cc:44-108, apertium_re.cc:33-41).
    Simplifications: XML is given as data; weights of transitions and final states are left out (the compiler never sets one);
    lttoolbox's Compression, Alphabet::write/read, Transducer::write/read and ICU's regex compiler are parameters;
    Transducer::minimize has been applied (the machine given is its result). *)
From Coq Require Import String ZArith DecimalString.
From Verif Require Import Model.Base Model.Codec Model.Regex Model.TrxMachine.
Open Scope nat_scope.

(** ** std::map and std::set of strings *)
Fixpoint look {K V} (eqb : K -> K -> bool) (k : K) (m : list (K * V)) : option V :=
  match m with [] => None | (k', v) :: r => if eqb k k' then Some v else look eqb k r end.
Definition sset := map_set (V := str) str_lt.

(** ** The declarations of a rule file *)
Record decls := mkd {
  d_attrs : list (str * list str);      (* def-attr: name, the tags attributes of its attr-items *)
  d_vars : list (str * str);            (* def-var: n, v (absent: empty) *)
  d_lists : list (str * list str);      (* def-list: name, items *)
  d_macros : list str;                  (* def-macro: n *)
  d_clips : list str }.                 (* the part attributes of the clips of the rules *)

(** ** TransferData *)
Record td := mktd { attr_items : list (str * str); variables : list (str * str); macros : list (str * nat); lists : list (str * list str) }.
(* transfer_data.cc:43-56 *)
Definition fixed_attrs : list (str * str) :=
  [ (u "lem", u "^(([^<]|""\<"")+)"); (u "lemq", u "\#[- _][^<]+"); (u "lemh", u "^(([^<#]|""\<""|""\#"")+)"); (u "whole", u "(.+)");
    (u "tags", u "((<[^>]+>)+)"); (u "chname", u "(\{([^/]+)\/)"); (u "chcontent", u "(\{.+)"); (u "content", u "(\{.+)") ].
Definition td_new : td := mktd (map_of_list str_lt [] fixed_attrs) [] [] [].

Section Compile.
  Variable re_ok : str -> bool.                                    (* ICU accepts the expression *)
  (* trx_reader.cc:250-295 procDefAttrs *)
  Definition def_attr (t : td) (a : str * list str) : option td :=
    let re := optimize_regex (snd a) in
    if re_ok re then Some (mktd (map_set str_lt (fst a) re (attr_items t)) (variables t) (macros t) (lists t)) else None.
  (* 344-366 procDefVars, 456-460 createVar *)
  Definition def_var (t : td) (v : str * str) : td := mktd (attr_items t) (map_set str_lt (fst v) (snd v) (variables t)) (macros t) (lists t).
  (* 450-454 insertListItem: operator[] makes the list, insert adds the item *)
  Definition list_item (n : str) (t : td) (v : str) : td :=
    let old := match look str_eqb n (lists t) with Some l => l | None => [] end in
    mktd (attr_items t) (variables t) (macros t) (map_set str_lt n (set_insert str_lt v old) (lists t)).
  (* 368-403 procDefLists *)
  Definition def_list (t : td) (l : str * list str) : td := fold_left (list_item (fst l)) (snd l) t.
  (* 405-448 procDefMacros, createMacro; [count++] *)
  Definition def_macro (tc : option (td * nat)) (n : str) : option (td * nat) :=
    match tc with
    | None => None
    | Some (t, count) => match look str_eqb n (macros t) with
                         | Some _ => None                                     (* defined at least twice *)
                         | None => Some (mktd (attr_items t) (variables t) (map_set str_lt n count (macros t)) (lists t), S count)
                         end
    end.
  (* 121-131 checkClip *)
  Definition check_clip (t : td) (part : str) : bool :=
    match part with [] => false | _ => match look str_eqb part (attr_items t) with Some _ => true | None => false end end.
  Fixpoint def_attrs (t : td) (l : list (str * list str)) : option td :=
    match l with [] => Some t | a :: r => match def_attr t a with Some t' => def_attrs t' r | None => None end end.
  (* 95-118: the sections in the order of the file *)
  Definition declare (d : decls) : option td :=
    match def_attrs td_new (d_attrs d) with
    | None => None
    | Some t1 =>
        let t3 := fold_left def_list (d_lists d) (fold_left def_var (d_vars d) t1) in
        match fold_left def_macro (d_macros d) (Some (t3, 0)) with
        | None => None
        | Some (t4, _) => if forallb (check_clip t4) (d_clips d) then Some t4 else None
        end
    end.
End Compile.

(** ** The rule numbers, transfer_data.cc:106-115, 117-175 *)
Definition itoa (n : nat) : str := u (NilZero.string_of_uint (Nat.to_uint n)).        (* %d of a count *)
Definition rule_pre : str := u "<RULE_NUMBER:".
Definition rule_symbol (n : nat) : str := rule_pre ++ itoa n ++ [cGT].
(* StringUtils::stoi on decimal digits *)
Definition stoi (s : str) : nat := fold_left (fun a c => 10 * a + N.to_nat (c - 48)) s 0.
(* 148-154 *)
Definition rule_number (s : str) : option nat :=
  if str_eqb (firstn (length rule_pre) s) rule_pre
  then Some (stoi (firstn (length s - length rule_pre - 1) (skipn (length rule_pre) s))) else None.

(* lttoolbox's Alphabet: symbols are numbered -1, -2, ... in the order in which they are included *)
Definition alphabet := list str.
Definition include (a : alphabet) (s : str) : alphabet := if in_dec (list_eq_dec N.eq_dec) s a then a else a ++ [s].
Fixpoint index_of (s : str) (a : alphabet) : nat := match a with [] => 0 | x :: r => if str_eqb s x then 0 else S (index_of s r) end.
Definition code (a : alphabet) (s : str) : Z := (- Z.of_nat (S (index_of s a)))%Z.
Definition get_symbol (a : alphabet) (z : Z) : str := if (z <? 0)%Z then nth (Z.to_nat (- z - 1)) a [] else [].

(* transitions: map<int, multimap<int, ...>>; final states *)
Record machine := mkm { m_arcs : list (nat * list (Z * nat)); m_finals : list nat }.
(* 106-115 countToFinalSymbol for the rules numbered [ns] *)
Definition final_symbols (a : alphabet) (ns : list nat) : alphabet * list Z :=
  fold_left (fun s n => let a' := include (fst s) (rule_symbol n) in (a', snd s ++ [code a' (rule_symbol n)])) ns (a, []).
(* 133-161: the body of the loop *)
Definition on_arc (a : alphabet) (fs : list Z) (src : nat) (st : list nat * list (nat * nat)) (arc : Z * nat) : list nat * list (nat * nat) :=
  if existsb (Z.eqb (fst arc)) fs && inb (snd arc) (fst st)
  then match rule_number (get_symbol a (fst arc)) with
       | Some n => (if inb src (fst st) then fst st else src :: fst st, map_set Nat.ltb src n (snd st))
       | None => st
       end
  else st.
Definition install (a : alphabet) (fs : list Z) (m : machine) : machine * list (nat * nat) :=
  let st := fold_left (fun st e => fold_left (on_arc a fs (fst e)) (snd e) st) (m_arcs m) (m_finals m, []) in
  (* 163-168: remove the old finals *)
  (mkm (m_arcs m) (filter (fun q => negb (inb q (m_finals m))) (fst st)), snd st).

(** ** The file *)
Section IO.
  Variable re_ok : str -> bool.
  Variable tolower : str -> str.                                    (* StringUtils::tolower *)
  Variable putN : N -> bytes.  Variable getN : reader N.
  Variable putS : str -> bytes. Variable getS : reader str.
  Variable putA : alphabet -> bytes. Variable getA : reader alphabet.
  Variable putT : machine -> bytes.  Variable getT : reader machine.

  Definition put_nat (n : nat) : bytes := putN (N.of_nat n).
  Definition get_nat : reader nat := n <- getN ;; ret (N.to_nat n).
  Definition put_final (e : nat * nat) : bytes := put_nat (fst e) ++ put_nat (snd e).
  Definition put_attr (e : str * str) : bytes := putS (fst e) ++ putN 0 ++ putS (snd e).
  Definition put_var (e : str * str) : bytes := putS (fst e) ++ putS (snd e).
  Definition put_macro (e : str * nat) : bytes := putS (fst e) ++ put_nat (snd e).
  Definition put_list (e : str * list str) : bytes := putS (fst e) ++ put_vec putN putS (snd e).
  (* transfer_data.cc:117-245 *)
  Definition write (a : alphabet) (fs : list Z) (m : machine) (t : td) : bytes :=
    let (m', finals) := install a fs m in
    putA a ++ putT m' ++ put_vec putN put_final finals ++
    putS [] ++ put_vec putN put_attr (attr_items t) ++
    put_vec putN put_var (variables t) ++ put_vec putN put_macro (macros t) ++ put_vec putN put_list (lists t).

  (** ** TransferBase *)
  Record tbase := mkb { b_alphabet : alphabet; b_machine : machine; b_finals : list (nat * nat); b_attrs : list (str * str);
    b_variables : list (str * str); b_defaults : list (str * str); b_macros : list (str * nat);
    b_lists : list (str * list str); b_listslow : list (str * list str) }.
  Definition get_final : reader (nat * nat) := k <- get_nat ;; v <- get_nat ;; ret (k, v).
  (* apertium_re.cc:33-41: the binary form is skipped *)
  Definition skip_binary : reader unit := n <- getN ;; (fun r => Some (Datatypes.tt, skipn (N.to_nat n) r)).
  (* transfer_base.cc:71-84 *)
  Definition get_attr (icu : bool) : reader (str * str) :=
    k <- getS ;; _ <- skip_binary ;; v <- getS ;;
    (let v' := if negb icu && str_eqb k (u "chname") then u "(\{([^/]+)\/)" else v in
     fun r => if re_ok v' then Some ((k, v'), r) else None).
  Definition get_var : reader (str * str) := k <- getS ;; v <- getS ;; ret (k, v).
  Definition get_macro : reader (str * nat) := k <- getS ;; v <- get_nat ;; ret (k, v).
  Definition get_list : reader (str * list str) := k <- getS ;; v <- get_vec getN getS ;; ret (k, v).
  (* 96-107: lists[k].insert(v) for the items of one list *)
  Definition add_items (f : str -> str) (m : list (str * list str)) (e : str * list str) : list (str * list str) :=
    fold_left (fun m v => map_set str_lt (fst e) (set_insert str_lt (f v) (match look str_eqb (fst e) m with Some l => l | None => [] end)) m) (snd e) m.
  (* transfer_base.cc:44-108, into a new object *)
  Definition read : reader tbase :=
    a <- getA ;; m <- getT ;; fin <- get_vec getN get_final ;;
    ver <- getS ;; at_ <- get_vec getN (get_attr (match ver with [] => true | _ => false end)) ;;
    vs <- get_vec getN get_var ;; ms <- get_vec getN get_macro ;; ls <- get_vec getN get_list ;;
    ret (mkb a m (map_of_list Nat.ltb [] fin) (map_of_list str_lt [] at_) (map_of_list str_lt [] vs) (map_of_list str_lt [] vs)
             (map_of_list str_lt [] ms) (fold_left (add_items (fun v => v)) ls []) (fold_left (add_items tolower) ls [])).
End IO.
(* transfer.cc:746, interchunk.cc:324, postchunk.cc:402: macro_map[macros[n]], operator[] of a name that is not there being 0;
   macro_map (transfer_base.cc collectMacros) has the macros in the order of the file *)
Definition called_macro (b : tbase) (n : str) : nat := match look str_eqb n (b_macros b) with Some i => i | None => 0 end.
