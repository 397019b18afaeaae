(** apertium/tagger_word.cc.  Sets and maps over tags are sorted lists.  [mt form pattern] is
    [TaggerWord::match] (68-96: a regular expression search; the cache of compiled patterns is not observable). *)
From Verif Require Import Model.Base.

(* std::set<TTag>::insert *)
Fixpoint sins (t : nat) (l : list nat) : list nat :=
  match l with
  | [] => [t]
  | x :: r => if t <? x then t :: l else if t =? x then l else x :: sins t r
  end.
(* std::map<TTag, UString>: assignment to an element *)
Fixpoint mput (t : nat) (s : str) (l : list (nat * str)) : list (nat * str) :=
  match l with
  | [] => [(t, s)]
  | (k, v) :: r => if t <? k then (t, s) :: l else if t =? k then (t, s) :: r else (k, v) :: mput t s r
  end.
Fixpoint mget (t : nat) (l : list (nat * str)) : option str :=
  match l with [] => None | (k, v) :: r => if t =? k then Some v else mget t r end.
Definition has_tag (t : nat) (l : list nat) : bool := existsb (Nat.eqb t) l.

(* tagger_word.h:39-62; [show_sf] is an argument of the functions that read it (it is set before each of them) *)
Record tword := mktw { sf : str; tags : list nat; forms : list (nat * str);
                       ign : str; cut : bool; pcut : bool }.
(* tagger_word.cc:32-37 *)
Definition tword0 (prev : bool) : tword := mktw [] [] [] [] false prev.

Section TW.
Variable mt : str -> str -> bool.

(* tagger_word.cc:98-101: the lexical form stays *)
Definition erase_tag (t : nat) (w : tword) : tword :=
  mktw (sf w) (filter (fun x => negb (x =? t)) (tags w)) (forms w) (ign w) (cut w) (pcut w).
(* tagger_word.cc:103-122 *)
Definition add_tag (prefer : list str) (t : nat) (lf : str) (w : tword) : tword :=
  if negb (has_tag t (tags w))
  then mktw (sf w) (sins t (tags w)) (mput t lf (forms w)) (ign w) (cut w) (pcut w)
  else if existsb (mt lf) prefer
       then mktw (sf w) (tags w) (mput t lf (forms w)) (ign w) (cut w) (pcut w)
       else w.
(* tagger_word.cc:130-134 *)
Definition isAmbiguous (w : tword) : bool := 1 <? length (tags w).

(* tagger_word.cc:347-368: the iterator is the split of the map into [pre] and [rest]; [n] bounds the number of
   erasures (the number of forms is enough: Proofs/TaggerWord.v).  None: the iterator is moved past the end. *)
Fixpoint dloop (p : str) (n : nat) (pre rest : list (nat * str)) (ns : list nat) {struct n} : option (list (nat * str) * list nat) :=
  (fix go (pre rest : list (nat * str)) (ns : list nat) {struct rest} :=
     match rest with
     | [] => Some (pre, ns)
     | x :: r =>
       if mt (snd x) p                                                   (* 352 *)
       then match n with
            | 0 => None
            | S n' =>
              match pre ++ r with                                         (* 354-355 *)
              | [] => None
              | [y] => Some ([y], sins (fst y) ns)                        (* 362-366 *)
              | y :: l => dloop p n' [y] l ns                             (* 367 *)
              end
            end
       else let ns := sins (fst x) ns in                                  (* 359 *)
            match pre ++ rest with
            | [y] => Some ([y], sins (fst y) ns)                          (* 362-366 *)
            | _ => go (pre ++ [x]) r ns                                   (* 367 *)
            end
     end) pre rest ns.
(* tagger_word.cc:342-374: the comparison is with the length of the pattern (the parameter hides the member) *)
Definition discard1 (p : str) (w : tword) : option tword :=
  if isAmbiguous w
  then match dloop p (length (forms w)) [] (forms w) [] with
       | None => None
       | Some (fs, ns) =>
         Some (mktw (sf w) (if negb (length p =? length ns) then ns else tags w) fs (ign w) (cut w) (pcut w))
       end
  else Some w.
(* file_morpho_stream.cc:68-76: all discard rules, if the word is ambiguous *)
Fixpoint discard_all (rules : list str) (w : tword) : option tword :=
  match rules with [] => Some w | p :: r => match discard1 p w with None => None | Some w' => discard_all r w' end end.
Definition discard (rules : list str) (w : tword) : option tword :=
  if isAmbiguous w then discard_all rules w else Some w.
End TW.

(* lexical_forms[t]: an absent element is created empty *)
Definition form_of (t : nat) (w : tword) : str := match mget t (forms w) with Some s => s | None => [] end.
Definition starts_star (s : str) : bool := match s with c :: _ => (c =?c cSTAR) | [] => false end.
(* tagger_word.cc:151-205; gm = generate_marks, si = show_ignored_string, ssf = show_sf; None for t = TAG_kEOF *)
Definition get_lexical_form (gm si ssf : bool) (t : option nat) (w : tword) : str :=
  let r0 := if si then ign w else [] in
  match t with
  | None => r0
  | Some t =>
    let r1 := if pcut w then r0
              else r0 ++ (if gm && isAmbiguous w then [cCARET; cEQ] else [cCARET]) ++ (if ssf then sf w ++ [cSLASH] else []) in
    let r2 := match forms w with
              | [] => r1 ++ cSTAR :: sf w
              | (_, f) :: _ => if starts_star f then r1 ++ cSTAR :: sf w else r1 ++ form_of t w
              end in
    if str_eqb r2 (ign w) then r2 else r2 ++ [if cut w then cPLUS else cDOL]
  end.
(* tagger_word.cc:207-255; line 234 counts the element created by 233 *)
Definition get_all_chosen (gm si : bool) (t : option nat) (w : tword) : str :=
  let r0 := if si then ign w else [] in
  match t with
  | None => r0
  | Some t =>
    let r1 := r0 ++ (if pcut w then [] else if gm && isAmbiguous w then [cCARET; cEQ] else [cCARET]) ++ sf w in
    let nforms := length (forms w) + match mget t (forms w) with None => 1 | _ => 0 end in
    let r2 := match forms w with
              | [] => r1 ++ cSLASH :: cSTAR :: sf w
              | _ => r1 ++ cSLASH :: form_of t w ++
                     (if 1 <? nforms then flat_map (fun x => if x =? t then [] else cSLASH :: form_of x w) (tags w) else [])
              end in
    if str_eqb r2 (ign w) then r2 else r2 ++ [if cut w then cPLUS else cDOL]
  end.
