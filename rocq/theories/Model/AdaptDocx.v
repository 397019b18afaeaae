(** apertium-adapt-docx (apertium/adapt_docx.cc): moving the boundaries of text runs to the ends of words.
    Simplifications: characters are code points (the program works on UTF-8, where the end of a run is the end of a character);
    libxml's tree is an inductive type with the attribute xml:space and without the others, which the program does not touch;
    comments, CDATA sections and so on are [Other].  Paragraphs inside paragraphs are processed before the outer one, in the program after it:
    neither looks at what the other changes.  u_isalpha is a parameter.  Memory is not modelled. *)
From Coq Require Import String.
From Verif Require Import Model.Base.
Open Scope nat_scope.

Inductive node := Elem (name : str) (space : option bool) (kids : list node) | Text (s : str) | Other (s : str).
Definition is_el (name : string) (n : node) : bool := match n with Elem m _ _ => str_eqb m (u name) | _ => false end.     (* Walker::match, 90-93 *)

Section D.
Variable alpha : char -> bool.

(** ** findBoundary, 254-308 *)
Definition cMID : char := 183%N.                                     (* 0xB7 *)
Definition is_l (c : char) : bool := (c =? 76)%N || (c =? 108)%N.     (* L, l *)
(* 271-306: from the character at position [pos]; c2 and c1 are the two before it *)
Fixpoint fb_loop (c2 c1 : char) (rest : str) (pos : nat) : nat :=
  match rest with
  | [] => pos
  | cur :: r =>
      let '(advance, expectAlpha, expectL) :=
        if alpha c1 && alpha cur then (true, false, false)
        else if alpha c2 && (c1 =?c cDASH) then (alpha cur, false, false)
        else if alpha c1 && (cur =?c cDASH) then (false, true, false)
        else if is_l c2 && (c1 =?c cMID) then (is_l cur, false, false)
        else if is_l c1 && (cur =?c cMID) then (false, false, true)
        else (false, false, false) in
      if advance || expectAlpha || expectL then
        match r with
        | [] => S pos                                                 (* 289: textEnd *)
        | nxt :: _ => if expectAlpha && negb (alpha nxt) then pos      (* 293-296 *)
                      else if expectL && negb (is_l nxt) then pos      (* 297-300 *)
                      else fb_loop c1 cur r (S pos)
        end
      else pos
  end.
Definition findBoundary (t : str) (begin : nat) : nat :=
  if (begin =? 0) || (length t <=? begin) then begin
  else match rev (firstn begin t) with
       | [] => begin
       | c1 :: r => fb_loop (match r with c2 :: _ => c2 | [] => 0%N end) c1 (skipn begin t) begin
       end.

(** ** adjust, 312-363 *)
Fixpoint set_nth (i v : nat) (l : list nat) : list nat :=
  match l, i with [], _ => [] | _ :: r, 0 => v :: r | x :: r, S j => x :: set_nth j v r end.
Notation at_ l i := (nth i l 0).
Record ast := mkast { a_len : list nat; a_right : nat; a_end : nat }.
(* 331-345; the fuel bounds the rounds, n = runs.size() *)
Fixpoint move (fuel n left toMove : nat) (s : ast) : ast :=
  match fuel with
  | 0 => s
  | S fuel =>
      if (0 <? toMove) && (a_right s <? n) then
        let r := at_ (a_len s) (a_right s) in
        if r <=? toMove
        then move fuel n left (toMove - r)
               (mkast (set_nth (a_right s) 0 (set_nth left (at_ (a_len s) left + r) (a_len s))) (S (a_right s)) (a_end s + r))
        else mkast (set_nth (a_right s) (r - toMove) (set_nth left (at_ (a_len s) left + toMove) (a_len s))) (a_right s) (a_end s + toMove)
      else s
  end.
(* 319-349; None: out of fuel *)
Fixpoint adj_loop (fuel n : nat) (join : str) (left : nat) (s : ast) (changes : bool) : option (list nat * bool) :=
  match fuel with
  | 0 => None
  | S fuel =>
      if a_right s <? n then
        if left =? a_right s then adj_loop fuel n join left (mkast (a_len s) (S (a_right s)) (a_end s)) changes
        else if at_ (a_len s) left =? 0
        then adj_loop fuel n join (S left) (mkast (a_len s) (a_right s) (a_end s + at_ (a_len s) (S left))) changes
        else
          let toMove := findBoundary join (a_end s) - a_end s in
          let s' := move (S n) n left toMove s in
          adj_loop fuel n join (S left) (mkast (a_len s') (a_right s') (a_end s' + at_ (a_len s') (S left))) (changes || (0 <? toMove))
      else Some (a_len s, changes)
  end.
(* 351-362: join.substr(begin, lengths[i]), one after the other *)
Fixpoint cut_up (lens : list nat) (join : str) : list str :=
  match lens with [] => [] | k :: r => firstn k join :: cut_up r (skipn k join) end.
Definition adjust (texts : list str) : option (list str) :=             (* None: nothing is changed *)
  match texts with
  | [] | [_] => None                                                    (* 314-315; 376-377: not called without runs *)
  | _ =>
      let lens := map (@length char) texts in
      let join := concat texts in
      match adj_loop (2 * length texts + 1) (length texts) join 0 (mkast lens 1 (nth 0 lens 0)) false with
      | Some (l, true) => Some (cut_up l join)
      | _ => None
      end
  end.

(** ** Text runs, 162-204 *)
Definition eff (i : bool) (sp : option bool) : bool := match sp with Some b => b | None => i end.      (* xmlNodeGetSpacePreserve = 1, i: of the parent *)
Fixpoint drop_sp (s : str) : str := match s with c :: r => if c =?c cSP then drop_sp r else s | [] => [] end.
Definition trim (s : str) : str := rev (drop_sp (rev (drop_sp s))).     (* 181-189 *)
Definition piece (keep : bool) (n : node) : str := match n with Text s => if keep then s else trim s | _ => [] end.    (* 174-190 *)
Definition run_text (i : bool) (n : node) : option str :=
  match n with
  | Elem m sp ks =>
      if str_eqb m (u "r"%string) then                                   (* 219 *)
        match filter (is_el "t"%string) ks with
        | [Elem _ spt tk] => Some (flat_map (piece (eff (eff i sp) spt)) tk)
        | _ => None
        end
      else None
  | _ => None
  end.
(* setText, 197-201 *)
Definition set_t (s : str) (n : node) : node :=
  if is_el "t"%string n then
    match n with
    | Elem m _ (_ :: tk) => Elem m (Some ((hd 0%N s =?c cSP) || (last s 0%N =?c cSP))) (Text s :: tk)
    | Elem m _ [] => Elem m (Some ((hd 0%N s =?c cSP) || (last s 0%N =?c cSP))) []
    | x => x
    end
  else n.
Definition set_text (s : str) (n : node) : node := match n with Elem m sp ks => Elem m sp (map (set_t s) ks) | x => x end.
(** ** One paragraph, 215-230 and 369-391 *)
Fixpoint texts (i : bool) (kids : list node) : list str :=
  match kids with [] => [] | n :: r => match run_text i n with Some s => s :: texts i r | None => texts i r end end.
Fixpoint rewrite_runs (i : bool) (kids : list node) (pieces : list str) : list node :=
  match kids with
  | [] => []
  | n :: r =>
      match run_text i n with
      | None => n :: rewrite_runs i r pieces
      | Some _ => match pieces with
                  | [] => n :: rewrite_runs i r []
                  | [] :: ps => rewrite_runs i r ps                       (* 355: remove *)
                  | s :: ps => set_text s n :: rewrite_runs i r ps
                  end
      end
  end.
Definition para (i : bool) (kids : list node) : list node :=
  match adjust (texts i kids) with None => kids | Some ps => rewrite_runs i kids ps end.
(** ** The document, 366-394 *)
Fixpoint proc (i : bool) (n : node) : node :=
  match n with
  | Elem m sp ks =>
      let ks := map (proc (eff i sp)) ks in
      Elem m sp (if str_eqb m (u "p"%string) then para (eff i sp) ks else ks)
  | x => x
  end.
Definition process (root : node) : node := proc false root.
End D.

(** ** Printing the serialised document, 396-404 and 418-427 (not pretty) *)
Definition nl (c : char) : bool := (c =? 10)%N || (c =? 13)%N.
Fixpoint until_nl (s : str) : str * str := match s with [] => ([], []) | c :: r => if nl c then ([], s) else let '(a, b) := until_nl r in (c :: a, b) end.
Fixpoint skip_nl (s : str) : str := match s with c :: r => if nl c then skip_nl r else s | [] => [] end.
Definition print_line (s : str) : str * str := let '(a, b) := until_nl s in (a ++ [cSP], skip_nl b).
Fixpoint print_rest (fuel : nat) (s : str) : str :=
  match fuel with
  | 0 => []
  | S fuel => let '(a, b) := print_line s in match b with [] => a | _ => a ++ print_rest fuel b end
  end.
Definition print (name : option str) (dump : str) : str :=
  (match name with Some f => u "<file name="%string ++ [34%N] ++ f ++ [34%N] ++ u "/> "%string | None => [] end) ++
  let '(a, b) := print_line dump in a ++ print_rest (S (length b)) b ++ [cNL].
