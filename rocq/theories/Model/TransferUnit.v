(** What apertium-transfer does with one lexical unit (the text of a word token, C31): how a rule gets its source, target and
    reference side, how the unit is matched, and what is printed when no rule matches.
    [None]: the code reads beyond the end of the string.  Strings are suffixes still to be read; iterators that look back
    (it-1), (it-2) are modelled by the characters already read. *)
From Verif Require Import Model.Base.

(** ** the word-bound blank, transfer.cc:1062-1082 and 1290-1306 (identical): everything up to a caret that follows two closing
    brackets; [pre]: the characters read so far, last first *)
Definition after_brackets (pre : str) : bool :=
  match pre with a :: b :: _ => (a =?c cRB) && (b =?c cRB) | _ => false end.
Fixpoint wblank_scan (esc : bool) (s pre wb : str) : option (str * str * str) :=   (* rest, read characters, wblank *)
  match s with
  | [] => None
  | c :: r =>
      if esc then wblank_scan false r (c :: pre) (wb ++ [c])
      else if c =?c cBS then wblank_scan true r (c :: pre) (wb ++ [c])
      else if (c =?c cCARET) && after_brackets pre then Some (r, c :: pre, wb)
      else wblank_scan false r (c :: pre) (wb ++ [c])
  end.
Definition next_is (c : char) (s : str) : bool := match s with d :: _ => d =?c c | [] => false end.   (* at the end: the terminator *)

(** ** the parts as a rule sees them, applyRule 1267-1340 *)
Record parts := mkp { p_sl : str; p_tl : str; p_ref : str; p_wb : str }.
(* 1275-1288 and 1333-1335: append to the part selected by seenSlash *)
Definition push (seen : nat) (p : parts) (x : str) : parts :=
  match seen with
  | 0 => mkp (p_sl p ++ x) (p_tl p) (p_ref p) (p_wb p)
  | 1 => mkp (p_sl p) (p_tl p ++ x) (p_ref p) (p_wb p)
  | _ => mkp (p_sl p) (p_tl p) (p_ref p ++ x) (p_wb p)
  end.
Fixpoint rule_split (fuel : nat) (s pre : str) (seen : nat) (intag : bool) (p : parts) : option parts :=
  match fuel with
  | 0 => None
  | S f =>
    match s with
    | [] => Some p
    | c :: r =>
        if c =?c cBS then
          match r with d :: r' => rule_split f r' (d :: c :: pre) seen intag (push seen p [c; d]) | [] => None end
        else if c =?c cLB then
          if next_is cLB r then
            match wblank_scan false s pre (p_wb p) with
            | Some (r', pre', wb) => rule_split f r' pre' seen intag (mkp (p_sl p) (p_tl p) (p_ref p) wb)
            | None => None
            end
          else rule_split f r (c :: pre) seen intag (push seen p [c])
        else if (c =?c cSLASH) && negb intag then
          rule_split f r (c :: pre) (S seen) intag (mkp (p_sl p) (p_tl p) [] (p_wb p))
        else
          let intag' := if c =?c cLT then true else if c =?c cGT then false else intag in
          rule_split f r (c :: pre) seen intag' (push seen p [c])
    end
  end.
Definition rule_parts (s : str) : option parts := rule_split (S (length s)) s [] 0 false (mkp [] [] [] []).

(** ** the parts for the default translation, 1050-1124 *)
(* 1106-1114: a tag up to its closing character, which is left for 1115 *)
Fixpoint tag_scan (esc : bool) (s pre cur : str) : option (str * str * str) :=
  match s with
  | [] => None
  | c :: r =>
      if esc then tag_scan false r (c :: pre) (cur ++ [c])
      else if c =?c cGT then Some (s, pre, cur)
      else tag_scan (c =?c cBS) r (c :: pre) (cur ++ [c])
  end.
(* 1094-1098 and 1118-1123: the current part is swapped with the one selected by seenSlash *)
Definition swap_part (seen : nat) (p : parts) (cur : str) : parts * str :=
  match seen with
  | 0 => (mkp cur (p_tl p) [] (p_wb p), p_sl p)
  | 1 => (mkp (p_sl p) cur [] (p_wb p), p_tl p)
  | _ => (mkp (p_sl p) (p_tl p) cur (p_wb p), [])
  end.
Fixpoint default_split (fuel : nat) (s pre : str) (seen : nat) (cur : str) (p : parts) : option parts :=
  match fuel with
  | 0 => None
  | S f =>
    match s with
    | [] => Some (match cur with [] => p | _ => fst (swap_part seen p cur) end)
    | c :: r =>
        if c =?c cBS then
          match r with d :: r' => default_split f r' (d :: c :: pre) seen (cur ++ [c; d]) p | [] => None end
        else if c =?c cLB then
          if next_is cLB r then
            match wblank_scan false s pre (p_wb p) with
            | Some (r', pre', wb) => default_split f r' pre' seen cur (mkp (p_sl p) (p_tl p) (p_ref p) wb)
            | None => None
            end
          else default_split f r (c :: pre) seen (cur ++ [c]) p
        else if c =?c cSLASH then
          let (p', cur') := swap_part seen p cur in default_split f r (c :: pre) (S seen) cur' p'
        else if c =?c cLT then
          match tag_scan false s pre cur with
          | Some (c' :: r', pre', cur') => default_split f r' (c' :: pre') seen (cur' ++ [c']) p
          | _ => None
          end
        else default_split f r (c :: pre) seen (cur ++ [c]) p
    end
  end.
Definition default_parts (s : str) : option parts := default_split (S (length s)) s [] 0 [] (mkp [] [] [] []).

(** ** printing, 1136-1149; [chunk]: the rule file has default="chunk" (defaultAttrs) *)
Definition default_print (chunk : bool) (tr wb : str) : str :=
  match tr with
  | [] => []
  | c :: r =>
      if chunk then
        (if c =?c cSTAR then [cCARET; 117; 110; 107; 110; 111; 119; 110; cLT; 117; 110; 107; 110; 111; 119; 110; cGT; cLC]%N   (* ^unknown<unknown>{ *)
         else [cCARET; 100; 101; 102; 97; 117; 108; 116; cLT; 100; 101; 102; 97; 117; 108; 116; cGT; cLC]%N)                  (* ^default<default>{ *)
        ++ wb ++ cCARET :: tr ++ [cDOL; cRC; cDOL]
      else (if (c =?c cLB) && next_is cLB r then [] else wb ++ [cCARET]) ++ tr ++ [cDOL]
  end.
(** where the translation comes from, 1033-1134: [bil], [ext]: biltransWithQueue of the dictionaries (lttoolbox) *)
Inductive bmode := FromBilingual | NoBilingual | Bilingual (bil : str -> str) (ext : option (str -> str)).
Definition default_translation (m : bmode) (w : str) : option (str * str) :=
  match m with
  | FromBilingual => match default_parts w with Some p => Some (p_tl p, p_wb p) | None => None end
  | NoBilingual => Some (w, [])
  | Bilingual bil ext =>
      match ext, w with
      | Some e, c :: w' => if c =?c cSTAR then
            Some (match e w' with d :: t => if d =?c cAT then cSTAR :: t else 37%N :: d :: t | [] => [37%N] end, [])
          else Some (bil w, [])
      | _, _ => Some (bil w, [])
      end
  end.
Definition default_out (m : bmode) (chunk : bool) (w : str) : option str :=
  match default_translation m w with Some (tr, wb) => Some (default_print chunk tr wb) | None => None end.

(** ** the symbols fed to the pattern matcher, applyWord 1371-1442.  [lower]: u_tolower; a tag steps its symbol if the alphabet
    has it, or any_tag otherwise: both written [MTag]; [MMark]: the boundaries of a word, which have no any_char alternative; the
    character 0 is what operator[] gives at the end. *)
Inductive msym := MMark (c : char) | MChar (c : char) | MTag (t : str).
Fixpoint find_gt (s acc : str) : option (str * str) :=          (* the tag, the rest *)
  match s with
  | [] => None
  | c :: r => if c =?c cGT then Some (acc ++ [c], r) else find_gt r (acc ++ [c])
  end.
(* 1391-1408; [i]: position; the caret is only looked for from position 4 on *)
Fixpoint wblank_skip (esc : bool) (s pre : str) : option (str * str) :=
  match s with
  | [] => None
  | c :: r =>
      if esc then wblank_skip false r (c :: pre)
      else if c =?c cBS then wblank_skip true r (c :: pre)
      else if (4 <=? length pre) && (c =?c cCARET) && after_brackets pre then Some (r, c :: pre)
      else wblank_skip false r (c :: pre)
  end.
Section Match.
Variable lower : char -> char.
Fixpoint match_syms (fuel : nat) (s pre : str) : option (list msym) :=
  match fuel with
  | 0 => None
  | S f =>
    match s with
    | [] => Some []
    | c :: r =>
        if c =?c cBS then
          match r with
          | d :: r' => option_map (cons (MChar (lower d))) (match_syms f r' (d :: c :: pre))
          | [] => Some [MChar (lower cNUL)]
          end
        else if c =?c cLB then
          if next_is cLB r then
            match wblank_skip false s pre with Some (r', pre') => match_syms f r' pre' | None => None end
          else option_map (cons (MChar (lower c))) (match_syms f r (c :: pre))
        else if c =?c cSLASH then Some []
        else if c =?c cLT then
          match find_gt r [c] with
          | Some (t, r') => option_map (cons (MTag t)) (match_syms f r' (rev t ++ pre))
          | None => match_syms f r (c :: pre)
          end
        else option_map (cons (MChar (lower c))) (match_syms f r (c :: pre))
    end
  end.
Definition apply_word (s : str) : option (list msym) :=
  option_map (fun l => MMark cCARET :: l ++ [MMark cDOL]) (match_syms (S (length s)) s []).
End Match.
