(** apertium-tmxbuild: cutting the two documents into sentences, aligning them, writing the TMX.
    File: apertium/tmx_builder.cc.  The options of the program (percent, edit distance, window ...)
    only set fields that no live code reads: similar, editDistance, levenshteinTable, printTUCond,
    extractFragment, reverseList, argmin, weight and printTable are called by the commented-out
    part of outputTU (or by each other) only, check and compatible by nothing.
    [None]: the program ends (exception). *)
From Coq Require Import QArith String.
From Verif Require Import Model.Base Model.TmxAlign.
Open Scope N_scope.

(** ** Characters *)
(** [UString += UChar32]: the code unit is cut to 16 bits. *)
Definition u16 (c : char) : char := c mod 65536.
(** UTF-8 of a code unit (ICU converter of u_fprintf; code units that are not surrogates). *)
Definition utf8_char (c : char) : str :=
  if c <? 128 then [c]
  else if c <? 2048 then [192 + c / 64; 128 + c mod 64]
  else [224 + c / 4096; 128 + (c / 64) mod 64; 128 + c mod 64].
Definition utf8 (s : str) : str := flat_map utf8_char s.
(** InputFile::get's decoding, for text written by [utf8] (sequences of up to three bytes). *)
Fixpoint utf8_decode (s : str) : str :=
  match s with
  | [] => []
  | a :: s1 =>
      if a <? 128 then a :: utf8_decode s1
      else match s1 with
           | [] => []
           | b :: s2 =>
               if a <? 224 then ((a - 192) * 64 + (b - 128)) :: utf8_decode s2
               else match s2 with
                    | [] => []
                    | c :: s3 => ((a - 224) * 4096 + (b - 128) * 64 + (c - 128)) :: utf8_decode s3
                    end
           end
  end.
(** [%S] of [c_str()]: up to the first NUL *)
Definition c_str (s : str) : str := take_while (fun c => negb (c =? 0)) s.

Section Build.
(** ICU's character classes outside ASCII *)
Variables other_alpha other_digit other_space other_punct : char -> bool.

Definition in_range (a b c : char) : bool := (a <=? c) && (c <=? b).
Definition u_isalpha (c : char) : bool :=
  if c <? 128 then in_range 65 90 c || in_range 97 122 c else other_alpha c.
Definition u_isalnum (c : char) : bool :=
  if c <? 128 then u_isalpha c || in_range 48 57 c else other_alpha c || other_digit c.
Definition u_isspace (c : char) : bool :=
  if c <? 128 then in_range 9 13 c || in_range 28 32 c else other_space c.
(** categories P*: not $ + < = > ^ ` | ~ *)
Definition u_ispunct (c : char) : bool :=
  if c <? 128 then in_range 33 35 c || in_range 37 42 c || in_range 44 47 c || in_range 58 59 c
                   || in_range 63 64 c || in_range 91 93 c || (c =? 95) || (c =? 123) || (c =? 125)
  else other_punct c.

(** ** Sentences *)
(** tmx_builder.cc 61-70: restOfBlank after '['.  readBlock (lttoolbox) reads up to the next ']'
    that is not escaped; a block that does not end ends the program (readBlock itself, or the
    [substr(size-2)] of an empty string in nextTU).  Result without the opening '['. *)
Fixpoint restOfBlank (s : str) : option (str * str) :=
  match s with
  | [] => None
  | c :: s' =>
      if c =? cBS then
        match s' with
        | [] => None
        | d :: s'' => do r <- restOfBlank s''; let (b, x) := r : str * str in Some (c :: d :: b, x)
        end
      else if c =? cRB then Some ([c], s')
      else do r <- restOfBlank s'; let (b, x) := r : str * str in Some (c :: b, x)
  end.

(** tmx_builder.cc 151-218: nextTU.  Returns the text, what is left, and whether the end of the
    input was met.  [fuel]: every round consumes a character. *)
Fixpoint nextTU (fuel : nat) (s : str) (cur : str) : option (str * str * bool) :=
  match fuel with
  | O => None
  | S f =>
      match s with
      | [] => Some (cur, [], true)
      | c :: s' =>
          if c =? cBS then
            match s' with
            | [] => Some (cur, [], true)
            | d :: s'' => nextTU f s'' (cur ++ [u16 d])
            end
          else if c =? cLB then
            do r <- restOfBlank s';
            let (b, x) := r : str * str in
            let tmp := c :: b in
            let cur := if str_eqb (firstn 2 tmp) [cLB; cSP] then cur ++ [cSP] else cur in
            let cur := cur ++ u "<ph/>" in
            let cur := if str_eqb (skipn (length tmp - 2) tmp) [cSP; cRB] then cur ++ [cSP] else cur in
            nextTU f x cur
          else if c =? cDOT then
            let cur := cur ++ [cDOT] in
            match s' with
            | [] => nextTU f [] cur
            | d :: _ => if negb (d =? cLB) && negb (u_isspace d) then nextTU f s' cur
                        else Some (cur, s', false)
            end
          else if (c =? cQM) || (c =? 33) then Some (cur ++ [u16 c], s', false)
          else nextTU f s' (cur ++ [u16 c])
      end
  end.

(** tmx_builder.cc 359-374: sentenceList: what is read when the end is met is dropped. *)
Fixpoint sentenceList (fuel : nat) (s : str) : option (list str) :=
  match fuel with
  | O => None
  | S f =>
      do r <- nextTU (length s + 2) s [];
      let '(t, s', e) := r : str * str * bool in
      if e then Some [] else do l <- sentenceList f s'; Some (t :: l)
  end.

(** tmx_builder.cc 456-465: splitAndMove: the contents of the temporary file *)
Definition splitAndMove (s : str) : option str :=
  do l <- sentenceList (length s + 1) s;
  Some (utf8 (concat (map (fun t => c_str t ++ [cNL]) l))).

(** ** Segments *)
Definition starts (p s : str) : bool := str_eqb (firstn (length p) s) p.

(** tmx_builder.cc 225-254: the escaping loop of xmlize *)
Fixpoint escape (fuel : nat) (s : str) : str :=
  match fuel with
  | O => []
  | S f =>
      match s with
      | [] => []
      | c :: s' =>
          if c =? cLT then
            if starts (u "<ph/>") s then u "<ph/>" ++ escape f (skipn 4 s')
            else u "&lt;" ++ escape f s'
          else if c =? cGT then u "&gt;" ++ escape f s'
          else if c =? 38 then u "&amp;" ++ escape f s'
          else c :: escape f s'
      end
  end.

Definition junk (c : char) : bool := negb (u_isalnum c) && negb (u_ispunct c).

(** tmx_builder.cc 261-265 *)
Fixpoint drop_ph (fuel : nat) (s : str) : str :=
  match fuel with
  | O => s
  | S f => if starts (u "<ph/>") s then drop_ph f (skipn 5 s) else s
  end.
(** tmx_builder.cc 258-272: leading placeholders and blanks *)
Fixpoint lead_loop (fuel : nat) (s : str) : str :=
  match fuel with
  | O => s
  | S f =>
      let s1 := drop_ph (length s) s in
      let s2 := drop_while junk s1 in
      if Nat.eqb (length s2) (length s) then s2 else lead_loop f s2
  end.
(** tmx_builder.cc 279-283, on the reversed string *)
Fixpoint drop_ph_back (fuel : nat) (r : str) : str :=
  match fuel with
  | O => r
  | S f => if Nat.ltb 5 (length r) && starts (rev (u "<ph/>")) r then drop_ph_back f (skipn 5 r) else r
  end.
(** tmx_builder.cc 275-289: trailing ones, on the reversed string *)
Fixpoint trail_loop (fuel : nat) (r : str) : str :=
  match fuel with
  | O => r
  | S f =>
      let r1 := drop_ph_back (length r) r in
      let r2 := drop_while junk r1 in
      if Nat.eqb (length r2) (length r) then r2 else trail_loop f r2
  end.
(** tmx_builder.cc 294-301: the for loop, on the reversed string: what is left if it breaks *)
Fixpoint last_nondot (r : str) : option str :=
  match r with
  | [] => None
  | [_] => None
  | c :: r' => if c =? cDOT then last_nondot r' else Some r
  end.
(** tmx_builder.cc 220-309: xmlize *)
Definition xmlize (s : str) : str :=
  let r := escape (length s) s in
  let r := lead_loop (length r + 1) r in
  let b := rev r in
  let b := trail_loop (length b + 1) b in
  let b := match last_nondot b with Some b' => b' | None => b end in
  rev (drop_while (fun c => c =? cDOT) b).

(** tmx_builder.cc 727-753: filter *)
Definition filter (s : str) : str :=
  let step (st : bool * nat) c :=
    let (has, n) := st in
    if u_isalpha c then (true, n) else if has && u_isspace c then (has, S n) else (has, n) in
  let (has, n) := fold_left step s (false, O) in
  if negb has || Nat.leb n 2 || Nat.eqb (length s) 0 then [] else xmlize s.

(** ** Output *)
Variables lang1 lang2 : str.

(** tmx_builder.cc 755-769: printTU *)
Definition printTU (a b : str) : str :=
  let fa := filter a in
  let fb := filter b in
  match fa, fb with
  | [], _ :: _ =>
      u "<tu>" ++ [cNL] ++ u "  <tuv xml:lang=" ++ [34] ++ c_str lang1 ++ [34] ++ u "><seg>"
      ++ c_str fa ++ u "</seg></tuv>" ++ [cNL]
      ++ u "  <tuv xml:lang=" ++ [34] ++ c_str lang2 ++ [34] ++ u "><seg>"
      ++ c_str fb ++ u "</seg></tuv>" ++ [cNL] ++ u "</tu>" ++ [cNL]
  | _, _ => []
  end.

(** tmx_builder.cc 490-516: the loop over the aligned file.  State: conta, the two parts; at the
    end one more character (the end-of-file value) is handled, without effect on the output. *)
Fixpoint read_aligned (s : str) (conta : nat) (p0 p1 : str) : str :=
  match s with
  | [] => []
  | c :: s' =>
      let '(out, conta, p0, p1) :=
        if c =? cTAB then ([], S conta, p0, p1)
        else if c =? cNL then
          (match p0, p1 with _ :: _, _ :: _ => printTU p0 p1 | _, _ => [] end, O, [], [])
        else ([], conta, p0, p1) in
      out ++ match conta with
             | O => read_aligned s' conta (p0 ++ [u16 c]) p1
             | S O => read_aligned s' conta p0 (p1 ++ [u16 c])
             | _ => read_aligned s' conta p0 p1
             end
  end.

(** tmx_builder.cc 467-521: outputTU *)
Variable ln : Q -> Q.
Variable show : Q -> str.
Variable thr : Q.
Definition outputTU (f1 f2 : str) : option str :=
  do fl <- splitAndMove f1;
  do fr <- splitAndMove f2;
  do out <- alignerToolWithFilenames ln show thr fl fr;
  Some (read_aligned (utf8_decode out) 0 [] []).

(** tmx_builder.cc 411-428: generateTMX; the creationtoolversion is a parameter. *)
Variable version : str.
Definition generateTMX (f1 f2 : str) : option str :=
  do body <- outputTU f1 f2;
  let q := [34] in
  Some (u "<?xml version=" ++ q ++ u "1.0" ++ q ++ u "?>" ++ [cNL]
        ++ u "<tmx version=" ++ q ++ u "1.4" ++ q ++ u ">" ++ [cNL]
        ++ u "<header creationtool=" ++ q ++ u "Apertium TMX Builder" ++ q ++ [cNL]
        ++ u "        creationtoolversion=" ++ q ++ version ++ q ++ [cNL]
        ++ u "        segtype=" ++ q ++ u "sentence" ++ q ++ [cNL]
        ++ u "        srclang=" ++ q ++ c_str lang1 ++ q ++ [cNL]
        ++ u "        adminlang=" ++ q ++ c_str lang2 ++ q ++ [cNL]
        ++ u "        datatype=" ++ q ++ u "plaintext" ++ q ++ [cNL]
        ++ u "        o-tmf=" ++ q ++ u "none" ++ q ++ u ">" ++ [cNL]
        ++ u "</header>" ++ [cNL] ++ u "<body>" ++ [cNL]
        ++ body ++ u "</body>" ++ [cNL] ++ u "</tmx>" ++ [cNL]).
End Build.
