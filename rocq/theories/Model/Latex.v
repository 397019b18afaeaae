(** apertium-prelatex, apertium-postlatex-raw, apertium-postlatex (the .l files of these names) and AccentsMap (latex_accentsmap.cc): LaTeX to tags and back.
    Characters are bytes; non-ASCII letters are written as UTF-8.  A flex rule is a sequence of character classes, with +, * and ?, an alternative being written as two rules;
    every class that can repeat excludes what follows it, so that taking as much as possible is the longest match.  The generated scanner is replaced by what it does:
    the longest match, of rules with equally long ones the first; the state that BEGIN sets.  A match of length 0 is possible (219) and the scanner then goes on for ever.
    Not modelled: the command line, and accents whose letter is not ASCII (to_ustring sees half a character). *)
From Coq Require Import String.
From Verif Require Import Model.Base.
Open Scope nat_scope.

(** ** AccentsMap *)
(* init_camap, 47-106: the character and its LaTeX form without the backslash *)
Definition camap : list (str * str) :=
  ([([195; 160], [96; 97]); ([195; 168], [96; 101]); ([195; 172], [96; 92; 105]); ([195; 178], [96; 111]); ([195; 185], [96; 117]); ([225; 187; 179], [96; 121]);
   ([195; 128], [96; 65]); ([195; 136], [96; 69]); ([195; 140], [96; 73]); ([195; 146], [96; 79]); ([195; 153], [96; 85]); ([225; 187; 178], [96; 89]);
   ([195; 161], [39; 97]); ([195; 169], [39; 101]); ([195; 173], [39; 92; 105]); ([195; 179], [39; 111]); ([195; 186], [39; 117]); ([195; 189], [39; 121]);
   ([195; 129], [39; 65]); ([195; 137], [39; 69]); ([195; 141], [39; 73]); ([195; 147], [39; 79]); ([195; 154], [39; 85]); ([195; 157], [39; 89]);
   ([195; 162], [94; 97]); ([195; 170], [94; 101]); ([195; 174], [94; 92; 105]); ([195; 180], [94; 111]); ([195; 187], [94; 117]); ([197; 183], [94; 121]);
   ([195; 130], [94; 65]); ([195; 138], [94; 69]); ([195; 142], [94; 73]); ([195; 148], [94; 79]); ([195; 155], [94; 85]); ([197; 182], [94; 89]);
   ([195; 164], [34; 97]); ([195; 171], [34; 101]); ([195; 175], [34; 92; 105]); ([195; 182], [34; 111]); ([195; 188], [34; 117]); ([195; 191], [34; 121]);
   ([195; 132], [34; 65]); ([195; 139], [34; 69]); ([195; 143], [34; 73]); ([195; 150], [34; 79]); ([195; 156], [34; 85]); ([197; 184], [34; 89]);
   ([195; 177], [126; 110]); ([195; 145], [126; 78]); ([195; 167], [99; 99]); ([195; 135], [99; 67])])%N.
Fixpoint look (k : str) (m : list (str * str)) : option str :=
  match m with [] => None | (a, b) :: r => if str_eqb a k then Some b else look k r end.
(* init_acmap, 36-45: both ways; no two characters share a form and no form is a character *)
Definition accent (key : str) : option str :=
  match look key (map (fun p => (snd p, fst p)) camap) with Some c => Some c | None => look key camap end.

(** ** Rules *)
Inductive pat := One (p : char -> bool) | Plus (p : char -> bool) | Star (p : char -> bool) | Opt (p : char -> bool).
Definition lit (s : str) : list pat := map (fun c => One (fun d => d =?c c)) s.
Fixpoint span (p : char -> bool) (s : str) : nat := match s with c :: r => if p c then S (span p r) else 0 | [] => 0 end.
(* the length of the match at the start of the text *)
Fixpoint mt (ps : list pat) (s : str) : option nat :=
  match ps with
  | [] => Some 0
  | One p :: ps => match s with c :: r => if p c then option_map S (mt ps r) else None | [] => None end
  | Plus p :: ps => let n := span p s in if n =? 0 then None else option_map (Nat.add n) (mt ps (skipn n s))
  | Star p :: ps => let n := span p s in option_map (Nat.add n) (mt ps (skipn n s))
  | Opt p :: ps => match s with c :: r => if p c then option_map S (mt ps r) else mt ps s | [] => mt ps s end
  end.
Inductive cond := INITIAL | mathenv | readbrackets.
Definition cond_eqb (a b : cond) : bool := match a, b with INITIAL, INITIAL | mathenv, mathenv | readbrackets, readbrackets => true | _, _ => false end.
(* start condition; closesym, in postlatex symbuf; ngermanbabel *)
Record st := mkst { s_cond : cond; s_close : str; s_german : bool }.
Definition init : st := mkst INITIAL [] false.
Definition begin_ (c : cond) (s : st) : st := mkst c (s_close s) (s_german s).
Record rule := R { r_cond : cond; r_pat : list pat; r_act : st -> str -> option (str * st) }.
Definition put (o : str) : st -> str -> option (str * st) := fun s _ => Some (o, s).
Definition act (f : str -> str) : st -> str -> option (str * st) := fun s t => Some (f t, s).
Definition go (c : cond) (o : str) : st -> str -> option (str * st) := fun s _ => Some (o, begin_ c s).
(* fputs(yytext): up to a NUL *)
Fixpoint until_nul (t : str) : str := match t with c :: r => if c =?c cNUL then [] else c :: until_nul r | [] => [] end.
(* yytext from a on, without the last b *)
Definition cut (a b : nat) (t : str) : str := skipn a (firstn (length t - b) t).

(** *** apertium-prelatex.l *)
Definition is (s : string) (c : char) : bool := mem c (u s).
Definition non (s : string) (c : char) : bool := negb (mem c (u s)).
Definition eqc (n : N) (c : char) : bool := c =?c n.
Definition letter (c : char) : bool := ((65 <=? c) && (c <=? 90) || (97 <=? c) && (c <=? 122))%N.
Definition digit (c : char) : bool := ((48 <=? c) && (c <=? 57))%N.
Definition alnum (c : char) : bool := letter c || digit c.
Definition dot (c : char) : bool := negb (c =?c cNL).
Definition any (c : char) : bool := true.
Definition wsp (c : char) : bool := mem c [32; 10; 13; 9]%N.
Definition BS : list pat := [One (eqc 92)].                            (* \ *)
Definition accs : char -> bool := fun c => mem c (u "`'^H~ck=b.druv"%string) || (c =?c 34)%N.         (* 159; 34 is the double quote *)
Definition umlauts : list (char * str) := [(111, [195; 182]); (79, [195; 150]); (97, [195; 164]); (65, [195; 132]); (117, [195; 188]); (85, [195; 156]); (115, [195; 159]); (83, [195; 159])]%N.
Fixpoint lookc {A} (k : char) (m : list (char * A)) : option A := match m with [] => None | (a, b) :: r => if a =?c k then Some b else lookc k r end.
Definition nth_c (t : str) (i : nat) : char := nth i t 0%N.
(* 84-110: yytext[4] is the i or j only in the form with braces; it is 0 otherwise *)
Definition dotless (t : str) : str :=
  let i := (nth_c t 4 =? 105)%N in
  let m := nth_c t 1 in
  if (m =? 94)%N then (if i then [195; 174] else [196; 181])%N
  else if (m =? 34)%N then (if i then [195; 175] else [106])%N
  else if (m =? 39)%N then (if i then [195; 173] else [106])%N
  else (if i then [195; 172] else [107])%N.
Definition ligatures : list (str * str) :=
  [(u "{\oe}", [197; 147]%N); (u "{\OE}", [197; 146]%N); (u "{\ae}", [195; 166]%N); (u "{\AE}", [195; 134]%N); (u "{\aa}", [195; 165]%N); (u "{\AA}", [195; 133]%N);
   (u "{\o}", [195; 184]%N); (u "{\O}", [195; 152]%N); (u "{\ss}", [195; 159]%N)]%string.                                            (* 113-147 *)
(* 159-173 *)
Definition accent_act : st -> str -> option (str * st) := fun s t =>
  if forallb (fun c => (c <? 128)%N) t then
    let key := [nth_c t 1; if length t =? 3 then nth_c t 2 else nth_c t 3] in
    match accent key with
    | Some o => Some (o, s)
    | None => Some (u "<"%string ++ skipn 1 t ++ u "/>"%string, s)
    end
  else None.
Definition is_cr (t : str) : bool := match rev t with c :: _ => (c =? 13)%N | [] => false end.
(* 179-188 *)
Definition comment_act (t : str) : str :=
  if is_cr t then u "<COMMENT>"%string ++ cut 1 1 t ++ u "</COMMENT>"%string ++ [13%N] else u "<COMMENT>"%string ++ skipn 1 t ++ u "</COMMENT>"%string.
Fixpoint contains (sub s : str) : bool := str_eqb (firstn (length sub) s) sub || match s with [] => false | _ :: r => contains sub r end.
(* 190-199: yyleng counts bytes, substr units, so that a character of several bytes keeps the bracket *)
Definition package_act : st -> str -> option (str * st) := fun s t =>
  let w := if forallb (fun c => (c <? 128)%N) t then cut 12 1 t else skipn 12 t in
  Some (u "<usepackage/><PARAM>"%string ++ w ++ u "</PARAM>"%string, mkst (s_cond s) (s_close s) (s_german s || contains (u "ngerman"%string) w)).
(* 222-225, 245-249: the first brace is taken out *)
Fixpoint drop_first (c : char) (t : str) : str := match t with d :: r => if d =?c c then r else d :: drop_first c r | [] => [] end.
Definition verb_rule (d : N) : rule := R INITIAL (lit (u "\verb"%string) ++ [One (eqc d); Plus (fun c => negb (c =?c d)); One (eqc d)])
  (act (fun t => u "<VERB>"%string ++ skipn 5 t ++ u "</VERB>"%string)).
Definition pre : list rule :=
  [R INITIAL (lit (u "\t{"%string) ++ [One dot; One dot; One (eqc 125)]) (act (cut 3 1));                                   (* 58 *)
   R INITIAL (lit (u "\l"%string)) (put [197; 130]%N);                                                                     (* 61 *)
   R INITIAL [One (eqc 34); One (is "oOaAuUsS"%string)]
     (fun s t => if s_german s then Some (match lookc (nth_c t 1) umlauts with Some o => o | None => [] end, s) else Some (until_nul t, s));       (* 65-80 *)
   R INITIAL (BS ++ [One (fun c => is "^'`"%string c || eqc 34 c)] ++ lit (u "{\"%string) ++ [One (is "ij"%string); One (eqc 125)]) (act dotless);        (* 84 *)
   R INITIAL (BS ++ [One (fun c => is "^'`"%string c || eqc 34 c)] ++ BS ++ [One (is "ij"%string)]) (act dotless)]
  ++ map (fun p => R INITIAL (lit (fst p)) (put (snd p))) ligatures ++
  [R INITIAL (lit (u "\#"%string) ++ [Plus digit]) (act (fun t => u "<HASH_"%string ++ skipn 2 t ++ u "/>"%string));        (* 149 *)
   R INITIAL (lit (u "\#"%string)) (put (u "<HASH/>"%string));                                                             (* 155 *)
   R INITIAL (BS ++ [One accs] ++ [One (eqc 123); One dot; One (eqc 125)]) accent_act;                                     (* 159 *)
   R INITIAL (BS ++ [One accs; One dot]) accent_act;
   R INITIAL (lit (u "\\"%string)) (put (u "<BR/>"%string));                                                               (* 175 *)
   R INITIAL (lit (u "%"%string) ++ [Star dot]) (act comment_act);                                                         (* 179 *)
   R INITIAL (lit (u "\usepackage["%string) ++ [Star (fun c => negb (c =?c 93%N)); One (eqc 93)]) package_act;              (* 190 *)
   R INITIAL (lit (u "["%string) ++ [Star (fun c => negb (c =?c 93%N)); One (eqc 93)]) (act (fun t => u "<PARAM>"%string ++ cut 1 1 t ++ u "</PARAM>"%string));    (* 201 *)
   R INITIAL (lit (u "\begin"%string) ++ [One (fun c => negb (alnum c || (c =?c cUND)))]) (fun s _ => Some ([], mkst readbrackets [] (s_german s)));          (* 207 *)
   R INITIAL (lit (u "\end"%string) ++ [One (fun c => negb (alnum c || (c =?c cUND)))]) (fun s _ => Some ([], mkst readbrackets (u "/"%string) (s_german s)));   (* 212 *)
   R readbrackets [Star wsp; Opt (eqc 123); Star wsp] (act (drop_first 123%N));                                             (* 219 *)
   R readbrackets [Plus alnum; One (eqc 42)] (fun s t => Some (u "<"%string ++ s_close s ++ cut 0 1 t ++ u "_STAR>"%string, s));      (* 228 *)
   R readbrackets [Plus alnum] (fun s t => Some (u "<"%string ++ s_close s ++ t ++ u ">"%string, s));                        (* 235 *)
   R readbrackets [Star wsp; One (eqc 125); Star wsp] (fun s t => Some (drop_first 125%N t, begin_ INITIAL s));              (* 242 *)
   R INITIAL (BS ++ [Plus letter; One (eqc 42)]) (act (fun t => u "<"%string ++ cut 1 1 t ++ u "_STAR/>"%string));           (* 253 *)
   R INITIAL (BS ++ [Plus letter]) (act (fun t => u "<"%string ++ skipn 1 t ++ u "/>"%string));                              (* 259 *)
   R INITIAL (lit (u "\{"%string)) (put (u "<LEFTESCAPEDBRACE/>"%string));                                                 (* 265 *)
   R INITIAL (lit (u "\{"%string)) (put (u "<RIGHTESCAPEDBRACE/>"%string));                                                (* 269: the same pattern *)
   R INITIAL (lit (u "\%"%string)) (put (u "<ESCAPEDPERCENT/>"%string));                                                  (* 273 *)
   R INITIAL (lit (u "{"%string)) (put (u "<CONTENTS>"%string));                                                           (* 277 *)
   R INITIAL (lit (u "}"%string)) (put (u "</CONTENTS>"%string));                                                          (* 281 *)
   R INITIAL (lit (u "~"%string)) (put (u "&NBSP;"%string));                                                               (* 285 *)
   R INITIAL (lit (u "$$"%string)) (go mathenv (u "<MATH_DOLLARS>"%string));                                               (* 289 *)
   R mathenv (lit (u "$$"%string)) (go INITIAL (u "</MATH_DOLLARS>"%string));                                              (* 294 *)
   R INITIAL (lit (u "$"%string)) (go mathenv (u "<MATH_DOLLAR>"%string));                                                 (* 299 *)
   R mathenv (lit (u "$"%string)) (go INITIAL (u "</MATH_DOLLAR>"%string));                                                (* 304 *)
   verb_rule 124; verb_rule 33; verb_rule 63; verb_rule 47; verb_rule 35; verb_rule 43;                                    (* 309-343 *)
   R INITIAL (lit (u "\("%string)) (put (u "<MATH_PAR>"%string));                                                          (* 345-359 *)
   R INITIAL (lit (u "\)"%string)) (put (u "</MATH_PAR>"%string));
   R INITIAL (lit (u "\["%string)) (put (u "<MATH_BRA>"%string));
   R INITIAL (lit (u "\]"%string)) (put (u "</MATH_BRA>"%string));
   R INITIAL (lit (u "?`"%string)) (put [194; 191]%N);                                                                     (* 361 *)
   R INITIAL (lit (u "!`"%string)) (put [194; 161]%N);                                                                     (* 365 *)
   R INITIAL [One (eqc 34)] (put (u "&quot;"%string));                                                                      (* 369-386 *)
   R INITIAL (lit (u "'"%string)) (put (u "&apos;"%string));
   R INITIAL (lit (u "<"%string)) (put (u "&lt;"%string));
   R INITIAL (lit (u ">"%string)) (put (u "&gt;"%string));
   R INITIAL (lit (u "\&"%string)) (put (u "&amp;"%string));
   R INITIAL (lit (u "&"%string)) (put (u "<AMP/>"%string));
   R INITIAL [One any] (act until_nul);                                                                                    (* 392 *)
   R mathenv [One any] (act until_nul)].                                                                                   (* 396 *)

(** *** apertium-postlatex-raw.l *)
Definition tag_rule (a : string) (tail : string) (f : str -> str) : rule := R INITIAL (lit (u a) ++ [Plus alnum] ++ lit (u tail)) (act f).
(* the rules both files have: literals, tags.  The one uses fputs_unlocked where the other has fputs *)
Definition post_common : list rule :=
  [R INITIAL (lit (u "&quot;"%string)) (put [34%N]); R INITIAL (lit (u "&apos;"%string)) (put (u "'"%string)); R INITIAL (lit (u "&lt;"%string)) (put (u "<"%string));     (* 40-60 *)
   R INITIAL (lit (u "&gt;"%string)) (put (u ">"%string)); R INITIAL (lit (u "&amp;"%string)) (put (u "\&"%string)); R INITIAL (lit (u "<AMP/>"%string)) (put (u "&"%string));
   R INITIAL (lit (u "<LEFTESCAPEDBRACE/>"%string)) (put (u "\{"%string)); R INITIAL (lit (u "<RIGHTESCAPEDBRACE/>"%string)) (put (u "\}"%string));
   R INITIAL (lit (u "<ESCAPEDPERCENT/>"%string)) (put (u "\%"%string));
   R INITIAL (lit [194; 191]%N) (put (u "?`"%string)); R INITIAL (lit [194; 161]%N) (put (u "!`"%string));                                                       (* 70-76 *)
   R INITIAL (lit (u "<MATH_DOLLARS>"%string)) (go mathenv (u "$$"%string)); R mathenv (lit (u "</MATH_DOLLARS>"%string)) (go INITIAL (u "$$"%string));
   R INITIAL (lit (u "<MATH_DOLLAR>"%string)) (go mathenv (u "$"%string)); R mathenv (lit (u "</MATH_DOLLAR>"%string)) (go INITIAL (u "$"%string));
   R INITIAL (lit (u "<MATH_PAR>"%string)) (put (u "\("%string)); R INITIAL (lit (u "</MATH_PAR>"%string)) (put (u "\)"%string));
   R INITIAL (lit (u "<MATH_BRA>"%string)) (put (u "\["%string)); R INITIAL (lit (u "</MATH_BRA>"%string)) (put (u "\]"%string));
   R INITIAL (lit (u "<CONTENTS>"%string)) (put (u "{"%string)); R INITIAL (lit (u "</CONTENTS>"%string)) (put (u "}"%string));
   R INITIAL (lit (u "&NBSP;"%string)) (put (u "~"%string)); R INITIAL (lit (u "<BR/>"%string)) (put (u "\\"%string));
   R INITIAL (lit (u "<COMMENT>"%string) ++ [Star (fun c => negb (c =?c cLT))]) (act (fun t => u "%"%string ++ skipn 9 t));
   R INITIAL (lit (u "</COMMENT>"%string)) (put []);
   R INITIAL (lit (u "<PARAM>"%string) ++ [Star (fun c => negb (c =?c cLT))]) (act (fun t => u "["%string ++ skipn 7 t));
   R INITIAL (lit (u "</PARAM>"%string)) (put (u "]"%string));
   R INITIAL (lit (u "<VERB>"%string)) (put (u "\verb"%string)); R INITIAL (lit (u "</VERB>"%string)) (put [])].
Definition post_begin : rule := tag_rule "<"%string ">"%string (fun t => u "\begin{"%string ++ cut 1 1 t ++ u "}"%string).
Definition post_tags : list rule :=
  [tag_rule "<"%string "_STAR>"%string (fun t => u "\begin{"%string ++ cut 1 6 t ++ u "*}"%string);
   tag_rule "</"%string ">"%string (fun t => u "\end{"%string ++ cut 2 1 t ++ u "}"%string);
   tag_rule "</"%string "_STAR>"%string (fun t => u "\end{"%string ++ cut 2 6 t ++ u "*}"%string);
   tag_rule "<"%string "/>"%string (fun t => u "\"%string ++ cut 1 2 t);
   tag_rule "<"%string "_STAR/>"%string (fun t => u "\"%string ++ cut 1 7 t ++ u "*"%string)].
Definition post : list rule := post_common ++ post_begin :: post_tags ++
  [R INITIAL (lit (u "#"%string)) (put (u "\#"%string));
   R INITIAL [One any] (act (fun t => t));
   R mathenv [One any] (act (fun t => t))].

(** *** apertium-postlatex.l *)
(* utf8::is_valid *)
Definition is_cont (c : char) : bool := ((128 <=? c) && (c <=? 191))%N.
Fixpoint utf8_valid (s : str) : bool :=
  match s with
  | [] => true
  | a :: r =>
      if (a <? 128)%N then utf8_valid r
      else if ((194 <=? a) && (a <=? 223))%N then match r with b :: r => is_cont b && utf8_valid r | _ => false end
      else if ((224 <=? a) && (a <=? 239))%N then
        match r with b :: c :: r => is_cont b && is_cont c && (negb (a =? 224) || (160 <=? b)) && (negb (a =? 237) || (b <=? 159)) && utf8_valid r | _ => false end
      else if ((240 <=? a) && (a <=? 244))%N then
        match r with b :: c :: d :: r => is_cont b && is_cont c && is_cont d && (negb (a =? 240) || (144 <=? b)) && (negb (a =? 244) || (b <=? 143)) && utf8_valid r | _ => false end
      else false
  end%N.
(* 262-286: the bytes are collected until they are a character.  UString(1, symbol) keeps 16 bits of it; half a surrogate has no UTF-8, and what is written then is not modelled *)
Definition bmp (k : str) : option str :=
  match k with
  | [a; b; c; d] =>
      let n := (((a mod 8) * 262144 + (b mod 64) * 4096 + (c mod 64) * 64 + d mod 64) mod 65536)%N in
      if (n <? 128)%N then Some [n] else if (n <? 2048)%N then Some [192 + n / 64; 128 + n mod 64]%N
      else if ((55296 <=? n) && (n <? 57344))%N then None else Some [224 + n / 4096; 128 + (n / 64) mod 64; 128 + n mod 64]%N
  | _ => Some k
  end.
Definition symbol_act : st -> str -> option (str * st) := fun s t =>
  let buf := s_close s ++ until_nul t in
  if utf8_valid buf then
    match bmp (match buf with [] => [0%N] | _ => buf end) with
    | Some k => let o := match look k camap with Some (a :: w) => u "\"%string ++ [a] ++ u "{"%string ++ w ++ u "}"%string | _ => k end in
                Some (o, mkst (s_cond s) [] (s_german s))
    | None => None
    end
  else Some ([], mkst (s_cond s) buf (s_german s)).
Definition post2 : list rule := post_common ++
  R INITIAL (lit [197; 130]%N) (put (u "\l"%string)) :: map (fun p => R INITIAL (lit (snd p)) (put (fst p))) ligatures ++                          (* 175-214 *)
  post_begin ::
  R INITIAL (lit (u "<HASH_"%string) ++ [Plus digit] ++ lit (u "/>"%string)) (act (fun t => u "\#"%string ++ cut 6 2 t)) ::                          (* 222 *)
  R INITIAL (lit (u "<HASH/>"%string)) (put (u "\#"%string)) ::                                                                                   (* 227 *)
  post_tags ++
  [R INITIAL [One (fun c => negb (letter c || (c =?c cNL)))] symbol_act;                                                                        (* 262 *)
   R INITIAL [One any] (act until_nul);
   R mathenv [One any] (act until_nul)].

(** *** The scanner *)
(* the longest match, of equals the first *)
Fixpoint pick (rs : list rule) (c : cond) (s : str) : option (nat * rule) :=
  match rs with
  | [] => None
  | r :: rest =>
      match (if cond_eqb (r_cond r) c then mt (r_pat r) s else None), pick rest c s with
      | Some n, Some (m, r') => if m <=? n then Some (n, r) else Some (m, r')
      | Some n, None => Some (n, r)
      | None, o => o
      end
  end.
Definition step (rs : list rule) (x : st) (s : str) : option (nat * str * st) :=
  match pick rs (s_cond x) s with
  | Some (n, r) => match r_act r x (firstn n s) with Some (o, y) => Some (n, o, y) | None => None end
  | None => None
  end.
(* None: not finished, the fuel is used up *)
Fixpoint lex (fuel : nat) (rs : list rule) (x : st) (s : str) : option str :=
  match fuel with
  | 0 => None
  | S fuel => match s with
    | [] => Some []
    | _ => match step rs x s with Some (n, o, y) => option_map (app o) (lex fuel rs y (skipn n s)) | None => None end
    end
  end.
