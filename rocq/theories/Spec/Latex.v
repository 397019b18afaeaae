(** LaTeX, for apertium-prelatex followed by apertium-postlatex-raw (tex) or apertium-postlatex (canon): which text comes back, and as what.
    Text is bytes; the literals below are UTF-8.  Nothing here refers to the scanners.
    piece g w g' x: the text w, before x and read with (g) or without German shorthands, comes back as it is from both; after it the shorthands are on if g'.
    tex e g x y: the LaTeX text x, read with (g) or without German shorthands, comes back from apertium-postlatex-raw as y; with e = true only by rules that change nothing.
    canon g x y: the same for apertium-postlatex. *)
From Coq Require Import String.
From Verif Require Import Model.Base.
Open Scope nat_scope.

Definition among (l : string) (c : char) : Prop := In c (u l).
Definition is_letter (c : char) : Prop := (65 <= c <= 90 \/ 97 <= c <= 122)%N.
Definition is_alnum (c : char) : Prop := (is_letter c \/ 48 <= c <= 57)%N.
Definition white (c : char) : Prop := c = 32%N \/ c = 9%N \/ c = 10%N \/ c = 13%N.
(* what the next character is not *)
Definition next_not (P : char -> Prop) (x : str) : Prop := match x with [] => True | c :: _ => ~ P c end.
Definition starts_with (w x : str) : Prop := exists r, x = w ++ r.
Definition has_part (w x : str) : Prop := exists p r, x = p ++ w ++ r.

(* characters that mean themselves; 194 begins the UTF-8 of both inverted marks *)
Definition ordinary (c : char) : Prop := ~ among "\%[{}~$?!'<>&#"%string c /\ c <> 34%N /\ c <> 0%N /\ c <> 194%N.
(* what may follow a backslash that no rule takes: not a letter, and none of these, the last one the double quote *)
Definition taken_after_backslash (c : char) : Prop := is_letter c \/ among "#`'^~=.\%{()[]&"%string c \/ c = 34%N.
Definition literals : list str := map u ["\\"; "\{"; "\%"; "\&"; "\("; "\)"; "\["; "\]"; "~"; "}"; "'"; "<"; ">"; "&"; "?`"; "!`"]%string.
Definition ligs : list (str * str) :=
  map (fun p => (u (fst p), u (snd p)))
    [("{\oe}", "œ"); ("{\OE}", "Œ"); ("{\ae}", "æ"); ("{\AE}", "Æ"); ("{\aa}", "å"); ("{\AA}", "Å"); ("{\o}", "ø"); ("{\O}", "Ø"); ("{\ss}", "ß")]%string.
(* accented letters: the accent, the letters it is known on, and the results *)
Definition acc1 : list (str * str * str) :=
  map (fun p => (u (fst (fst p)), u (snd (fst p)), u (snd p)))
    [("`", "a", "à"); ("`", "e", "è"); ("`", "o", "ò"); ("`", "u", "ù"); ("`", "y", "ỳ"); ("`", "A", "À"); ("`", "E", "È"); ("`", "I", "Ì"); ("`", "O", "Ò"); ("`", "U", "Ù"); ("`", "Y", "Ỳ");
     ("'", "a", "á"); ("'", "e", "é"); ("'", "o", "ó"); ("'", "u", "ú"); ("'", "y", "ý"); ("'", "A", "Á"); ("'", "E", "É"); ("'", "I", "Í"); ("'", "O", "Ó"); ("'", "U", "Ú"); ("'", "Y", "Ý");
     ("^", "a", "â"); ("^", "e", "ê"); ("^", "o", "ô"); ("^", "u", "û"); ("^", "y", "ŷ"); ("^", "A", "Â"); ("^", "E", "Ê"); ("^", "I", "Î"); ("^", "O", "Ô"); ("^", "U", "Û"); ("^", "Y", "Ŷ");
     ("""", "a", "ä"); ("""", "e", "ë"); ("""", "o", "ö"); ("""", "u", "ü"); ("""", "y", "ÿ"); ("""", "A", "Ä"); ("""", "E", "Ë"); ("""", "I", "Ï"); ("""", "O", "Ö"); ("""", "U", "Ü"); ("""", "Y", "Ÿ");
     ("~", "n", "ñ"); ("~", "N", "Ñ")]%string.
(* these only with braces *)
Definition acc2 : list (str * str) :=
  map (fun p => (u (fst p), u (snd p)))
    [("\c{c}", "ç"); ("\c{C}", "Ç"); ("\`{\i}", "ì"); ("\'{\i}", "í"); ("\^{\i}", "î"); ("\""{\i}", "ï"); ("\^{\j}", "ĵ")]%string.
Definition german : list (char * str) :=
  map (fun p => (hd 0%N (u (fst p)), u (snd p)))
    [("o", "ö"); ("O", "Ö"); ("a", "ä"); ("A", "Ä"); ("u", "ü"); ("U", "Ü"); ("s", "ß"); ("S", "ß")]%string.

(* the command names that do not mean themselves: read by other rules, or the same as a tag that stands for something else *)
Definition odd_names : list str := map u ["begin"; "end"; "verb"; "t"; "l"; "H"; "c"; "k"; "b"; "d"; "r"; "u"; "v"; "cc"; "cC"]%string.
Definition tag_names : list str := map u ["AMP"; "BR"; "LEFTESCAPEDBRACE"; "RIGHTESCAPEDBRACE"; "ESCAPEDPERCENT"; "HASH"]%string.
(* the environment names that stand for something else *)
Definition env_names : list str := map u ["CONTENTS"; "COMMENT"; "PARAM"; "VERB"]%string.
(* inside the delimiters of \verb *)
Definition verbatim (d c : char) : Prop := c <> d /\ ~ among "&<#"%string c /\ c <> 194%N.

Inductive piece : bool -> str -> bool -> str -> Prop :=
(* plain text *)
| P_char g c x : ordinary c -> (c < 128)%N -> piece g [c] g x
| P_mark g c x : among "?!"%string c -> next_not (among "`"%string) x -> piece g [c] g x
| P_quote g x : next_not (among "oOaAuUsS"%string) x -> piece g [34%N] g x
| P_quote_vowel c x : among "oOaAuUsS"%string c -> piece false [34%N; c] false x
| P_literal g w x : In w literals -> piece g w g x
| P_open g x : ~ (exists l, In l (map fst ligs) /\ starts_with l (u "{"%string ++ x)) -> piece g (u "{"%string) g x
| P_backslash g x : next_not taken_after_backslash x -> piece g (u "\"%string) g x
(* commands: \name and \name* *)
| P_command g n x : n <> [] -> Forall is_letter n -> ~ In n odd_names -> ~ In n tag_names ->
    next_not is_letter x -> next_not (among "*"%string) x -> (n = u "usepackage"%string -> next_not (among "["%string) x) -> piece g (u "\"%string ++ n) g x
| P_command_star g n x : n <> [] -> Forall is_letter n -> ~ In n odd_names -> piece g (u "\"%string ++ n ++ u "*"%string) g x
(* environments; kw is begin or end *)
| P_environment g kw n w x : kw = u "\begin{"%string \/ kw = u "\end{"%string -> n <> [] -> Forall is_alnum n -> ~ In n env_names ->
    Forall white w -> next_not white x -> piece g (kw ++ n ++ u "}"%string ++ w) g x
| P_environment_star g kw n w x : kw = u "\begin{"%string \/ kw = u "\end{"%string -> n <> [] -> Forall is_alnum n ->
    Forall white w -> next_not white x -> piece g (kw ++ n ++ u "*}"%string ++ w) g x
(* parameters in brackets, of \usepackage too *)
| P_param g b x : ~ In 93%N b -> Forall (fun c => c <> 60%N) b -> piece g (u "["%string ++ b ++ u "]"%string) g x
| P_package g b x : ~ In 93%N b -> Forall (fun c => c <> 60%N /\ (c < 128)%N) b -> ~ has_part (u "ngerman"%string) b ->
    piece g (u "\usepackage["%string ++ b ++ u "]"%string) g x
| P_package_german g b x : ~ In 93%N b -> Forall (fun c => c <> 60%N /\ (c < 128)%N) b -> has_part (u "ngerman"%string) b ->
    piece g (u "\usepackage["%string ++ b ++ u "]"%string) true x
(* mathematics, comments to the end of the line, \verb *)
| P_math g b x : b <> [] -> Forall (fun c => c <> 36%N /\ c <> 0%N) b -> ~ has_part (u "</"%string) b -> next_not (among "$"%string) x ->
    piece g (u "$"%string ++ b ++ u "$"%string) g x
| P_display g b x : Forall (fun c => c <> 36%N /\ c <> 0%N) b -> ~ has_part (u "</"%string) b -> piece g (u "$$"%string ++ b ++ u "$$"%string) g x
| P_comment g b x : Forall (fun c => c <> 10%N /\ c <> 60%N) b -> x = [] \/ starts_with [10%N] x -> piece g (u "%"%string ++ b) g x
| P_verb g d b x : among "|!?/+"%string d -> b <> [] -> Forall (fun c => verbatim d c /\ c <> 0%N /\ (c < 128)%N) b -> piece g (u "\verb"%string ++ [d] ++ b ++ [d]) g x.

Inductive tex (e : bool) : bool -> str -> str -> Prop :=
| X_end g : tex e g [] []
| X_piece g w g' x y : piece g w g' x -> tex e g' x y -> tex e g (w ++ x) (w ++ y)
(* characters that are not ASCII *)
| X_byte g c x y : ordinary c -> tex e g x y -> tex e g (c :: x) (c :: y)
| X_latin g c x y : ordinary c -> c <> 161%N -> c <> 191%N -> tex e g x y -> tex e g (194%N :: c :: x) (194%N :: c :: y)
| X_verb g d b x y : among "|!?/+"%string d -> b <> [] -> Forall (verbatim d) b ->
    tex e g x y -> tex e g (u "\verb"%string ++ [d] ++ b ++ [d] ++ x) (u "\verb"%string ++ [d] ++ b ++ [d] ++ y)
(* what comes back as something else: letters as themselves, marks as ligatures, # with a backslash *)
| X_ligature g l o x y : e = false -> In (l, o) ligs -> tex e g x y -> tex e g (l ++ x) (o ++ y)
| X_accent g a l o x y : e = false -> In (a, l, o) acc1 -> tex e g x y -> tex e g (u "\"%string ++ a ++ l ++ x) (o ++ y)
| X_accent_braces g a l o x y : e = false -> In (a, l, o) acc1 -> tex e g x y -> tex e g (u "\"%string ++ a ++ u "{"%string ++ l ++ u "}"%string ++ x) (o ++ y)
| X_accent_other g l o x y : e = false -> In (l, o) acc2 -> tex e g x y -> tex e g (l ++ x) (o ++ y)
| X_l g x y : e = false -> next_not is_letter x -> next_not (among "*"%string) x -> tex e g x y -> tex e g (u "\l"%string ++ x) (u "ł"%string ++ y)
| X_tie g a b x y : e = false -> ordinary a -> ordinary b -> a <> 10%N -> b <> 10%N -> tex e g x y -> tex e g (u "\t{"%string ++ a :: b :: u "}"%string ++ x) (a :: b :: y)
| X_german c o x y : e = false -> In (c, o) german -> tex e true x y -> tex e true (34%N :: c :: x) (o ++ y)
| X_question g x y : e = false -> tex e g x y -> tex e g (u "¿"%string ++ x) (u "?`"%string ++ y)
| X_exclamation g x y : e = false -> tex e g x y -> tex e g (u "¡"%string ++ x) (u "!`"%string ++ y)
| X_hash g x y : e = false -> tex e g x y -> tex e g (u "#"%string ++ x) (u "\#"%string ++ y).

(* UTF-8: characters of two and of three bytes *)
Definition cont (c : char) : Prop := (128 <= c <= 191)%N.
Inductive utf8 : str -> Prop :=
| U_two a b : (194 <= a <= 223)%N -> cont b -> utf8 [a; b]
| U_three a b c : (224 <= a <= 239)%N -> cont b -> cont c -> (a = 224 -> 160 <= b)%N -> (a = 237 -> b <= 159)%N -> utf8 [a; b; c].
(* the LaTeX for a character *)
Definition accented : list (str * str) :=
  map (fun p => (u (fst p), u (snd p)))
    [("à", "\`{a}"); ("è", "\`{e}"); ("ì", "\`{\i}"); ("ò", "\`{o}"); ("ù", "\`{u}"); ("ỳ", "\`{y}"); ("À", "\`{A}"); ("È", "\`{E}"); ("Ì", "\`{I}"); ("Ò", "\`{O}"); ("Ù", "\`{U}"); ("Ỳ", "\`{Y}");
     ("á", "\'{a}"); ("é", "\'{e}"); ("í", "\'{\i}"); ("ó", "\'{o}"); ("ú", "\'{u}"); ("ý", "\'{y}"); ("Á", "\'{A}"); ("É", "\'{E}"); ("Í", "\'{I}"); ("Ó", "\'{O}"); ("Ú", "\'{U}"); ("Ý", "\'{Y}");
     ("â", "\^{a}"); ("ê", "\^{e}"); ("î", "\^{\i}"); ("ô", "\^{o}"); ("û", "\^{u}"); ("ŷ", "\^{y}"); ("Â", "\^{A}"); ("Ê", "\^{E}"); ("Î", "\^{I}"); ("Ô", "\^{O}"); ("Û", "\^{U}"); ("Ŷ", "\^{Y}");
     ("ä", "\""{a}"); ("ë", "\""{e}"); ("ï", "\""{\i}"); ("ö", "\""{o}"); ("ü", "\""{u}"); ("ÿ", "\""{y}"); ("Ä", "\""{A}"); ("Ë", "\""{E}"); ("Ï", "\""{I}"); ("Ö", "\""{O}"); ("Ü", "\""{U}"); ("Ÿ", "\""{Y}");
     ("ñ", "\~{n}"); ("Ñ", "\~{N}"); ("ç", "\c{c}"); ("Ç", "\c{C}")]%string.
Definition signs : list (str * str) :=
  map (fun p => (u (fst p), u (snd p)))
    [("ł", "\l"); ("œ", "{\oe}"); ("Œ", "{\OE}"); ("æ", "{\ae}"); ("Æ", "{\AE}"); ("å", "{\aa}"); ("Å", "{\AA}"); ("ø", "{\o}"); ("Ø", "{\O}"); ("ß", "{\ss}"); ("¿", "?`"); ("¡", "!`")]%string.
Inductive canon : bool -> str -> str -> Prop :=
| C_end g : canon g [] []
| C_piece g w g' x y : piece g w g' x -> canon g' x y -> canon g (w ++ x) (w ++ y)
(* other characters: in LaTeX if there is one for them *)
| C_written g c o x y : In (c, o) (accented ++ signs) -> canon g x y -> canon g (c ++ x) (o ++ y)
| C_other g c x y : utf8 c -> ~ In c (map fst (accented ++ signs)) -> canon g x y -> canon g (c ++ x) (c ++ y)
(* accents get braces, what has them comes back as it is *)
| C_accent g a l x y : In (a, l) (map fst acc1) -> canon g x y -> canon g (u "\"%string ++ a ++ l ++ x) (u "\"%string ++ a ++ u "{"%string ++ l ++ u "}"%string ++ y)
| C_accent_braces g c o x y : In (c, o) accented -> canon g x y -> canon g (o ++ x) (o ++ y)
| C_ligature g l x y : In l (map fst ligs) -> canon g x y -> canon g (l ++ x) (l ++ y)
| C_j g x y : canon g x y -> canon g (u "\^{\j}"%string ++ x) (u "ĵ"%string ++ y)
| C_l g x y : next_not is_letter x -> next_not (among "*"%string) x -> canon g x y -> canon g (u "\l"%string ++ x) (u "\l"%string ++ y)
| C_tie g a b x y : ordinary a -> ordinary b -> (a < 128)%N -> (b < 128)%N -> a <> 10%N -> b <> 10%N -> canon g x y -> canon g (u "\t{"%string ++ a :: b :: u "}"%string ++ x) (a :: b :: y)
| C_german c l o x y : In (c, l) german -> In (l, o) (accented ++ signs) -> canon true x y -> canon true (34%N :: c :: x) (o ++ y)
(* the number sign, and macro parameters *)
| C_hash g x y : canon g x y -> canon g (u "#"%string ++ x) (u "#"%string ++ y)
| C_number g x y : next_not (fun c => 48 <= c <= 57)%N x -> canon g x y -> canon g (u "\#"%string ++ x) (u "\#"%string ++ y)
| C_number_digits g d x y : d <> [] -> Forall (fun c => 48 <= c <= 57)%N d -> next_not (fun c => 48 <= c <= 57)%N x -> canon g x y -> canon g (u "\#"%string ++ d ++ x) (u "\#"%string ++ d ++ y).
