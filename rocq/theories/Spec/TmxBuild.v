(** What apertium-tmxbuild does, independently of the program: documents are items, sentences end at
    marks, segments are cleaned texts, the TMX is a sequence of units. *)
From Coq Require Import String.
From Verif Require Import Model.Base Spec.TmxAlign.
Open Scope N_scope.

(** ** Documents (output of a deformatter) *)
Inductive item :=
| Char (c : char)    (* an ordinary character *)
| Esc (c : char)     (* backslash and a character *)
| Blank (b : str)    (* [b] *)
| Dot                (* a full stop *)
| Mark (c : char).   (* ? or ! *)

(** The inside of a blank: its closing brackets and backslashes are escaped. *)
Inductive blank_text : str -> Prop :=
| bt_nil : blank_text []
| bt_esc c b : blank_text b -> blank_text (cBS :: c :: b)
| bt_chr c b : c <> cBS -> c <> cRB -> blank_text b -> blank_text (c :: b).

(** Characters of one UTF-16 code unit, not NUL. *)
Definition plain_char (c : char) : Prop := 0 < c < 65536.
Definition item_ok (i : item) : Prop :=
  match i with
  | Char c => plain_char c /\ ~ In c [cBS; cLB; cDOT; cQM; 33]
  | Esc c => plain_char c
  | Blank b => blank_text b
  | Dot => True
  | Mark c => c = cQM \/ c = 33
  end.
Definition raw_item (i : item) : str :=
  match i with
  | Char c => [c]
  | Esc c => [cBS; c]
  | Blank b => [cLB] ++ b ++ [cRB]
  | Dot => [cDOT]
  | Mark c => [c]
  end.
Definition raw (d : list item) : str := concat (map raw_item d).

(** Its text: a blank becomes a placeholder, with a space where it begins or ends with one. *)
Definition text_item (i : item) : str :=
  match i with
  | Char c | Esc c | Mark c => [c]
  | Dot => [cDOT]
  | Blank b => (match b with c :: _ => if c =? cSP then [cSP] else [] | [] => [] end)
               ++ u "<ph/>"
               ++ (match rev b with c :: _ => if c =? cSP then [cSP] else [] | [] => [] end)
  end.
Definition text (d : list item) : str := concat (map text_item d).

Section Classes.
Variables alpha alnum space punct : char -> bool.

(** A sentence ends after a mark, and after a full stop followed by a blank or a space. *)
Definition ends (i : item) (rest : list item) : Prop :=
  match i, rest with
  | Mark _, _ => True
  | Dot, Blank _ :: _ => True
  | Dot, Char c :: _ => space c = true
  | _, _ => False
  end.
(** [sentences d l]: the document consists of the sentences [l] and an unfinished rest. *)
Inductive unfinished : list item -> Prop :=
| un_nil : unfinished []
| un_cons i d : ~ ends i d -> unfinished d -> unfinished (i :: d).
Inductive sentence : list item -> list item -> Prop :=   (* the sentence, what follows it *)
| se_end i rest : ends i rest -> sentence [i] rest
| se_more i s rest : ~ ends i (s ++ rest) -> sentence s rest -> sentence (i :: s) rest.
Inductive sentences : list item -> list (list item) -> Prop :=
| ss_rest d : unfinished d -> sentences d []
| ss_more s rest l : sentence s rest -> sentences rest l -> sentences (s ++ rest) (s :: l).

(** ** Segments *)
(** What a text consists of: placeholders and characters; [Gt] and [Cut] are remnants of a
    placeholder that lost its first or last character. *)
Inductive tok := Ph | Ch (c : char) | Gt | Cut.
Fixpoint tokens (s : str) : list tok :=
  match s with
  | 60 :: 112 :: 104 :: 47 :: 62 :: r => Ph :: tokens r
  | c :: r => Ch c :: tokens r
  | [] => []
  end.
(** in XML *)
Definition xml_tok (t : tok) : str :=
  match t with
  | Ph => u "<ph/>"
  | Ch c => if c =? cLT then u "&lt;" else if c =? cGT then u "&gt;" else if c =? 38 then u "&amp;" else [c]
  | Gt => u ">"
  | Cut => u "<ph/"
  end.
Definition xml (l : list tok) : str := concat (map xml_tok l).

(** Enough text: more than two blanks after the first letter. *)
Definition blank_count (s : str) : nat := length (List.filter (fun c => negb (alpha c) && space c) s).
Definition enough (s : str) : Prop :=
  exists a c b, s = a ++ c :: b /\ (forall x, In x a -> alpha x = false) /\ alpha c = true /\
                (2 < blank_count b)%nat.

(** Blank characters (neither letter, digit nor punctuation; < > & count as punctuation since they
    are written as entities). *)
Definition empty_tok (t : tok) : bool :=
  match t with
  | Ch c => negb (mem c [cLT; cGT; 38]) && negb (alnum c) && negb (punct c)
  | Gt => true
  | _ => false
  end.
Definition is_ph (t : tok) : bool := match t with Ph => true | _ => false end.
Fixpoint skip_while {A} (f : A -> bool) (l : list A) : list A :=
  match l with x :: l' => if f x then skip_while f l' else l | [] => [] end.
Definition skip_back {A} (f : A -> bool) (l : list A) : list A := rev (skip_while f (rev l)).
Definition is_dot (t : tok) : bool := match t with Ch c => c =? cDOT | _ => false end.

(** The cleaned text one would expect: no placeholders and blanks at either end, no full stop. *)
Definition trimmed (l : list tok) : list tok :=
  skip_back is_dot (skip_back (fun t => is_ph t || empty_tok t) (skip_while (fun t => is_ph t || empty_tok t) l)).

(** The text that is written: a placeholder is removed whole at the very beginning or end only; one
    that comes after (before) blanks loses its first (last) character instead. *)
Definition cleaned_left (l : list tok) : list tok :=
  match skip_while empty_tok (skip_while is_ph l) with
  | Ph :: r => [Ch 112; Ch 104; Ch 47; Gt] ++ r
  | l' => l'
  end.
Definition cleaned_right (l : list tok) : list tok :=
  rev match skip_while empty_tok (skip_while is_ph (rev l)) with
      | Ph :: r => Cut :: r
      | r => r
      end.
Definition cleaned (l : list tok) : list tok := skip_back is_dot (cleaned_right (cleaned_left l)).

Inductive segment (s : str) : str -> Prop :=
| seg_none : ~ enough s -> segment s []
| seg_some : enough s -> segment s (xml (cleaned (tokens s))).
End Classes.

(** XML content in which no bare < or & occurs. *)
Inductive content : str -> Prop :=
| co_nil : content []
| co_chr c s : c <> cLT -> c <> 38 -> content s -> content (c :: s)
| co_ph s : content s -> content (u "<ph/>" ++ s)
| co_lt s : content s -> content (u "&lt;" ++ s)
| co_gt s : content s -> content (u "&gt;" ++ s)
| co_amp s : content s -> content (u "&amp;" ++ s).

(** ** Words of a line *)
Definition ascii_blank (c : char) : bool := (c =? 32) || ((9 <=? c) && (c <=? 13)).
(** [words s l]: [l] are the maximal runs of other characters. *)
Inductive words : str -> list str -> Prop :=
| wo_nil : words [] []
| wo_blank c s l : ascii_blank c = true -> words s l -> words (c :: s) l
| wo_word w s l : w <> [] -> (forall c, In c w -> ascii_blank c = false) ->
    match s with [] => True | c :: _ => ascii_blank c = true end ->
    words s l -> words (w ++ s) (w :: l).

(** ** The TMX *)
Definition q : str := [34].
Definition tmx (version lang1 lang2 : str) (units : list str) : str :=
  u "<?xml version=" ++ q ++ u "1.0" ++ q ++ u "?>" ++ [cNL]
  ++ u "<tmx version=" ++ q ++ u "1.4" ++ q ++ u ">" ++ [cNL]
  ++ u "<header creationtool=" ++ q ++ u "Apertium TMX Builder" ++ q ++ [cNL]
  ++ u "        creationtoolversion=" ++ q ++ version ++ q ++ [cNL]
  ++ u "        segtype=" ++ q ++ u "sentence" ++ q ++ [cNL]
  ++ u "        srclang=" ++ q ++ lang1 ++ q ++ [cNL]
  ++ u "        adminlang=" ++ q ++ lang2 ++ q ++ [cNL]
  ++ u "        datatype=" ++ q ++ u "plaintext" ++ q ++ [cNL]
  ++ u "        o-tmf=" ++ q ++ u "none" ++ q ++ u ">" ++ [cNL]
  ++ u "</header>" ++ [cNL] ++ u "<body>" ++ [cNL]
  ++ concat units ++ u "</body>" ++ [cNL] ++ u "</tmx>" ++ [cNL].
Definition tuv (lang seg : str) : str :=
  u "  <tuv xml:lang=" ++ q ++ lang ++ q ++ u "><seg>" ++ seg ++ u "</seg></tuv>" ++ [cNL].
Definition tu (lang1 seg1 lang2 seg2 : str) : str :=
  u "<tu>" ++ [cNL] ++ tuv lang1 seg1 ++ tuv lang2 seg2 ++ u "</tu>" ++ [cNL].

(** ** Units *)
Section Units.
Variables alpha alnum space punct : char -> bool.
Variables lang1 lang2 : str.
Notation seg := (segment alpha alnum space punct).
(** What a pair of texts contributes: a unit with the segment of the second text, if the first
    text has none; otherwise nothing. *)
Inductive unit_of : str -> str -> list str -> Prop :=
| unit_written l r b : l <> [] -> seg l [] -> seg r b -> b <> [] -> unit_of l r [tu lang1 [] lang2 b]
| unit_source l r a : seg l a -> a <> [] -> unit_of l r []
| unit_target l r : seg r [] -> unit_of l r []
| unit_nothing r : unit_of [] r [].

(** Of a list of pairs of sentences (lists of words): every second text begins with a tab, every
    first text but that of the first pair with a newline. *)
Inductive units_of : bool -> list (list (list str) * list (list str)) -> list str -> Prop :=
| units_nil (first : bool) : units_of first [] []
| units_cons (first : bool) (l r : list (list str)) ps us vs :
    unit_of ((if first then [] else [cNL]) ++ sentences_text l) (cTAB :: sentences_text r) us ->
    units_of false ps vs -> units_of first ((l, r) :: ps) (us ++ vs).
End Units.
