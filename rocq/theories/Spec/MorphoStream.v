(** Specification for C47: the words of a tagger input. *)
From Verif Require Import Model.Base Model.TaggerWord.

(** ** one analysis: characters and tags *)
Inductive tok := TC (c : char) | TT (name : str).
Definition ttext (t : tok) : str := match t with TC c => [c] | TT n => cLT :: n ++ [cGT] end.
Definition text (l : list tok) : str := flat_map ttext l.
Definition tok_ok (t : tok) : Prop :=
  match t with TC c => c <> cLT | TT n => ~ In cGT n /\ ~ In cBS n end.

Section LRLM.
Variable M : Type.
Variables (minit : M) (mstep : M -> char -> M) (mtag : M -> str -> M) (mfin : M -> option nat) (mdead : M -> bool).
Variable kundef : nat.
Definition tstep (m : M) (t : tok) : M := match t with TC c => mstep m c | TT n => mtag m (cLT :: n ++ [cGT]) end.

(** What the patterns say about a text: it is one lexical form of the coarse tag v; or its longest part before a '+'
    that is one is [p] (of tag v, [rest] follows the '+'; [e] tells whether the patterns could have gone on at the end
    of the text); or neither.  A part must have at least two characters. *)
Inductive outcome := Whole (v : nat) | Cut (e : bool) (p : list tok) (v : nat) (rest : list tok) | Nothing.
Fixpoint scan (m : M) (pre toks : list tok) (best : option (list tok * nat * list tok)) : outcome :=
  match toks with
  | [] => match mfin m with
          | Some v => Whole v
          | None => match best with Some (p, v, r) => Cut true p v r | None => Nothing end
          end
  | t :: r =>
    let best := match t, mfin m with
                | TC c, Some v => if (c =?c cPLUS) && (2 <=? length (text pre)) then Some (pre, v, r) else best
                | _, _ => best
                end in
    if mdead (tstep m t)
    then match best with Some (p, v, r) => Cut false p v r | None => Nothing end
    else scan (tstep m t) (pre ++ [t]) r best
  end.
(** Left-to-right longest match: the parts of an analysis, each with its coarse tag.
    Not covered: a rest without coarse tag after a part that was cut off at the end of the text, and a final '+'. *)
Inductive lrlm : bool -> list tok -> list (str * nat) -> Prop :=
  | L_whole b ts v : scan minit [] ts None = Whole v -> lrlm b ts [(text ts, v)]
  | L_none ts : scan minit [] ts None = Nothing -> lrlm false ts [(text ts, kundef)]
  | L_cut b ts e p v r ps : scan minit [] ts None = Cut e p v r -> r <> [] -> lrlm e r ps -> lrlm b ts ((text p, v) :: ps).
End LRLM.

(** ** texts *)
(** [plain stop s]: every stop character in s is preceded by a backslash, and no sequence is incomplete; after a
    backslash any character but those of [bad] *)
Inductive plain (stop bad : char -> Prop) : str -> Prop :=
  | P_nil : plain stop bad []
  | P_char c s : c <> cBS -> ~ stop c -> plain stop bad s -> plain stop bad (c :: s)
  | P_esc d s : ~ bad d -> plain stop bad s -> plain stop bad (cBS :: d :: s).
(** NUL ends a document if null flush is on *)
Definition isnul (nf : bool) (c : char) : Prop := nf = true /\ c = cNUL.
Definition blank_ok (nf : bool) : str -> Prop := plain (fun c => c = cCARET \/ isnul nf c) (isnul nf).
Definition part_ok (nf : bool) : str -> Prop := plain (fun c => c = cSLASH \/ c = cDOL \/ isnul nf c) (fun _ => False).

(** a lexical unit with the blank before it: surface form and analyses, or an unknown word *)
Inductive reading := Known (ans : list (list tok)) | Unknown (s : str).
Record lu := mklu { l_blank : str; l_sf : str; l_read : reading }.
Fixpoint join (l : list str) : str := match l with [] => [] | [x] => x | x :: r => x ++ cSLASH :: join r end.
Definition read_text (r : reading) : str := match r with Known ans => join (map text ans) | Unknown s => cSTAR :: s end.
Definition lu_text (l : lu) : str := l_blank l ++ cCARET :: l_sf l ++ cSLASH :: read_text (l_read l) ++ [cDOL].
Definition lu_ok (nf : bool) (l : lu) : Prop :=
  blank_ok nf (l_blank l) /\ part_ok nf (l_sf l) /\
  match l_read l with
  | Known ans => ans <> [] /\ Forall (fun a => Forall tok_ok a /\ part_ok nf (text a) /\ starts_star (text a) = false) ans
  | Unknown s => part_ok nf s
  end.
(** a document: lexical units and the blank at the end *)
Record doc := mkdoc { d_lus : list lu; d_end : str }.
Definition doc_text (d : doc) : str := flat_map lu_text (d_lus d) ++ d_end d.
Definition doc_ok (nf : bool) (d : doc) : Prop := Forall (lu_ok nf) (d_lus d) /\ blank_ok nf (d_end d).
(** several documents: each but the last is ended by NUL (null flush only) *)
Fixpoint docs_text (d : doc) (ds : list doc) : str :=
  match ds with [] => doc_text d | d' :: r => doc_text d ++ cNUL :: docs_text d' r end.

(** The words of a lexical unit whose analyses have the parts [pss]: word k gets the k-th part of every analysis that
    has one; it is joined to the next word if some analysis has more parts. *)
Section W.
Variable add : nat -> str -> tword -> tword.                     (* a further reading (tag, form) of a word *)
Definition word_k (first : tword) (pss : list (list (str * nat))) (k : nat) : tword :=
  let w := fold_left (fun w ps => match nth_error ps k with Some (t, v) => add v t w | None => w end) pss
                     (match k with 0 => first | _ => tword0 true end) in
  mktw (sf w) (tags w) (forms w) (ign w) (existsb (fun ps => S k <? length ps) pss) (pcut w).
Definition lu_words (first : tword) (pss : list (list (str * nat))) : list tword :=
  map (word_k first pss) (seq 0 (fold_right Nat.max 1 (map (@length _) pss))).
End W.

(** ** all words of a text, before the discard rules; the flag marks the word that stands for the end of a document *)
Section D.
Variable add : nat -> str -> tword -> tword.
Variable keof : nat.
Variable parts : list tok -> list (str * nat).                     (* the parts of an analysis *)
Definition first_word (l : lu) : tword := mktw (l_sf l) [] [] (l_blank l) false false.
Definition words_of (l : lu) : list tword :=
  match l_read l with Known ans => lu_words add (first_word l) (map parts ans) | Unknown _ => [first_word l] end.
Definition end_word (b : str) : tword := mktw [] [keof] [(keof, [])] b false false.
Definition doc_words (d : doc) : list (tword * bool) :=
  map (fun w => (w, false)) (flat_map words_of (d_lus d)) ++ [(end_word (d_end d), true)].
Fixpoint docs_words (d : doc) (ds : list doc) : list (tword * bool) :=
  match ds with [] => doc_words d | d' :: r => doc_words d ++ docs_words d' r end.
Variable P : list tok -> Prop.
Definition analyses_in (d : doc) : Prop := forall l ans a, In l (d_lus d) -> l_read l = Known ans -> In a ans -> P a.
End D.
(** a partial function on all words *)
Fixpoint on_words (f : tword -> option tword) (l : list (tword * bool)) : option (list (tword * bool)) :=
  match l with
  | [] => Some []
  | (w, b) :: r => match f w, on_words f r with Some w', Some r' => Some ((w', b) :: r') | _, _ => None end
  end.
