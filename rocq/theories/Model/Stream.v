(** apertium/stream.cc, morpheme.cc, analysis.cc (reading and printing), sentence_stream.cc (SentenceTagger::tag,
    TrainingCorpus), unigram_tagger.cc:242-266 (tag).
    [InputFile] is lttoolbox code (external); assumed: get takes the next character or returns U_EOF at the end, unget
    puts it back; readBlock(a, b) reads up to the next b not escaped by a backslash and fails at the end of the input;
    readBlank(true) as [read_blank] below.  An input is the list of its remaining characters. *)
From Coq Require Import String.
From Verif Require Import Model.Base Model.Serialiser.

Inductive res (X : Type) := Ok (x : X) | Throw | Loop | Undef.    (* exception; endless loop at the end of the input; undefined *)
Arguments Ok {X}. Arguments Throw {X}. Arguments Loop {X}. Arguments Undef {X}.
Definition bind {X Y} (r : res X) (f : X -> res Y) : res Y := match r with Ok x => f x | Throw => Throw | Loop => Loop | Undef => Undef end.

(** ** morpheme.cc:67-109 *)
Definition stops (queue : bool) (c : char) : bool :=
  (c =?c cLT) || (c =?c cDOL) || (c =?c cSLASH) || (c =?c cNUL) || (queue && (c =?c cPLUS)).
(* 70-80, 94-104: text, stop character, rest.  At the end of the input the character is never a stop. *)
Fixpoint read_lemma (queue : bool) (inp acc : str) : res (str * char * str) :=
  match inp with
  | [] => Loop
  | c :: r =>
    if stops queue c then Ok (acc, c, r)
    else if c =?c cBS then match r with
                           | [] => Throw
                           | d :: r' => if d =?c cNUL then Throw else read_lemma queue r' (acc ++ [c; d])
                           end
    else read_lemma queue r (acc ++ [c])
  end.
(* 84-91: [cur]: inside readBlock('<', '>') *)
Fixpoint read_tags (inp : str) (cur : option str) (acc : list str) : res (list str * char * str) :=
  match inp with
  | [] => Throw
  | c :: r =>
    match cur with
    | Some t => if c =?c cBS then match r with [] => Throw | d :: r' => read_tags r' (Some (t ++ [c; d])) acc end
                else if c =?c cGT then match t with [] => Throw | _ => read_tags r None (acc ++ [t]) end
                else read_tags r (Some (t ++ [c])) acc
    | None => if c =?c cLT then read_tags r (Some []) acc else Ok (acc, c, r)
    end
  end.
Definition read_morpheme (inp : str) : res (morpheme * str) :=
  bind (read_lemma false inp []) (fun '(lem, c, r) =>
  match lem with
  | [] => Throw                                                     (* 81 *)
  | _ =>
    if negb (c =?c cLT) then Throw else                             (* 92 *)
    bind (read_tags r (Some []) []) (fun '(tags, c, r) =>
    if c =?c cHASH then                                             (* 93-108 *)
      bind (read_lemma true (c :: r) lem) (fun '(lem, c, r) =>
      if c =?c cLT then Throw else Ok (mkm lem tags, c :: r))
    else Ok (mkm lem tags, c :: r))
  end).
(** ** analysis.cc:54-68; the fuel bounds the number of morphemes *)
Fixpoint read_analysis (fuel : nat) (inp : str) : res (list morpheme * str) :=
  match fuel with
  | 0 => Loop
  | S fuel =>
    bind (read_morpheme inp) (fun '(m, rest) =>
    match rest with
    | [] => Throw
    | c :: r => if c =?c cPLUS then bind (read_analysis fuel r) (fun '(ms, rest) => Ok (m :: ms, rest))
                else if c =?c cNUL then Throw else Ok ([m], rest)
    end)
  end.
(** ** stream.cc:34-80 *)
Record lexunit := mklex { lx_sf : str; lx_an : list analysis }.          (* lexical_unit.h *)
(* 43-51 *)
Fixpoint read_sf (inp acc : str) : res (str * char * str) :=
  match inp with
  | [] => Loop
  | c :: r =>
    if (c =?c cSLASH) || (c =?c cDOL) then Ok (acc, c, r)
    else if c =?c cBS then match r with [] => Loop | d :: r' => read_sf r' (acc ++ [c; d]) end
    else read_sf r (acc ++ [c])
  end.
(* readBlock(c, '$') *)
Fixpoint skip_block (inp : str) : res str :=
  match inp with
  | [] => Throw
  | c :: r => if c =?c cBS then match r with [] => Throw | _ :: r' => skip_block r' end
              else if c =?c cDOL then Ok r else skip_block r
  end.
(* 64-71 *)
Fixpoint read_analyses (fuel : nat) (inp : str) : res (list analysis * str) :=
  match fuel with
  | 0 => Loop
  | S fuel =>
    bind (read_analysis (length inp) inp) (fun '(ms, rest) =>
    match rest with
    | [] => Throw
    | c :: r => if c =?c cSLASH then bind (read_analyses fuel r) (fun '(l, rest) => Ok (mkan ms :: l, rest))
                else if c =?c cDOL then Ok ([mkan ms], r) else Throw
    end)
  end.
Definition read_lu (inp : str) : res (lexunit * str) :=
  bind (read_sf inp []) (fun '(sf, c, r) =>
  if c =?c cDOL then Throw else                                          (* 52 *)
  match sf with
  | [] => Throw                                                          (* 54 *)
  | _ =>
    match r with
    | [] => Loop                                                         (* U_EOF: the lemma loop of the first morpheme *)
    | c :: r' =>
      if c =?c cDOL then Throw                                           (* 58 *)
      else if c =?c cSTAR then bind (skip_block r') (fun rest => Ok (mklex sf [], rest))
      else bind (read_analyses (S (length r)) r) (fun '(l, rest) => Ok (mklex sf l, rest))
    end
  end).
(* lttoolbox InputFile::readBlank(true), external: up to '^', NUL or the end; [b]: inside brackets *)
Fixpoint read_blank (inp : str) (b : bool) (acc : str) : str * str :=
  match inp with
  | [] => (acc, [])
  | c :: r =>
    if c =?c cBS then match r with [] => (acc ++ [c], []) | d :: r' => read_blank r' b (acc ++ [c; d]) end
    else if b then read_blank r (negb (c =?c cRB)) (acc ++ [c])
    else if (c =?c cCARET) || (c =?c cNUL) then (acc, inp)
    else read_blank r (c =?c cLB) (acc ++ [c])
  end.
(* result: blank, lexical unit, flush_(), remaining input *)
Record token := mktok { tk_str : str; tk_lu : option lexunit }.          (* streamed_type.h *)
Definition take_flush (r : str) : bool * str := match r with c :: r' => if c =?c cNUL then (true, r') else (false, r) | [] => (false, r) end.
Definition get (inp : str) : res (token * bool * str) :=
  let '(b, r) := read_blank inp false [] in
  match r with
  | c :: r' =>
    if c =?c cCARET then bind (read_lu r') (fun '(l, rest) => let '(f, rest) := take_flush rest in Ok (mktok b (Some l), f, rest))
    else let '(f, rest) := take_flush r in Ok (mktok b None, f, rest)
  | [] => Ok (mktok b None, false, [])
  end.
(* 82-93 *)
Definition peekIsBlank (inp : str) : bool := match inp with a :: b :: _ => (a =?c cNL) && (b =?c cNL) | _ => false end.

(** ** printing: morpheme.cc:43-64, analysis.cc:38-57; None: exception *)
Definition print_morpheme (m : morpheme) : option str :=
  match m_tags m, m_lemma m with [], _ => None | _, [] => None | ts, lem => Some (lem ++ flat_map (fun t => cLT :: t ++ [cGT]) ts) end.
Fixpoint print_rest (l : list morpheme) : option str :=
  match l with
  | [] => Some []
  | m :: r => match print_morpheme m, print_rest r with Some a, Some b => Some (cPLUS :: a ++ b) | _, _ => None end
  end.
Definition print_analysis (a : analysis) : option str :=
  match an_morphemes a with
  | [] => None
  | m :: r => match print_morpheme m, print_rest r with Some x, Some y => Some (x ++ y) | _, _ => None end
  end.
Definition str_dec : forall x y : str, {x = y} + {x <> y} := list_eq_dec N.eq_dec.
Definition morpheme_dec : forall x y : morpheme, {x = y} + {x <> y}.
Proof. decide equality; [apply list_eq_dec, str_dec|apply str_dec]. Defined.
Definition analysis_dec : forall x y : analysis, {x = y} + {x <> y}.
Proof. decide equality. apply list_eq_dec, morpheme_dec. Defined.
(** stream.cc:97-126 *)
Fixpoint print_others (a : analysis) (l : list analysis) : option str :=
  match l with
  | [] => Some []
  | x :: r => if analysis_dec x a then print_others a r
              else match print_analysis x, print_others a r with Some s, Some t => Some (cSLASH :: s ++ t) | _, _ => None end
  end.
Section O.
Variables (ssf mark first : bool).       (* getShowSuperficial(), getMark(), getFirst() *)
Definition outputLexicalUnit (l : lexunit) (a : option analysis) : option str :=
  match lx_an l, a with
  | [], _ | _, None => Some (cCARET :: (if ssf then lx_sf l ++ [cSLASH] else []) ++ cSTAR :: lx_sf l ++ [cDOL])
  | an, Some a =>
    match print_analysis a, (if first then print_others a an else Some []) with
    | Some s, Some t => Some (cCARET :: (if mark && negb (length an =? 1) then [cEQ] else []) ++ (if ssf then lx_sf l ++ [cSLASH] else []) ++ s ++ t ++ [cDOL])
    | _, _ => None
    end
  end.

(** ** sentence_stream.cc:10-84 *)
(* 10-24 *)
Definition sent_lu (l : lexunit) : bool :=
  match lx_an l with [a] => match an_morphemes a with [m] => match m_tags m with [t] => str_eqb t (u "sent"%string) | _ => false end | _ => false end | _ => false end.
Variable sent_seg : bool.
(* 26-32 *)
Definition sentence_end (l : lexunit) (inp : str) : bool := if sent_seg then sent_lu l && peekIsBlank inp else sent_lu l.
Variable tagSentence : list lexunit -> list (option analysis).
(* 70-84: dereferencing the iterator at the end is undefined *)
Fixpoint put (full : list token) (ts : list (option analysis)) : res str :=
  match full with
  | [] => Ok []
  | t :: r =>
    match tk_lu t with
    | None => bind (put r ts) (fun s => Ok (tk_str t ++ s))
    | Some l => match ts with
                | [] => Undef
                | a :: ts' => match outputLexicalUnit l a with
                              | None => Throw
                              | Some x => bind (put r ts') (fun s => Ok (tk_str t ++ x ++ s))
                              end
                end
    end
  end.
(* 36-61; the fuel bounds the number of tokens *)
Fixpoint tag_loop (fuel : nat) (inp : str) (full : list token) (lex : list lexunit) : res str :=
  match fuel with
  | 0 => Loop
  | S fuel =>
    bind (get inp) (fun '(t, flush, rest) =>
    match tk_lu t with
    | Some l =>
      if sentence_end l rest
      then bind (put (full ++ [t]) (tagSentence (lex ++ [l]))) (fun s => bind (tag_loop fuel rest [] []) (fun s' => Ok (s ++ s')))
      else tag_loop fuel rest (full ++ [t]) (lex ++ [l])
    | None =>
      bind (put (full ++ [t]) (tagSentence lex)) (fun s =>
      if flush then bind (tag_loop fuel rest [] []) (fun s' => Ok (s ++ cNUL :: s')) else Ok s)
    end)
  end.
Definition sentence_tag (inp : str) : res str := tag_loop (S (length inp)) inp [] [].

(** ** unigram_tagger.cc:242-266 *)
Variable choose : lexunit -> option analysis.
Fixpoint unigram_tag (fuel : nat) (inp : str) : res str :=
  match fuel with
  | 0 => Loop
  | S fuel =>
    bind (get inp) (fun '(t, flush, rest) =>
    match tk_lu t with
    | None => if flush then bind (unigram_tag fuel rest) (fun s => Ok (tk_str t ++ s)) else Ok (tk_str t)
    | Some l => match outputLexicalUnit l (choose l) with
                | None => Throw
                | Some x => bind (unigram_tag fuel rest) (fun s => Ok (tk_str t ++ x ++ s))
                end
    end)
  end.
End O.

(** ** sentence_stream.cc:86-175: the training corpus; streams are given as the results of their get() *)
Section TC.
Variables (skip_on_error : bool).
(* what get() returned and whether isSentenceEnd holds for it *)
Definition titem := option (lexunit * bool).
Definition sent_pair := (list (option analysis) * list lexunit)%type.
(* 158-170: get() goes on returning the end after the end *)
Fixpoint contToEnd (l : list (lexunit * bool)) : bool * list (lexunit * bool) :=
  match l with [] => (true, []) | (_, e) :: r => if e then (false, r) else contToEnd r end.
Definition set_last (f : sent_pair -> sent_pair) (ss : list sent_pair) : list sent_pair :=
  match rev ss with [] => [] | s :: r => rev (f s :: r) end.
Definition front (l : lexunit) : option analysis := match lx_an l with [] => None | a :: _ => Some a end.
(* 96-156; [wse]: was_sentence_end; the fuel bounds the number of pairs read *)
Fixpoint corpus_loop (fuel : nat) (tg ut : list (lexunit * bool)) (wse : bool) (ss : list sent_pair) (skipped : nat) : res (list sent_pair * nat) :=
  match fuel with
  | 0 => Loop
  | S fuel =>
    match tg, ut with
    | [], [] => Ok (ss, skipped)
    | [], _ | _, [] => Throw
    | (t, te) :: tg', (w, _) :: ut' =>
      if negb (str_eqb (lx_sf w) (lx_sf t)) then
        if negb skip_on_error then Throw
        else match ss with
             | [] => Undef                                                  (* 127: uninitialised pointer *)
             | _ =>
               let ss := set_last (fun _ => ([], [])) ss in
               let '(e1, tg2) := contToEnd tg in
               let '(e2, ut2) := contToEnd ut in
               if e1 || e2 then if negb (e1 && e2) then Throw else Ok (ss, S skipped)
               else corpus_loop fuel tg2 ut2 wse ss (S skipped)
             end
      else
        let ss := if wse then ss ++ [([], [])] else ss in
        let ss := set_last (fun s => (fst s ++ [front t], snd s ++ [w])) ss in
        corpus_loop fuel tg' ut' te ss skipped
    end
  end.
Definition corpus (tg ut : list (lexunit * bool)) : res (list sent_pair * nat) := corpus_loop (S (length tg + length ut)) tg ut true [] 0.
End TC.
