(** Tokenisers of the chunk modules.  [None]: the code would read on for ever after the end of the input, or append U_EOF.
    [nf]: internal_null_flush.  Result: the tokens of the document, and the rest of the input after its NUL, if there is one. *)
From Verif Require Import Model.Base Model.ChunkLoop.

Definition kcons (t : tkn) (r : option (list tkn * option (str * bool))) : option (list tkn * option (str * bool)) :=
  match r with Some (l, x) => Some (t :: l, x) | None => None end.
(** ** interchunk.cc:362-434 and postchunk.cc:455-527 (identical); [inword] is the member variable *)
Inductive kmode := KTop | KEsc | KBl | KBlE | KCh | KChE.
Fixpoint klex (nf inword : bool) (m : kmode) (s content : str) : option (list tkn * option (str * bool)) :=
  match s with
  | [] => match m with KTop => Some ([KEof content], None) | _ => None end
  | c :: r =>
    match m with
    | KTop =>
        if nf && (c =?c cNUL) then Some ([KEof content], Some (r, inword))
        else if c =?c cBS then klex nf inword KEsc r (content ++ [c])
        else if c =?c cLB then klex nf inword KBl r (content ++ [c])
        else if inword && (c =?c cLC) then klex nf inword KCh r (content ++ [c])
        else if inword && (c =?c cDOL) then kcons (KWord content) (klex nf false KTop r [])
        else if c =?c cCARET then kcons (KBlank content) (klex nf true KTop r [])
        else klex nf inword KTop r (content ++ [c])
    | KEsc => klex nf inword KTop r (content ++ [c])
    | KBl => if c =?c cBS then klex nf inword KBlE r (content ++ [c])
             else if c =?c cRB then klex nf inword KTop r (content ++ [c])
             else klex nf inword KBl r (content ++ [c])
    | KBlE => klex nf inword KBl r (content ++ [c])
    | KCh => if c =?c cBS then klex nf inword KChE r (content ++ [c])
             else if c =?c cRC then
               klex nf inword (match r with d :: _ => if d =?c cDOL then KTop else KCh | [] => KCh end) r (content ++ [c])
             else klex nf inword KCh r (content ++ [c])
    | KChE => klex nf inword KCh r (content ++ [c])
    end
  end.
(** ** transfer.cc:790-897; null_flush is false whenever documents are read (914-929) *)
Inductive tmode := TTop | TEsc | TBl | TBlE | TWb0 | TWb | TWbE.
Fixpoint tlex (nf : bool) (m : tmode) (s content : str) : option (list tkn * option (str * bool)) :=
  match s with
  | [] => match m with TTop | TBl | TWb0 => Some ([KEof content], None) | _ => None end
  | c :: r =>
    match m with
    | TTop =>
        if nf && (c =?c cNUL) then Some ([KEof content], Some (r, false))
        else if c =?c cBS then tlex nf TEsc r (content ++ [c])
        else if c =?c cLB then tlex nf TBl r (content ++ [c])
        else if c =?c cDOL then kcons (KWord content) (tlex nf TTop r [])
        else if c =?c cCARET then kcons (KBlank content) (tlex nf TTop r [])
        else tlex nf TTop r (content ++ [c])
    | TEsc => tlex nf TTop r (content ++ [c])
    | TBl =>
        if c =?c cBS then tlex nf TBlE r (content ++ [c])
        else if c =?c cLB then kcons (KBlank (removelast content)) (tlex nf TWb0 r [])
        else if c =?c cRB then tlex nf TTop r (content ++ [c])
        else if c =?c cNUL then (if nf then Some ([KEof content], Some (r, false)) else tlex nf TTop r (content ++ [c]))
        else tlex nf TBl r (content ++ [c])
    | TBlE => tlex nf TBl r (content ++ [c])
    | TWb0 => if nf && (c =?c cNUL) then Some ([KEof content], Some (r, false)) else tlex nf TWb r ([cLB; cLB] ++ [c])
    | TWb => if c =?c cBS then tlex nf TWbE r (content ++ [c])
             else if c =?c cDOL then kcons (KWord content) (tlex nf TTop r [])
             else tlex nf TWb r (content ++ [c])
    | TWbE => tlex nf TWb r (content ++ [c])
    end
  end.
(** all documents of an input ([lex]: one of the above, given the carried-over flag); [fuel] bounds the number of documents *)
Fixpoint kdocs (lex : bool -> str -> option (list tkn * option (str * bool))) (fuel : nat) (inword : bool) (s : str) : option (list (list tkn)) :=
  match fuel with
  | 0 => None
  | S f => match lex inword s with
           | None => None
           | Some (d, None) => Some [d]
           | Some (d, Some (r, iw)) => match kdocs lex f iw r with Some l => Some (d :: l) | None => None end
           end
  end.
