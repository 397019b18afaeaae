(** apertium/postchunk.cc: opening a chunk.  Reading beyond the end of the string (undefined behaviour) is None.
    u_toupper, u_isalnum and StringUtils::getcase are parameters; u_isdigit is taken as ASCII digit, StringUtils::stoi as
    the value of the leading digits (without int overflow). *)
From Verif Require Import Model.Base.

Definition isdigit (c : char) : bool := (48 <=? c)%N && (c <=? 57)%N.
Fixpoint stoi_acc (a : N) (s : str) : N :=
  match s with c :: r => if isdigit c then stoi_acc (a * 10 + (c - 48)) r else a | [] => a end%N.
Definition stoi (s : str) : N := stoi_acc 0%N s.

(* getVecTags, postchunk.cc:773-801.  [cur]: the tag being read *)
Fixpoint getVecTags (s : str) (cur : option str) : option (list str) :=
  match s with
  | [] => match cur with Some _ => None | None => Some [] end
  | c :: r =>
    match cur with
    | Some t => if c =?c cGT then match getVecTags r None with Some l => Some ((t ++ [cGT]) :: l) | None => None end
                else getVecTags r (Some (t ++ [c]))
    | None => if c =?c cBS then match r with _ :: r' => getVecTags r' None | [] => None end
              else if c =?c cLT then getVecTags r (Some [cLT])
              else if c =?c cLC then Some []
              else getVecTags r None
    end
  end.
(* beginChunk, 803-818: what remains from the returned index on *)
Fixpoint beginChunk (s : str) : option str :=
  match s with
  | [] => Some []
  | c :: r => if c =?c cBS then match r with _ :: r' => beginChunk r' | [] => None end
              else if c =?c cLC then Some r else beginChunk r
  end.
(* wordzero, 826-842 and pseudolemma, 844-860; [stop]: '{' or one of '<' '{' *)
Fixpoint upto (stop : str) (s acc : str) : option str :=
  match s with
  | [] => Some []
  | c :: r => if c =?c cBS then match r with d :: r' => upto stop r' (acc ++ [c; d]) | [] => None end
              else if mem c stop then Some acc else upto stop r (acc ++ [c])
  end.
Definition wordzero (s : str) : option str := upto [cLC] s [].
Definition pseudolemma (s : str) : option str := upto [cLT; cLC] s [].

Inductive ckind := AA | Aa | aa.          (* result of getcase *)
Section Post.
Variable up : char -> char.               (* u_toupper *)
Variable alnum : char -> bool.            (* u_isalnum *)
Variable getcase : str -> ckind.
Variable vectags : list str.
(* 912-934 and 1020-1044 *)
Definition put (ua uf : bool) (c : char) : str * bool :=
  if ua then ([up c], uf)
  else if uf then (if alnum c then ([up c], false) else ([c], true))
  else ([c], uf).
(* vectags[value], 898-902 *)
Definition ref (digits : str) : str :=
  match stoi digits with
  | 0%N => []
  | n => nth (N.to_nat (n - 1)) vectags []
  end.
(* position inside a lexical unit: between elements, after a backslash, after <, in a tag, in a reference *)
Inductive lmode := LN | LE | LL | LT | LR (digits : str).
(* one character of the loop 886-937 (993-1046, 1082-1133): None = the closing $; [out] is what is appended *)
Definition lu_step (ua uf : bool) (m : lmode) (c : char) : option (str * bool * lmode) :=
  match m with
  | LE => Some ([c], uf, LN)
  | LL => if isdigit c then Some ([], uf, LR [c])
          else if c =?c cGT then Some ([cLT; cGT], uf, LN)
          else Some ([cLT; c], uf, LT)
  | LT => if c =?c cGT then Some ([cGT], uf, LN) else Some ([c], uf, LT)
  | LR d => if c =?c cGT then Some (ref d, uf, LN) else Some ([], uf, LR (d ++ [c]))
  | LN => if c =?c cDOL then None
          else if c =?c cBS then Some ([cBS], uf, LE)
          else if c =?c cLT then Some ([], uf, LL)
          else let '(o, uf') := put ua uf c in Some (o, uf', LN)
  end.

(** ** unchunk, 862-960 *)
Inductive umode := UTop | UEsc | ULu (m : lmode) | UBl | UBlE.
Definition opre (p : str) (o : option str) : option str := match o with Some s => Some (p ++ s) | None => None end.
(* 879-959; the loop runs while more than two characters remain (endChunk is size()-2, 820-824) *)
Fixpoint unchunk_loop (ua uf : bool) (s : str) (m : umode) : option str :=
  match s with
  | [] => match m with UTop => Some [] | _ => None end
  | c :: r =>
    match m with
    | UTop => if length s <=? 2 then Some []
              else if c =?c cBS then opre [cBS] (unchunk_loop ua uf r UEsc)
              else if c =?c cCARET then opre [cCARET] (unchunk_loop ua uf r (ULu LN))
              else if c =?c cLB then opre [cLB] (unchunk_loop ua uf r UBl)
              else opre [c] (unchunk_loop ua uf r UTop)
    | UEsc => opre [c] (unchunk_loop ua uf r UTop)
    | ULu m' => match lu_step ua uf m' c with
                | None => opre [cDOL] (unchunk_loop ua uf r UTop)
                | Some (o, uf', m2) => opre o (unchunk_loop ua uf' r (ULu m2))
                end
    | UBl => if c =?c cRB then opre [cRB] (unchunk_loop ua uf r UTop)
             else if c =?c cBS then opre [cBS] (unchunk_loop ua uf r UBlE)
             else opre [c] (unchunk_loop ua uf r UBl)
    | UBlE => opre [c] (unchunk_loop ua uf r UBl)
    end
  end.

(** ** splitWordsAndBlanks, 962-1184 *)
(* positions: between elements, after a backslash, in a word, in a superblank, after its backslash, in a word-bound
   blank (with the previous character), after its backslash, on the character after it *)
Inductive smode := STop | SEsc | SLu (m : lmode) | SBl | SBlE | SW (prev : char) | SWE | SWc.
Record sst := mks { s_words : list str; s_blanks : list str; s_last : bool }.
(* words.push_back happens at the end; here the word under construction is the last of s_words *)
Definition app_last (l : list str) (x : str) : option (list str) :=          (* *(l.back()) += x *)
  match rev l with y :: r => Some (rev r ++ [y ++ x]) | [] => None end.
Definition start_word (st : sst) : sst :=
  mks (s_words st ++ [[]]) (if s_last st then s_blanks st else s_blanks st ++ [[]]) false.
Definition add_word (st : sst) (x : str) : option sst :=
  match app_last (s_words st) x with Some w => Some (mks w (s_blanks st) (s_last st)) | None => None end.
Definition start_blank (st : sst) (x : str) : option sst :=
  match app_last (if s_last st then s_blanks st else s_blanks st ++ [[]]) x with
  | Some b => Some (mks (s_words st) b true) | None => None end.
Definition add_blank (st : sst) (x : str) : option sst :=
  match app_last (s_blanks st) x with Some b => Some (mks (s_words st) b (s_last st)) | None => None end.
Fixpoint split_loop (ua uf : bool) (s : str) (m : smode) (st : sst) : option sst :=
  match s with
  | [] => match m with STop => Some st | _ => None end
  | c :: r =>
    match m with
    | STop => if length s <=? 2 then Some st
              else if c =?c cCARET then split_loop ua uf r (SLu LN) (start_word st)
              else if c =?c cLB then
                match r with
                | d :: _ => if d =?c cLB
                            then match add_word (start_word st) [c] with Some st' => split_loop ua uf r (SW c) st' | None => None end
                            else match start_blank st [c] with Some st' => split_loop ua uf r SBl st' | None => None end
                | [] => None
                end
              else match start_blank st [c] with
                   | Some st' => split_loop ua uf r (if c =?c cBS then SEsc else STop) st'
                   | None => None end
    | SEsc => match add_blank st [c] with Some st' => split_loop ua uf r STop st' | None => None end
    | SLu m' => match lu_step ua uf m' c with
                | None => split_loop ua uf r STop st
                | Some (o, uf', m2) => match add_word st o with Some st' => split_loop ua uf' r (SLu m2) st' | None => None end
                end
    | SBl => match add_blank st [c] with
             | Some st' => split_loop ua uf r (if c =?c cRB then STop else if c =?c cBS then SBlE else SBl) st'
             | None => None end
    | SBlE => match add_blank st [c] with Some st' => split_loop ua uf r SBl st' | None => None end
    | SW p => match add_word st [c] with
              | Some st' => split_loop ua uf r (if c =?c cBS then SWE else if (c =?c cRB) && (p =?c cRB) then SWc else SW c) st'
              | None => None end
    | SWE => match add_word st [c] with Some st' => split_loop ua uf r (SW c) st' | None => None end
    | SWc => split_loop ua uf r (SLu LN) st
    end
  end.
End Post.

Definition flags (k : ckind) : bool * bool := match k with AA => (true, false) | Aa => (false, true) | aa => (false, false) end.
(* unchunk; [dict] is dictionary_case *)
Definition unchunk (up : char -> char) (alnum : char -> bool) (getcase : str -> ckind) (dict : bool) (chunk : str) : option str :=
  match getVecTags chunk None, pseudolemma chunk, beginChunk chunk with
  | Some v, Some l, Some s =>
      let '(ua, uf) := if dict then (false, false) else flags (getcase l) in
      unchunk_loop up alnum v ua uf s UTop
  | _, _, _ => None
  end.
(* applyRule, 625-646: the words of the rule, and the blanks between them (blank_queue); [blanks] is tmpblank, which holds
   the blank read after the chunk; the third component is tmpblank[0] afterwards *)
Definition split_chunk (up : char -> char) (alnum : char -> bool) (getcase : str -> ckind) (blanks : list str) (chunk : str)
  : option (list str * list str) :=
  match getVecTags chunk None, pseudolemma chunk, beginChunk chunk with
  | Some v, Some l, Some s =>
      let '(ua, uf) := flags (getcase l) in
      match split_loop up alnum v ua uf s STop (mks [] blanks true) with
      | Some st => Some (s_words st, s_blanks st)
      | None => None
      end
  | _, _, _ => None
  end.
Fixpoint take_blanks (n : nat) (l : list str) : option (list str) :=          (* *tmpblank[1] ... *tmpblank[n] *)
  match n, l with 0, _ => Some [] | S n', b :: r => match take_blanks n' r with Some x => Some (b :: x) | None => None end | S _, [] => None end.
Definition rule_view up alnum getcase (blanks : list str) (chunk : str) : option (list str * list str * str) :=
  match split_chunk up alnum getcase blanks chunk with
  | Some (ws, b0 :: bs) => match take_blanks (length ws - 1) bs with Some q => Some (ws, q, b0) | None => None end
  | _ => None
  end.
