(** apertium/caps_restorer.cc (CapsRestorer) and apertium/apertium_extract_caps.cc.
    External (lttoolbox, not in the repository), assumed as follows.  InputFile: get takes the next character and returns
    U_EOF at the end, unget and peek as usual; readBlank(false) reads up to a '^', a "[[" or a NUL outside superblanks
    [...], or the end, a backslash protecting the next character; finishWBlank reads up to the next "]]" and returns the
    text with "[[" and "]]"; readBlock up to the next '>' not escaped, exit at the end of the input.  eof() may or may not
    be true after the last character was read and before a read failed ([late] = it is not).
    Alphabet, State and TransExe: an abstract machine (section variables).  StringUtils::split/join: on "; ";
    tolower, totitle, toupper, getcase, merge_wblanks: arbitrary functions.  double: an arbitrary type with + and >=. *)
From Coq Require Import String.
From Verif Require Import Model.Base.

Definition cEOF : char := 65535%N.                                        (* U_EOF *)
(** ** readBlank(false), finishWBlank, readBlock (external) *)
Fixpoint read_blankw (inp : str) (b : bool) (acc : str) : str * str :=
  match inp with
  | [] => (acc, [])
  | c :: r =>
    if c =?c cBS then match r with [] => (acc ++ [c], []) | d :: r' => read_blankw r' b (acc ++ [c; d]) end
    else if b then read_blankw r (negb (c =?c cRB)) (acc ++ [c])
    else if (c =?c cCARET) || (c =?c cNUL) then (acc, inp)
    else if c =?c cLB then match r with d :: _ => if d =?c cLB then (acc, inp) else read_blankw r true (acc ++ [c]) | [] => (acc ++ [c], []) end
    else read_blankw r false (acc ++ [c])
  end.
Fixpoint finish_wblank (inp acc : str) : option (str * str) :=
  match inp with
  | [] => None
  | c :: r =>
    if c =?c cBS then match r with [] => None | d :: r' => finish_wblank r' (acc ++ [c; d]) end
    else if c =?c cRB then match r with d :: r' => if d =?c cRB then Some (acc ++ [c; d], r') else finish_wblank r (acc ++ [c]) | [] => None end
    else finish_wblank r (acc ++ [c])
  end.
Fixpoint finish_block (inp acc : str) : option (str * str) :=
  match inp with
  | [] => None
  | c :: r => if c =?c cBS then match r with [] => None | d :: r' => finish_block r' (acc ++ [c; d]) end
              else if c =?c cGT then Some (acc ++ [c], r) else finish_block r (acc ++ [c])
  end.
(** ** StringUtils::split(s, "; ") and join (external) *)
Fixpoint split_sc (s cur : str) : list str :=
  match s with
  | [] => [cur]
  | c :: r =>
    if c =?c cSEMI then match r with d :: r' => if d =?c cSP then cur :: split_sc r' [] else split_sc r (cur ++ [c]) | [] => [cur ++ [c]] end
    else split_sc r (cur ++ [c])
  end.
Fixpoint join_sc (l : list str) : str := match l with [] => [] | [x] => x | x :: r => x ++ cSEMI :: cSP :: join_sc r end.

(** ** caps_restorer.cc *)
Section R.
Variables (W : Type) (w0 : W) (wadd : W -> W -> W) (wge : W -> W -> bool).
Variable weights : str -> W.                                              (* weights[...]: 0.0 if absent *)
Variables (tolower totitle toupper : str -> str).
Variables (State : Type) (initial : State).
Variable step_null : State -> State.                                      (* step_optional(null_boundary) *)
Variable step_wb : State -> State.                                        (* step_optional(word_boundary) *)
Variable step_word : State -> str -> str -> str -> State.                 (* 202-213: source case, form, surface *)
Variable finals : State -> list (str * list str).                         (* isFinal, filterFinalsLRX: rule, cases of its words *)
Variable dead : State -> bool.                                            (* size() == 0 *)
Variable merge : State -> State.                                          (* merge(initial_state) *)
Variable delete_wblanks : bool.
Variable late : bool.

(* caps_restorer.h:42-51 *)
Record LU := mkLU { lblank : str; lwblank : str; lform : str; lsurf : str; w_dix : W; w_AA : W; w_Aa : W; w_aa : W }.
(* 60-79 *)
Definition add_case (p : str) (x : W) (w : LU) : LU :=
  let 'mkLU b wb f s d A a l := w in
  if str_eqb p (u "<AA>"%string) then mkLU b wb f s d (wadd A x) a l
  else if str_eqb p (u "<Aa>"%string) then mkLU b wb f s d A (wadd a x) l
  else if str_eqb p (u "<aa>"%string) then mkLU b wb f s d A a (wadd l x)
  else if str_eqb p (u "<dix>"%string) then mkLU b wb f s (wadd d x) A a l
  else w.
(* the words and the path from their ends; None: index out of range *)
Fixpoint add_path (x : W) (rpath : list str) (rwords : list LU) : option (list LU) :=
  match rpath, rwords with
  | [], ws => Some ws
  | _, [] => None
  | p :: ps, w :: ws => match add_path x ps ws with Some r => Some (add_case p x w :: r) | None => None end
  end.
Fixpoint add_paths (paths : list (str * list str)) (seen : list str) (words : list LU) : option (list LU) :=
  match paths with
  | [] => Some words
  | (rule, path) :: r =>
    if existsb (str_eqb rule) seen then add_paths r seen words
    else match add_path (weights rule) (rev path) (rev words) with Some ws => add_paths r (rule :: seen) (rev ws) | None => None end
  end.
(* 92-116 *)
Definition out_word (w : LU) : str :=
  lblank w ++
  match lsurf w with
  | [] => []
  | _ =>
    let s := if wge (w_dix w) (w_AA w) && wge (w_dix w) (w_Aa w) && wge (w_dix w) (w_aa w) then lsurf w
             else if wge (w_aa w) (w_AA w) && wge (w_aa w) (w_Aa w) then tolower (lsurf w)
             else if wge (w_Aa w) (w_AA w) then totitle (lsurf w)
             else toupper (lsurf w) in
    match lwblank w with [] => s | wb => wb ++ s ++ u "[[/]]"%string end
  end.
Definition output_all (ws : list LU) : str := flat_map out_word ws.
(* 118-141; None: exit in readBlock.  At the end U_EOF is appended. *)
Fixpoint read_seg (fuel : nat) (inp seg : str) : option (str * str * bool) :=     (* segment, rest, end of input hit *)
  match fuel with
  | 0 => None
  | S fuel =>
    match inp with
    | [] => Some (seg ++ [cEOF], [], true)
    | c :: r =>
      if c =?c cBS then match r with [] => Some (seg ++ [c; cEOF], [], true) | d :: r' => read_seg fuel r' (seg ++ [c; d]) end
      else if c =?c cLT then match finish_block r [c] with None => None | Some (b, r') => read_seg fuel r' (seg ++ b) end
      else if (c =?c cSLASH) || (c =?c cDOL) then Some (seg, inp, false)
      else read_seg fuel r (seg ++ [c])
    end
  end.
Definition seg_of (inp seg : str) := read_seg (S (length inp)) inp seg.
(* 173-178: temp is not emptied between the segments *)
Fixpoint read_alts (fuel : nat) (inp temp : str) : option (str * str * bool) :=
  match fuel with
  | 0 => None
  | S fuel =>
    match seg_of inp temp with
    | None => None
    | Some (temp, r, hit) =>
      if hit then Some (temp, r, true)
      else match r with [] => Some (temp, r, true) | c :: r' => if c =?c cSLASH then read_alts fuel r' temp else Some (temp, r', false) end
    end
  end.
(* 183-201: source case and new wblank *)
Fixpoint caps_pieces (l kept : list str) : option str * list str :=
  match l with
  | [] => (None, kept)
  | p :: r => match p with
              | c :: d :: q => if (c =?c 99%N) && (d =?c cCOLON) then (Some q, kept) else caps_pieces r (kept ++ [p])
              | _ => caps_pieces r (kept ++ [p])
              end
  end.
Definition caps_of (wb : str) : str * str :=
  match wb with
  | [] => (u "aa/aa"%string, wb)
  | _ =>
    let inner := firstn (length wb - 4) (skipn 2 wb) in
    let '(sc, kept) := caps_pieces (split_sc inner []) [] in
    let src := match sc with Some q => q | None => u "aa/aa"%string end in
    if delete_wblanks
    then (src, match join_sc kept with [] => [] | n => cLB :: cLB :: n ++ [cRB; cRB] end)
    else (src, wb)
  end.
(* 156-216: the word, the stepped state, rest, end of input hit *)
Definition read_word (inp : str) (st : State) : option (LU * State * str * bool) :=
  let '(b, r) := read_blankw inp false [] in
  match (match r with
         | c :: r1 => if c =?c cLB then match r1 with _ :: r2 => finish_wblank r2 [cLB; cLB] | [] => None end else Some ([], r)
         | [] => Some ([], r)
         end) with
  | None => None                                                          (* the end of the input inside a word-bound blank: external *)
  | Some (wb, r) =>
    match r with
    | c :: r1 =>
      if c =?c cCARET then
        match seg_of r1 [] with
        | None => None
        | Some (form, r2, hit) =>
          match (match r2 with
                 | c :: r3 => if c =?c cDOL then Some ([], form, r3, false)
                              else match read_alts (S (length r3)) r3 [] with Some (s, r4, h) => Some (form, s, r4, h) | None => None end
                 | [] => Some (form, [], [], true)
                 end) with
          | None => None
          | Some (form, surf, r4, hit) =>
            let '(src, wb) := caps_of wb in
            Some (mkLU b wb form surf w0 w0 w0 w0, step_word st src form surf, r4, hit)
          end
        end
      else Some (mkLU b wb [] [] w0 w0 w0 w0, st, r, false)
    | [] => Some (mkLU b wb [] [] w0 w0 w0 w0, st, r, true)
    end
  end.
(* 42-90; [inp = []] with the end not yet seen: one more empty word if [late].  None: undefined or exit *)
Definition start : State := step_null initial.
(* 55-83: after a word was read *)
Definition after_word (w : LU) (st : State) (words : list LU) : option (str * list LU * State) :=
  let st := step_wb st in
  match add_paths (finals st) [] (words ++ [w]) with
  | None => None
  | Some ws => if dead st then Some (output_all ws, [], initial) else Some ([], ws, merge st)
  end.
Fixpoint process_loop (fuel : nat) (inp : str) (words : list LU) (st : State) : option str :=
  match fuel with
  | 0 => None
  | S fuel =>
    match inp with
    | c :: r =>
      if c =?c cNUL
      then match process_loop fuel r [] start with Some s => Some (output_all words ++ cNUL :: s) | None => None end
      else match read_word inp st with
           | None => None
           | Some (w, st, r, hit) =>
             match after_word w st words with
             | None => None
             | Some (o, ws, st) =>
               if hit then Some (o ++ output_all ws)
               else match process_loop fuel r ws st with Some s => Some (o ++ s) | None => None end
             end
           end
    | [] =>
      if late then match after_word (mkLU [] [] [] [] w0 w0 w0 w0) st words with
                   | None => None
                   | Some (o, ws, _) => Some (o ++ output_all ws)
                   end
      else Some (output_all words)
    end
  end.
Definition process (inp : str) : option str := process_loop (S (length inp)) inp [] start.
End R.

(** ** apertium_extract_caps.cc *)
Section E.
Variables (getcase : str -> str) (merge_wblanks : str -> str -> str).
Variable keep_surf : bool.
(* 31-47; at the end U_EOF is appended *)
Fixpoint until_slash (inp acc : str) : str * str * bool :=
  match inp with
  | [] => (acc ++ [cEOF], [], true)
  | c :: r =>
    if c =?c cBS then match r with [] => (acc ++ [c; cEOF], [], true) | d :: r' => until_slash r' (acc ++ [c; d]) end
    else if (c =?c cSLASH) || (c =?c cDOL) || (c =?c cNUL) then (acc, inp, false)
    else until_slash r (acc ++ [c])
  end.
(* 55-58 *)
Fixpoint skip_alts (fuel : nat) (inp : str) (hit : bool) : str * bool :=
  match fuel with
  | 0 => (inp, hit)
  | S fuel =>
    if hit then (inp, hit)
    else match inp with
         | [] => (inp, true)
         | c :: r => if (c =?c cNUL) || (c =?c cDOL) then (inp, hit)
                     else let '(_, r, hit) := until_slash r [] in skip_alts fuel r hit
         end
  end.
(* 49-62 *)
Definition extract_lu (inp : str) : str * str * str * bool :=
  let '(surf, r, hit) := until_slash inp [] in
  let '(reading, r, hit) :=
    match r with
    | c :: r1 => if c =?c cSLASH then let '(rd, r, hit) := until_slash r1 [] in
                                      let '(r, hit) := skip_alts (S (length r)) r hit in (rd, r, hit)
                 else ([], r, hit)
    | [] => ([], r, hit)
    end in
  match r with
  | c :: r1 => if c =?c cDOL then (surf, reading, r1, hit) else (surf, reading, r, hit)
  | [] => (surf, reading, r, hit)
  end.
(* 64-70: position of the last ">+" (0 if none), then the first '<' from there *)
Fixpoint last_gtplus (s : str) (i : nat) (found : nat) : nat :=
  match s with
  | c :: r => last_gtplus r (S i) (match r with d :: _ => if (c =?c cGT) && (d =?c cPLUS) then i else found | [] => found end)
  | [] => found
  end.
Fixpoint before_lt (s : str) (i from : nat) : str :=
  match s with
  | c :: r => if (from <=? i) && (c =?c cLT) then [] else c :: before_lt r (S i) from
  | [] => []
  end.
Definition lemma_case (r : str) : str := getcase (before_lt r 0 (last_gtplus r 0 0)).
(* 92-126; the loop ends when a read met the end of the input; None: the end inside a word-bound blank (external) *)
Fixpoint extract_loop (fuel : nat) (inp : str) : option str :=
  match fuel with
  | 0 => None
  | S fuel =>
    let '(b, r) := read_blankw inp false [] in
    match r with
    | [] => Some b
    | c :: r1 =>
      if c =?c cNUL then match extract_loop fuel r1 with Some s => Some (b ++ cNUL :: s) | None => None end
      else match (if c =?c cLB then match r1 with _ :: r2 => finish_wblank r2 [cLB; cLB] | [] => None end else Some ([], r)) with
           | None => None
           | Some (wb, r2) =>
             match r2 with
             | [] => Some (b ++ wb)
             | c :: r3 =>
               if c =?c cCARET then
                 let '(surf, reading, r4, hit) := extract_lu r3 in
                 let nw := u "[[c:"%string ++ getcase surf ++ cSLASH :: lemma_case reading ++ u "]]"%string in
                 let o := b ++ merge_wblanks wb nw ++ cCARET :: (if keep_surf then surf ++ [cSLASH] else []) ++ reading ++ [cDOL] in
                 if hit then Some o else match extract_loop fuel r4 with Some s => Some (o ++ s) | None => None end
               else match extract_loop fuel r2 with Some s => Some (b ++ wb ++ s) | None => None end
             end
           end
    end
  end.
Definition extract (inp : str) : option str := extract_loop (S (length inp)) inp.
End E.
