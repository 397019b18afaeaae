(** apertium/wblank-attach.cc:25-190: byte-level state machine.
    Not modelled: the argument check (lines 37-42), warnings on stderr and the line counter,
    stream buffering/flushing. *)
From Verif Require Import Model.Base.

Definition is_trim (c : char) : bool := (c =?c cSEMI) || (c =?c cSP).

(* wblank-attach.cc:29-32: index of the first kept byte, then erase *)
Fixpoint drop_trim (w : str) : str :=
  match w with c :: r => if is_trim c then drop_trim r else w | [] => [] end.

(* wblank-attach.cc:25-33 [trim_wb]: first pop from the back, then erase the front *)
Definition trim_wb (w : str) : str := drop_trim (rev (drop_trim (rev w))).

(* wblank-attach.cc:157-158: [blank.find(';', b)], [unesc.assign(blank, b, e - b)] on the remaining
   suffix starting at b: the piece up to the first ';' (or the end), and the suffix after it
   (line 165: b = max(e, e+1): after the ';', or npos) *)
Fixpoint cut_semi (s : str) : str * str :=
  match s with
  | [] => ([], [])
  | c :: r => if c =?c cSEMI then ([], r) else let (p, q) := cut_semi r in (c :: p, q)
  end.

(* wblank-attach.cc:160-163: [std::find(wbs...)] *)
Definition mem_str (x : str) (l : list str) : bool := existsb (str_eqb x) l.

(* wblank-attach.cc:155-166: the [while (b < blank.size())] loop on the remaining suffix [s];
   returns wbs and the counter wb_stack.back(). Each round consumes at least one byte, so
   [fuel = length s] rounds suffice (lemma add_pieces_fuel in Proofs). *)
Fixpoint add_pieces (fuel : nat) (s : str) (wbs : list str) (n : nat) : list str * nat :=
  match fuel, s with
  | S f, _ :: _ =>
      let (p, r) := cut_semi s in
      let p := trim_wb p in
      match p with
      | [] => add_pieces f r wbs n
      | _ => if mem_str p wbs then add_pieces f r wbs n else add_pieces f r (wbs ++ [p]) (S n)
      end
  | _, _ => (wbs, n)
  end.

(* wblank-attach.cc:51-58 *)
Record st := mk { wbs : list str; wb_stack : list nat (* back first *); blank : str; unesc : str;
                  in_token : bool; in_blank : bool; in_wblank : bool }.
Definition st0 : st := mk [] [] [] [] false false false.

(* wblank-attach.cc:108-117: "[[" w1 "; " w2 ... "]]" *)
Fixpoint join (l : list str) : str :=
  match l with [] => [] | [x] => x | x :: r => x ++ [cSEMI; cSP] ++ join r end.
Definition put_wbs (l : list str) : str :=
  match l with [] => [] | _ => [cLB; cLB] ++ join l ++ [cRB; cRB] end.

(* wblank-attach.cc:97-123: flags, and what is written before the byte *)
Definition flags (s : st) (c : char) : st * str :=
  if negb (in_token s) && (c =?c cLB) then
    (mk (wbs s) (wb_stack s) (blank s) (unesc s) (in_token s) true (in_blank s || in_wblank s), [])
  else if in_wblank s && (c =?c cRB) then (s, [])
  else if in_blank s && (c =?c cRB) then (s, [])
  else if negb (in_blank s) && (c =?c cCARET) then
    (mk (wbs s) (wb_stack s) (blank s) (unesc s) true (in_blank s) (in_wblank s), put_wbs (wbs s))
  else if negb (in_blank s) && (c =?c cDOL) then
    (mk (wbs s) (wb_stack s) (blank s) (unesc s) false (in_blank s) (in_wblank s), [])
  else (s, []).

(* wblank-attach.cc:138, 149: prefix tests on blank (NUL-terminated, so short strings are safe) *)
Definition starts_close (b : str) : bool :=
  match b with
  | a :: b :: c :: d :: e :: _ =>
      (a =?c cLB) && (b =?c cLB) && (c =?c cSLASH) && (d =?c cRB) && (e =?c cRB)
  | _ => false
  end.
Definition starts_wb (b : str) : bool :=
  match b with x :: y :: _ => (x =?c cLB) && (y =?c cLB) | _ => false end.

(* wblank-attach.cc:143-145: pop_back [n] times; None = pop_back on an empty vector (undefined behaviour) *)
Fixpoint pop_n (n : nat) (l : list str) : option (list str) :=
  match n with
  | 0 => Some l
  | S m => match l with [] => None | _ => pop_n m (removelast l) end
  end.

(* wblank-attach.cc:150: blank.assign(unesc.begin()+2, unesc.end()-2); None if fewer than 4 bytes (UB) *)
Definition strip2 (x : str) : option str :=
  if length x <? 4 then None else Some (firstn (length x - 4) (skipn 2 x)).

(* wblank-attach.cc:136-173: a blank has just been closed *)
Definition close_blank (s : st) : option (st * str) :=
  let b := blank s in
  if starts_close b then
    match wb_stack s with
    | [] => Some (mk (wbs s) [] [] [] (in_token s) false (in_wblank s), [])
    | n :: st' =>
        match pop_n n (wbs s) with
        | None => None
        | Some w => Some (mk w st' [] [] (in_token s) false (in_wblank s), [])
        end
    end
  else if starts_wb b then
    match strip2 (unesc s) with
    | None => None
    | Some content =>
        let (w, n) := add_pieces (length content) content (wbs s) 0 in
        Some (mk w (n :: wb_stack s) [] [] (in_token s) false (in_wblank s), [])
    end
  else Some (mk (wbs s) (wb_stack s) [] [] (in_token s) false (in_wblank s), b).

(* wblank-attach.cc:97-173 for an unescaped byte other than NUL *)
Definition step_chr (s : st) (c : char) : option (st * str) :=
  let (s1, o1) := flags s c in
  let s2 := if in_blank s1
            then mk (wbs s1) (wb_stack s1) (blank s1 ++ [c]) (unesc s1 ++ [c]) (in_token s1) true (in_wblank s1)
            else s1 in
  let o2 := if in_blank s1 then o1 else o1 ++ [c] in
  if in_wblank s2 && (c =?c cRB) then
    Some (mk (wbs s2) (wb_stack s2) (blank s2) (unesc s2) (in_token s2) (in_blank s2) false, o2)
  else if in_blank s2 && (c =?c cRB) then
    match close_blank s2 with Some (s3, o3) => Some (s3, o2 ++ o3) | None => None end
  else Some (s2, o2).

(* wblank-attach.cc:78-95: NUL: wbs is cleared, wb_stack and in_wblank are not *)
Definition step_nul (s : st) : st * str :=
  (mk [] (wb_stack s) [] (match blank s with [] => unesc s | _ => [] end) false false (in_wblank s), blank s ++ [cNUL]).

Definition step (s : st) (c : char) : option (st * str) :=
  if c =?c cNUL then Some (step_nul s) else step_chr s c.

(* wblank-attach.cc:66-76 *)
Definition step_esc (s : st) (n : char) : st * str :=
  if in_blank s
  then (mk (wbs s) (wb_stack s) (blank s ++ [cBS; n]) (unesc s ++ [n]) (in_token s) (in_blank s) (in_wblank s), [])
  else (s, [cBS; n]).

(** Result of a run: output so far, and whether undefined behaviour was reached. *)
Inductive result := Done (o : str) | UB (o : str).
Definition prepend (o : str) (r : result) : result :=
  match r with Done x => Done (o ++ x) | UB x => UB (o ++ x) end.

(* wblank-attach.cc:62-190; at end of input an open blank is written out (lines 186-189).
   A final backslash reads EOF as the byte 0xFF, see Model/WblankDetach.v. *)
Fixpoint run (s : st) (inp : str) : result :=
  match inp with
  | [] => Done (blank s)
  | c :: rest =>
      if c =?c cBS then
        match rest with
        | [] => let (s', o) := step_esc s 255%N in Done (o ++ blank s')
        | n :: rest' =>
            if n =?c cNUL
            then match step s c with Some (s', o) => prepend o (run s' rest) | None => UB [] end
            else let (s', o) := step_esc s n in prepend o (run s' rest')
        end
      else match step s c with Some (s', o) => prepend o (run s' rest) | None => UB [] end
  end.

Definition attach (inp : str) : result := run st0 inp.
