(** apertium/file_morpho_stream.cc: reading the words of the tagger's input.
    The matcher (lttoolbox MatchState over the patterns of the model) is a parameter: state after a character, after a
    tag (by its name in angle brackets; the empty name stands for an unterminated tag), classification, and whether no
    state is alive.  Words are allocated objects in C++; the queue [vwords] is a list of them. *)
From Verif Require Import Model.Base Model.TaggerWord.

Section MS.
Variable mt : str -> str -> bool.                    (* TaggerWord::match *)
Variables prefer discardr : list str.                (* td->getPreferRules(), td->getDiscardRules() *)
Variables keof kundef : nat.                         (* ca_tag_keof, ca_tag_kundef *)
Variable M : Type.
Variables (minit : M) (mstep : M -> char -> M) (mtag : M -> str -> M) (mfin : M -> option nat) (mdead : M -> bool).
Variable nf : bool.                                  (* null_flush *)

Notation addt := (add_tag mt prefer).
(* vwords[iv]->... *)
Fixpoint upd (iv : nat) (f : tword -> tword) (vw : list tword) : list tword :=
  match vw, iv with
  | [], _ => []
  | w :: r, 0 => f w :: r
  | w :: r, S n => w :: upd n f r
  end.
Definition set_cut (b : bool) (w : tword) : tword := mktw (sf w) (tags w) (forms w) (ign w) b (pcut w).
Definition set_sf (s : str) (w : tword) : tword := mktw s (tags w) (forms w) (ign w) (cut w) (pcut w).
Definition add_ign (s : str) (w : tword) : tword := mktw (sf w) (tags w) (forms w) (ign w ++ s) (cut w) (pcut w).

(** ** lrlmClassify, 150-291 *)
(* 178-190: from the position after '<'; None: the index runs past the end; Some None: no '>' *)
Fixpoint find_gt (l : str) (j : nat) : option (option nat) :=
  match l with
  | [] => Some None
  | c :: r => if c =?c cBS then match r with [] => None | _ :: r' => find_gt r' (S (S j)) end
              else if c =?c cGT then Some (Some j) else find_gt r (S j)
  end.
(* str.substr(floor, last_pos - floor + 1), q = last_pos + 1; a negative count is a huge one *)
Definition piece (s : str) (floor q : nat) : str :=
  if q <? floor then skipn floor s else firstn (q - floor) (skipn floor s).
(* 212-218, 244-250: mark the cut and go to the next word *)
Definition cut_word (iv : nat) (vw : list tword) : list tword :=
  let vw := upd iv (set_cut true) vw in
  if length vw <=? S iv then vw ++ [tword0 true] else vw.

(* 268-290, after the loop *)
Definition lfinish (s : str) (iv0 floor : nat) (lt : option nat) (m : M) (vw : list tword) (iv : nat) : option (list tword * nat) :=
  match mfin m with
  | None =>
    if iv0 <? iv                                                            (* 277 *)
    then match lt with
         | None => None
         | Some t =>
           if length vw =? S iv                                             (* otherwise deleted words stay in the queue *)
           then Some (upd iv0 (fun w => addt t s (erase_tag t (set_cut false w))) (firstn (S iv0) vw), iv0)    (* 279-287 *)
           else None
         end
    else Some (upd iv (addt kundef (skipn floor s)) vw, iv)
  | Some v => Some (upd iv (addt v (skipn floor s)) vw, iv)                  (* 290 *)
  end.
(* q is last_pos + 1.  The fuel is not in the program: None also stands for exhausted fuel, an index out of range
   and a tag -1. *)
Fixpoint lloop (s : str) (iv0 : nat) (fuel i floor : nat) (lt : option nat) (q : nat) (m : M) (vw : list tword) (iv : nat)
  : option (list tword * nat) :=
  let limit := length s in
  match fuel with
  | 0 => None
  | S fuel =>
    if i =? limit then lfinish s iv0 floor lt m vw iv                        (* 160 *)
    else match nth_error s i with
    | None => None
    | Some c =>
      let rewind (two : nat) (m : M) (lt : option nat) (q : nat) :=          (* 207-220, 239-252 *)
        match lt with
        | None => None
        | Some t =>
          let vw := upd iv (addt t (piece s floor q)) vw in
          if match nth_error s q with Some d => d =?c cPLUS | None => false end
          then lloop s iv0 fuel (S q) (S q) lt (q + two) minit (cut_word iv vw) (S iv)
          else lloop s iv0 fuel (S floor) (S floor) lt q m vw iv
        end in
      let undef := Some (upd iv (addt kundef (skipn floor s)) vw, iv) in      (* 222-231, 254-263 *)
      let next (lt : option nat) (q i : nat) (m : M) :=
        if mdead m then (if q =? S floor then undef else rewind 2 m lt q)               (* 203-232 *)
        else if S i =? limit
             then match mfin m with
                  | None => if q =? S floor then undef else rewind 1 m lt q             (* 233-265 *)
                  | Some _ => lloop s iv0 fuel (S i) floor lt q m vw iv
                  end
             else lloop s iv0 fuel (S i) floor lt q m vw iv in
      if negb (c =?c cLT)                                                    (* 162-174 *)
      then let '(lt, q) := if c =?c cPLUS then match mfin m with Some v => (Some v, i) | None => (lt, q) end else (lt, q) in
           next lt q i (mstep m c)
      else match find_gt (skipn (S i) s) (S i) with                          (* 175-201 *)
           | None => None
           | Some None => next lt q i (mtag m [])
           | Some (Some j) => next lt q j (mtag m (firstn (S j - i) (skipn i s)))
           end
    end
  end.
Definition lrlmClassify (s : str) (vw : list tword) (iv : nat) : option (list tword * nat) :=
  lloop s iv (S (length s) * S (length s)) 0 0 None 1 minit vw iv.

(** ** readRestOfWord, 293-384.  Result: remaining input, whether the end of the input was hit, end_of_file, words *)
Definition cEOF : char := 65535%N.                   (* what a failed get() leaves in an escape sequence *)
Record rst := mkr { r_in : str; r_eof : bool; r_flag : bool; r_vw : list tword }.
Definition is_end (c : char) : bool := nf && (c =?c cNUL).
(* 302-314, 344-356: end of the input (or NUL) inside a word *)
Definition truncated (inp : str) (hit : bool) (acc : str) (vw : list tword) (iv : nat) : rst :=
  let vw := match acc with [] => vw | _ => upd iv (add_ign acc) vw end in
  mkr inp hit true (upd iv (addt keof []) vw).
(* 341-383; 373: str[0] of the last analysis *)
Fixpoint read_analyses (inp acc : str) (vw : list tword) (iv : nat) {struct inp} : option rst :=
  match inp with
  | [] => Some (truncated [] true acc vw iv)
  | c :: r =>
    if is_end c then Some (truncated r false acc vw iv)
    else if c =?c cBS then
      match r with
      | [] => Some (truncated [] true (acc ++ [cBS; cEOF]) vw iv)
      | d :: r' => read_analyses r' (acc ++ [cBS; d]) vw iv
      end
    else if c =?c cSLASH then
      match lrlmClassify acc vw iv with
      | None => None
      | Some (vw, _) => read_analyses r [] vw 0                              (* 366-368 *)
      end
    else if c =?c cDOL then
      if starts_star acc then Some (mkr r false false vw)
      else match lrlmClassify acc vw iv with None => None | Some (vw, _) => Some (mkr r false false vw) end
    else read_analyses r (acc ++ [c]) vw iv
  end.
(* 297-337 *)
Fixpoint read_surface (inp acc : str) (vw : list tword) (iv : nat) {struct inp} : option rst :=
  match inp with
  | [] => Some (truncated [] true acc vw iv)
  | c :: r =>
    if is_end c then Some (truncated r false acc vw iv)
    else if c =?c cBS then
      match r with
      | [] => Some (truncated [] true (acc ++ [cBS; cEOF]) vw iv)
      | d :: r' => read_surface r' (acc ++ [cBS; d]) vw iv
      end
    else if c =?c cSLASH then read_analyses r [] (upd iv (set_sf acc) vw) iv
    else if c =?c cDOL then read_analyses r acc (upd iv (fun w => add_ign [cDOL] (set_sf acc w)) vw) iv   (* str is not cleared *)
    else read_surface r (acc ++ [c]) vw iv
  end.

(** ** get_next_word, 61-149: with an empty queue, read up to the next word *)
(* 118-146; the first character was read by the outer loop (91-117), which does not test the character after a
   backslash for the end *)
Fixpoint read_blank (inp acc : str) (vw : list tword) {struct inp} : option rst :=
  match inp with
  | [] => Some (mkr [] true true (upd 0 (fun w => addt keof [] (add_ign acc w)) vw))
  | c :: r =>
    if is_end c then Some (mkr r false true (upd 0 (fun w => addt keof [] (add_ign acc w)) vw))
    else if c =?c cBS then
      match r with
      | [] => Some (mkr [] true true (upd 0 (fun w => addt keof [] (add_ign (acc ++ [cBS]) w)) vw))
      | d :: r' => if is_end d then Some (mkr r' false true (upd 0 (fun w => addt keof [] (add_ign (acc ++ [cBS]) w)) vw))
                   else read_blank r' (acc ++ [cBS; d]) vw
      end
    else if c =?c cCARET then read_surface r [] (match acc with [] => vw | _ => upd 0 (add_ign acc) vw end) 0
    else read_blank r (acc ++ [c]) vw
  end.
Definition read_word (inp : str) : option rst :=
  let vw := [tword0 false] in                                               (* 87 *)
  match inp with
  | [] => Some (mkr [] true true (upd 0 (addt keof []) vw))                  (* 92-97 *)
  | c :: r =>
    if is_end c then Some (mkr r false true (upd 0 (addt keof []) vw))
    else if c =?c cCARET then read_surface r [] vw 0                         (* 98-102 *)
    else if c =?c cBS then
      match r with
      | [] => Some (mkr [] true true (upd 0 (fun w => addt keof [] (add_ign [cBS; cEOF] w)) vw))
      | d :: r' => read_blank r' [cBS; d] vw
      end
    else read_blank r [c] vw
  end.
(** All words of an input with the value of end_of_file when they are returned (the tagger resets it after looking at
    it, hmm.cc:764-777): 61-84.  The fuel bounds the number of reads. *)
Fixpoint discard_list (l : list tword) : option (list tword) :=
  match l with
  | [] => Some []
  | w :: r => match discard mt discardr w, discard_list r with Some w', Some r' => Some (w' :: r') | _, _ => None end
  end.
Definition flagged (b : bool) (l : list tword) : list (tword * bool) :=
  match l with [] => [] | w :: r => (w, b) :: map (fun w => (w, false)) r end.
Fixpoint words (fuel : nat) (inp : str) : option (list (tword * bool)) :=
  match fuel with
  | 0 => None
  | S fuel =>
    match read_word inp with
    | None => None
    | Some st =>
      match discard_list (r_vw st) with
      | None => None
      | Some l => if r_eof st then Some (flagged (r_flag st) l)
                  else match words fuel (r_in st) with None => None | Some l' => Some (flagged (r_flag st) l ++ l') end
      end
    end
  end.
End MS.
