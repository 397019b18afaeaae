(** The sentence aligner of apertium-tmxbuild (taken from hunalign): similarity matrix, dynamic
    programming over a quasi-diagonal band, ladder, spacing out, printing.
    Files: apertium/tmx_quasi_diagonal.h, tmx_alignment.cc, tmx_book_to_matrix.cc,
    tmx_trail_postprocessors.cc, tmx_aligner_tool.cc, tmx_dictionary.cc, tmx_translate.cc.

    Simplifications, for the whole file: C++ [double] is modelled by exact rationals [Q];
    a C++ exception, an out-of-range index and any other undefined behaviour is [None]. *)
From Coq Require Import QArith Sorting.
From Verif Require Import Model.Base.
Open Scope Z_scope.

Notation "'do' x <- a ; b" := (match a with Some x => b | None => None end)
  (at level 200, x pattern, a at level 100, b at level 200).

Definition Qltb (a b : Q) : bool := negb (Qle_bool b a).

(** ** tmx_quasi_diagonal.h *)

(** Signed 32-bit wrap-around of an [int] product (x86 behaviour of the C++ overflow). *)
Definition wrap32 (z : Z) : Z := (z + 2 ^ 31) mod 2 ^ 32 - 2 ^ 31.

(** tmx_quasi_diagonal.h 20-33, 110-122: class QuasiDiagonal.  The vector of rows, each with its
    vector of [thickness] cells, is a function from row and column; only the cells of the band
    are ever looked at or written. *)
Record mat (T : Type) := Mat { height : Z; width : Z; thick : Z; outside : T; cells : Z -> Z -> T }.
Arguments Mat {T}. Arguments height {T}. Arguments width {T}. Arguments thick {T}.
Arguments outside {T}. Arguments cells {T}.

(** tmx_quasi_diagonal.h 112-121 (constructor): fresh cells hold [T()]. *)
Definition mat_new {T} (h w th : Z) (out fresh : T) : mat T := Mat h w th out (fun _ _ => fresh).

(** tmx_quasi_diagonal.h 124-127: offset *)
Definition offset {T} (a : mat T) (row : Z) : Z :=
  Z.quot (wrap32 (row * width a)) (height a) - Z.quot (thick a) 2.

(** tmx_quasi_diagonal.h 129-133: rowStart *)
Definition rowStart {T} (a : mat T) (row : Z) : Z :=
  let s := offset a row in if 0 <? s then s else 0.

(** tmx_quasi_diagonal.h 135-139: rowEnd *)
Definition rowEnd {T} (a : mat T) (row : Z) : Z :=
  let e := offset a row + thick a in if e <? width a then e else width a.

(** tmx_quasi_diagonal.h 142-145, 63-78: reading [a[y][x]].  [rows[y]] is not range-checked in
    C++ (undefined behaviour), the column is (throw). *)
Definition get {T} (a : mat T) (y x : Z) : option T :=
  if (0 <=? y) && (y <? height a) && (0 <=? x) && (x <? width a) then
    let d := x - offset a y in
    Some (if (0 <=? d) && (d <? thick a) then cells a y x else outside a)
  else None.

(** tmx_quasi_diagonal.h 147-161, 80-95: cell / setCell *)
Definition set {T} (a : mat T) (y x : Z) (t : T) : option (mat T) :=
  if (0 <=? y) && (y <? height a) && (0 <=? x) && (x <? width a) then
    let d := x - offset a y in
    if (0 <=? d) && (d <? thick a) then
      Some (Mat (height a) (width a) (thick a) (outside a)
                (fun y' x' => if (y' =? y) && (x' =? x) then t else cells a y' x'))
    else None
  else None.

(** [std::vector] indexing. *)
Definition at_ {T} (l : list T) (i : Z) : option T :=
  if 0 <=? i then nth_error l (Z.to_nat i) else None.

(** [for (int k = from; k < to; ++k) s = f(k, s)] *)
Fixpoint for_n {S} (k : nat) (from : Z) (f : Z -> S -> option S) (s : S) : option S :=
  match k with
  | O => Some s
  | Datatypes.S k' => do s' <- f from s; for_n k' (from + 1) f s'
  end.
Definition for_z {S} (from to : Z) (f : Z -> S -> option S) (s : S) : option S :=
  for_n (Z.to_nat (to - from)) from f s.

(** ** tmx_alignment.cc *)

(** tmx_alignment.h 66: skipScore *)
Definition skipScore : Q := - (3 # 10).

(** tmx_alignment.cc 38-58: closeness *)
Definition closeness (two one : Q) : Q :=
  let ratio := if Qltb one two then ((two + 1) / (one + 1))%Q else ((one + 1) / (two + 1))%Q in
  ((3 # 10) - (3 # 10) * (ratio - 1))%Q.

(** tmx_alignment.cc 60-65: the directions; [Unset] is the fresh cell [unsigned char()] = 0. *)
Inductive dir := Unset | Diag | HuSkip | EnSkip | HuHuEnSkip | HuEnEnSkip | Dead.

(** tmx_alignment.cc 78: infinity *)
Definition infinity : Q := inject_Z 1000000.

(** tmx_alignment.cc 96-156: the [values] array of one cell, indices 1..5 in order.  The branch
    at 128-139 computes a length fitness and drops it: values[HuHuEnSkip] stays infinite. *)
Definition cell_values (w : mat Q) (hu en : list Q) (v : mat Q) (i j : Z)
  : option (list (dir * Q)) :=
  do s <- (if 0 <? i then do a <- get v (i - 1) j; Some (a - skipScore)%Q else Some infinity);
  do e <- (if 0 <? j then do a <- get v i (j - 1); Some (a - skipScore)%Q else Some infinity);
  do g <- (if (0 <? i) && (0 <? j) then
             do a <- get v (i - 1) (j - 1);
             do sim <- get w (i - 1) (j - 1);
             do h <- at_ hu (i - 1);
             do e1 <- at_ en (j - 1);
             Some (a - sim - closeness h e1)%Q
           else Some infinity);
  do k <- (if (0 <? i) && (1 <? j) then
             do e2 <- at_ en (j - 2);
             do e1 <- at_ en (j - 1);
             do h <- at_ hu (i - 1);
             do a <- get w (i - 1) (j - 1);
             do b <- get w (i - 1) (j - 2);
             do c <- get v (i - 1) (j - 2);
             Some (c - (if Qltb a b then a else b) - skipScore
                   - closeness (e2 + e1 + inject_Z 2) h)%Q
           else Some infinity);
  Some [(Diag, g); (HuSkip, s); (EnSkip, e); (HuHuEnSkip, infinity); (HuEnEnSkip, k)].

(** tmx_alignment.cc 158-167: the smallest value below infinity; the first one wins. *)
Definition pick (vals : list (dir * Q)) : dir * Q :=
  fold_left (fun b x => if Qltb (snd x) (snd b) then x else b) vals (Dead, infinity).

(** tmx_alignment.cc 86-176: one cell *)
Definition cell_step (w : mat Q) (hu en : list Q) (i j : Z) (s : mat Q * mat dir)
  : option (mat Q * mat dir) :=
  let (v, t) := s in
  do vals <- cell_values w hu en v i j;
  let (d, x) := pick vals in
  do t' <- set t i j d;
  do v' <- set v i j (match d with Dead => 0%Q | _ => x end);
  Some (v', t').

(** tmx_alignment.cc 67-228: buildDynProgMatrix *)
Definition buildDynProgMatrix (w : mat Q) (hu en : list Q) (s : mat Q * mat dir)
  : option (mat Q * mat dir) :=
  let v := fst s in
  for_z 0 (height w + 1)
    (fun i => for_z (rowStart v i) (rowEnd v i) (cell_step w hu en i)) s.

(** tmx_alignment.cc 230-321: trelliToLadder.  [acc] is the trail already walked, the last
    rundle first in the result, so that no final reversal is needed.  The loop is bounded by
    [fuel] (None if it runs out; the proofs show it does not). *)
Fixpoint ladder_loop (fuel : nat) (t : mat dir) (hu en : Z) (acc : list (Z * Z))
  : option (list (Z * Z)) :=
  match fuel with
  | O => None
  | S f =>
      do d <- get t hu en;
      if (hu =? 0) || (en =? 0) then Some acc
      else match d with
           | Diag => ladder_loop f t (hu - 1) (en - 1) ((hu - 1, en - 1) :: acc)
           | HuSkip => ladder_loop f t (hu - 1) en ((hu - 1, en) :: acc)
           | EnSkip => ladder_loop f t hu (en - 1) ((hu, en - 1) :: acc)
           | HuHuEnSkip => ladder_loop f t (hu - 2) (en - 1) ((hu - 2, en - 1) :: acc)
           | HuEnEnSkip => ladder_loop f t (hu - 1) (en - 2) ((hu - 1, en - 2) :: acc)
           | Dead => Some acc
           | Unset => Some [(0, 0); (height t - 1, width t - 1)]
           end
  end.

Definition trelliToLadder (t : mat dir) : option (list (Z * Z)) :=
  let n := height t - 1 in
  let m := width t - 1 in
  ladder_loop (Z.to_nat (n + m) + 1) t n m [(n, m)].

(** tmx_alignment.cc 323-344: align.  [v] is the fresh matrix the caller passes
    (tmx_aligner_tool.cc 209: default 1e30). *)
Definition align (w : mat Q) (hu en : list Q) : option (list (Z * Z) * mat Q) :=
  let v := mat_new (height w + 1) (width w + 1) (thick w) (inject_Z (10 ^ 30)) 0%Q in
  let t := mat_new (height w + 1) (width w + 1) (thick w) Dead Unset in
  do s <- buildDynProgMatrix w hu en (v, t);
  do trail <- trelliToLadder (snd s);
  Some (trail, fst s).

(** ** tmx_book_to_matrix.cc *)

(** tmx_words.h: a sentence is its words ([id] and [sentence] are not used). *)
Definition phrase := list str.

(** [std::string] operator<: byte order *)
Fixpoint str_ltb (a b : str) : bool :=
  match a, b with
  | _, [] => false
  | [], _ :: _ => true
  | x :: a', y :: b' => if N.ltb x y then true else if N.eqb x y then str_ltb a' b' else false
  end.

(** [std::sort] of the words (tmx_translate.cc 325-335): the sorted permutation. *)
Fixpoint insert_word (x : str) (l : list str) : list str :=
  match l with
  | [] => [x]
  | y :: l' => if str_ltb y x then y :: insert_word x l' else x :: l
  end.
Definition sort_words (l : list str) : list str := fold_right insert_word [] l.

(** tmx_book_to_matrix.cc 49-60: isNumber *)
Definition isNumber (s : str) : bool := forallb (fun c => N.leb 48 c && N.leb c 57) s.

(** tmx_book_to_matrix.cc 63-110: specializedIntersectionSize.  State: shared words, differing
    numbers, same numbers. *)
Fixpoint inter_loop (fuel : nat) (sx sy : list str) (inter dif same : Z) : Z * Z * Z :=
  match fuel with
  | O => (inter, dif, same)
  | S f =>
      match sx, sy with
      | x :: sx', y :: sy' =>
          if str_ltb x y then inter_loop f sx' sy inter (if isNumber x then dif + 1 else dif) same
          else if str_ltb y x then
            inter_loop f sx sy' inter (if isNumber y then dif + 1 else dif) same
          else inter_loop f sx' sy' (inter + 1) dif (if isNumber y then same + 1 else same)
      | _, _ => (inter, dif, same)
      end
  end.

Definition specializedIntersectionSize (sx sy : list str) : Z :=
  let '(inter, dif, same) := inter_loop (length sx + length sy) sx sy 0 0 0 in
  if (0 <? same) && (dif <=? Z.quot same 5) then inter + 10 else inter.

(** tmx_book_to_matrix.cc 112-117: isParagraph (the one word "<p>") *)
Definition isParagraph (p : phrase) : bool :=
  match p with [w] => str_eqb w [60; 112; 62]%N | _ => false end.

(** tmx_book_to_matrix.h 21-23 *)
Definition scoreOfParagraphMatch : Q := 31 # 100.
Definition scoreOfParagraphMisMatch : Q := - 1.

(** tmx_book_to_matrix.cc 119-164: exceptionalScoring, scoreByIdentity *)
Definition scoreByIdentity (hu en : phrase) : Q :=
  if isParagraph hu && isParagraph en then scoreOfParagraphMatch
  else if isParagraph hu || isParagraph en then scoreOfParagraphMisMatch
  else (inject_Z (specializedIntersectionSize hu en)
        / inject_Z (Z.of_nat (if Nat.ltb (length hu) (length en) then length hu else length en) + 1)
        * inject_Z 3)%Q.

(** tmx_book_to_matrix.cc 166-191: sentenceListsToAlignMatrixIdentity *)
Definition sentenceListsToAlignMatrixIdentity (hu en : list phrase) (a : mat Q)
  : option (mat Q) :=
  for_z 0 (Z.of_nat (length hu))
    (fun i a => for_z (rowStart a i) (rowEnd a i)
       (fun j a => do h <- at_ hu i; do e <- at_ en j; set a i j (scoreByIdentity h e)) a) a.

(** tmx_book_to_matrix.cc 309-350: characterLength of a phrase; utfCharCountingMode is off
    (tmx_builder.cc 485), spaceValue is 0. *)
Definition paragraphDelimiterFictiveLength : Q := 1973 # 10000.
Definition characterLength (p : phrase) : Q :=
  if isParagraph p then paragraphDelimiterFictiveLength
  else inject_Z (fold_left (fun n w => n + Z.of_nat (length w)) p 0).

(** tmx_book_to_matrix.cc 352-369: characterLength of an interval of sentences *)
Definition intervalLength (start stop : Z) (l : list phrase) : option Q :=
  for_z start stop
    (fun i sum => do p <- at_ l i;
       let len := characterLength p in
       Some (if Qeq_bool len paragraphDelimiterFictiveLength then sum
             else (sum + (len + inject_Z 3))%Q)) 0%Q.

(** tmx_book_to_matrix.cc 371-379: setSentenceValues *)
Definition setSentenceValues (l : list phrase) : list Q := map characterLength l.

(** ** tmx_trail_postprocessors.cc *)

Definition count_paragraphs (start stop : Z) (l : list phrase) : option Z :=
  for_z start stop (fun i n => do p <- at_ l i; Some (if isParagraph p then n + 1 else n)) 0.

(** tmx_trail_postprocessors.cc 60-107: TrailScoresInterval::scoreSegmentum *)
Definition scoreSegmentum (dyn : mat Q) (hu en : list phrase) (start stop : Z * Z) : option Q :=
  let huDiff := fst stop - fst start in
  let enDiff := snd stop - snd start in
  do a <- get dyn (fst start) (snd start);
  do b <- get dyn (fst stop) (snd stop);
  do hp <- count_paragraphs (fst start) (fst stop) hu;
  do ep <- count_paragraphs (snd start) (snd stop) en;
  let matches := if hp <? ep then hp else ep in
  let mismatches := (if ep <? hp then hp else ep) - matches in
  let dev := (scoreOfParagraphMatch * inject_Z matches + skipScore * inject_Z mismatches)%Q in
  let h := huDiff - hp in
  let e := enDiff - ep in
  let mx := if e <? h then h else e in
  Some (if mx =? 0 then 0%Q else ((a - b - dev) / inject_Z mx)%Q).

(** tmx_trail_postprocessors.cc 110-116: TrailScoresInterval::operator()(j) *)
Definition segmentScore (dyn : mat Q) (hu en : list phrase) (trail : list (Z * Z)) (j : Z)
  : option Q :=
  do a <- at_ trail j; do b <- at_ trail (j + 1); scoreSegmentum dyn hu en a b.

(** [vector::erase(begin()+i)] *)
Definition erase {T} (l : list T) (i : Z) : list T :=
  firstn (Z.to_nat i) l ++ skipn (Z.to_nat i + 1) l.

Definition Qabs' (x : Q) : Q := if Qltb 0 x then x else (- x)%Q.

(** tmx_trail_postprocessors.cc 183-256: spaceOutBySentenceLength.  [ln] is the C library's
    logarithm: the model holds for any function.  [size()-2] is unsigned: a trail of fewer than
    two rundles makes the loop run out of bounds (None).  Bounded by [fuel]. *)
Section SpaceOut.
Variable ln : Q -> Q.

Definition improves (hl hm el em : Q) : Q :=
  (Qabs' (ln ((hl + 1) / (el + 1))) - Qabs' (ln ((hl + hm + 1) / (el + em + 1))))%Q.

Fixpoint space_loop (fuel : nat) (hu en : list phrase) (i : Z) (trail : list (Z * Z))
  : option (list (Z * Z)) :=
  match fuel with
  | O => None
  | S f =>
      let size := Z.of_nat (length trail) in
      if size <? 2 then None
      else if negb (i <? size - 2) then Some trail
      else
        do r0 <- at_ trail (i - 1);
        do r1 <- at_ trail i;
        do r2 <- at_ trail (i + 1);
        do r3 <- at_ trail (i + 2);
        let huZero := fst r1 =? fst r2 in
        let enZero := snd r1 =? snd r2 in
        do huPar <- (if fst r1 + 1 =? fst r2 then do p <- at_ hu (fst r1); Some (isParagraph p)
                     else Some false);
        do enPar <- (if snd r1 + 1 =? snd r2 then do p <- at_ en (snd r1); Some (isParagraph p)
                     else Some false);
        if (huZero && enPar) || (enZero && huPar) then space_loop f hu en (i + 1) trail
        else if (huZero && negb enPar) || (enZero && negb huPar) then
          do hr <- intervalLength (fst r2) (fst r3) hu;
          do hm <- intervalLength (fst r1) (fst r2) hu;
          do hl <- intervalLength (fst r0) (fst r1) hu;
          do er <- intervalLength (snd r2) (snd r3) en;
          do em <- intervalLength (snd r1) (snd r2) en;
          do el <- intervalLength (snd r0) (snd r1) en;
          let left := improves hl hm el em in
          let right := improves hr hm er em in
          let slack := ln (8 # 10) in
          if Qltb slack left || Qltb slack right then
            space_loop f hu en i (if Qltb right left then erase trail i else erase trail (i + 1))
          else space_loop f hu en (i + 1) trail
        else space_loop f hu en (i + 1) trail
  end.

Definition spaceOutBySentenceLength (hu en : list phrase) (trail : list (Z * Z)) :=
  space_loop (2 * length trail + 1) hu en 1 trail.
End SpaceOut.

(** tmx_trail_postprocessors.cc 440-461: filterTrailByQuality.  [size()-1] is unsigned: an empty
    trail is undefined; a trail of one rundle is doubled. *)
Definition filterTrailByQuality (dyn : mat Q) (hu en : list phrase) (thr : Q)
  (trail : list (Z * Z)) : option (list (Z * Z)) :=
  do front <- at_ trail 0;
  do back <- at_ trail (Z.of_nat (length trail) - 1);
  do mid <- for_z 1 (Z.of_nat (length trail) - 1)
              (fun i acc => do s <- segmentScore dyn hu en trail i;
                            do r <- at_ trail i;
                            Some (if Qle_bool thr s then acc ++ [r] else acc)) [];
  Some (front :: mid ++ [back]).

(** ** tmx_aligner_tool.cc *)

(** tmx_aligner_tool.cc 169-198: the thickness of the band.  The [double] chain of the memory
    limit (4000*1024*1024 / 17 / huBookSize / 2.4, cut to int) is computed exactly; division by a
    zero book size is undefined. *)
Definition thickness (n m : Z) : option Z :=
  if n =? 0 then None
  else
    let maximal := Z.quot (4000 * 1024 * 1024 * 10) (17 * 24 * n) in
    let th := Z.quot (if m <? n then n else m) 10 in
    let th := if 500 <? th then th else 500 in
    Some (if maximal <? th then maximal else th).

(** tmx_serialize_impl.h 19-29: printing a phrase *)
Fixpoint print_phrase (p : phrase) : str :=
  match p with
  | [] => []
  | [w] => w
  | w :: p' => w ++ cSP :: print_phrase p'
  end.

(** tmx_aligner_tool.cc 374-381, 385-392: the sentences [start, stop), separated by spaces *)
Definition print_range (start stop : Z) (l : list phrase) : option str :=
  for_z start stop
    (fun j acc => do p <- at_ l j;
       Some (acc ++ print_phrase p ++ (if j + 1 <? stop then [cSP] else []))) [].

(** tmx_aligner_tool.cc 141-419: alignerToolWithObjects, for the parameters of
    tmx_builder.cc 481-486 (textual output, no realign, no dictionary, postprocessing thresholds
    -1, not cautious, whole segments); [qualityThreshold] is kept general.  Without a dictionary
    normalizeTextsForIdentity (tmx_translate.cc 338-360) sorts the words of every sentence.
    [show] prints a double. *)
Section Tool.
Variable ln : Q -> Q.
Variable show : Q -> str.
Variable qualityThreshold : Q.

Definition best_trail (hu en : list phrase) : option (list (Z * Z) * mat Q) :=
  let n := Z.of_nat (length hu) in
  let m := Z.of_nat (length en) in
  do th <- thickness n m;
  do w <- sentenceListsToAlignMatrixIdentity (map sort_words hu) (map sort_words en)
            (mat_new n m th (inject_Z (-1000000)) 0%Q);
  align w (setSentenceValues hu) (setSentenceValues en).

Definition alignerToolWithObjects (hu en : list phrase) : option str :=
  let huG := map sort_words hu in
  let enG := map sort_words en in
  do tv <- best_trail hu en;
  let (trail0, dyn) := tv : list (Z * Z) * mat Q in
  do trail1 <- spaceOutBySentenceLength ln hu en trail0;
  do trail <- filterTrailByQuality dyn huG enG qualityThreshold trail1;
  for_z 0 (Z.of_nat (length trail) - 1)
    (fun i out =>
       do a <- at_ trail i;
       do b <- at_ trail (i + 1);
       do l <- print_range (fst a) (fst b) hu;
       do r <- print_range (snd a) (snd b) en;
       do s <- segmentScore dyn huG enG trail i;
       Some (out ++ l ++ [cTAB] ++ r ++ [cTAB] ++ show s ++ [cNL])) [].

(** tmx_aligner_tool.cc 438-443: files whose sizes differ more than five-fold are ignored. *)
Definition alignerTool (hu en : list phrase) : option str :=
  if (Z.of_nat (length en) <? Z.quot (Z.of_nat (length hu)) 5)
     || (Z.of_nat (length hu) <? Z.quot (Z.of_nat (length en)) 5)
  then Some [] else alignerToolWithObjects hu en.
End Tool.

(** ** tmx_dictionary.cc: reading sentences *)

(** What [istream >> string] skips and stops at ("C" locale). *)
Definition isspace (c : char) : bool := N.eqb c 32 || (N.leb 9 c && N.leb c 13).

Fixpoint drop_while (f : char -> bool) (s : str) : str :=
  match s with c :: s' => if f c then drop_while f s' else s | [] => [] end.
Fixpoint take_while (f : char -> bool) (s : str) : str :=
  match s with c :: s' => if f c then c :: take_while f s' else [] | [] => [] end.

(** An input stream: what is left, and the end-of-file bit (set by an operation that meets the
    end; from then on every operation fails). *)
Definition istream := (str * bool)%type.

(** tmx_dictionary.cc 30-43: eatwhite *)
Definition eatwhite (is : istream) : istream :=
  let (s, e) := is in
  if e then is
  else let s' := drop_while (fun c => N.eqb c 32 || N.eqb c 9) s in
       (s', match s' with [] => true | _ => false end).

(** [is >> w] *)
Definition read_word (is : istream) : str * istream :=
  let (s, e) := is in
  if e then ([], is)
  else let s1 := drop_while isspace s in
       let w := take_while (fun c => negb (isspace c)) s1 in
       let s2 := drop_while (fun c => negb (isspace c)) s1 in
       (w, (s2, match s2 with [] => true | _ => false end)).

(** tmx_dictionary.cc 45-75: read(WordList&, istream&).  [fuel]: every round consumes input. *)
Fixpoint read_words (fuel : nat) (is : istream) : option (phrase * istream) :=
  match fuel with
  | O => None
  | S f =>
      let (s, e) := is in
      if e then Some ([], is)
      else
        let s1 := match s with 13%N :: s' => s' | _ => s end in
        match s1 with
        | [] => Some ([], ([], true))
        | 10%N :: s2 => Some ([], (s2, false))
        | _ =>
            let (w, is1) := read_word (s1, false) in
            let is2 := eatwhite is1 in
            match w with
            | [] => Some ([], is2)
            | _ => do r <- read_words f is2; let (p, is3) := r : phrase * istream in Some (w :: p, is3)
            end
        end
  end.

(** tmx_dictionary.cc 100-112: SentenceList::readNoIds *)
Fixpoint read_sentences (fuel : nat) (is : istream) : option (list phrase) :=
  match fuel with
  | O => None
  | S f =>
      if snd is then Some []
      else
        do r <- read_words (length (fst is) + 1) is;
        let (p, is1) := r : phrase * istream in
        do l <- read_sentences f is1; Some (p :: l)
  end.
Definition readNoIds (s : str) : option (list phrase) := read_sentences (length s + 2) (s, false).

(** tmx_aligner_tool.cc 424-463: alignerToolWithFilenames, as a function of the two files' contents
    (both opened successfully) *)
Definition alignerToolWithFilenames (ln : Q -> Q) (show : Q -> str) (thr : Q) (hu en : str)
  : option str :=
  do h <- readNoIds hu; do e <- readNoIds en; alignerTool ln show thr h e.
