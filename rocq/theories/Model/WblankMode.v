(** apertium-wblank-mode: apertium/wblank-mode.cc (28-111).
    Bytes.  Not modelled: opening the file, and the recursion depth of std::regex on very long modes. *)
From Coq Require Import String.
From Verif Require Import Model.Base Model.Modes.

Definition cQ : char := 39%N.   (* ' *)
(** isspace in the C locale; also \s of the regular expression *)
Definition is_space (c : char) : bool := ((9 <=? c) && (c <=? 13))%N || (c =?c cSP).
(** trim, 28-36 *)
Fixpoint ltrim (s : str) : str := match s with [] => [] | c :: r => if is_space c then ltrim r else s end.
Definition trim (s : str) : str := ltrim (rev (ltrim (rev s))).
(** getline and +=, 56-60: the lines without their ends *)
Definition read_lines (s : str) : str := filter (fun c => negb (c =?c cNL)) s.

(** the longest prefix satisfying f *)
Fixpoint span (f : char -> bool) (s : str) : str * str :=
  match s with [] => ([], []) | c :: r => if f c then (c :: fst (span f r), snd (span f r)) else ([], s) end.
Definition lit (p s : str) : option str := if starts_with s p then Some (skipn (length p) s) else None.
(** \s+ : greedy; what follows in the regular expression is never a space, so no backtracking can succeed *)
Definition spaces1 (s : str) : option str := match span is_space s with ([], _) => None | (_, r) => Some r end.
(** '([^']+)' *)
Definition quoted (s : str) : option (str * str) :=
  match lit [cQ] s with
  | Some s1 => match span (fun c => negb (c =?c cQ)) s1 with (w, q :: r) => match w with [] => None | _ => Some (w, r) end | (_, []) => None end
  | None => None
  end.
(** [^']+autobil\.bin *)
Definition is_autobil (w : str) : bool :=
  (length (u "autobil.bin") <? length w) && str_eqb (skipn (length w - length (u "autobil.bin")) w) (u "autobil.bin").
Definition bind {A B} (x : option A) (f : A -> option B) : option B := match x with Some a => f a | None => None end.
(** the regular expression of line 70, at the head of s *)
Definition old_transfer (s : str) : option (str * str * str * str) :=
  bind (lit (u "apertium-transfer") s) (fun s =>
  bind (spaces1 s) (fun s => bind (quoted s) (fun '(a, s) =>
  bind (spaces1 s) (fun s => bind (quoted s) (fun '(b, s) =>
  bind (spaces1 s) (fun s => bind (quoted s) (fun '(c, s) => if is_autobil c then Some (a, b, c, s) else None))))))).
Definition new_transfer (a b c : str) : str :=
  u "lt-proc -b '" ++ c ++ u "' | apertium-transfer -b '" ++ a ++ u "' '" ++ b ++ u "'".
(** std::regex_replace: leftmost matches, none overlapping *)
Fixpoint replace_all (fuel : nat) (s : str) : str :=
  match fuel with
  | O => s
  | S f => match old_transfer s with
           | Some (a, b, c, r) => new_transfer a b c ++ replace_all f r
           | None => match s with [] => [] | x :: r => x :: replace_all f r end
           end
  end.
(** 69-71 *)
Definition convert (m : str) : str := if has m (u "lt-proc -b") then m else replace_all (S (length m)) m.

(** the stages, 76-83: split at every '|' *)
Fixpoint split (s : str) : str * list str :=
  match s with
  | [] => ([], [])
  | c :: r => let (h, t) := split r in if c =?c cPIPE then ([], h :: t) else (c :: h, t)
  end.
(** 85-93 *)
Fixpoint insert_z (s : str) : str :=
  match s with
  | [] => u " -z"
  | c :: r => if mem c [cSP; cTAB; 13%N; cNL] then u " -z" ++ s else c :: insert_z r
  end.
Definition add_z (z : bool) (s : str) : str := if z && negb (has s (u " -z")) then insert_z s else s.
(** 95-102 *)
Definition add_helper (helpers caps : bool) (s : str) : str :=
  if helpers then s
  else if has s (u "automorf.bin") || has s (u "automorf.hfst") then s ++ u " | apertium-wblank-attach"
  else if negb caps && (has s (u "autogen.bin") || has s (u "autogen.hfst")) then u "apertium-wblank-detach | " ++ s
  else s.
Definition stage (z helpers caps : bool) (s : str) : str := add_helper helpers caps (add_z z (trim s)).
(** 74-108 *)
Fixpoint stages (f : str -> str) (h : str) (t : list str) : str :=
  match t with [] => f h | h' :: t' => f h ++ u " | " ++ stages f h' t' end.
Definition wblank_mode (z : bool) (input : str) : str :=
  let m := trim (read_lines input) in
  let (h, t) := split (convert m) in
  stages (stage z (has m (u "apertium-wblank-")) (has m (u "apertium-restore-caps"))) h t ++ [cNL].
