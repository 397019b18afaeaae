(** Specification for C26 and C42, independent of transfer_mult.cc. *)
From Verif Require Import Model.Base.
From Coq Require Import Permutation.

(** A translation as the dictionary writes it: characters other than / and \, or a backslash and any character. *)
Inductive Piece : str -> Prop :=
| piece_nil : Piece []
| piece_char c p : c <> cSLASH -> c <> cBS -> Piece p -> Piece (c :: p)
| piece_esc c p : Piece p -> Piece (cBS :: c :: p).
Fixpoint slash_join (l : list str) : str :=
  match l with [] => [] | [p] => p | p :: r => p ++ cSLASH :: slash_join r end.
(** [p] occurs in [s] *)
Definition Occurs (p s : str) : Prop := exists a b, s = a ++ p ++ b.
Definition Default (w : str) : Prop := Occurs [cSP; 68%N; cLT] w.     (* " D<" *)
Definition Marked (w : str) : Prop := Occurs [cUND; cUND] w.           (* "__" *)

(** All ways of choosing one element of each list, first choice varying slowest. *)
Fixpoint choices (W : list (list str)) : list (list str) :=
  match W with [] => [[]] | ws :: r => flat_map (fun w => map (cons w) (choices r)) ws end.
(** ^w1$ b1 ^w2$ b2 ... ^wn$ *)
Fixpoint sentence (ws bs : list str) : str :=
  match ws, bs with
  | [], _ => []
  | [w], _ => cCARET :: w ++ [cDOL]
  | w :: r, b :: bs' => cCARET :: w ++ cDOL :: b ++ sentence r bs'
  | w :: r, [] => cCARET :: w ++ cDOL :: sentence r []
  end.
Fixpoint alternatives (l : list str) : str :=          (* x1[|]x2[|]... *)
  match l with [] => [] | [x] => x | x :: r => x ++ [cLB; cPIPE; cRB] ++ alternatives r end.
Definition bracketed (s : str) : str := [cLB; cLC; cRB] ++ s ++ [cDOT; cLB; cRB; cLB; cRC; cRB].     (* [{]s.[][}] *)

(** ** Left-to-right longest match over a sequence of blanks and words *)
Inductive item := W (w : str) | B (b : str).
Definition words (l : list item) : list str := flat_map (fun i => match i with W w => [w] | B _ => [] end) l.
Definition blanks (l : list item) : list str := flat_map (fun i => match i with W _ => [] | B b => [b] end) l.

Section LRLM.
Variable accepts : list item -> Prop.              (* the item sequence is one that some pattern accepts *)
Variable rule : list str -> list str -> str -> Prop.       (* words, blanks, output *)
Variable default : str -> str -> Prop.                     (* word, output *)
(** [Run items last out]: processing items, where the input ends with [last] after its last item, writes out *)
Inductive Run : list item -> str -> str -> Prop :=
| run_end last : Run [] last last
| run_blank b r last o : Run r last o -> Run (B b :: r) last (b ++ o)
| run_rule m r last o1 o2 : m <> [] -> accepts m -> (forall m' r', m ++ r = m' ++ r' -> accepts m' -> length m' <= length m) ->
    rule (words m) (blanks m) o1 -> Run r last o2 -> Run (m ++ r) last (o1 ++ o2)
| run_default w r last o1 o2 : (forall m' r', W w :: r = m' ++ r' -> accepts m' -> False) ->
    default w o1 -> Run r last o2 -> Run (W w :: r) last (o1 ++ o2).
End LRLM.
