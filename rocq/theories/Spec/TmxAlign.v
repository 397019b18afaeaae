(** What aligning two books (lists of sentences) means, independently of the program:
    an alignment is a path through the grid of sentence boundaries, every move has a cost,
    and the printed lines cut the two books into consecutive pieces. *)
From Coq Require Import QArith Qminmax Permutation.
From Verif Require Import Model.Base.
Open Scope Z_scope.

(** A grid point [(i, j)]: [i] source and [j] target sentences lie before it. *)
Definition point := (Z * Z)%type.

(** How well two lengths fit: 3/10 if equal, less the larger their ratio. *)
Definition fit (a b : Q) : Q :=
  ((3 # 10) - (3 # 10) * ((Qmax a b + 1) / (Qmin a b + 1) - 1))%Q.

Section Moves.
(** similarity of source sentence [i] and target sentence [j]; lengths of the sentences *)
Variable sim : Z -> Z -> Q.
Variables slen tlen : Z -> Q.

(** The moves and their costs (smaller is better): leave a source or a target sentence
    unpaired, pair one source with one target sentence, pair one source with two target
    sentences. *)
Inductive move : point -> point -> Q -> Prop :=
| skip_source i j : move (i, j) (i + 1, j) (3 # 10)
| skip_target i j : move (i, j) (i, j + 1) (3 # 10)
| pair_one i j : move (i, j) (i + 1, j + 1) (- sim i j - fit (slen i) (tlen j))
| pair_two i j : move (i, j) (i + 1, j + 2)
    (- Qmin (sim i j) (sim i (j + 1)) + (3 # 10)
     - fit (slen i) (tlen j + tlen (j + 1) + inject_Z 2)).

(** A path and its total cost; all its points satisfy [inside]. *)
Inductive path (inside : point -> Prop) : list point -> Q -> Prop :=
| path_stop c q : inside c -> (q == 0)%Q -> path inside [c] q
| path_move c d l q r s : inside c -> move c d r -> path inside (d :: l) q -> (s == r + q)%Q ->
    path inside (c :: d :: l) s.

(** A path from [a] to [b]. *)
Definition path_from_to (inside : point -> Prop) (a b : point) (l : list point) (q : Q) : Prop :=
  path inside l q /\ hd_error l = Some a /\ (exists l', l = l' ++ [b]).

(** The cheapest one. *)
Definition cheapest (inside : point -> Prop) (a b : point) (l : list point) (q : Q) : Prop :=
  path_from_to inside a b l q /\
  forall l' q', path_from_to inside a b l' q' -> (q <= q')%Q.
End Moves.

(** The band around the diagonal of the (n+1) x (m+1) grid that a search of thickness [th]
    looks at. *)
Definition band (n m th : Z) (c : point) : Prop :=
  let (i, j) := c in
  0 <= i <= n /\ 0 <= j <= m /\
  let o := i * (m + 1) / (n + 1) - th / 2 in o <= j < o + th.

(** ** Similarity of two sentences *)

(** Byte order of words. *)
Inductive word_before : str -> str -> Prop :=
| wb_prefix y b : word_before [] (y :: b)
| wb_less x y a b : (x < y)%N -> word_before (x :: a) (y :: b)
| wb_same x a b : word_before a b -> word_before (x :: a) (x :: b).

Definition number (w : str) : Prop := forall c, In c w -> (48 <= c <= 57)%N.
Definition paragraph (s : list str) : Prop := s = [[60; 112; 62]%N].   (* the one word <p> *)

(** [C] are the words the two sentences share (with multiplicity), [RS] and [RT] the rest. *)
Definition shared (S T C RS RT : list str) : Prop :=
  Permutation S (C ++ RS) /\ Permutation T (C ++ RT) /\ (forall x, In x RS -> ~ In x RT).

(** [k] elements of [l] satisfy [P]. *)
Inductive count {A} (P : A -> Prop) : list A -> Z -> Prop :=
| count_nil : count P [] 0
| count_yes x l k : P x -> count P l k -> count P (x :: l) (k + 1)
| count_no x l k : ~ P x -> count P l k -> count P (x :: l) k.

(** A number of one sentence missing in the other; it is noticed only if some word of the
    other sentence comes after it in byte order. *)
Definition differing (other : list str) (w : str) : Prop :=
  number w /\ exists y, In y other /\ word_before w y.

Inductive similarity (S T : list str) : Q -> Prop :=
| sim_paragraphs : paragraph S -> paragraph T -> similarity S T (31 # 100)
| sim_one_paragraph : (paragraph S /\ ~ paragraph T) \/ (~ paragraph S /\ paragraph T) ->
    similarity S T (- 1)
| sim_words C RS RT same d1 d2 bonus q :
    ~ paragraph S -> ~ paragraph T ->
    shared S T C RS RT ->
    count number C same -> count (differing T) RS d1 -> count (differing S) RT d2 ->
    (1 <= same /\ 5 * (d1 + d2) <= same -> bonus = 10) ->
    (~ (1 <= same /\ 5 * (d1 + d2) <= same) -> bonus = 0) ->
    (q == inject_Z 3 * inject_Z (Z.of_nat (length C) + bonus)
          / inject_Z (Z.of_nat (Nat.min (length S) (length T)) + 1))%Q ->
    similarity S T q.

(** The similarities the search works with: those of the sentences within the band of the
    sentence grid, a million below zero elsewhere. *)
Definition near (n m th : Z) (i j : Z) : Prop :=
  let o := i * m / n - th / 2 in o <= j < o + th.
Definition similarities (hu en : list (list str)) (th : Z) (sim : Z -> Z -> Q) : Prop :=
  forall i j s t, nth_error hu i = Some s -> nth_error en j = Some t ->
  let I := Z.of_nat i in let J := Z.of_nat j in
  let n := Z.of_nat (length hu) in let m := Z.of_nat (length en) in
  (near n m th I J -> similarity s t (sim I J)) /\
  (~ near n m th I J -> sim I J = inject_Z (-1000000)).

(** The length of a sentence: its number of bytes without spaces. *)
Definition lengths (l : list (list str)) (len : Z -> Q) : Prop :=
  forall i s, nth_error l i = Some s ->
  (paragraph s -> len (Z.of_nat i) = 1973 # 10000) /\
  (~ paragraph s -> len (Z.of_nat i) = inject_Z (Z.of_nat (length (concat s)))).

(** The thickness of the search: a tenth of the longer book, at least 500, at most what fits in
    memory. *)
Definition search_thickness (n m : Z) : Z :=
  Z.min (41943040000 / (408 * n)) (Z.max 500 (Z.max n m / 10)).

(** ** Pieces and lines *)

(** [thin l l']: [l'] is [l] with some elements left out. *)
Inductive thin {A} : list A -> list A -> Prop :=
| thin_nil : thin [] []
| thin_keep x l l' : thin l l' -> thin (x :: l) (x :: l')
| thin_drop x l l' : thin l l' -> thin (x :: l) l'.

Definition slice {A} (a b : Z) (l : list A) : list A :=
  firstn (Z.to_nat (b - a)) (skipn (Z.to_nat a) l).

(** The pieces between consecutive cut points. *)
Fixpoint pieces (cuts : list point) (S T : list (list str))
  : list (list (list str) * list (list str)) :=
  match cuts with
  | c :: ((d :: _) as rest) =>
      (slice (fst c) (fst d) S, slice (snd c) (snd d) T) :: pieces rest S T
  | _ => []
  end.

(** Text of sentences: words, and sentences, separated by single spaces. *)
Fixpoint spaced (l : list str) : str :=
  match l with
  | [] => []
  | [w] => w
  | w :: l' => w ++ [cSP] ++ spaced l'
  end.
Definition sentences_text (l : list (list str)) : str := spaced (map spaced l).

(** One printed line: a piece of the source, a piece of the target, a score. *)
Definition line (show : Q -> str) (x : (list (list str) * list (list str)) * Q) : str :=
  sentences_text (fst (fst x)) ++ [cTAB] ++ sentences_text (snd (fst x)) ++ [cTAB]
  ++ show (snd x) ++ [cNL].
