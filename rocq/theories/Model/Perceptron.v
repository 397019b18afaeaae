(** apertium/perceptron_tagger.cc: tagSentence (32-101), trainSentence (109-241), extendAgendaAll (279-287),
    operator< on agenda items (341-344).  Scores are exact rationals.  Abstracted, as parameters of the section:
    the type of analyses, the number of morphemes of an analysis, and PerceptronSpec::get_features as a pure
    function of the tagged prefix, the sentence, the token index and the wordoid index (its cache is not modelled).
    std::partial_sort_copy is modelled by its contract ([beam]): which of several equal-score hypotheses survive,
    and their order, is unspecified, so the tagger is a relation. *)
From Coq Require Import QArith Permutation Sorted.
From Verif Require Import Model.Base Model.FeatureVec.
Open Scope nat_scope.

Section Perceptron.
Variable A : Type.
Variable A_dec : forall a b : A, {a = b} + {a <> b}.      (* Analysis::operator== *)
Variable nmorph : A -> nat.                               (* TheMorphemes.size() *)
Definition token := list A.                               (* TheLexicalUnit->TheAnalyses *)
Definition tagged := list (option A).                     (* TaggedSentence *)
Variable feats : tagged -> list token -> nat -> nat -> ufvec.   (* spec.get_features *)

Record item := mki { tg : tagged; sc : Q }.

(* 69-86: score of the wordoids of the analysis just appended *)
Definition delta (w : fvec) (t : tagged) (sent : list token) (i n : nat) : Q :=
  fold_left (fun s j => (s + dot_unary w (feats t sent i j))%Q) (seq 0 n) 0%Q.
(* 60-88 *)
Definition expand (w : fvec) (sent : list token) (i : nat) (toks : token) (agenda : list item) : list item :=
  flat_map (fun it => map (fun a => let t := tg it ++ [Some a] in mki t (sc it + delta w t sent i (nmorph a))%Q) toks) agenda.
(* 279-287 *)
Definition extend (o : option A) (agenda : list item) : list item := map (fun it => mki (tg it ++ [o]) (sc it)) agenda.

(* 93-96 std::partial_sort_copy into a vector resized to min(width, size), by descending score *)
Definition beam (width : nat) (l r : list item) : Prop :=
  length r = Nat.min width (length l) /\
  Sorted (fun x y => (sc y <= sc x)%Q) r /\
  exists rest, Permutation l (r ++ rest) /\ forall x y, In x r -> In y rest -> (sc y <= sc x)%Q.

(* 47-99, one token *)
Inductive step (w : fvec) (width : nat) (sent : list token) (i : nat) : token -> list item -> list item -> Prop :=
  | step_none agenda : step w width sent i [] agenda (extend None agenda)
  | step_one a agenda : step w width sent i [a] agenda (extend (Some a) agenda)
  | step_many a b toks agenda agenda' :
      beam width (expand w sent i (a :: b :: toks) agenda) agenda' ->
      step w width sent i (a :: b :: toks) agenda agenda'.
(* 37-39, 47: agendas reached after the first i tokens *)
Inductive reach (w : fvec) (width : nat) (sent : list token) : nat -> list item -> Prop :=
  | reach0 : reach w width sent 0 [mki [] 0%Q]
  | reachS i toks agenda agenda' : reach w width sent i agenda -> nth_error sent i = Some toks ->
      step w width sent i toks agenda agenda' -> reach w width sent (S i) agenda'.
(* 100-101: agenda.front() of the last agenda; [None] = front() of an empty vector (undefined) *)
Definition tagSentence (w : fvec) (width : nat) (sent : list token) (out : option tagged) : Prop :=
  exists agenda, reach w width sent (length sent) agenda /\ out = option_map tg (hd_error agenda).
End Perceptron.
Arguments mki {A}. Arguments tg {A}. Arguments sc {A}.
