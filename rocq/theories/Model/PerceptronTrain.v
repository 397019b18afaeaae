(** apertium/perceptron_tagger.cc:109-241 trainSentence and the inner loop of train (245-264), over the averager of
    Model/FeatureVec.v.  Same abstractions as Model/Perceptron.v.  [trainSentence] is a relation because the order
    of equal-score hypotheses in std::partial_sort_copy is unspecified. *)
From Coq Require Import QArith Permutation Sorted.
From Verif Require Import Model.Base Model.FeatureVec.
Open Scope nat_scope.

Section Train.
Variable A : Type.
Variable A_dec : forall a b : A, {a = b} + {a <> b}.
Variable nmorph : A -> nat.
Notation token := (list A).
Notation tagged := (list (option A)).
Variable feats : tagged -> list token -> nat -> nat -> ufvec.

Record titem := mkt { ttg : tagged; tsc : Q; tvec : fvec }.   (* TrainingAgendaItem, perceptron_tagger.h:44-46 *)

Definition tag_dec : forall x y : tagged, {x = y} + {x <> y}.
Proof. decide equality. decide equality. Defined.

(* 155-171: one hypothesis extended with one analysis; every wordoid adds its features *)
Definition ext (w : fvec) (sent : list token) (i : nat) (it : titem) (a : A) : titem :=
  let t := ttg it ++ [Some a] in
  let (s, v) := fold_left (fun sv j => let uv := feats t sent i j in
                              ((fst sv + dot_unary w uv)%Q, add_unary (snd sv) uv)) (seq 0 (nmorph a)) (tsc it, tvec it) in
  mkt t s v.
Definition texpand (w : fvec) (sent : list token) (i : nat) (toks : token) (ag : list titem) : list titem :=
  flat_map (fun it => map (ext w sent i it) toks) ag.
Definition push (o : option A) (it : titem) : titem := mkt (ttg it ++ [o]) (tsc it) (tvec it).
Definition tbeam (width : nat) (l r : list titem) : Prop :=
  length r = Nat.min width (length l) /\
  Sorted (fun x y => (tsc y <= tsc x)%Q) r /\
  exists rest, Permutation l (r ++ rest) /\ forall x y, In x r -> In y rest -> (tsc y <= tsc x)%Q.

(* agenda, index of correct_agenda_it in it, correct_sentence *)
Record tstate := mks { ag : list titem; ci : nat; cs : titem }.
Inductive outcome :=
  | OSkip                               (* 175-189: correct analysis unavailable: returns true or throws *)
  | OUpdate (pred corr : fvec)          (* 208-219, 225-237: -= pred, += corr, incIteration *)
  | ONone                               (* 225 false: no update *)
  | OUndef.                             (* front() of an empty agenda *)
Definition upd (st : list titem) (c : titem) : outcome :=
  match st with [] => OUndef | f :: _ => OUpdate (tvec f) (tvec c) end.
(* 199-206: position of the first hypothesis equal to the correct one *)
Fixpoint find_tag (t : tagged) (l : list titem) (j : nat) : option nat :=
  match l with [] => None | x :: r => if tag_dec (ttg x) t then Some j else find_tag t r (S j) end.

(* 130-221, one token *)
Inductive tstep (w : fvec) (width : nat) (sent : list token) (i : nat) : token -> option A -> tstate -> tstate + outcome -> Prop :=
  | ts_one a g st : tstep w width sent i [a] g st (inl (mks (map (push (Some a)) (ag st)) (ci st) (push g (cs st))))
  | ts_none toks g st : toks = [] \/ (2 <= length toks /\ g = None) ->
      tstep w width sent i toks g st (inl (mks (map (push None) (ag st)) (ci st) (push g (cs st))))
  | ts_unavail toks g st it : 2 <= length toks -> nth_error (ag st) (ci st) = Some it -> (~ In g toks \/ nmorph g = 0) ->
      tstep w width sent i toks (Some g) st (inr OSkip)
  | ts_kept toks g st it ag' j : 2 <= length toks -> nth_error (ag st) (ci st) = Some it -> In g toks -> nmorph g <> 0 ->
      tbeam width (texpand w sent i toks (ag st)) ag' ->
      find_tag (ttg (ext w sent i it g)) ag' 0 = Some j ->
      tstep w width sent i toks (Some g) st (inl (mks ag' j (ext w sent i it g)))
  | ts_fell toks g st it ag' : 2 <= length toks -> nth_error (ag st) (ci st) = Some it -> In g toks -> nmorph g <> 0 ->
      tbeam width (texpand w sent i toks (ag st)) ag' ->
      find_tag (ttg (ext w sent i it g)) ag' 0 = None ->
      tstep w width sent i toks (Some g) st (inr (upd ag' (ext w sent i it g))).

Definition t0 : titem := mkt [] 0%Q [].
Inductive treach (w : fvec) (width : nat) (sent : list token) (gold : tagged) : nat -> tstate -> Prop :=
  | treach0 : treach w width sent gold 0 (mks [t0] 0 t0)
  | treachS i toks g st st' : treach w width sent gold i st -> nth_error sent i = Some toks -> nth_error gold i = Some g ->
      tstep w width sent i toks g st (inl st') -> treach w width sent gold (S i) st'.
(* 109-241 *)
Inductive trainSentence (w : fvec) (width : nat) (sent : list token) (gold : tagged) : outcome -> Prop :=
  | tr_early i toks g st o : treach w width sent gold i st -> nth_error sent i = Some toks -> nth_error gold i = Some g ->
      tstep w width sent i toks g st (inr o) -> trainSentence w width sent gold o
  | tr_end st o : treach w width sent gold (length sent) st ->
      o = match ag st with
          | [] => OUndef
          | f :: _ => if tag_dec (ttg f) (ttg (cs st)) then ONone else upd (ag st) (cs st)
          end -> trainSentence w width sent gold o.

(* 245-264: any sequence of sentences (the shuffled corpus, several iterations); None = undefined behaviour.
   The list collects the updates made. *)
Inductive train (width : nat) : avg -> list (list token * tagged) -> list (fvec * fvec) -> avg -> Prop :=
  | train_nil a : train width a [] [] a
  | train_keep a x l us a' o : trainSentence (weights a) width (fst x) (snd x) o -> o = ONone \/ o = OSkip ->
      train width a l us a' -> train width a (x :: l) us a'
  | train_upd a x l us a' p c : trainSentence (weights a) width (fst x) (snd x) (OUpdate p c) ->
      train width (fold_left astep [OSub p; OAdd c; OInc] a) l us a' -> train width a (x :: l) ((p, c) :: us) a'.
End Train.
Arguments mkt {A}. Arguments ttg {A}. Arguments tsc {A}. Arguments tvec {A}.
