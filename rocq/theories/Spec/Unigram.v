(** Specification for C16/C17: fractional counts over a tagged corpus, independent of the trainer. *)
From Coq Require Import QArith.
From Verif Require Import Model.Base Model.Unigram.
Open Scope Q_scope.

Section Frac.
  Context {K : Type} (dec : forall x y : K, {x = y} + {x <> y}).
  (** [ev x]: the events of kind K contained in one analysis *)
  Variable ev : analysis -> list K.
  (** each token spreads one unit of weight equally over its analyses *)
  Definition frac (corpus : list (list analysis)) (k : K) : Q :=
    fold_right (fun tok s => Qn (count_occ dec (flat_map ev tok) k) / Qn (length tok) + s) 0 corpus.
End Frac.

(** events of the three models *)
Definition ev1 (x : analysis) : list analysis := [x].
Definition ev2 (x : analysis) : list (a_t * lemma_t) :=
  match an_morphemes x with m :: r => [(mka (m_tags m) r, mkl (m_lemma m))] | [] => [] end.
Definition ev_l_t (x : analysis) : list (i_t * lemma_t) :=
  match an_morphemes x with m :: _ => [(mki (m_tags m), mkl (m_lemma m))] | [] => [] end.
(** consecutive morphemes: (tags of the previous one, lemma), and (lemma, own tags) *)
Fixpoint pairs_cl_ct (p : morpheme) (ms : list morpheme) : list (i_t * lemma_t) :=
  match ms with [] => [] | m :: r => (mki (m_tags p), mkl (m_lemma m)) :: pairs_cl_ct m r end.
Definition ev_cl_ct (x : analysis) : list (i_t * lemma_t) :=
  match an_morphemes x with p :: ms => pairs_cl_ct p ms | [] => [] end.
Definition ev_ct_cl (x : analysis) : list (lemma_t * i_t) :=
  map (fun m => (mkl (m_lemma m), mki (m_tags m))) (tl (an_morphemes x)).

Definition pair_dec {A B} (dA : forall x y : A, {x = y} + {x <> y}) (dB : forall x y : B, {x = y} + {x <> y}) :
  forall x y : A * B, {x = y} + {x <> y}.
Proof. decide equality. Defined.

(** an analysis the readers can produce: at least one morpheme, no empty lemma, no morpheme without tags *)
Definition wf_analysis (x : analysis) : Prop :=
  an_morphemes x <> [] /\ Forall (fun m => m_lemma m <> [] /\ m_tags m <> []) (an_morphemes x).

(** scores in terms of a table's contents: c = weight stored for (k, l), N = total weight in row k, V = number of
    distinct l in row k, each smoothed by one occurrence of (k, l) itself *)
Section Row.
  Context {K L : Type} (dK : forall x y : K, {x = y} + {x <> y}) (dL : forall x y : L, {x = y} + {x <> y}).
  Variable m : list (K * list (L * nat)).
  Fixpoint the_row (m : list (K * list (L * nat))) (k : K) : list (L * nat) :=
    match m with [] => [] | (k', r) :: m' => if dK k k' then r else the_row m' k end.
  Definition entries (k : K) (l : L) : list nat := map snd (filter (fun e => if dL l (fst e) then true else false) (the_row m k)).
  Definition c_of (k : K) (l : L) : Q := match entries k l with v :: _ => Qn v | [] => 0 end.
  Definition n_of (k : K) : Q := fold_right (fun e s => Qn (snd e) + s) 0 (the_row m k).
  Definition v_of (k : K) (l : L) : Q := Qn (length (the_row m k)) + match entries k l with [] => 1 | _ => 0 end.
  Definition smooth (k : K) (l : L) : Q := (1 + c_of k l) / ((1 + n_of k) + v_of k l).
End Row.
Definition spec2 (st : ust) (a : a_t) (l : lemma_t) : Q :=
  smooth a_dec lemma_dec (model2 st) a l * (1 + n_of a_dec (model2 st) a).
Fixpoint spec3_tail (st : ust) (p : morpheme) (ms : list morpheme) : Q :=
  match ms with
  | [] => 1
  | m :: r => smooth i_dec lemma_dec (m3_cl_ct st) (mki (m_tags p)) (mkl (m_lemma m))
            * smooth lemma_dec i_dec (m3_ct_cl st) (mkl (m_lemma m)) (mki (m_tags m)) * spec3_tail st m r
  end.
Definition spec3 (st : ust) (m : morpheme) (ms : list morpheme) : Q :=
  smooth i_dec lemma_dec (m3_l_t st) (mki (m_tags m)) (mkl (m_lemma m)) * (1 + n_of i_dec (m3_l_t st) (mki (m_tags m)))
  * spec3_tail st m ms.
