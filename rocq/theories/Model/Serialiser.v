(** apertium/serialiser.h:70-93 and deserialiser.h:64-97: field by field serialisation of the tagger's
    value types. [Serialiser<vector<T>>] and [Serialiser<UString>] are lttoolbox templates: a size and the items. *)
From Verif Require Import Model.Base Model.Codec.

Record morpheme := mkm { m_lemma : str; m_tags : list str }.        (* morpheme.h *)
Record analysis := mkan { an_morphemes : list morpheme }.           (* analysis.h *)
Record lemma_t := mkl { l_lemma : str }.                            (* lemma.h *)
Record i_t := mki { i_tags : list str }.                            (* i.h *)
Record a_t := mka { a_tags : list str; a_morphemes : list morpheme }. (* a.h *)

Section S.
  Variable putN : N -> bytes.  Variable getN : reader N.
  Variable putS : str -> bytes. Variable getS : reader str.

  (* serialiser.h:89-93, deserialiser.h:91-97 *)
  Definition put_morpheme (m : morpheme) : bytes := putS (m_lemma m) ++ put_vec putN putS (m_tags m).
  Definition get_morpheme : reader morpheme := l <- getS ;; t <- get_vec getN getS ;; ret (mkm l t).
  (* serialiser.h:75-78, deserialiser.h:72-77 *)
  Definition put_analysis (a : analysis) : bytes := put_vec putN put_morpheme (an_morphemes a).
  Definition get_analysis : reader analysis := m <- get_vec getN get_morpheme ;; ret (mkan m).
  (* serialiser.h:84-87, deserialiser.h:85-89 *)
  Definition put_lemma (l : lemma_t) : bytes := putS (l_lemma l).
  Definition get_lemma : reader lemma_t := l <- getS ;; ret (mkl l).
  (* serialiser.h:80-82, deserialiser.h:79-83 *)
  Definition put_i (x : i_t) : bytes := put_vec putN putS (i_tags x).
  Definition get_i : reader i_t := t <- get_vec getN getS ;; ret (mki t).
  (* serialiser.h:70-73, deserialiser.h:64-70 *)
  Definition put_a (x : a_t) : bytes := put_vec putN putS (a_tags x) ++ put_vec putN put_morpheme (a_morphemes x).
  Definition get_a : reader a_t := t <- get_vec getN getS ;; m <- get_vec getN get_morpheme ;; ret (mka t m).
End S.

(** lttoolbox's Serialiser/Deserialiser of [set<T>] and [map<K,V>] (used by the taggers' models, e.g.
    basic_5_3_1_tagger.cc:20-33): size, then the items in order; reading inserts one by one *)
Section Containers.
  Variable putN : N -> bytes.  Variable getN : reader N.
  Context {A B : Type}.
  Variable pA : A -> bytes. Variable gA : reader A.
  Variable pB : B -> bytes. Variable gB : reader B.
  Variable lt : A -> A -> bool.
  Definition get_set : reader (list A) := l <- get_vec getN gA ;; ret (set_of_list lt [] l).
  Definition put_map (m : list (A * B)) : bytes := put_vec putN (fun kv => pA (fst kv) ++ pB (snd kv)) m.
  Definition get_map : reader (list (A * B)) :=
    l <- get_vec getN (k <- gA ;; v <- gB ;; ret (k, v)) ;; ret (map_of_list lt [] l).
End Containers.
