(** C13: the tagger's serialised values survive write and read. *)
From Coq Require Import String.
From Verif Require Import Model.Base Model.Codec Proofs.Codec Model.Serialiser Proofs.Serialiser.

(** Hypotheses on the (lttoolbox) encoders of numbers and strings: they read back what they wrote. *)
Theorem C13_roundtrip :
  forall (putN : N -> bytes) (getN : reader N) (fits : N -> Prop), RT putN getN fits ->
  forall (putS : str -> bytes) (getS : reader str) (fitsS : str -> Prop), RT putS getS fitsS ->
  (forall m r, fitsS (m_lemma m) -> fits (N.of_nat (length (m_tags m))) -> Forall fitsS (m_tags m) ->
     get_morpheme getN getS (put_morpheme putN putS m ++ r) = Some (m, r)) /\
  (forall a r, vec_ok fits (morpheme_ok fits fitsS) (an_morphemes a) ->
     get_analysis getN getS (put_analysis putN putS a ++ r) = Some (a, r)) /\
  (forall l r, fitsS (l_lemma l) -> get_lemma getS (put_lemma putS l ++ r) = Some (l, r)) /\
  (forall x r, vec_ok fits fitsS (i_tags x) -> get_i getN getS (put_i putN putS x ++ r) = Some (x, r)) /\
  (forall x r, vec_ok fits fitsS (a_tags x) -> vec_ok fits (morpheme_ok fits fitsS) (a_morphemes x) ->
     get_a getN getS (put_a putN putS x ++ r) = Some (x, r)).
Proof.
  intros putN getN fits HN putS getS fitsS HS. repeat split.
  - intros m r H1 H2 H3. apply (RT_morpheme putN getN fits HN putS getS fitsS HS). split; [exact H1|split; assumption].
  - intros a r H. exact (RT_analysis putN getN fits HN putS getS fitsS HS a r H).
  - intros l r H. exact (RT_lemma putS getS fitsS HS l r H).
  - intros x r H. exact (RT_i putN getN fits HN putS getS fitsS HS x r H).
  - intros x r H1 H2. apply (RT_a putN getN fits HN putS getS fitsS HS). split; assumption.
Qed.
Print Assumptions C13_roundtrip.

(** vectors, sets (sorted lists) and maps (key-sorted lists) of any encodable type *)
Theorem C13_containers :
  forall (putN : N -> bytes) (getN : reader N) (fits : N -> Prop), RT putN getN fits ->
  forall (A B : Type) (pA : A -> bytes) gA okA (pB : B -> bytes) gB okB, RT pA gA okA -> RT pB gB okB ->
  forall (lt : A -> A -> bool), (forall x y, lt x y = true -> lt y x = false) ->
  (forall l r, fits (N.of_nat (length l)) -> Forall okA l ->
     get_vec getN gA (put_vec putN pA l ++ r) = Some (l, r)) /\
  (forall l r, fits (N.of_nat (length l)) -> Forall okA l -> sorted lt l = true ->
     get_set getN gA lt (put_vec putN pA l ++ r) = Some (l, r)) /\
  (forall m r, fits (N.of_nat (length m)) -> Forall (fun kv => okA (fst kv) /\ okB (snd kv)) m ->
     sorted lt (map fst m) = true ->
     get_map getN gA gB lt (put_map putN pA pB m ++ r) = Some (m, r)).
Proof. exact containers_roundtrip. Qed.
Print Assumptions C13_containers.

Example C13_example :
  let m := mkm (u "casa") [u "n"; u "f"] in
  get_analysis mb_get mb_getS (put_analysis mb_put mb_putS (mkan [m; m]) ++ [1]%N) = Some (mkan [m; m], [1]%N) /\
  RT mb_put mb_get mb_fits /\ RT mb_putS mb_getS mb_fitsS.
Proof. split; [vm_compute; reflexivity|]. split; [exact mb_RT|exact mb_RTS]. Qed.
