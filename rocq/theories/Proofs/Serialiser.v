From Verif Require Import Model.Base Proofs.Base Model.Codec Proofs.Codec Model.Serialiser.

Section S.
  Variable putN : N -> bytes.  Variable getN : reader N. Variable fits : N -> Prop.
  Hypothesis HN : RT putN getN fits.
  Variable putS : str -> bytes. Variable getS : reader str. Variable fitsS : str -> Prop.
  Hypothesis HS : RT putS getS fitsS.

  Definition vec_ok {A} (ok : A -> Prop) (l : list A) := fits (N.of_nat (length l)) /\ Forall ok l.
  Definition morpheme_ok (m : morpheme) := fitsS (m_lemma m) /\ vec_ok fitsS (m_tags m).
  Definition analysis_ok (a : analysis) := vec_ok morpheme_ok (an_morphemes a).
  Definition lemma_ok (l : lemma_t) := fitsS (l_lemma l).
  Definition i_ok (x : i_t) := vec_ok fitsS (i_tags x).
  Definition a_ok (x : a_t) := vec_ok fitsS (a_tags x) /\ vec_ok morpheme_ok (a_morphemes x).

  Let HVS := RT_vec putN getN fits HN putS getS fitsS HS.

  Lemma RT_morpheme : RT (put_morpheme putN putS) (get_morpheme getN getS) morpheme_ok.
  Proof.
    intros [l t] r [H1 H2]. unfold put_morpheme, get_morpheme; cbn in *. rewrite <- app_assoc.
    rewrite (RT_bind putS getS fitsS) by assumption.
    rewrite (RT_bind _ _ _ _ _ _ HVS) by assumption. reflexivity.
  Qed.
  Let HVM := RT_vec putN getN fits HN _ _ _ RT_morpheme.
  Lemma RT_analysis : RT (put_analysis putN putS) (get_analysis getN getS) analysis_ok.
  Proof.
    intros [m] r H. unfold put_analysis, get_analysis; cbn in *.
    rewrite (RT_bind _ _ _ _ _ _ HVM) by exact H. reflexivity.
  Qed.
  Lemma RT_lemma : RT (put_lemma putS) (get_lemma getS) lemma_ok.
  Proof. intros [l] r H. unfold put_lemma, get_lemma; cbn in *. rewrite (RT_bind _ _ _ _ _ _ HS) by exact H. reflexivity. Qed.
  Lemma RT_i : RT (put_i putN putS) (get_i getN getS) i_ok.
  Proof. intros [t] r H. unfold put_i, get_i; cbn in *. rewrite (RT_bind _ _ _ _ _ _ HVS) by exact H. reflexivity. Qed.
  Lemma RT_a : RT (put_a putN putS) (get_a getN getS) a_ok.
  Proof.
    intros [t m] r [H1 H2]. unfold put_a, get_a; cbn in *. rewrite <- app_assoc.
    rewrite (RT_bind _ _ _ _ _ _ HVS) by exact H1.
    rewrite (RT_bind _ _ _ _ _ _ HVM) by exact H2. reflexivity.
  Qed.
End S.

Lemma containers_roundtrip :
  forall (putN : N -> bytes) (getN : reader N) (fits : N -> Prop), RT putN getN fits ->
  forall (A B : Type) (pA : A -> bytes) gA okA (pB : B -> bytes) gB okB, RT pA gA okA -> RT pB gB okB ->
  forall (lt : A -> A -> bool), (forall x y, lt x y = true -> lt y x = false) ->
  (forall l r, fits (N.of_nat (length l)) -> Forall okA l ->
     get_vec getN gA (put_vec putN pA l ++ r) = Some (l, r)) /\
  (forall l r, fits (N.of_nat (length l)) -> Forall okA l -> sorted lt l = true ->
     get_set getN gA lt (put_vec putN pA l ++ r) = Some (l, r)) /\
  (forall m r, fits (N.of_nat (length m)) -> Forall (fun kv => okA (fst kv) /\ okB (snd kv)) m ->
     sorted lt (map fst m) = true ->
     get_map getN gA gB lt (put_map putN pA pB m ++ r) = Some (m, r)).
Proof.
  intros putN getN fits HN A B pA gA okA pB gB okB HA HB lt Hlt.
  assert (V := RT_vec putN getN fits HN pA gA okA HA).
  split; [|split].
  - intros l r H1 H2. apply V; split; assumption.
  - intros l r H1 H2 H3. unfold get_set. rewrite (RT_bind _ _ _ _ _ _ V) by (split; assumption).
    unfold ret. rewrite (set_of_list_app lt Hlt l []) by exact H3. reflexivity.
  - intros m r H1 H2 H3. unfold get_map, put_map.
    assert (KV : RT (fun kv : A * B => pA (fst kv) ++ pB (snd kv)) (k <- gA ;; v <- gB ;; ret (k, v))
                    (fun kv => okA (fst kv) /\ okB (snd kv))).
    { intros [k v] r' [K1 K2]; cbn in *. rewrite <- app_assoc.
      rewrite (RT_bind pA gA okA) by assumption. rewrite (RT_bind pB gB okB) by assumption. reflexivity. }
    rewrite (RT_bind _ _ _ _ _ _ (RT_vec putN getN fits HN _ _ _ KV)) by (split; assumption).
    unfold ret. rewrite (map_of_list_app lt Hlt m []) by exact H3. reflexivity.
Qed.
