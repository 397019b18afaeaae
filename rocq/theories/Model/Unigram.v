(** apertium/unigram_tagger.cc:91-415.  Counts are exact naturals (size_t overflow not modelled), scores exact
    rationals (long double rounding not modelled).  An exception is [None].  Debug output is not modelled. *)
From Coq Require Import QArith.
From Verif Require Import Model.Base Model.AMap.
From Verif Require Export Model.Serialiser.
Open Scope nat_scope.

Definition str_dec : forall x y : str, {x = y} + {x <> y} := list_eq_dec N.eq_dec.
Definition morpheme_dec : forall x y : morpheme, {x = y} + {x <> y}.
Proof. decide equality; [apply list_eq_dec, str_dec|apply str_dec]. Defined.
Definition analysis_dec : forall x y : analysis, {x = y} + {x <> y}.
Proof. decide equality. apply list_eq_dec, morpheme_dec. Defined.
Definition lemma_dec : forall x y : lemma_t, {x = y} + {x <> y}.
Proof. decide equality. apply str_dec. Defined.
Definition i_dec : forall x y : i_t, {x = y} + {x <> y}.
Proof. decide equality. apply list_eq_dec, str_dec. Defined.
Definition a_dec : forall x y : a_t, {x = y} + {x <> y}.
Proof. decide equality; [apply list_eq_dec, morpheme_dec|apply list_eq_dec, str_dec]. Defined.

Definition nonempty {A} (l : list A) : bool := match l with [] => false | _ => true end.

(* a.cc:35-53 *)
Definition to_a (x : analysis) : option a_t :=
  match an_morphemes x with
  | [] => None
  | m :: r => if nonempty (m_tags m) then Some (mka (m_tags m) r) else None
  end.
(* i.cc:45-52 *)
Definition i_of_morpheme (m : morpheme) : option i_t :=
  if nonempty (m_tags m) then Some (mki (m_tags m)) else None.
(* i.cc:31-43 *)
Definition to_i (x : analysis) : option i_t :=
  match an_morphemes x with [] => None | m :: _ => i_of_morpheme m end.
(* lemma.cc:49-56 *)
Definition lemma_of_morpheme (m : morpheme) : option lemma_t :=
  if nonempty (m_lemma m) then Some (mkl (m_lemma m)) else None.
(* lemma.cc:35-47 *)
Definition to_lemma (x : analysis) : option lemma_t :=
  match an_morphemes x with [] => None | m :: _ => lemma_of_morpheme m end.

(* unigram_tagger.h:53-61 *)
Record ust := mku { model1 : list (analysis * nat);
                    model2 : list (a_t * list (lemma_t * nat));
                    m3_l_t : list (i_t * list (lemma_t * nat));
                    m3_cl_ct : list (i_t * list (lemma_t * nat));
                    m3_ct_cl : list (lemma_t * list (i_t * nat));
                    coef : nat }.
Definition ust0 : ust := mku [] [] [] [] [] 1.
Inductive kind := M1 | M2 | M3.

(* the chained insert calls of train_Analysis: m[k1][k2] += c *)
Definition add1 {K} dec (k : K) (c : nat) (m : list (K * nat)) : list (K * nat) := upd dec k 0 (Nat.add c) m.
Definition add2 {K L} decK decL (k : K) (l : L) (c : nat) (m : list (K * list (L * nat))) : list (K * list (L * nat)) :=
  upd decK k [] (add1 decL l c) m.

(* unigram_tagger.cc:318-331: the loop over the morphemes after the first *)
Fixpoint train3_tail (c : nat) (prev : morpheme) (ms : list morpheme)
    (clct : list (i_t * list (lemma_t * nat))) (ctcl : list (lemma_t * list (i_t * nat))) :=
  match ms with
  | [] => Some (clct, ctcl)
  | m :: r =>
      match i_of_morpheme prev, lemma_of_morpheme m, i_of_morpheme m with
      | Some ip, Some l, Some ic =>
          train3_tail c m r (add2 i_dec lemma_dec ip l c clct) (add2 lemma_dec i_dec l ic c ctcl)
      | _, _, _ => None
      end
  end.

(* unigram_tagger.cc:297-337 [train_Analysis] *)
Definition train_analysis (k : kind) (c : nat) (st : ust) (x : analysis) : option ust :=
  match k with
  | M1 => Some (mku (add1 analysis_dec x c (model1 st)) (model2 st) (m3_l_t st) (m3_cl_ct st) (m3_ct_cl st) (coef st))
  | M2 => match to_a x, to_lemma x with
          | Some a, Some l =>
              Some (mku (model1 st) (add2 a_dec lemma_dec a l c (model2 st)) (m3_l_t st) (m3_cl_ct st) (m3_ct_cl st) (coef st))
          | _, _ => None
          end
  | M3 => match to_i x, to_lemma x, an_morphemes x with
          | Some i, Some l, m :: ms =>
              match train3_tail c m ms (m3_cl_ct st) (m3_ct_cl st) with
              | Some (clct, ctcl) =>
                  Some (mku (model1 st) (model2 st) (add2 i_dec lemma_dec i l c (m3_l_t st)) clct ctcl (coef st))
              | None => None
              end
          | _, _, _ => None
          end
  end.

(* unigram_tagger.cc:339-387 [multiplyModel] *)
Definition mul1 {K} (n : nat) (m : list (K * nat)) : list (K * nat) := mapv (fun v => v * n) m.
Definition mul2 {K L} (n : nat) (m : list (K * list (L * nat))) := mapv (mul1 n) m.
Definition multiply (k : kind) (n : nat) (st : ust) : ust :=
  match k with
  | M1 => mku (mul1 n (model1 st)) (model2 st) (m3_l_t st) (m3_cl_ct st) (m3_ct_cl st) (coef st)
  | M2 => mku (model1 st) (mul2 n (model2 st)) (m3_l_t st) (m3_cl_ct st) (m3_ct_cl st) (coef st)
  | M3 => mku (model1 st) (model2 st) (mul2 n (m3_l_t st)) (mul2 n (m3_cl_ct st)) (mul2 n (m3_ct_cl st)) (coef st)
  end.

Fixpoint foldM {S A} (f : S -> A -> option S) (s : S) (l : list A) : option S :=
  match l with [] => Some s | x :: r => match f s x with Some s' => foldM f s' r | None => None end end.

(* unigram_tagger.cc:397-413: one lexical unit *)
Definition train_token (k : kind) (st : ust) (tok : list analysis) : option ust :=
  match tok with
  | [] => None
  | _ =>
      let n := length tok in
      let st1 := if coef st mod n =? 0 then st
                 else let s := mku (model1 st) (model2 st) (m3_l_t st) (m3_cl_ct st) (m3_ct_cl st) (coef st * n) in
                      multiply k n s in
      foldM (train_analysis k (coef st1 / n)) st1 tok
  end.
(* unigram_tagger.cc:389-415 [train] *)
Definition train (k : kind) (corpus : list (list analysis)) : option ust := foldM (train_token k) ust0 corpus.

(** ** scoring *)
Definition Qn (n : nat) : Q := inject_Z (Z.of_nat n).
Definition total {K} (m : list (K * nat)) : nat := fold_right (fun kv s => snd kv + s) 0 m.

(* unigram_tagger.cc:95-108 *)
Definition score1 (st : ust) (x : analysis) : Q :=
  (1 + match find analysis_dec x (model1 st) with Some c => Qn c | None => 0 end)%Q.

(* unigram_tagger.cc:110-141: (tokenCount_r_a * tokenCount_a) / (tokenCount_a + typeCount_a) *)
Definition score2 (st : ust) (x : analysis) : option Q :=
  match to_a x with
  | None => None
  | Some a =>
      match find a_dec a (model2 st) with
      | None => Some ((1 * 1) / (1 + 1))%Q
      | Some inner =>
          match to_lemma x with
          | None => None
          | Some l =>
              let r := match find lemma_dec l inner with Some c => (1 + Qn c)%Q | None => 1%Q end in
              let ty := ((match find lemma_dec l inner with Some _ => 0 | None => 1 end) + Qn (length inner))%Q in
              let t := (1 + Qn (total inner))%Q in
              Some ((r * t) / (t + ty))%Q
          end
      end
  end.

(* unigram_tagger.cc:160-172, 197-210, 211-224: counts of one table row: (1 + m[k][l], 1 + sum, types) *)
Definition row {K L} (decK : forall x y : K, {x = y} + {x <> y}) (decL : forall x y : L, {x = y} + {x <> y})
    (k : K) (l : L) (m : list (K * list (L * nat))) : Q * Q * Q :=
  match find decK k m with
  | None => (1, 1, 1)%Q
  | Some inner => (match find decL l inner with Some c => (1 + Qn c)%Q | None => 1%Q end,
                   (1 + Qn (total inner))%Q,
                   ((1 - match find decL l inner with Some _ => 1 | None => 0 end) + Qn (length inner))%Q)
  end.

(* unigram_tagger.cc:186-237: factor contributed by the morphemes after the first: (score, divisor) *)
Fixpoint score3_tail (st : ust) (prev : morpheme) (ms : list morpheme) (acc : Q * Q) : option (Q * Q) :=
  match ms with
  | [] => Some acc
  | m :: r =>
      match lemma_of_morpheme m, i_of_morpheme m, i_of_morpheme prev with
      | Some l, Some ic, Some ip =>
          let '(d_i, t_i, ty_i) := row i_dec lemma_dec ip l (m3_cl_ct st) in
          let '(i_d, t_d, ty_d) := row lemma_dec i_dec l ic (m3_ct_cl st) in
          score3_tail st m r (fst acc * (d_i * i_d), snd acc * ((t_i + ty_i) * (t_d + ty_d)))%Q
      | _, _, _ => None
      end
  end.
(* unigram_tagger.cc:151-245 [model3_score] *)
Definition score3 (st : ust) (x : analysis) : option Q :=
  match to_i x, to_lemma x, an_morphemes x with
  | Some i, Some l, m :: ms =>
      let '(r_i, t_i, ty_i) := row i_dec lemma_dec i l (m3_l_t st) in
      match score3_tail st m ms (r_i * t_i, t_i + ty_i)%Q with
      | Some (s, d) => Some (s / d)%Q
      | None => None
      end
  | _, _, _ => None
  end.

(* unigram_tagger.cc:91-149 [score] *)
Definition score (k : kind) (st : ust) (x : analysis) : option Q :=
  match k with M1 => Some (score1 st x) | M2 => score2 st x | M3 => score3 st x end.

(* unigram_tagger.cc:270-296 [tag(LexicalUnit)]: outer None = exception, inner None = no analyses *)
Fixpoint pick (sc : analysis -> option Q) (best : option (analysis * Q)) (l : list analysis)
  : option (option (analysis * Q)) :=
  match l with
  | [] => Some best
  | x :: r =>
      match sc x with
      | None => None
      | Some s => match best with
                  | None => pick sc (Some (x, s)) r
                  | Some (_, mx) => if Qlt_le_dec mx s then pick sc (Some (x, s)) r else pick sc best r
                  end
      end
  end.
Definition tag_unit (k : kind) (st : ust) (l : list analysis) : option (option analysis) :=
  option_map (option_map fst) (pick (score k st) None l).
