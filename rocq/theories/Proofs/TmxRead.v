(** Reading the two books (SentenceList::readNoIds). *)
From Coq Require Import QArith Lia.
From Verif Require Import Model.Base Model.TmxAlign Spec.TmxAlign Proofs.Base.
Open Scope Z_scope.

Lemma drop_while_len f s : (length (drop_while f s) <= length s)%nat.
Proof. induction s as [|c s IH]; cbn; [lia|]. destruct (f c); cbn; lia. Qed.

Lemma take_drop_len f s : (length (take_while f s) + length (drop_while f s) = length s)%nat.
Proof. induction s as [|c s IH]; cbn; [lia|]. destruct (f c); cbn; lia. Qed.

(** A phrase is always read, and unless the end is met input is consumed. *)
Lemma read_words_total fuel : forall (s : str) (e : bool), (length s < fuel)%nat ->
  exists p s' e', read_words fuel (s, e) = Some (p, (s', e')) /\ (length s' <= length s)%nat /\
                  (e' = false -> (length s' < length s)%nat).
Proof.
  induction fuel as [|f IH]; intros s e L; [lia|]. cbn [read_words].
  destruct e; [exists [], s, true; repeat split; [lia|discriminate]|].
  set (s1 := match s with 13%N :: s' => s' | _ => s end).
  assert (L1 : (length s1 <= length s)%nat).
  { unfold s1. destruct s as [|c s]; [cbn; lia|].
    destruct c as [|c]; [cbn; lia|]. repeat (destruct c as [c|c|]; cbn; try lia). }
  assert (A : exists p s' e',
    (let (w, is1) := read_word (s1, false) in
     let is2 := eatwhite is1 in
     match w with
     | [] => Some ([], is2)
     | _ => do r <- read_words f is2; let (p, is3) := r : phrase * istream in Some (w :: p, is3)
     end) = Some (p, (s', e')) /\ (length s' <= length s1)%nat /\
     (e' = false -> (length s' < length s1)%nat)).
  { cbn [read_word].
    pose proof (take_drop_len (fun c => negb (isspace c)) (drop_while isspace s1)) as T.
    pose proof (drop_while_len isspace s1) as D.
    destruct (take_while (fun c => negb (isspace c)) (drop_while isspace s1)) as [|c w] eqn:Ew.
    - assert (E : drop_while isspace s1 = []).
      { clear - Ew. induction s1 as [|c s1 IH]; cbn in *; [reflexivity|].
        destruct (isspace c) eqn:Ec; [auto|]. cbn in Ew. rewrite Ec in Ew. discriminate. }
      rewrite E. cbn. exists [], [], true. repeat split; [lia|discriminate].
    - set (s2 := drop_while (fun c0 => negb (isspace c0)) (drop_while isspace s1)) in *.
      cbn [length] in T.
      assert (H : exists s3 e3, eatwhite (s2, match s2 with [] => true | _ => false end) = (s3, e3)
                  /\ (length s3 <= length s2)%nat).
      { destruct s2 as [|d s2]; cbn [eatwhite]; eexists _, _; (split; [reflexivity|]);
          [lia|apply drop_while_len]. }
      destruct H as (s3 & e3 & E3 & L3). rewrite E3. cbv zeta.
      destruct (IH s3 e3 ltac:(lia)) as (p & s' & e' & E & La & Lb). rewrite E.
      exists ((c :: w) :: p), s', e'. repeat split; lia. }
  destruct A as (p & s' & e' & A & La & Lb).
  destruct s1 as [|c s1'] eqn:Es1.
  - exists [], [], true. repeat split; [cbn; lia|discriminate].
  - destruct (N.eq_dec c 10) as [->|N10].
    + exists [], s1', false. cbn [length] in *. repeat split; lia.
    + exists p, s', e'. split; [|cbn [length] in *; split; [lia|intros He; specialize (Lb He); lia]].
      etransitivity; [|exact A]. destruct c as [|c]; [reflexivity|].
      repeat (destruct c as [c|c|]; try reflexivity). congruence.
Qed.

Lemma read_sentences_total fuel : forall (s : str) (e : bool), (length s + 1 < fuel)%nat ->
  exists l, read_sentences fuel (s, e) = Some l /\ (e = false -> l <> []).
Proof.
  induction fuel as [|f IH]; intros s e L; [lia|]. cbn [read_sentences fst snd].
  destruct e; [exists []; split; [reflexivity|discriminate]|].
  destruct (read_words_total (length s + 1) s false ltac:(lia)) as (p & s' & e' & E & La & Lb).
  rewrite E. destruct e'.
  - destruct f as [|f]; [lia|]. cbn [read_sentences snd]. exists [p]. split; [reflexivity|discriminate].
  - specialize (Lb eq_refl). destruct (IH s' false ltac:(lia)) as (l & El & _). rewrite El.
    exists (p :: l). split; [reflexivity|discriminate].
Qed.

(** Any file whatever is read, as at least one sentence. *)
Lemma read_total s : exists l, readNoIds s = Some l /\ l <> [].
Proof.
  destruct (read_sentences_total (length s + 2) s false ltac:(lia)) as (l & E & H).
  exists l. split; [exact E|auto].
Qed.

(** ** Well-formed files *)
Definition wordy (w : str) : Prop := w <> [] /\ forallb (fun c => negb (isspace c)) w = true.

Lemma take_word w rest : forallb (fun c => negb (isspace c)) w = true ->
  (match rest with [] => True | c :: _ => isspace c = true end) ->
  take_while (fun c => negb (isspace c)) (w ++ rest) = w /\
  drop_while (fun c => negb (isspace c)) (w ++ rest) = rest.
Proof.
  intros F R. induction w as [|c w IH]; cbn.
  - destruct rest as [|c rest]; [auto|]. cbn. rewrite R. auto.
  - cbn in F. apply andb_prop in F. destruct F as [-> F]. destruct (IH F) as [-> ->]. auto.
Qed.

Lemma read_words_line : forall ws fuel rest, Forall wordy ws ->
  (length (spaced ws) < fuel)%nat ->
  read_words fuel (spaced ws ++ cNL :: rest, false) = Some (ws, (rest, false)).
Proof.
  induction ws as [|w ws IH]; intros fuel rest F L.
  - cbn [spaced app] in *. destruct fuel as [|f]; [lia|]. reflexivity.
  - inversion F as [|? ? (Wn & Wf) F' Eq1]. subst. clear F.
    destruct fuel as [|f]; [lia|]. cbn [read_words].
    destruct w as [|c w]; [congruence|].
    pose proof Wf as Wf'. cbn in Wf'. apply andb_prop in Wf'. destruct Wf' as [Wc _].
    assert (N13 : c <> 13%N) by (intros ->; discriminate).
    assert (N10 : c <> 10%N) by (intros ->; discriminate).
    set (tail := match ws with [] => cNL :: rest | _ => cSP :: spaced ws ++ cNL :: rest end).
    assert (Et : spaced ((c :: w) :: ws) ++ cNL :: rest = (c :: w) ++ tail).
    { unfold tail. destruct ws as [|w' ws]; [reflexivity|].
      change (spaced ((c :: w) :: w' :: ws)) with ((c :: w) ++ [cSP] ++ spaced (w' :: ws)).
      now rewrite <- !app_assoc. }
    match goal with |- context [@app ?T (spaced ?x) ?y] => change (@app T (spaced x) y) with (spaced ((c :: w) :: ws) ++ cNL :: rest) end. rewrite Et.
    assert (Er : read_word ((c :: w) ++ tail, false) = (c :: w, (tail, false))).
    { cbn [read_word].
      assert (D : drop_while isspace ((c :: w) ++ tail) = (c :: w) ++ tail).
      { cbn. destruct (isspace c); [discriminate|reflexivity]. }
      rewrite D. destruct (take_word (c :: w) tail Wf) as [-> ->].
      { unfold tail. destruct ws; reflexivity. }
      unfold tail. destruct ws; reflexivity. }
    assert (Ee : exists x, eatwhite (tail, false) = (spaced ws ++ cNL :: rest, x) /\ x = false).
    { exists false. split; [|reflexivity]. unfold tail. destruct ws as [|w' ws]; [reflexivity|].
      inversion F' as [|? ? (Wn' & Wf') F'' Eq2]. subst.
      destruct w' as [|d w']; [congruence|]. cbn in Wf'. apply andb_prop in Wf'. destruct Wf' as [Wd _].
      assert (N9 : d <> 9%N) by (intros ->; discriminate).
      assert (N32 : d <> 32%N) by (intros ->; discriminate).
      cbn [eatwhite]. cbn [drop_while]. change (N.eqb cSP 32) with true. cbn [orb].
      assert (Ed : exists y, spaced ((d :: w') :: ws) ++ cNL :: rest = d :: y).
      { destruct ws; eexists; reflexivity. }
      destruct Ed as (y & Ed). match goal with |- context [@app ?T (spaced ?x) ?y] => change (@app T (spaced x) y) with (spaced ((d :: w') :: ws) ++ cNL :: rest) end. rewrite Ed. cbn [drop_while].
      destruct (N.eqb_spec d 32); [congruence|]. destruct (N.eqb_spec d 9); [congruence|]. reflexivity. }
    destruct Ee as (x & Ee & ->).
    assert (Goal0 : (let (w0, is1) := read_word ((c :: w) ++ tail, false) in
       let is2 := eatwhite is1 in
       match w0 with
       | [] => Some ([], is2)
       | _ => do r <- read_words f is2; let (p, is3) := r : phrase * istream in Some (w0 :: p, is3)
       end) = Some ((c :: w) :: ws, (rest, false))).
    { rewrite Er. cbv zeta. rewrite Ee. rewrite IH; [reflexivity|assumption|].
      destruct ws as [|w' ws]; [cbn in *; lia|].
      change (spaced ((c :: w) :: w' :: ws)) with ((c :: w) ++ [cSP] ++ spaced (w' :: ws)) in L.
      rewrite !app_length in L. cbn [length] in L. lia. }
    etransitivity; [|exact Goal0]. cbn [app]. destruct c as [|c]; [reflexivity|].
    repeat (destruct c as [c|c|]; try reflexivity). all: try congruence.
Qed.

(** A file of lines of words is read as those lines and one more, empty, sentence. *)
Lemma read_lines_gen : forall l fuel,
  Forall (Forall wordy) l ->
  (length (concat (map (fun s => spaced s ++ [cNL]) l)) + 1 < fuel)%nat ->
  read_sentences fuel (concat (map (fun s => spaced s ++ [cNL]) l), false) = Some (l ++ [[]]).
Proof.
  induction l as [|p l IH]; intros fuel F L; (destruct fuel as [|f]; [lia|]).
  - cbn in *. destruct f; [lia|]. reflexivity.
  - inversion F as [|? ? Fp F' Eq]. subst. cbn [map concat read_sentences fst snd].
    cbn [map concat] in L. rewrite !app_length in L. cbn [length] in L.
    rewrite <- app_assoc. cbn [app].
    rewrite read_words_line; [|assumption|rewrite !app_length; cbn [length]; lia].
    rewrite IH; [reflexivity|assumption|lia].
Qed.

Lemma read_lines l : Forall (Forall wordy) l ->
  readNoIds (concat (map (fun s => spaced s ++ [cNL]) l)) = Some (l ++ [[]]).
Proof. intros F. apply read_lines_gen; [assumption|lia]. Qed.
