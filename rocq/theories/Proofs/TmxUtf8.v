(** Texts through UTF-8 files: encoding, decoding, reading words. *)
From Coq Require Import String Lia.
From Verif Require Import Model.Base Model.TmxAlign Model.TmxBuild Spec.TmxAlign Spec.TmxBuild Proofs.Base Proofs.TmxRead.
Open Scope N_scope.

Lemma utf8_app a b : utf8 (a ++ b) = utf8 a ++ utf8 b.
Proof. apply flat_map_app. Qed.
Lemma utf8_cons c s : utf8 (c :: s) = utf8_char c ++ utf8 s.
Proof. reflexivity. Qed.

Lemma div_small a b c : 0 < b -> a < b * c -> a / b < c.
Proof. intros B H. apply N.div_lt_upper_bound; lia. Qed.

(** decoding what was encoded *)
Lemma decode_char c t : c < 65536 -> utf8_decode (utf8_char c ++ t) = c :: utf8_decode t.
Proof.
  intros H. unfold utf8_char.
  destruct (N.ltb_spec c 128) as [A|A]; [cbn [app utf8_decode]; apply N.ltb_lt in A; now rewrite A|].
  pose proof (N.div_mod c 64 ltac:(lia)) as D. pose proof (N.mod_lt c 64 ltac:(lia)) as M.
  destruct (N.ltb_spec c 2048) as [B|B].
  - cbn [app utf8_decode]. pose proof (div_small c 64 32 ltac:(lia) ltac:(lia)).
    destruct (N.ltb_spec (192 + c / 64) 128); [lia|]. destruct (N.ltb_spec (192 + c / 64) 224); [|lia].
    f_equal. generalize dependent (c / 64). generalize dependent (c mod 64). clear. intros. lia.
  - cbn [app utf8_decode]. pose proof (div_small c 4096 16 ltac:(lia) ltac:(lia)). pose proof (N.le_0_l (c / 4096)).
    destruct (N.ltb_spec (224 + c / 4096) 128); [lia|]. destruct (N.ltb_spec (224 + c / 4096) 224); [lia|].
    pose proof (N.div_mod (c / 64) 64 ltac:(lia)) as D2. pose proof (N.mod_lt (c / 64) 64 ltac:(lia)) as M2.
    rewrite N.div_div in D2 by lia. change (64 * 64) with 4096 in D2.
    f_equal. generalize dependent (c / 4096). generalize dependent ((c / 64) mod 64).
    generalize dependent (c mod 64). generalize dependent (c / 64). clear. intros. lia.
Qed.
Lemma decode_app s t : (forall c, In c s -> c < 65536) -> utf8_decode (utf8 s ++ t) = s ++ utf8_decode t.
Proof.
  induction s as [|c s IH]; intros H; [reflexivity|]. rewrite utf8_cons, <- app_assoc, decode_char by (apply H; now left).
  cbn [app]. f_equal. apply IH. intros d D. apply H. now right.
Qed.
Lemma decode_ok s : (forall c, In c s -> c < 65536) -> utf8_decode (utf8 s) = s.
Proof. intros H. rewrite <- (app_nil_r (utf8 s)), decode_app by exact H. cbn. apply app_nil_r. Qed.

(** The bytes of a character beyond ASCII are beyond ASCII. *)
Lemma utf8_high c : 128 <= c -> utf8_char c <> [] /\ forall b, In b (utf8_char c) -> 128 <= b.
Proof.
  intros H. unfold utf8_char. destruct (N.ltb_spec c 128); [lia|].
  assert (K : forall x y : N, 128 <= x -> 128 <= x + y) by lia.
  destruct (N.ltb_spec c 2048); (split; [discriminate|]); intros b I; cbn [In] in I;
    repeat (destruct I as [<-|I]; [apply K; lia|]); destruct I.
Qed.
Lemma utf8_low c : c < 128 -> utf8_char c = [c].
Proof. intros H. unfold utf8_char. apply N.ltb_lt in H. now rewrite H. Qed.

Definition uniform (f : char -> bool) : Prop := exists v, forall b, 128 <= b -> f b = v.

Lemma drop_all f l t : (forall b, In b l -> f b = true) -> drop_while f (l ++ t) = drop_while f t.
Proof.
  induction l as [|x l IH]; intros H; [reflexivity|]. cbn. rewrite (H x) by (now left). apply IH. intros b B. apply H. now right.
Qed.
Lemma take_all f l t : (forall b, In b l -> f b = true) -> take_while f (l ++ t) = l ++ take_while f t.
Proof.
  induction l as [|x l IH]; intros H; [reflexivity|]. cbn. rewrite (H x) by (now left). f_equal. apply IH. intros b B. apply H. now right.
Qed.
Lemma drop_utf8 f s : uniform f -> drop_while f (utf8 s) = utf8 (drop_while f s).
Proof.
  intros (v & U). induction s as [|c s IH]; [reflexivity|]. rewrite utf8_cons. cbn [drop_while].
  destruct (N.ltb_spec c 128) as [L|L].
  - rewrite utf8_low by exact L. cbn [app drop_while]. destruct (f c); [exact IH|]. now rewrite utf8_cons, utf8_low.
  - destruct (utf8_high c L) as (NE & B). rewrite (U c L). destruct v.
    + rewrite drop_all; [exact IH|]. intros b I. apply U, B, I.
    + rewrite utf8_cons. destruct (utf8_char c) as [|x l]; [congruence|]. cbn. rewrite U; [reflexivity|]. apply B. now left.
Qed.
Lemma take_utf8 f s : uniform f -> take_while f (utf8 s) = utf8 (take_while f s).
Proof.
  intros (v & U). induction s as [|c s IH]; [reflexivity|]. rewrite utf8_cons. cbn [take_while].
  destruct (N.ltb_spec c 128) as [L|L].
  - rewrite utf8_low by exact L. cbn [app take_while]. destruct (f c); [|reflexivity]. rewrite utf8_cons, utf8_low by exact L.
    cbn [app]. now rewrite IH.
  - destruct (utf8_high c L) as (NE & B). rewrite (U c L). destruct v.
    + rewrite take_all; [|intros b I; apply U, B, I]. now rewrite utf8_cons, IH.
    + destruct (utf8_char c) as [|x l]; [congruence|]. cbn. rewrite U; [reflexivity|]. apply B. now left.
Qed.

Lemma uniform_space : uniform isspace.
Proof.
  exists false. intros b H. unfold isspace. destruct (N.eqb_spec b 32); [lia|]. cbn.
  destruct (N.leb_spec b 13); [lia|]. apply andb_false_r.
Qed.
Lemma uniform_word : uniform (fun c => negb (isspace c)).
Proof. destruct uniform_space as (v & U). exists (negb v). intros b H. now rewrite U. Qed.
Lemma uniform_white : uniform (fun c => N.eqb c 32 || N.eqb c 9).
Proof. exists false. intros b H. destruct (N.eqb_spec b 32); [lia|]. destruct (N.eqb_spec b 9); [lia|]. reflexivity. Qed.

Lemma utf8_nil s : utf8 s = [] <-> s = [].
Proof.
  split; [|intros ->; reflexivity]. destruct s as [|c s]; [reflexivity|]. rewrite utf8_cons. intros E. exfalso.
  apply app_eq_nil in E. destruct E as (E & _). unfold utf8_char in E.
  destruct (c <? 128); [discriminate|]. destruct (c <? 2048); discriminate.
Qed.
Lemma nil_match {A} (s : str) (x y : A) : match utf8 s with [] => x | _ => y end = match s with [] => x | _ => y end.
Proof.
  destruct s as [|c s]; [reflexivity|]. destruct (utf8 (c :: s)) eqn:E; [|reflexivity].
  exfalso. apply (proj1 (utf8_nil (c :: s))) in E. discriminate.
Qed.
Definition enc_is (is : istream) : istream := (utf8 (fst is), snd is).
Lemma eatwhite_utf8 is : eatwhite (enc_is is) = enc_is (eatwhite is).
Proof.
  destruct is as (s, e). unfold enc_is. cbn [fst snd eatwhite]. destruct e; [reflexivity|].
  rewrite drop_utf8 by exact uniform_white. rewrite nil_match. reflexivity.
Qed.
Lemma read_word_utf8 is : read_word (enc_is is) = (utf8 (fst (read_word is)), enc_is (snd (read_word is))).
Proof.
  destruct is as (s, e). unfold enc_is. cbn [fst snd read_word]. destruct e; [reflexivity|].
  rewrite (drop_utf8 isspace) by exact uniform_space.
  rewrite take_utf8 by exact uniform_word. rewrite (drop_utf8 (fun c => negb (isspace c))) by exact uniform_word.
  rewrite nil_match. reflexivity.
Qed.

(** the head of the input *)
Definition cr (s : str) : str := match s with 13 :: s' => s' | _ => s end.
Lemma cr_other (c : char) (s : str) : c <> 13 -> cr (c :: s) = c :: s.
Proof. intros H. unfold cr. destruct c as [|p]; [reflexivity|]. repeat (destruct p as [p|p|]; try reflexivity). congruence. Qed.
Lemma cr_length s : (List.length (cr s) <= List.length s)%nat.
Proof. destruct s as [|c s]; [cbn; lia|]. destruct (N.eq_dec c 13) as [->|N]; [cbn; lia|]. now rewrite cr_other. Qed.
Lemma cr_utf8 s : cr (utf8 s) = utf8 (cr s).
Proof.
  destruct s as [|c s]; [reflexivity|]. rewrite utf8_cons.
  destruct (N.eq_dec c 13) as [->|N]; [reflexivity|].
  rewrite (cr_other c s N). destruct (N.ltb_spec c 128) as [L|L].
  - rewrite utf8_cons, utf8_low by exact L. cbn [app]. apply cr_other. exact N.
  - rewrite utf8_cons. destruct (utf8_high c L) as (NE & B). destruct (utf8_char c) as [|x l]; [congruence|].
    cbn [app]. apply cr_other. specialize (B x (or_introl eq_refl)). lia.
Qed.
Lemma cr_utf8_length s : (List.length (utf8 (cr s)) <= List.length (utf8 s))%nat.
Proof. rewrite <- cr_utf8. apply cr_length. Qed.

Definition word_then (f : nat) (s1 : str) : option (phrase * istream) :=
  let (w, is1) := read_word (s1, false) in
  match w with
  | [] => Some ([], eatwhite is1)
  | _ => do r <- read_words f (eatwhite is1); let (p, is3) := r : phrase * istream in Some (w :: p, is3)
  end.
Lemma read_words_step f (s : str) : read_words (S f) (s, false)
  = match cr s with
    | [] => Some ([], ([], true))
    | c :: s2 => if c =? 10 then Some ([], (s2, false)) else word_then f (cr s)
    end.
Proof.
  cbn [read_words]. change (match s with 13 :: s' => s' | _ => s end) with (cr s).
  generalize (cr s). intros t. destruct t as [|c t]; [reflexivity|]. unfold word_then.
  destruct (N.eqb_spec c 10) as [->|N]; [reflexivity|].
  destruct c as [|q]; [reflexivity|]. repeat (destruct q as [q|q|]; try reflexivity). congruence.
Qed.

Lemma read_words_utf8 : forall f2 (s : str) e f1 p is, (List.length s < f2)%nat -> (List.length (utf8 s) < f1)%nat ->
  read_words f2 (s, e) = Some (p, is) -> read_words f1 (utf8 s, e) = Some (map utf8 p, enc_is is).
Proof.
  induction f2 as [|f2 IH]; intros s e f1 p is L2 L1 H; [lia|]. destruct f1 as [|f1]; [lia|].
  destruct e; [cbn [read_words] in *; injection H as <- <-; reflexivity|].
  rewrite read_words_step in *.
  rewrite cr_utf8. pose proof (cr_length s) as La. pose proof (cr_utf8_length s) as Lb.
  generalize dependent (cr s). intros s1 H La Lb.
  assert (G : word_then f2 s1 = Some (p, is) -> word_then f1 (utf8 s1) = Some (map utf8 p, enc_is is)).
  { clear H. intros K. unfold word_then in *.
    pose proof (read_word_utf8 (s1, false)) as R. unfold enc_is in R at 1. cbn [fst snd] in R. rewrite R. clear R.
    destruct (read_word (s1, false)) as (w, is1) eqn:Ew. cbn [fst snd]. rewrite eatwhite_utf8.
    destruct w as [|c w].
    - injection K as <- <-. reflexivity.
    - assert (Eu : exists x y, utf8 (c :: w) = x :: y).
      { destruct (utf8 (c :: w)) eqn:E; [apply (proj1 (utf8_nil (c :: w))) in E; discriminate|eauto]. }
      destruct Eu as (x & y & Eu).
      destruct (eatwhite is1) as (s3, e3) eqn:E3.
      destruct (read_words f2 (s3, e3)) as [(p', is3)|] eqn:E4; [|discriminate]. injection K as <- <-.
      assert (Lw : (List.length s3 < List.length s1)%nat /\ (List.length (utf8 s3) < List.length (utf8 s1))%nat).
      { cbn [read_word] in Ew. injection Ew as Ew <-.
        set (s2 := drop_while (fun c0 : char => negb (isspace c0)) (drop_while isspace s1)) in *.
        assert (H3 : s3 = drop_while (fun c => N.eqb c 32 || N.eqb c 9) s2).
        { cbn [eatwhite] in E3. destruct s2; injection E3 as <- _; reflexivity. }
        pose proof (take_drop_len (fun c => negb (isspace c)) (drop_while isspace s1)) as T. rewrite Ew in T. fold s2 in T.
        pose proof (drop_while_len isspace s1) as D. pose proof (drop_while_len (fun c => N.eqb c 32 || N.eqb c 9) s2) as D2.
        split; [rewrite H3; cbn [List.length] in T; lia|].
        pose proof (take_drop_len (fun c => negb (isspace c)) (drop_while isspace (utf8 s1))) as T'.
        rewrite (drop_utf8 isspace), take_utf8, Ew, (drop_utf8 (fun c => negb (isspace c))) in T' by (exact uniform_space || exact uniform_word).
        fold s2 in T'. pose proof (drop_while_len isspace (utf8 s1)) as D'. rewrite (drop_utf8 isspace) in D' by exact uniform_space.
        pose proof (drop_while_len (fun c => N.eqb c 32 || N.eqb c 9) (utf8 s2)) as D2'. rewrite drop_utf8 in D2' by exact uniform_white.
        rewrite H3. rewrite Eu in T'. cbn [List.length] in T'. lia. }
      rewrite Eu. unfold enc_is at 1. cbn [fst snd].
      rewrite (IH s3 e3 f1 p' is3); [|lia|lia|exact E4]. cbn [map]. now rewrite Eu. }
  destruct s1 as [|c s1'].
  - injection H as <- <-. reflexivity.
  - destruct (N.eqb_spec c 10) as [->|N10].
    + injection H as <- <-. reflexivity.
    + assert (Eh : exists x l, utf8 (c :: s1') = x :: l /\ x <> 10).
      { rewrite utf8_cons. destruct (N.ltb_spec c 128) as [L|L].
        - rewrite utf8_low by exact L. exists c, (utf8 s1'). auto.
        - destruct (utf8_high c L) as (NE & B). destruct (utf8_char c) as [|x l]; [congruence|].
          exists x, (l ++ utf8 s1'). split; [reflexivity|]. specialize (B x (or_introl eq_refl)). lia. }
      destruct Eh as (x & l & Eh & Nx). specialize (G H). rewrite Eh in *.
      destruct (N.eqb_spec x 10); [congruence|]. exact G.
Qed.

Lemma read_sentences_utf8 : forall f2 (s : str) (e : bool) f1 l, (List.length s + 1 < f2)%nat -> (List.length (utf8 s) + 1 < f1)%nat ->
  read_sentences f2 (s, e) = Some l -> read_sentences f1 (utf8 s, e) = Some (map (map utf8) l).
Proof.
  induction f2 as [|f2 IH]; intros s e f1 l L2 L1 H; [lia|]. destruct f1 as [|f1]; [lia|].
  cbn [read_sentences fst snd] in *. destruct e; [injection H as <-; reflexivity|].
  destruct (read_words_total (List.length s + 1) s false ltac:(lia)) as (p & s' & e' & E & La & Lb). rewrite E in H.
  pose proof (read_words_utf8 (List.length s + 1) s false (List.length (utf8 s) + 1) _ _ ltac:(lia) ltac:(lia) E) as E'.
  rewrite E'. unfold enc_is. cbn [fst snd].
  destruct (read_sentences f2 (s', e')) as [l'|] eqn:E2; [|discriminate]. injection H as <-.
  destruct e'.
  - destruct f2; [discriminate|]. cbn [read_sentences snd] in E2. injection E2 as <-. destruct f1; [lia|]. reflexivity.
  - specialize (Lb eq_refl).
    assert (Lu : (List.length (utf8 s') < List.length (utf8 s))%nat).
    { pose proof (read_words_total (List.length (utf8 s) + 1) (utf8 s) false ltac:(lia)) as (p2 & s2 & e2 & E3 & _ & L3).
      rewrite E' in E3. unfold enc_is in E3. cbn [fst snd] in E3. injection E3 as _ <- <-. auto. }
    rewrite (IH s' false f1 l'); [reflexivity|lia|lia|exact E2].
Qed.

Lemma read_utf8 s l : readNoIds s = Some l -> readNoIds (utf8 s) = Some (map (map utf8) l).
Proof. intros H. unfold readNoIds in *. eapply read_sentences_utf8; [| |exact H]; lia. Qed.

(** ** Words of lines *)
Definition ok_tail (t : str) : Prop := t = [] \/ exists t' c, t = t' ++ [c] /\ isspace c = false.
Lemma ok_tail_suffix a b : ok_tail (a ++ b) -> ok_tail b.
Proof.
  intros [E|(t & c & E & N)]; [apply app_eq_nil in E; left; tauto|].
  destruct b as [|x b] using rev_ind; [left; reflexivity|]. right. exists b, x. split; [reflexivity|].
  rewrite app_assoc in E. apply app_inj_tail in E. destruct E as (_ & ->). exact N.
Qed.
Lemma drop_suffix f t : exists a, t = a ++ drop_while f t.
Proof.
  induction t as [|c t (a & IH)]; [exists []; reflexivity|]. cbn. destruct (f c); [exists (c :: a); cbn; now rewrite <- IH|exists []; reflexivity].
Qed.
Lemma words_drop f s l : (forall c, f c = true -> isspace c = true) -> words s l -> words (drop_while f s) l.
Proof.
  intros F. induction 1 as [|c s l B H IH|w s l Nw W S H IH].
  - constructor.
  - cbn. destruct (f c); [exact IH|]. now constructor.
  - destruct w as [|c w]; [congruence|]. cbn [app drop_while].
    destruct (f c) eqn:E; [|now apply (wo_word (c :: w))]. apply F in E.
    specialize (W c (or_introl eq_refl)). change (ascii_blank c) with (isspace c) in W. congruence.
Qed.
Lemma words_head s l c s0 : words s l -> s = c :: s0 -> isspace c = false ->
  exists w s' l', s = w ++ s' /\ l = w :: l' /\ words s' l' /\ w <> [] /\
    take_while (fun c => negb (isspace c)) (s) = w /\ drop_while (fun c => negb (isspace c)) s = s' /\
    match s' with [] => True | c :: _ => isspace c = true end.
Proof.
  intros H E N. destruct H as [|c' s l B H|w s l Nw W S H].
  - discriminate.
  - injection E as -> _. change (ascii_blank c) with (isspace c) in B. congruence.
  - exists w, s, l. destruct (take_word w s) as (T & D).
    + apply forallb_forall. intros x X. specialize (W x X). change (ascii_blank x) with (isspace x) in W. now rewrite W.
    + destruct s as [|x s]; [exact I|]. exact S.
    + repeat split; auto.
Qed.
Lemma take_stop f t x r : f x = false -> take_while f (t ++ x :: r) = take_while f t.
Proof. intros N. induction t as [|c t IH]; cbn; [now rewrite N|]. destruct (f c); [now rewrite IH|reflexivity]. Qed.
Lemma drop_stop f t x r : f x = false -> drop_while f (t ++ x :: r) = drop_while f t ++ x :: r.
Proof. intros N. induction t as [|c t IH]; cbn; [now rewrite N|]. destruct (f c); [exact IH|reflexivity]. Qed.
Lemma drop_stop2 f t x r : drop_while f t <> [] -> drop_while f (t ++ x :: r) = drop_while f t ++ x :: r.
Proof. induction t as [|c t IH]; cbn; [congruence|]. destruct (f c); [exact IH|reflexivity]. Qed.

Lemma read_line : forall n t l rest f, (List.length t <= n)%nat -> (List.length t < f)%nat ->
  ok_tail t -> ~ In cNL t -> words t l ->
  read_words f (t ++ cNL :: rest, false) = Some (l, (rest, false)).
Proof.
  induction n as [|n IH]; intros t l rest f Ln Lf T Nn W; (destruct f as [|f]; [lia|]).
  { destruct t; [|cbn in Ln; lia]. inversion W; subst; [reflexivity|]. destruct w; [congruence|discriminate]. }
  destruct t as [|c t].
  { inversion W; subst; [reflexivity|]. destruct w; [congruence|discriminate]. }
  rewrite read_words_step.
  assert (P : exists t1, t1 <> [] /\ ok_tail t1 /\ ~ In cNL t1 /\ words t1 l /\ (List.length t1 <= List.length (c :: t))%nat /\
              cr ((c :: t) ++ cNL :: rest) = t1 ++ cNL :: rest).
  { destruct (N.eq_dec c 13) as [->|N13].
    - exists t. split.
      { intros ->. destruct T as [T|(t' & z & E & Nz)]; [discriminate|]. destruct t' as [|y t']; [|destruct t'; discriminate].
        injection E as <-. discriminate. }
      split; [apply (ok_tail_suffix [13] t); exact T|]. split; [intros H; apply Nn; now right|].
      split; [|split; [cbn; lia|reflexivity]].
      inversion W as [|? ? ? B H Eq1|w s l0 Nw Ww S H Eq1]; subst; [exact H|].
      destruct w as [|y w]; [congruence|]. injection Eq1 as -> _. specialize (Ww 13 (or_introl eq_refl)). discriminate.
    - exists (c :: t). cbn [app]. rewrite cr_other by exact N13. repeat split; auto; discriminate. }
  destruct P as (t1 & Nt & T1 & Nn1 & W1 & L1 & Em). rewrite Em. clear Em.
  assert (R : word_then f (t1 ++ cNL :: rest) = Some (l, (rest, false))).
  { unfold word_then. cbn [read_word].
    set (t2 := drop_while isspace t1).
    assert (Nt2 : t2 <> []).
    { destruct T1 as [T1|(t' & z & E & Nz)]; [congruence|]. unfold t2. rewrite E. clear - Nz.
      induction t' as [|y t' IH]; cbn; [rewrite Nz; discriminate|]. destruct (isspace y); [exact IH|discriminate]. }
    assert (W2 : words t2 l) by (apply words_drop; auto).
    rewrite drop_stop2 by exact Nt2. fold t2.
    assert (Hd : exists y t2', t2 = y :: t2' /\ isspace y = false).
    { clear - Nt2. unfold t2 in *. clear t2. induction t1 as [|y t1 IH]; cbn in *; [congruence|]. destruct (isspace y) eqn:E; eauto. }
    destruct Hd as (y & t2' & Ey & Ny).
    destruct (words_head t2 l y t2' W2 Ey Ny) as (w & s' & l' & E1 & -> & W3 & Nw & Tk & Dr & Bl).
    rewrite take_stop by reflexivity. rewrite Tk. rewrite drop_stop by reflexivity. rewrite Dr.
    assert (T2 : ok_tail t2) by (destruct (drop_suffix isspace t1) as (a & Ea); apply (ok_tail_suffix a); unfold t2; now rewrite <- Ea).
    assert (Ts : ok_tail s') by (apply (ok_tail_suffix w); now rewrite <- E1).
    assert (Ns : ~ In cNL s').
    { intros H. apply Nn1. destruct (drop_suffix isspace t1) as (a & Ea). rewrite Ea. apply in_or_app. right. fold t2. rewrite E1. apply in_or_app. now right. }
    destruct w as [|w0 w]; [congruence|].
    assert (Ee : eatwhite (s' ++ cNL :: rest, match s' ++ cNL :: rest with [] => true | _ => false end)
                 = (drop_while (fun c => N.eqb c 32 || N.eqb c 9) s' ++ cNL :: rest, false)).
    { destruct (s' ++ cNL :: rest) eqn:E; [destruct s'; discriminate|]. rewrite <- E. cbn [eatwhite].
      rewrite drop_stop by reflexivity. destruct (drop_while _ s'); reflexivity. }
    match goal with |- context [eatwhite ?x] => replace (eatwhite x) with (drop_while (fun c => N.eqb c 32 || N.eqb c 9) s' ++ cNL :: rest, false) by (symmetry; exact Ee) end.
    set (t3 := drop_while (fun c => N.eqb c 32 || N.eqb c 9) s') in *.
    destruct (drop_suffix (fun c => N.eqb c 32 || N.eqb c 9) s') as (a3 & E3). fold t3 in E3.
    assert (Lt : (List.length t3 < List.length t1)%nat).
    { pose proof (drop_while_len isspace t1). fold t2 in H. rewrite E1, app_length in H. cbn [List.length] in H.
      pose proof (drop_while_len (fun c => N.eqb c 32 || N.eqb c 9) s'). fold t3 in H0. lia. }
    rewrite (IH t3 l' rest f); [reflexivity|cbn [List.length] in *; lia|cbn [List.length] in *; lia| | |].
    - apply (ok_tail_suffix a3). now rewrite <- E3.
    - intros H. apply Ns. rewrite E3. apply in_or_app. now right.
    - apply words_drop; [|exact W3]. intros z. unfold isspace. destruct (N.eqb_spec z 32); [reflexivity|].
      destruct (N.eqb_spec z 9) as [->|]; [reflexivity|discriminate]. }
  destruct t1 as [|z t1]; [congruence|]. cbn [app] in *.
  destruct (N.eqb_spec z 10) as [->|Nz]; [exfalso; apply Nn1; now left|]. exact R.
Qed.

Lemma words_exist t : exists l, words t l.
Proof.
  assert (H : forall n t, (List.length t <= n)%nat -> exists l, words t l).
  { clear. induction n as [|n IH]; intros t L; [destruct t; [exists []; constructor|cbn in L; lia]|].
    destruct t as [|c t]; [exists []; constructor|]. destruct (isspace c) eqn:B.
    - destruct (IH t) as (l & Hl); [cbn in L; lia|]. exists l. now constructor.
    - set (w := take_while (fun c => negb (isspace c)) (c :: t)). set (s := drop_while (fun c => negb (isspace c)) (c :: t)).
      assert (E : c :: t = w ++ s).
      { unfold w, s. generalize (c :: t). clear. induction l as [|x l IH]; [reflexivity|]. cbn. destruct (negb (isspace x)); [|reflexivity]. cbn. now rewrite <- IH. }
      destruct (IH s) as (l & Hl).
      { unfold s. cbn [drop_while]. rewrite B. cbn [negb]. pose proof (drop_while_len (fun c => negb (isspace c)) t). cbn in L. lia. }
      exists (w :: l). rewrite E. constructor; [| | |exact Hl].
      + unfold w. cbn. rewrite B. discriminate.
      + intros x. unfold w. generalize (c :: t). clear. induction l as [|y l IH]; [intros []|]. cbn. destruct (isspace y) eqn:E; cbn; [intros []|].
        intros [<-|H]; [exact E|auto].
      + unfold s. generalize (c :: t). clear. induction l as [|y l IH]; [exact I|]. cbn. destruct (isspace y) eqn:E; cbn; [exact E|exact IH]. }
  eapply H; reflexivity.
Qed.

(** Lines without newlines that end with something. *)
Lemma read_text_lines : forall ls f ws, Forall ok_tail ls -> Forall (fun t => ~ In cNL t) ls -> Forall2 words ls ws ->
  (List.length (concat (map (fun t => t ++ [cNL]) ls)) + 1 < f)%nat ->
  read_sentences f (concat (map (fun t => t ++ [cNL]) ls), false) = Some (ws ++ [[]]).
Proof.
  induction ls as [|t ls IH]; intros f ws T N W L; inversion W; subst; (destruct f as [|f]; [lia|]).
  - cbn in *. destruct f; [lia|]. reflexivity.
  - inversion T; inversion N; subst. cbn [map concat read_sentences fst snd].
    cbn [map concat] in L. rewrite !app_length in L. cbn [List.length] in L. rewrite <- app_assoc. cbn [app].
    rewrite (read_line (List.length t) t y); [|lia|rewrite !app_length; cbn [List.length]; lia|assumption..].
    rewrite (IH f l'); [reflexivity|assumption..|lia].
Qed.
Lemma read_texts ls ws : Forall ok_tail ls -> Forall (fun t => ~ In cNL t) ls -> Forall2 words ls ws ->
  readNoIds (concat (map (fun t => t ++ [cNL]) ls)) = Some (ws ++ [[]]).
Proof. intros. apply read_text_lines; auto. lia. Qed.
