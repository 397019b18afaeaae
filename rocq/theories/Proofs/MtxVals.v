(** The operations of the machine on values are those of Spec/Mtx.v. *)
From Coq Require Import String.
From Verif Require Import Model.Base Model.Serialiser Model.Stream Model.FeatureVec Model.PerceptronVM Model.Mtx Spec.Mtx Proofs.Base.
Open Scope nat_scope.

Lemma cut_from {X} (l : list X) (b e : Z) : (0 <= b <= e)%Z -> forall a,
  map snd (filter (fun p => (b <=? Z.of_nat (fst p))%Z && (Z.of_nat (fst p) <? e)%Z) (combine (seq a (List.length l)) l))
  = firstn (Z.to_nat (e - Z.max b (Z.of_nat a))) (skipn (Z.to_nat (b - Z.of_nat a)) l).
Proof.
  intros H. induction l as [|x l IH]; intros a; [cbn; rewrite skipn_nil, firstn_nil; reflexivity|].
  cbn [List.length seq combine filter fst snd map].
  destruct (Z.leb_spec b (Z.of_nat a)) as [H1|H1]; destruct (Z.ltb_spec (Z.of_nat a) e) as [H2|H2]; cbn [andb map snd]; rewrite IH.
  - replace (Z.to_nat (b - Z.of_nat a)) with 0 by lia. replace (Z.to_nat (b - Z.of_nat (S a))) with 0 by lia.
    replace (Z.to_nat (e - Z.max b (Z.of_nat a))) with (S (Z.to_nat (e - Z.max b (Z.of_nat (S a))))) by lia. reflexivity.
  - replace (Z.to_nat (e - Z.max b (Z.of_nat a))) with 0 by lia. replace (Z.to_nat (e - Z.max b (Z.of_nat (S a)))) with 0 by lia. reflexivity.
  - replace (Z.to_nat (b - Z.of_nat a)) with (S (Z.to_nat (b - Z.of_nat (S a)))) by lia. cbn [skipn]. do 2 f_equal. lia.
  - lia.
Qed.
Definition numv (o : option num) : Z := match o with Some n => num_value n | None => 0%Z end.
Lemma slice_cut {X} (l : list X) s e : slice_ok (List.length l) s e -> slice l (numv s) (numv e) = Ok (cut l s e).
Proof.
  unfold slice_ok, cut, bounds, slice, clamp, zlen. fold (numv s) (numv e). generalize (numv s) (numv e). clear s e. intros s e [H1 H2].
  assert (forall x : Z, (0 <= Z.of_nat (List.length l))%Z) as Hl by (intros; lia).
  set (n := Z.of_nat (List.length l)) in *. specialize (Hl 0%Z).
  set (b := Z.max 0 (if (s <? 0)%Z then n + s else s)) in *. set (f := Z.min n (Z.max 0 (if (e <=? 0)%Z then n + e else e))) in *.
  replace (Z.min (Z.max (if (s <? 0)%Z then (n + s)%Z else s) 0) (n - 1)) with b by (unfold b in *; lia).
  replace (Z.min (Z.max (if (e <=? 0)%Z then (n + e)%Z else e) 0) n) with f by (unfold f in *; lia).
  assert (0 <= b)%Z as Hb by (unfold b; lia).
  replace (b <? 0)%Z with false by (symmetry; apply Z.ltb_ge; lia). replace (f <? b)%Z with false by (symmetry; apply Z.ltb_ge; lia). cbn [orb].
  rewrite cut_from by lia. f_equal. change (Z.of_nat 0) with 0%Z. rewrite Z.max_l by lia. rewrite Z.sub_0_r. reflexivity.
Qed.
Lemma subscript_elt {X} (d : X) (l : list X) i : (0 <= num_value i < Z.of_nat (List.length l))%Z -> subscript l (Z.to_nat (num_value i)) = Ok (elt d l i).
Proof.
  intros H. unfold subscript, elt, clamp, zlen. rewrite Z2Nat.id by lia.
  replace (Z.min (Z.max (num_value i) 0) (Z.of_nat (List.length l) - 1)) with (num_value i) by lia.
  assert (Z.to_nat (num_value i) < List.length l) as Hl by lia.
  replace (Z.of_nat (List.length l) - 1 <? 0)%Z with false by (symmetry; apply Z.ltb_ge; lia).
  rewrite (nth_error_nth' l d Hl). reflexivity.
Qed.
Lemma join_acc sep l : forall x acc, acc <> [] -> fold_left (fun ss x => (match ss with [] => [] | _ => ss ++ sep end) ++ x) (x :: l) acc = acc ++ sep ++ intercalate sep (x :: l).
Proof.
  induction l as [|y l IH]; intros x acc Ha.
  - cbn. destruct acc; [congruence|]. rewrite <- app_assoc. reflexivity.
  - change (fold_left (fun ss x => (match ss with [] => [] | _ => ss ++ sep end) ++ x) (y :: l) ((match acc with [] => [] | _ => acc ++ sep end) ++ x) = acc ++ sep ++ x ++ sep ++ intercalate sep (y :: l)).
    rewrite IH. + destruct acc; [congruence|]. rewrite <- !app_assoc. reflexivity. + destruct acc; [congruence|]. discriminate.
Qed.
Lemma join_ok_eq sep l : join_ok l -> join sep l = intercalate sep l.
Proof.
  unfold join. destruct l as [|x [|y l]]; intros H; [reflexivity|reflexivity|].
  destruct x as [|c x]; [contradiction|].
  change (fold_left (fun ss x => (match ss with [] => [] | _ => ss ++ sep end) ++ x) (y :: l) (c :: x) = (c :: x) ++ sep ++ intercalate sep (y :: l)).
  apply join_acc. discriminate.
Qed.
Lemma plus_join_eq l : plus_join l = intercalate [cPLUS] l.
Proof. induction l as [|x [|y l] IH]; try reflexivity. change (plus_join (x :: y :: l)) with (x ++ [cPLUS] ++ plus_join (y :: l)). rewrite IH. reflexivity. Qed.
Lemma ambgset_eq f x : Forall (fun a => an_morphemes a <> []) (lx_an x) -> ambgset f (lx_an x) = Ok (ambiguity f x).
Proof.
  intros H. unfold ambgset, ambiguity. replace (existsb _ _) with false.
  - f_equal. apply map_ext. intros a. apply plus_join_eq.
  - symmetry. induction H as [|a l Ha Hl IH]; [reflexivity|]. cbn. destruct (an_morphemes a); [congruence|]. exact IH.
Qed.
Lemma isin_eq s x : isin x (words s) = in_set s x.
Proof.
  unfold isin, in_set. destruct (in_dec (list_eq_dec N.eq_dec) x (words s)) as [H|H].
  - apply existsb_exists. exists x. split; [exact H|apply str_eqb_refl].
  - destruct (existsb (str_eqb x) (words s)) eqn:E; [|reflexivity]. apply existsb_exists in E as (y & Hy & Ey). apply str_eqb_eq in Ey. subst. contradiction.
Qed.
Definition rel_op (r : rel) : opcode := match r with Req => EQ | Rneq => NEQ | Rlt => LT | Rlte => LTE | Rgt => GT | Rgte => GTE end.
Lemma compare_eq r a b : compare (rel_op r) a b = relation r a b.
Proof.
  unfold relation. destruct r; cbn [rel_op compare]; (match goal with |- context [rel_dec ?r a b] => destruct (rel_dec r a b) as [H|H] end); cbn [rel_holds] in H.
  - apply Z.eqb_eq, H.
  - apply Z.eqb_neq, H.
  - apply negb_true_iff, Z.eqb_neq, H.
  - apply negb_false_iff, Z.eqb_eq. lia.
  - apply Z.ltb_lt, H.
  - apply Z.ltb_ge. lia.
  - apply Z.leb_le, H.
  - apply Z.leb_gt. lia.
  - apply Z.ltb_lt. lia.
  - apply Z.ltb_ge. lia.
  - apply Z.leb_le. lia.
  - apply Z.leb_gt. lia.
Qed.

Section Addr.
Variables (tagged : list (option (list morpheme))) (untagged : list lexunit).
Lemma wordoids_eq t : wordoids t = wordoids_of t. Proof. destruct t; reflexivity. Qed.
Lemma get_token_eq z : get_token untagged z = token_at untagged z. Proof. reflexivity. Qed.
Lemma words_at_eq z : words_at tagged z =
  if (z <? 0)%Z then [under_wrd] else match nth_error tagged (Z.to_nat z) with None => [over_wrd] | Some t => wordoids t end.
Proof.
  unfold words_at, at_pos. destruct (z <? 0)%Z; [reflexivity|]. destruct (nth_error tagged (Z.to_nat z)) as [t|] eqn:E.
  - rewrite wordoids_eq. apply nth_error_nth, map_nth_error, E.
  - apply nth_overflow. rewrite map_length. apply nth_error_None, E.
Qed.
Lemma get_wordoid_eq t w : get_wordoid tagged t w = word_at tagged t w.
Proof.
  unfold get_wordoid, word_at. rewrite words_at_eq. destruct (Z.ltb_spec t 0); [reflexivity|].
  destruct (Z.leb_spec (Z.of_nat (List.length tagged)) t) as [H1|H1].
  - replace (nth_error tagged (Z.to_nat t)) with (@None (option (list morpheme))); [reflexivity|]. symmetry. apply nth_error_None. lia.
  - destruct (nth_error tagged (Z.to_nat t)) as [x|] eqn:E; [reflexivity|]. apply nth_error_None in E. lia.
Qed.
Notation L := (lens tagged).
Lemma len_lens : List.length L = List.length tagged. Proof. apply map_length. Qed.
Lemma len_at_eq t : len_at tagged t = nth (Z.to_nat t) L 0%Z.
Proof.
  unfold len_at, lens. destruct (nth_error tagged (Z.to_nat t)) as [x|] eqn:E.
  - symmetry. apply nth_error_nth. rewrite (map_nth_error _ _ _ E), <- wordoids_eq. reflexivity.
  - symmetry. apply nth_overflow. rewrite map_length. apply nth_error_None, E.
Qed.
Lemma lens_pos : Forall (fun z => (0 <= z)%Z) L.
Proof. unfold lens. apply Forall_forall. intros z Hz. apply in_map_iff in Hz as (x & <- & _). lia. Qed.
Lemma sum_S (l : list Z) k : fold_right Z.add 0%Z (firstn (S k) l) = (fold_right Z.add 0%Z (firstn k l) + nth k l 0)%Z.
Proof.
  revert k. induction l as [|x l IH]; intros [|k]; [reflexivity|reflexivity|cbn; lia|].
  change (firstn (S (S k)) (x :: l)) with (x :: firstn (S k) l). change (firstn (S k) (x :: l)) with (x :: firstn k l).
  change (nth (S k) (x :: l) 0%Z) with (nth k l 0%Z). cbn [fold_right]. rewrite IH. lia.
Qed.
Lemma before_S t : (0 <= t)%Z -> before tagged (t + 1) = (before tagged t + len_at tagged t)%Z.
Proof. intros H. unfold before. replace (Z.to_nat (t + 1)) with (S (Z.to_nat t)) by lia. rewrite sum_S, len_at_eq. reflexivity. Qed.
Lemma len_at_pos t : (0 <= len_at tagged t)%Z.
Proof. unfold len_at. destruct (nth_error _ _); unfold zlen; lia. Qed.
Lemma adj_down_ok n t w t1 w1 : (0 <= t)%Z -> (t <= Z.of_nat n)%Z -> adj_down tagged n t w = (t1, w1) ->
  (0 <= t1 <= t)%Z /\ (before tagged t1 + w1 = before tagged t + w)%Z /\ (0 <= w1 \/ t1 = 0)%Z.
Proof.
  revert t w. induction n as [|n IH]; intros t w H0 Hn; cbn [adj_down].
  - intros [= <- <-]. lia.
  - destruct (Z.ltb_spec w 0); destruct (Z.ltb_spec 0 t); cbn [andb]; try (intros [= <- <-]; lia).
    intros E. apply IH in E as (A & B & C); [|lia|lia]. repeat split; try lia.
    rewrite B. pose proof (before_S (t - 1)) as S1. replace (t - 1 + 1)%Z with t in S1 by lia. rewrite S1 by lia. lia.
Qed.
Lemma adj_up_ok n t w t1 w1 : (0 <= t < Z.of_nat (List.length tagged))%Z -> (Z.of_nat (List.length tagged) - 1 - t <= Z.of_nat n)%Z -> (0 <= w \/ t = 0)%Z -> adj_up tagged n t w = (t1, w1) ->
  (t <= t1 < Z.of_nat (List.length tagged))%Z /\ (before tagged t1 + w1 = before tagged t + w)%Z /\ (0 <= w1 \/ t1 = 0)%Z /\ (w1 < len_at tagged t1 \/ t1 + 1 = Z.of_nat (List.length tagged))%Z.
Proof.
  revert t w. induction n as [|n IH]; intros t w H0 Hn Hw; cbn [adj_up]; unfold zlen.
  - intros [= <- <-]. lia.
  - destruct (Z.leb_spec (len_at tagged t) w); destruct (Z.ltb_spec t (Z.of_nat (List.length tagged) - 1)); cbn [andb]; try (intros [= <- <-]; lia).
    intros E. pose proof (len_at_pos t). apply IH in E as (A & B & C & D); [|lia|lia|lia]. repeat split; try lia.
    rewrite B, before_S by lia. lia.
Qed.
Lemma locate_ok l : Forall (fun z => (0 <= z)%Z) l -> forall k t0 w, k < List.length l -> ((0 <= w)%Z \/ k = 0) -> ((w < nth k l 0)%Z \/ S k = List.length l) ->
  locate t0 l (fold_right Z.add 0%Z (firstn k l) + w) = ((t0 + Z.of_nat k)%Z, w).
Proof.
  induction 1 as [|x l Hx Hl IH]; intros k t0 w Hk Hw He; [cbn in Hk; lia|].
  destruct k as [|k].
  - cbn [firstn fold_right nth] in *. replace (0 + w)%Z with w by lia. replace (t0 + Z.of_nat 0)%Z with t0 by lia. cbn [locate]. destruct l as [|y l]; [reflexivity|].
    destruct He as [He|He]; [|cbn in He; lia]. replace (w <? x)%Z with true by (symmetry; apply Z.ltb_lt, He). reflexivity.
  - destruct l as [|y l]; [cbn in Hk; lia|]. cbn [firstn fold_right].
    assert (0 <= fold_right Z.add 0%Z (firstn k (y :: l)))%Z as Hp.
    { clear -Hl. revert k. induction Hl as [|z l' Hz Hl' IHl]; intros k; destruct k; cbn; try lia. pose proof (IHl k). lia. }
    change (locate t0 (x :: y :: l)) with (fun p => if (p <? x)%Z then (t0, p) else locate (t0 + 1) (y :: l) (p - x)). cbv beta.
    replace (x + fold_right Z.add 0%Z (firstn k (y :: l)) + w <? x)%Z with false by (symmetry; apply Z.ltb_ge; lia).
    replace (x + fold_right Z.add 0%Z (firstn k (y :: l)) + w - x)%Z with (fold_right Z.add 0%Z (firstn k (y :: l)) + w)%Z by lia.
    rewrite IH; [f_equal; lia|cbn in *; lia|left; lia|]. cbn [nth List.length] in *. destruct He as [He|He]; [left; exact He|right; lia].
Qed.
Lemma adjust_eq t w : adjust tagged t w = if (0 <=? t)%Z && (t <? Z.of_nat (List.length tagged))%Z then locate 0 L (before tagged t + w) else (t, w).
Proof.
  unfold adjust, zlen. destruct ((0 <=? t)%Z && (t <? Z.of_nat (List.length tagged))%Z) eqn:E; [|reflexivity].
  apply andb_prop in E as [E1 E2]. apply Z.leb_le in E1. apply Z.ltb_lt in E2.
  destruct (adj_down tagged (List.length tagged) t w) as [t1 w1] eqn:D. apply adj_down_ok in D as (A1 & A2 & A3); [|lia|lia].
  destruct (adj_up tagged (List.length tagged) t1 w1) as [t2 w2] eqn:U. apply adj_up_ok in U as (B1 & B2 & B3 & B4); [|lia|lia|lia].
  rewrite <- A2, <- B2. unfold before. rewrite (locate_ok L lens_pos (Z.to_nat t2) 0 w2).
  - f_equal. lia.
  - rewrite len_lens. lia.
  - lia.
  - rewrite len_lens, <- len_at_eq. destruct B4; [left; assumption|right; lia].
Qed.
Lemma within_eq lo hi x : (lo <= hi)%Z -> clamp lo hi x = within lo hi x.
Proof. intros H. unfold clamp, within. destruct (Z.ltb_spec x lo); [lia|]. destruct (Z.ltb_spec hi x); lia. Qed.
End Addr.
