From Coq Require Import ZifyBool ZifyNat ZifyN.
From Verif Require Import Model.Base Proofs.Base Model.Codec.

Lemma bind_some {A B} (m : reader A) (k : A -> reader B) r a r' :
  m r = Some (a, r') -> bind m k r = k a r'.
Proof. unfold bind; intros ->; reflexivity. Qed.

Lemma RT_bind {A B} (p : A -> bytes) g ok (k : A -> reader B) a r :
  RT p g ok -> ok a -> bind g k (p a ++ r) = k a r.
Proof. intros H Ha; apply bind_some, H, Ha. Qed.

Lemma RT_repeat {A} (p : A -> bytes) g ok : RT p g ok ->
  forall l r, Forall ok l -> repeat_get (length l) g (flat_map p l ++ r) = Some (l, r).
Proof.
  intros H l; induction l as [|a l IH]; intros r Hl; [reflexivity|].
  inversion Hl as [|x y Ha Hl' E1]; subst. cbn [length repeat_get flat_map].
  rewrite <- app_assoc. rewrite (RT_bind p g ok) by assumption.
  unfold bind. rewrite IH by exact Hl'. reflexivity.
Qed.

Section P.
  Variable putN : N -> bytes.
  Variable getN : reader N.
  Variable fits : N -> Prop.
  Hypothesis HN : RT putN getN fits.

  Lemma RT_vec {A} (p : A -> bytes) g ok : RT p g ok ->
    RT (put_vec putN p) (get_vec getN g) (fun l => fits (N.of_nat (length l)) /\ Forall ok l).
  Proof.
    intros H l r [Hf Hl]. unfold put_vec, get_vec. rewrite <- app_assoc.
    rewrite (RT_bind putN getN fits) by assumption.
    rewrite Nnat.Nat2N.id. apply (RT_repeat p g ok); assumption.
  Qed.
End P.

(** sorted containers rebuilt by insertion *)
Lemma set_insert_last {K} (lt : K -> K -> bool) k l :
  (forall x, In x l -> lt x k = true /\ lt k x = false) -> set_insert lt k l = l ++ [k].
Proof.
  induction l as [|x l IH]; intros H; [reflexivity|]. cbn.
  destruct (H x (or_introl eq_refl)) as [H1 H2]. rewrite H2, H1.
  rewrite IH; [reflexivity|]. intros y Hy; apply H; right; exact Hy.
Qed.
Lemma map_set_last {K V} (lt : K -> K -> bool) k (v : V) l :
  (forall x, In x (map fst l) -> lt x k = true /\ lt k x = false) -> map_set lt k v l = l ++ [(k, v)].
Proof.
  induction l as [|[x w] l IH]; intros H; [reflexivity|]. cbn.
  destruct (H x (or_introl eq_refl)) as [H1 H2]. rewrite H2, H1.
  rewrite IH; [reflexivity|]. intros y Hy; apply H; right; exact Hy.
Qed.

Lemma sorted_app_cons {K} (lt : K -> K -> bool) a k b :
  sorted lt (a ++ k :: b) = true -> forall x, In x a -> lt x k = true.
Proof.
  induction a as [|y a IH]; cbn; intros H x Hx; [destruct Hx|].
  apply andb_prop in H as [H1 H2]. destruct Hx as [->|Hx]; [|apply IH; assumption].
  rewrite forallb_forall in H1. apply H1, in_or_app; right; left; reflexivity.
Qed.

Definition asym {K} (lt : K -> K -> bool) := forall x y, lt x y = true -> lt y x = false.

Lemma set_of_list_app {K} (lt : K -> K -> bool) : asym lt ->
  forall l acc, sorted lt (acc ++ l) = true -> set_of_list lt acc l = acc ++ l.
Proof.
  intros Ha l; induction l as [|k l IH]; intros acc H; cbn; [rewrite app_nil_r; reflexivity|].
  rewrite set_insert_last.
  - unfold set_of_list in IH. rewrite IH; rewrite <- app_assoc; [reflexivity|exact H].
  - intros x Hx. assert (E := sorted_app_cons lt acc k l H x Hx). split; [exact E|apply Ha, E].
Qed.
Lemma map_of_list_app {K V} (lt : K -> K -> bool) : asym lt ->
  forall (l acc : list (K * V)), sorted lt (map fst (acc ++ l)) = true -> map_of_list lt acc l = acc ++ l.
Proof.
  intros Ha l; induction l as [|[k v] l IH]; intros acc H; cbn; [rewrite app_nil_r; reflexivity|].
  rewrite map_set_last.
  - unfold map_of_list in IH. rewrite IH; rewrite <- app_assoc; [reflexivity|exact H].
  - intros x Hx. rewrite map_app in H. cbn in H.
    assert (E := sorted_app_cons lt _ k _ H x Hx). split; [exact E|apply Ha, E].
Qed.

Lemma Nltb_asym : asym N.ltb.
Proof. intros x y H. apply N.ltb_lt in H. apply N.ltb_ge. lia. Qed.
Lemma str_lt_asym : asym str_lt.
Proof.
  intros x; induction x as [|a x IH]; intros [|b y]; cbn; try congruence.
  destruct (a <? b)%N eqn:E1, (b <? a)%N eqn:E2; try congruence.
  - apply N.ltb_lt in E1, E2; lia.
  - apply IH.
Qed.

(** ** a concrete encoder satisfying the hypotheses (the format of lttoolbox's multibyte_write:
    two bits of length, then 6, 14, 22 or 30 bits, most significant byte first) *)
Definition mb_put (n : N) : bytes :=
  (if n <? 64 then [n]
   else if n <? 16384 then [64 + n / 256; n mod 256]
   else if n <? 4194304 then [128 + n / 65536; n / 256 mod 256; n mod 256]
   else [192 + n / 16777216; n / 65536 mod 256; n / 256 mod 256; n mod 256])%N.
Definition mb_get : reader N := fun r =>
  (match r with
   | [] => None
   | b :: r =>
     if b <? 64 then Some (b, r)
     else if b <? 128 then
       match r with c :: r => Some ((b - 64) * 256 + c, r) | _ => None end
     else if b <? 192 then
       match r with c :: d :: r => Some ((b - 128) * 65536 + c * 256 + d, r) | _ => None end
     else
       match r with c :: d :: f :: r => Some ((b - 192) * 16777216 + c * 65536 + d * 256 + f, r) | _ => None end
   end)%N.
Definition mb_fits (n : N) : Prop := (n < 1073741824)%N.

Ltac Zify.zify_post_hook ::= Z.div_mod_to_equations.
Lemma mb_RT : RT mb_put mb_get mb_fits.
Proof.
  intros n r H. unfold mb_fits in H. unfold mb_put.
  destruct (n <? 64)%N eqn:E1.
  - cbn. rewrite E1. reflexivity.
  - apply N.ltb_ge in E1. destruct (n <? 16384)%N eqn:E2.
    + apply N.ltb_lt in E2.
      assert (Hq : (n / 256 < 64)%N) by (apply N.div_lt_upper_bound; lia).
      cbn [app mb_get].
      replace (64 + n / 256 <? 64)%N with false by (symmetry; apply N.ltb_ge; lia).
      replace (64 + n / 256 <? 128)%N with true by (symmetry; apply N.ltb_lt; lia).
      f_equal. f_equal. assert (D := N.div_mod n 256 ltac:(lia)). lia.
    + apply N.ltb_ge in E2. destruct (n <? 4194304)%N eqn:E3.
      * apply N.ltb_lt in E3.
        assert (Hq : (n / 65536 < 64)%N) by (apply N.div_lt_upper_bound; lia).
        cbn [app mb_get].
        replace (128 + n / 65536 <? 64)%N with false by (symmetry; apply N.ltb_ge; lia).
        replace (128 + n / 65536 <? 128)%N with false by (symmetry; apply N.ltb_ge; lia).
        replace (128 + n / 65536 <? 192)%N with true by (symmetry; apply N.ltb_lt; lia).
        f_equal. f_equal. assert (D := N.div_mod n 256 ltac:(lia)).
        assert (D2 := N.div_mod (n / 256) 256 ltac:(lia)). rewrite N.div_div in D2 by lia.
        change (256 * 256)%N with 65536%N in D2. lia.
      * cbn [app mb_get].
        replace (192 + n / 16777216 <? 64)%N with false by (symmetry; apply N.ltb_ge; lia).
        replace (192 + n / 16777216 <? 128)%N with false by (symmetry; apply N.ltb_ge; lia).
        replace (192 + n / 16777216 <? 192)%N with false by (symmetry; apply N.ltb_ge; lia).
        f_equal. f_equal. assert (D := N.div_mod n 256 ltac:(lia)).
        assert (D2 := N.div_mod (n / 256) 256 ltac:(lia)). rewrite N.div_div in D2 by lia.
        change (256 * 256)%N with 65536%N in D2.
        assert (D3 := N.div_mod (n / 65536) 256 ltac:(lia)). rewrite N.div_div in D3 by lia.
        change (65536 * 256)%N with 16777216%N in D3. lia.
Qed.

(** strings: length and code units *)
Definition mb_putS (s : str) : bytes := put_vec mb_put mb_put s.
Definition mb_getS : reader str := get_vec mb_get mb_get.
Definition mb_fitsS (s : str) : Prop := mb_fits (N.of_nat (length s)) /\ Forall mb_fits s.
Lemma mb_RTS : RT mb_putS mb_getS mb_fitsS.
Proof. exact (RT_vec mb_put mb_get mb_fits mb_RT mb_put mb_get mb_fits mb_RT). Qed.
