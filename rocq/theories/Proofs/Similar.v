From Verif Require Import Model.Base Model.Similar Proofs.Base Proofs.Collection.
From Verif Require Model.Collection.
Import Verif.Model.Collection.

Lemma includes_spec a b : includes a b = true <-> incl b a.
Proof.
  unfold includes. rewrite forallb_forall. split; intros H x Hx.
  - specialize (H x Hx). apply existsb_exists in H as (y & Hy & E). apply N.eqb_eq in E. subst. exact Hy.
  - apply existsb_exists. exists x. split; [apply H, Hx|apply N.eqb_refl].
Qed.
Definition pick (c : iset) := fun (ret k : iset) => if length ret <=? length k then ret else if includes k c then k else ret.
Lemma pick_spec c : forall l ret, let r := fold_left (pick c) l ret in
  length r <= length ret /\
  (forall k, In k l -> incl c k -> length r <= length k) /\
  (r = ret \/ exists l1 l2, l = l1 ++ r :: l2 /\ incl c r /\ length r < length ret /\ forall k, In k l1 -> incl c k -> length r < length k).
Proof.
  induction l as [|x l IH]; intros ret r; cbn in r.
  - subst r. split; [lia|]. split; [intros k []|]. left. reflexivity.
  - assert (C : pick c ret x = ret /\ (incl c x -> length ret <= length x) \/ pick c ret x = x /\ incl c x /\ length x < length ret).
    { unfold pick. destruct (Nat.leb_spec (length ret) (length x)) as [L|L]; [left; split; [reflexivity|auto]|].
      destruct (includes x c) eqn:E.
      - right. apply includes_spec in E. auto.
      - left. split; [reflexivity|]. intros K. apply includes_spec in K. congruence. }
    destruct (IH (pick c ret x)) as (H1 & H2 & H3). fold r in H1, H2, H3. destruct C as [[E Hx]|[E [Hx Hlt]]]; rewrite E in *.
    + split; [exact H1|]. split.
      * intros k [<-|Hk] Hc; [specialize (Hx Hc); lia|]. apply H2; assumption.
      * destruct H3 as [H3|(l1 & l2 & E3 & Hc & Hl & Hf)]; [left; exact H3|]. right. exists (x :: l1), l2. split; [cbn; f_equal; exact E3|].
        split; [exact Hc|]. split; [exact Hl|]. intros k [<-|Hk] Hck; [specialize (Hx Hck); lia|]. apply Hf; assumption.
    + split; [lia|]. split.
      * intros k [<-|Hk] Hc; [exact H1|]. apply H2; assumption.
      * right. destruct H3 as [H3|(l1 & l2 & E3 & Hc & Hl & Hf)].
        -- exists [], l. rewrite <- H3. cbn. split; [rewrite H3; reflexivity|]. rewrite H3. split; [exact Hx|]. split; [exact Hlt|]. intros k [].
        -- exists (x :: l1), l2. split; [cbn; f_equal; exact E3|]. split; [exact Hc|]. split; [lia|].
           intros k [<-|Hk] Hck; [exact Hl|]. apply Hf; assumption.
Qed.

Lemma has_not_spec c t : Inv c -> has_not t c = true <-> ~ In t (element c).
Proof.
  intros H. unfold has_not. rewrite (find_pos c t H). pose proof (pos_None t (element c)) as P.
  destruct (Spec.Collection.pos t (element c)) eqn:E.
  - split; [discriminate|]. intros K. apply P in K. discriminate.
  - split; [intros _; apply P; reflexivity|reflexivity].
Qed.
Lemma add_known c t : Inv c -> In t (element c) -> exists i, add t c = (c, i) /\ nth_error (element c) i = Some t.
Proof.
  intros H K. destruct (Spec.Collection.pos t (element c)) as [i|] eqn:E.
  - exists i. split; [apply add_idem; assumption|]. apply pos_nth. exact E.
  - apply pos_None in E. contradiction.
Qed.
Lemma find_similar_eq m c : find_similar m c = let r := fold_left (pick c) (element (m_out m)) (m_open m) in (mkm r (m_out m) (m_ntags m), r).
Proof. reflexivity. Qed.
Definition okm (m : tmodel) : Prop := Inv (m_out m) /\ In (m_open m) (element (m_out m)).
Lemma find_similar_ok m c : okm m -> let '(m1, r) := find_similar m c in okm m1 /\ m_out m1 = m_out m /\ m_open m1 = r /\ In r (element (m_out m)).
Proof.
  intros [H1 H2]. rewrite find_similar_eq. cbv zeta. pose proof (pick_spec c (element (m_out m)) (m_open m)) as (_ & _ & H3).
  assert (K : In (fold_left (pick c) (element (m_out m)) (m_open m)) (element (m_out m))).
  { destruct H3 as [->|(l1 & l2 & E & _)]; [exact H2|]. rewrite E at 2. apply in_or_app. right. left. reflexivity. }
  split; [split; [exact H1|exact K]|]. split; [reflexivity|]. split; [reflexivity|exact K].
Qed.
Lemma lookup_ok m c : okm m -> let '(m1, (tg, cls, k)) := lookup m c in
  okm m1 /\ m_out m1 = m_out m /\ nth_error (element (m_out m)) k = Some cls /\ length (m_open m1) <= length (m_open m) /\
  tg = (match c with [] => m_open m | _ => c end) /\
  (In tg (element (m_out m)) -> cls = tg /\ m1 = m) /\
  (~ In tg (element (m_out m)) -> m_open m1 = cls /\ cls = fold_left (pick tg) (element (m_out m)) (m_open m)).
Proof.
  intros Hm. unfold lookup. set (tg := match c with [] => m_open m | _ => c end). unfold require_similar.
  pose proof (has_not_spec (m_out m) tg (proj1 Hm)) as HN. destruct (has_not tg (m_out m)) eqn:E.
  - pose proof (find_similar_ok m tg Hm) as F. pose proof (pick_spec tg (element (m_out m)) (m_open m)) as (P1 & _ & _).
    rewrite find_similar_eq in *. cbv zeta in *. set (r := fold_left (pick tg) (element (m_out m)) (m_open m)) in *.
    destruct F as (F1 & F2 & F3 & F4). cbn [m_out m_open m_ntags] in *.
    destruct (add_known (m_out m) r (proj1 Hm) F4) as (i & Ei & Ni). rewrite Ei. cbn [m_out m_open].
    split; [exact F1|]. split; [reflexivity|]. split; [exact Ni|]. split; [exact P1|]. split; [reflexivity|]. split.
    + intros K. exfalso. apply (proj1 HN eq_refl K).
    + intros _. split; reflexivity.
  - assert (K : In tg (element (m_out m))).
    { destruct (in_dec (list_eq_dec N.eq_dec) tg (element (m_out m))) as [K|K]; [exact K|]. apply HN in K. discriminate. }
    destruct (add_known (m_out m) tg (proj1 Hm) K) as (i & Ei & Ni). rewrite Ei.
    assert (Em : mkm (m_open m) (m_out m) (m_ntags m) = m) by (destruct m; reflexivity). rewrite Em.
    split; [exact Hm|]. split; [reflexivity|]. split; [exact Ni|]. split; [lia|]. split; [reflexivity|]. split.
    + intros _. split; reflexivity.
    + intros N. contradiction.
Qed.
