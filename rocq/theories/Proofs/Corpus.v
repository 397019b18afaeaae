(** Proofs for C49. *)
From Coq Require Import Lia.
From Verif Require Import Model.Base Model.Serialiser Model.Stream Spec.Corpus Proofs.Base.

Lemma set_last_app : forall f ss s, set_last f (ss ++ [s]) = ss ++ [f s].
Proof. intros f ss s. unfold set_last. rewrite rev_app_distr. cbn. rewrite rev_involutive. reflexivity. Qed.

(** ** without skipping *)
Definition tp (g : list (lexunit * lexunit)) : sent_pair := train g.
Lemma tp_add : forall t w g, (fst (tp g) ++ [front t], snd (tp g) ++ [w]) = tp (g ++ [(t, w)]).
Proof. intros t w g. unfold tp, train. cbn. rewrite !map_app. reflexivity. Qed.
Definition glue (cur : list (lexunit * lexunit)) (gs : list (list (lexunit * lexunit))) :=
  match gs with [] => [cur] | g :: r => (cur ++ g) :: r end.
Lemma loop_false : forall fuel tg ut ss k,
  Forall2 (fun t w => same_sf (fst t) (fst w)) tg ut -> length tg < fuel ->
  corpus_loop false fuel tg ut true ss k = Ok (ss ++ map tp (groups (pairs tg ut)), k) /\
  forall cur, corpus_loop false fuel tg ut false (ss ++ [tp cur]) k = Ok (ss ++ map tp (glue cur (groups (pairs tg ut))), k).
Proof.
  induction fuel as [|fuel IH]; intros tg ut ss k H L; [lia|]. destruct H as [|[t te] [w we] tg ut E H]; cbn [corpus_loop].
  - cbn. rewrite app_nil_r. auto.
  - cbn [fst] in E. red in E. cbn [length] in L. rewrite E, str_eqb_refl. cbn [negb].
    assert (P : groups (pairs ((t, te) :: tg) ((w, we) :: ut)) = if te then [(t, w)] :: groups (pairs tg ut) else glue [(t, w)] (groups (pairs tg ut))).
    { cbn. destruct te; [reflexivity|]. unfold pairs. destruct (groups _); reflexivity. }
    split.
    + rewrite set_last_app. change (([], []) : sent_pair) with (tp []). rewrite tp_add. cbn [app].
      rewrite P. destruct te.
      * destruct (IH tg ut (ss ++ [tp [(t, w)]]) k H ltac:(lia)) as [IH' _]. rewrite IH', <- app_assoc. reflexivity.
      * destruct (IH tg ut ss k H ltac:(lia)) as [_ IH']. apply IH'.
    + intros cur. rewrite set_last_app, tp_add, P. destruct te.
      * destruct (IH tg ut (ss ++ [tp (cur ++ [(t, w)])]) k H ltac:(lia)) as [IH' _]. rewrite IH', <- app_assoc. reflexivity.
      * destruct (IH tg ut ss k H ltac:(lia)) as [_ IH']. rewrite IH'. clear P. do 3 f_equal.
        destruct (groups _); cbn [glue]; [reflexivity|]. rewrite <- app_assoc. reflexivity.
Qed.
Lemma loop_false_ok : forall fuel tg ut wse ss k r, corpus_loop false fuel tg ut wse ss k = Ok r -> Forall2 (fun t w => same_sf (fst t) (fst w)) tg ut.
Proof.
  induction fuel as [|fuel IH]; intros tg ut wse ss k r H; [discriminate|]. cbn [corpus_loop] in H.
  destruct tg as [|[t te] tg], ut as [|[w we] ut]; try discriminate; [constructor|].
  destruct (str_eqb (lx_sf w) (lx_sf t)) eqn:E; cbn [negb] in H; [|discriminate].
  constructor; [symmetry; apply str_eqb_eq; exact E|]. eapply IH; eauto.
Qed.
Lemma loop_false_throw : forall fuel tg ut wse ss k, length tg + length ut < fuel -> 
  corpus_loop false fuel tg ut wse ss k = Throw \/ exists r, corpus_loop false fuel tg ut wse ss k = Ok r.
Proof.
  induction fuel as [|fuel IH]; intros tg ut wse ss k L; [lia|]. cbn [corpus_loop].
  destruct tg as [|[t te] tg], ut as [|[w we] ut]; eauto.
  destruct (str_eqb _ _); cbn [negb]; [|auto]. apply IH. cbn [length] in L. lia.
Qed.

(** ** whatever happens, the sentences are aligned *)
Definition aligned (s : sent_pair) : Prop := exists g, Forall (fun p => same_sf (fst p) (snd p)) g /\ s = train g.
Lemma aligned_nil : aligned ([], []).
Proof. exists []. split; [constructor|reflexivity]. Qed.
Lemma aligned_add : forall s t w, aligned s -> same_sf t w -> aligned (fst s ++ [front t], snd s ++ [w]).
Proof.
  intros s t w (g & H & ->) E. exists (g ++ [(t, w)]). split; [apply Forall_app; split; [exact H|repeat constructor; exact E]|].
  apply (tp_add t w g).
Qed.
Lemma aligned_set_last : forall f ss, (forall s, aligned s -> aligned (f s)) -> Forall aligned ss -> Forall aligned (set_last f ss).
Proof.
  intros f ss Hf H. destruct (rev ss) as [|s r] eqn:E; unfold set_last; rewrite E; [constructor|].
  assert (K : Forall aligned (s :: r)) by (rewrite <- E; apply Forall_rev; exact H). inversion K; subst.
  apply Forall_rev. constructor; auto.
Qed.
Lemma loop_aligned : forall skip fuel tg ut wse ss k ss' k', corpus_loop skip fuel tg ut wse ss k = Ok (ss', k') -> Forall aligned ss -> Forall aligned ss'.
Proof.
  intros skip. induction fuel as [|fuel IH]; intros tg ut wse ss k ss' k' H A; [discriminate|]. cbn [corpus_loop] in H.
  destruct tg as [|[t te] tg], ut as [|[w we] ut]; try discriminate; [inversion H; subst; exact A|].
  destruct (str_eqb (lx_sf w) (lx_sf t)) eqn:E; cbn [negb] in H.
  - apply IH in H; [exact H|]. apply str_eqb_eq in E. apply aligned_set_last.
    + intros s K. apply aligned_add; [exact K|symmetry; exact E].
    + destruct wse; [|exact A]. apply Forall_app. split; [exact A|repeat constructor; apply aligned_nil].
  - destruct (negb skip); [discriminate|]. destruct ss as [|s0 ss]; [discriminate|].
    assert (A' : Forall aligned (set_last (fun _ => ([], [])) (s0 :: ss))) by (apply aligned_set_last; [intros; apply aligned_nil|exact A]).
    destruct (contToEnd ((t, te) :: tg)) as [e1 tg2], (contToEnd ((w, we) :: ut)) as [e2 ut2]. destruct (e1 || e2).
    + destruct (negb (e1 && e2)); [discriminate|]. inversion H; subst. exact A'.
    + apply IH in H; [exact H|exact A'].
Qed.

(** ** with skipping, sentence by sentence *)
Lemma sentence_cont : forall s r, sentence s -> forall a p, s = p ++ a -> a <> [] -> contToEnd (a ++ r) = (false, r).
Proof.
  intros s r H. induction H as [x|x s H IH]; intros a p E N.
  - destruct p as [|y p]; [cbn in E; subst; reflexivity|]. inversion E as [[E1 E2]]. destruct p, a; try discriminate. contradiction.
  - destruct p as [|y p]; [|inversion E; subst; eapply IH; eauto].
    cbn in E. subst. cbn. apply (IH s []); [reflexivity|]. inversion H; discriminate.
Qed.
(* reading units of equal surface forms inside a sentence *)
Lemma loop_inside : forall a b, Forall2 (fun t w => same_sf (fst t) (fst w)) a b -> forall fuel tg ut ss x k skip,
  Forall (fun t => snd t = false) a -> length a <= fuel ->
  corpus_loop skip fuel (a ++ tg) (b ++ ut) false (ss ++ [x]) k =
  corpus_loop skip (fuel - length a) tg ut false (ss ++ [(fst x ++ map (fun x => reading (fst x)) a, snd x ++ map fst b)]) k.
Proof.
  induction 1 as [|[t te] [w we] a b E H IH]; intros fuel tg ut ss x k skip F L; cbn [length] in *.
  - rewrite Nat.sub_0_r. cbn. rewrite !app_nil_r. destruct x. reflexivity.
  - destruct fuel as [|fuel]; [lia|]. inversion F; subst. cbn in *. subst. red in E. rewrite E, str_eqb_refl. cbn [negb].
    rewrite set_last_app, IH by (auto; lia). cbn. rewrite <- !app_assoc. reflexivity.
Qed.
Lemma sentence_front : forall s p a, sentence s -> s = p ++ a -> a <> [] -> Forall (fun t => snd t = false) p.
Proof.
  intros s p a H. revert p. induction H as [x|x s H IH]; intros p E N.
  - destruct p as [|y p]; [constructor|]. inversion E as [[E1 E2]]. destruct p, a; try discriminate. contradiction.
  - destruct p as [|y p]; [constructor|]. inversion E; subst. constructor; [reflexivity|]. apply IH; auto.
Qed.
Lemma sentence_split : forall s, sentence s -> exists p x, s = p ++ [(x, true)].
Proof. induction 1 as [x|x s H (p & y & ->)]; [exists [], x; reflexivity|exists ((x, false) :: p), y; reflexivity]. Qed.
Lemma F2_split : forall X Y (R : X -> Y -> Prop) p x l, Forall2 R (p ++ [x]) l -> exists q y, l = q ++ [y] /\ Forall2 R p q /\ R x y.
Proof.
  intros X Y R p. induction p as [|a p IH]; intros x l H; inversion H; subst.
  - inversion H4; subst. exists [], y. repeat split; auto.
  - destruct (IH _ _ H4) as (q & z & -> & A & B). exists (y :: q), z. repeat split; auto.
Qed.
Definition st (b : bool) (ss : list sent_pair) : list sent_pair := if b then ss ++ [([], [])] else ss.
Lemma loop_first : forall t te w we fuel tg ut ss k skip b, same_sf t w ->
  corpus_loop skip (S fuel) ((t, te) :: tg) ((w, we) :: ut) (negb b) (st b ss) k =
  corpus_loop skip fuel tg ut te (ss ++ [([reading t], [w])]) k.
Proof.
  intros t te w we fuel tg ut ss k skip b E. red in E. cbn [corpus_loop]. rewrite E, str_eqb_refl. cbn [negb].
  destruct b; cbn [negb st]; rewrite set_last_app; reflexivity.
Qed.
Lemma loop_good : forall s s' fuel tg ut ss k b, sentence s -> good (s, s') -> length s <= fuel ->
  corpus_loop true fuel (s ++ tg) (s' ++ ut) (negb b) (st b ss) k = corpus_loop true (fuel - length s) tg ut true (ss ++ [train_of (s, s')]) k.
Proof.
  intros s s' fuel tg ut ss k b Hs G L. unfold good in G. cbn [fst snd] in G. destruct Hs as [x|x s Hs].
  - inversion G as [|? [w we] ? ? E G']; subst. inversion G'; subst. cbn [fst] in E. destruct fuel as [|fuel]; [cbn in L; lia|].
    cbn [app length]. rewrite loop_first by exact E. rewrite Nat.sub_succ, Nat.sub_0_r. reflexivity.
  - inversion G as [|? [w we] ? s'' E G']; subst. cbn [fst] in E. destruct fuel as [|fuel]; [cbn in L; lia|].
    cbn [app length] in *. rewrite loop_first by exact E. destruct (sentence_split s Hs) as (p & y & ->).
    destruct (F2_split _ _ _ _ _ _ G') as (q & [z ze] & -> & G1 & E2). cbn [fst] in E2.
    rewrite app_length in *. cbn [length] in *. rewrite <- !app_assoc, loop_inside.
    + cbn [app fst snd]. replace (fuel - length p) with (S (fuel - length p - 1)) by lia. cbn [corpus_loop]. red in E2. rewrite E2, str_eqb_refl. cbn [negb].
      rewrite set_last_app. cbn [fst snd]. replace (S fuel - S (length p + 1)) with (fuel - length p - 1) by lia.
      unfold train_of. cbn [fst snd map]. rewrite !map_app. cbn. reflexivity.
    + exact G1.
    + exact (sentence_front _ p [(y, true)] Hs eq_refl ltac:(discriminate)).
    + lia.
Qed.
Lemma loop_bad : forall s s' fuel tg ut ss k b, sentence s -> sentence s' -> bad (s, s') -> length s <= fuel ->
  exists fuel', fuel - length s <= fuel' /\
  corpus_loop true fuel (s ++ tg) (s' ++ ut) (negb b) (st b ss) k = corpus_loop true fuel' tg ut false (ss ++ [([], [])]) (S k).
Proof.
  intros s s' fuel tg ut ss k b Hs Hs' (a & c & t & w & tr & ur & E1 & E2 & N & G & D) L. cbn [fst snd] in *.
  pose proof (sentence_front _ _ _ Hs E1 ltac:(discriminate)) as F.
  inversion G as [|[t1 te1] [w1 we1] a' c' E G']; subst a c; [contradiction|]. inversion F as [|? ? F0 F1]; subst. cbn [fst snd] in *. subst te1.
  destruct fuel as [|fuel]; [cbn in L; lia|]. cbn [length app] in L. rewrite app_length in L. cbn [length] in L. unfold marked in *. exists (fuel - length a' - 1). split; [cbn [length app]; rewrite app_length; cbn [length]; lia|].
  rewrite <- !app_assoc. cbn [app]. rewrite loop_first by exact E. rewrite loop_inside by (auto; lia). cbn [fst snd].
  replace (fuel - length a') with (S (fuel - length a' - 1)) by lia. cbn [corpus_loop]. destruct t as [t te], w as [w we]. cbn [fst] in D.
  destruct (str_eqb (lx_sf w) (lx_sf t)) eqn:Q; [apply str_eqb_eq in Q; exfalso; apply D; symmetry; exact Q|]. cbn [negb].
  rewrite set_last_app.
  match goal with |- match ss ++ [?e] with _ => _ end = _ => destruct (ss ++ [e]) as [|z zs] eqn:Z; [destruct ss; discriminate|]; clear Z end.
  pose proof (sentence_cont _ tg Hs ((t, te) :: tr) ((t1, false) :: a') eq_refl ltac:(discriminate)) as C1. cbn [app] in C1. unfold marked in C1. rewrite C1.
  pose proof (sentence_cont _ ut Hs' ((w, we) :: ur) ((w1, we1) :: c') eq_refl ltac:(discriminate)) as C2. cbn [app] in C2. unfold marked in C2. rewrite C2.
  cbn [orb]. cbn [Nat.sub]. rewrite Nat.sub_0_r. reflexivity.
Qed.
Lemma classified_loop : forall l g n b, classified l g n b -> Forall (fun p => sentence (fst p) /\ sentence (snd p)) l -> forall fuel tg ut,
  length (concat (map fst l)) <= fuel ->
  exists fuel', fuel - length (concat (map fst l)) <= fuel' /\
  corpus_loop true fuel (concat (map fst l) ++ tg) (concat (map snd l) ++ ut) true [] 0 =
  corpus_loop true fuel' tg ut (negb b) (st b (map train_of g)) n.
Proof.
  induction 1 as [|l g n b p H IH G|l g n b p H IH B]; intros F fuel tg ut L.
  - exists fuel. split; [lia|reflexivity].
  - apply Forall_app in F as [F1 F2]. inversion F2 as [|? ? [S1 S2] _]; subst. rewrite !map_app, !concat_app in *. cbn [map concat] in *. rewrite !app_nil_r in *. rewrite app_length in *.
    destruct (IH F1 fuel (fst p ++ tg) (snd p ++ ut)) as (f' & L' & E); [lia|]. rewrite <- !app_assoc, E. destruct p as [s s']. cbn [fst snd] in *.
    exists (f' - length s). split; [lia|]. rewrite loop_good by (solve [auto | lia]). reflexivity.
  - apply Forall_app in F as [F1 F2]. inversion F2 as [|? ? [S1 S2] _]; subst. rewrite !map_app, !concat_app in *. cbn [map concat] in *. rewrite !app_nil_r in *. rewrite app_length in *.
    destruct (IH F1 fuel (fst p ++ tg) (snd p ++ ut)) as (f' & L' & E); [lia|]. rewrite <- !app_assoc, E. destruct p as [s s']. cbn [fst snd] in *.
    destruct (loop_bad s s' f' tg ut (map train_of g) n b S1 S2 B ltac:(lia)) as (f2 & L2 & E2). exists f2. split; [lia|]. rewrite E2. reflexivity.
Qed.
