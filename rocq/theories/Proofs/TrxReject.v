From Verif Require Import Model.Base Proofs.Base Model.TransferUnit Model.TrxPatterns Spec.TransferUnit Spec.TrxPatterns Spec.TrxReject Proofs.TrxPatterns Proofs.TrxRules Proofs.TrxMatch.
From Verif Require Proofs.TrxExact.
Module X := Proofs.TrxExact.

(** ** masked words *)
Notation zitem := (ritem * bool)%type (only parsing).
Definition syx (lower : char -> char) (z : zitem) : lab :=
  match fst z with RChar c | REsc c => if snd z then LAnyChar else LChar (lower c) | RTag t => if snd z then LAnyTag else LTag (cLT :: t ++ [cGT]) end.
Definition cx (p : char * bool) : lab := if snd p then LAnyChar else LChar (fst p).
Definition tx (p : str * bool) : lab := if snd p then LAnyTag else LTag (cLT :: fst p ++ [cGT]).
Definition zchars (lower : char -> char) (z : list zitem) : list (char * bool) := flat_map (fun p => match fst p with RChar c | REsc c => [(lower c, snd p)] | RTag _ => [] end) z.
Definition ztags (z : list zitem) : list (str * bool) := flat_map (fun p => match fst p with RTag t => [(t, snd p)] | _ => [] end) z.
Lemma zchars_fst lower z : map fst (zchars lower z) = map lower (word_chars (map fst z)).
Proof. induction z as [|[[c|c|t] b] z IH]; cbn; [reflexivity|f_equal; exact IH..|exact IH]. Qed.
Lemma ztags_fst z : map fst (ztags z) = word_tags (map fst z).
Proof. induction z as [|[[c|c|t] b] z IH]; cbn; [reflexivity|exact IH..|f_equal; exact IH]. Qed.
Lemma zchars_only lower z : word_tags (map fst z) = [] -> map (syx lower) z = map cx (zchars lower z) /\ map snd z = map snd (zchars lower z).
Proof. induction z as [|[[c|c|t] b] z IH]; cbn; intros H; [split; reflexivity| | |discriminate]; destruct (IH H) as [E1 E2]; rewrite E1, E2; split; reflexivity. Qed.
Lemma ztags_only lower z : word_chars (map fst z) = [] -> map (syx lower) z = map tx (ztags z) /\ map snd z = map snd (ztags z).
Proof. induction z as [|[[c|c|t] b] z IH]; cbn; intros H; [split; reflexivity|discriminate..|]; destruct (IH H) as [E1 E2]; rewrite E1, E2; split; reflexivity. Qed.
Lemma all_true (A : Type) (l : list (A * bool)) : Forall (fun p => snd p = true) l -> map snd l = repeat true (length (map fst l)).
Proof. induction 1 as [|p l H _ IH]; cbn; [reflexivity|]. rewrite H, IH. reflexivity. Qed.
Lemma true_all (A : Type) (l : list (A * bool)) n : map snd l = repeat true n -> Forall (fun p => snd p = true) l.
Proof. revert n. induction l as [|p l IH]; intros n H; [constructor|]. destruct n; [discriminate|]. injection H as H1 H2. constructor; [exact H1|apply (IH _ H2)]. Qed.
Lemma split_pair (A : Type) (l : list (A * bool)) a b m1 m2 : map fst l = a ++ b -> map snd l = m1 ++ m2 -> length a = length m1 ->
  exists l1 l2, l = l1 ++ l2 /\ map fst l1 = a /\ map snd l1 = m1 /\ map fst l2 = b /\ map snd l2 = m2.
Proof.
  revert a m1. induction l as [|[x y] l IH]; intros a m1 H1 H2 L.
  - exists [], []. destruct a, m1; try discriminate. cbn in *. repeat split; auto.
  - destruct a as [|a0 a], m1 as [|m0 m1]; try discriminate.
    + exists [], ((x, y) :: l). cbn in *. repeat split; auto.
    + injection H1 as <- H1. injection H2 as <- H2. injection L as L. destruct (IH a m1 H1 H2 L) as (l1 & l2 & -> & <- & <- & <- & <-). exists ((x, y) :: l1), l2. repeat split; reflexivity.
Qed.
Lemma semx_tags ts : forall l, X.sem (map tag_key ts) (map tx l) <-> tags_use ts (map fst l) (map snd l).
Proof.
  induction ts as [|t ts IH]; intros l; cbn [map].
  - cbn. split; [destruct l; [constructor|discriminate]|intros H; inversion H; destruct l; [reflexivity|discriminate]].
  - unfold tag_key at 1. destruct (str_eqb t [cSTAR]) eqn:E.
    + apply str_eqb_eq in E as ->. cbn [X.sem]. split.
      * intros (v & x & H & N & F & S). apply map_app_inv in H as (a & b & -> & <- & <-). rewrite !map_app.
        assert (FA : Forall (fun p : str * bool => snd p = true) a). { apply Forall_forall. intros p Hp. assert (Q := proj1 (Forall_forall _ _) F _ (in_map tx _ _ Hp)). destruct Q as [Q _]. unfold tx in Q. destruct (snd p); [reflexivity|discriminate]. }
        rewrite (all_true _ _ FA). constructor; [destruct a; [destruct (N eq_refl)|discriminate]|apply IH, S].
      * intros H. inversion H as [|? ? ? ? N|v p w m N H' E1 E2 E3]; [destruct N; reflexivity|]. subst p.
        destruct (split_pair _ l v w (repeat true (length v)) m (eq_sym E2) (eq_sym E3)) as (l1 & l2 & -> & F1 & F2 & F3 & F4); [rewrite repeat_length; reflexivity|].
        exists (map tx l1), (map tx l2). rewrite map_app. split; [reflexivity|]. split; [intros E0; apply map_eq_nil in E0 as ->; apply N; rewrite <- F1; reflexivity|].
        split; [|apply IH; rewrite F3, F4; exact H']. apply true_all in F2. apply Forall_forall. intros x Hx. apply in_map_iff in Hx as (p & <- & Hp). rewrite Forall_forall in F2. unfold tx. rewrite (F2 p Hp).
        split; [reflexivity|]. split; [discriminate|intros; discriminate].
    + assert (N : t <> [cSTAR]) by (intros ->; rewrite str_eqb_refl in E; discriminate). cbn [X.sem]. split.
      * intros (m & x & H & (T & _) & S). destruct l as [|[g b] l]; [discriminate|]. injection H as <- <-. unfold tx in T. cbn in T. destruct b; [discriminate|]. injection T as T. apply app_inj_tail in T as [<- _]. cbn. constructor; [exact N|apply IH, S].
      * intros H. inversion H as [|? ? w m _ H' E1 E2 E3|]; [|subst; destruct N; reflexivity]. destruct l as [|[g b] l]; [discriminate|]. cbn in E2, E3. injection E2 as <- ->. injection E3 as <- ->.
        exists (tx (t, false)), (map tx l). split; [reflexivity|]. split; [split; [reflexivity|split; [discriminate|intros; discriminate]]|apply IH, H'].
Qed.
Lemma semx_tags_only ts : forall x, X.sem (map tag_key ts) x -> Forall (fun m => m = LAnyTag \/ exists t, m = LTag t) x.
Proof.
  induction ts as [|t ts IH]; intros x; cbn [map]; [intros ->; constructor|]. unfold tag_key at 1. destruct (str_eqb t [cSTAR]); cbn [X.sem].
  - intros (v & x' & -> & _ & F & S). apply Forall_app. split; [|apply IH, S]. eapply Forall_impl; [|exact F]. intros m [<- _]. auto.
  - intros (m & x' & -> & [<- _] & S). constructor; [|apply IH, S]. eauto.
Qed.
Lemma semx_chars s : forall l, X.sem (map lk s) (map cx l) <-> lemma_uses s (map fst l) (map snd l).
Proof.
  induction s as [|c s IH]; intros l; cbn [map].
  - cbn. split; [destruct l; [constructor|discriminate]|intros H; inversion H; destruct l; [reflexivity|discriminate]].
  - unfold lk at 1. destruct (ceq_spec c cSTAR) as [->|N]; cbn [X.sem].
    + split.
      * intros (v & x & H & N & F & S). apply map_app_inv in H as (a & b & -> & <- & <-). rewrite !map_app.
        assert (FA : Forall (fun p : char * bool => snd p = true) a). { apply Forall_forall. intros p Hp. assert (Q := proj1 (Forall_forall _ _) F _ (in_map cx _ _ Hp)). destruct Q as [Q _]. unfold cx in Q. destruct (snd p); [reflexivity|discriminate]. }
        rewrite (all_true _ _ FA). constructor; [destruct a; [destruct (N eq_refl)|discriminate]|apply IH, S].
      * intros H. inversion H as [|? ? ? ? N|v p w m N H' E1 E2 E3]; [destruct N; reflexivity|]. subst p.
        destruct (split_pair _ l v w (repeat true (length v)) m (eq_sym E2) (eq_sym E3)) as (l1 & l2 & -> & F1 & F2 & F3 & F4); [rewrite repeat_length; reflexivity|].
        exists (map cx l1), (map cx l2). rewrite map_app. split; [reflexivity|]. split; [intros E0; apply map_eq_nil in E0 as ->; apply N; rewrite <- F1; reflexivity|].
        split; [|apply IH; rewrite F3, F4; exact H']. apply true_all in F2. apply Forall_forall. intros x Hx. apply in_map_iff in Hx as (p & <- & Hp). rewrite Forall_forall in F2. unfold cx. rewrite (F2 p Hp).
        split; [reflexivity|]. split; [discriminate|intros; discriminate].
    + split.
      * intros (m & x & H & (T & _) & S). destruct l as [|[g b] l]; [discriminate|]. injection H as <- <-. unfold cx in T. cbn in T. destruct b; [discriminate|]. injection T as <-. cbn. constructor; [exact N|apply IH, S].
      * intros H. inversion H as [|? ? w m _ H' E1 E2 E3|]; [|subst; destruct N; reflexivity]. destruct l as [|[g b] l]; [discriminate|]. cbn in E2, E3. injection E2 as <- ->. injection E3 as <- ->.
        exists (cx (c, false)), (map cx l). split; [reflexivity|]. split; [split; [reflexivity|split; [discriminate|intros; discriminate]]|apply IH, H'].
Qed.
Lemma semx_chars_only s : forall x, X.sem (map lk s) x -> Forall (fun m => m = LAnyChar \/ exists c, m = LChar c) x.
Proof.
  induction s as [|c s IH]; intros x; cbn [map]; [intros ->; constructor|]. unfold lk at 1. destruct (c =?c cSTAR); cbn [X.sem].
  - intros (v & x' & -> & _ & F & S). apply Forall_app. split; [|apply IH, S]. eapply Forall_impl; [|exact F]. intros m [<- _]. auto.
  - intros (m & x' & -> & [<- _] & S). constructor; [eauto|apply IH, S].
Qed.
Lemma chars_no_tags lower a : Forall (fun m => m = LAnyChar \/ exists c, m = LChar c) (map (syx lower) a) -> word_tags (map fst a) = [].
Proof.
  induction a as [|[i b] a IH]; [reflexivity|]. cbn [map]. intros H. inversion_clear H as [|? ? Hc H']. destruct i as [d|d|t]; [apply IH, H'|apply IH, H'|]. exfalso.
  unfold syx in Hc. cbn in Hc. destruct b, Hc as [E|[c E]]; discriminate.
Qed.
Lemma tags_no_chars lower a : Forall (fun m => m = LAnyTag \/ exists c, m = LTag c) (map (syx lower) a) -> word_chars (map fst a) = [].
Proof.
  induction a as [|[i b] a IH]; [reflexivity|]. cbn [map]. intros H. inversion_clear H as [|? ? Hc H']. destruct i as [d|d|t]; [exfalso|exfalso|apply IH, H']; unfold syx in Hc; cbn in Hc; destruct b, Hc as [E|[c E]]; discriminate.
Qed.
Lemma semx_used lower s a : ~ In cBS s -> (X.sem (lemma_or_any s) (map (syx lower) a) <-> word_tags (map fst a) = [] /\
  match s with [] => map lower (word_chars (map fst a)) <> [] /\ map snd a = repeat true (length (map lower (word_chars (map fst a)))) | _ => lemma_uses s (map lower (word_chars (map fst a))) (map snd a) end).
Proof.
  intros NB. destruct s as [|c s].
  - cbn [lemma_or_any]. rewrite X.sem_plus. split.
    + intros [N F]. assert (T : word_tags (map fst a) = []) by (apply (chars_no_tags lower); eapply Forall_impl; [|exact F]; intros m [<- _]; auto). split; [exact T|].
      destruct (zchars_only lower a T) as [E1 E2]. rewrite <- zchars_fst, E2. rewrite E1 in N, F. split; [destruct (zchars lower a); [destruct (N eq_refl)|discriminate]|]. apply all_true.
      apply Forall_forall. intros p Hp. assert (Q := proj1 (Forall_forall _ _) F _ (in_map cx _ _ Hp)). destruct Q as [Q _]. unfold cx in Q. destruct (snd p); [reflexivity|discriminate].
    + intros (T & N & R). destruct (zchars_only lower a T) as [E1 E2]. rewrite <- zchars_fst in N, R. rewrite E1. rewrite E2 in R. split; [intros E0; apply map_eq_nil in E0; rewrite E0 in N; exact (N eq_refl)|].
      apply true_all in R. apply Forall_forall. intros x Hx. apply in_map_iff in Hx as (p & <- & Hp). rewrite Forall_forall in R. unfold cx. rewrite (R p Hp). split; [reflexivity|]. split; [discriminate|intros; discriminate].
  - change (lemma_or_any (c :: s)) with (lemma_key (c :: s)). rewrite lemma_key_plain by exact NB. change (fun c0 => if c0 =?c cSTAR then KPlus LAnyChar else KLit (LChar c0)) with lk. split.
    + intros H. assert (T : word_tags (map fst a) = []) by (apply (chars_no_tags lower), (semx_chars_only _ _ H)). split; [exact T|]. destruct (zchars_only lower a T) as [E1 E2]. rewrite <- zchars_fst, E2. apply semx_chars. rewrite <- E1. exact H.
    + intros [T H]. destruct (zchars_only lower a T) as [E1 E2]. rewrite <- zchars_fst, E2 in H. rewrite E1. apply semx_chars, H.
Qed.
Lemma semx_mtags lower ts b : X.sem (map tag_key ts) (map (syx lower) b) <-> word_chars (map fst b) = [] /\ tags_use ts (word_tags (map fst b)) (map snd b).
Proof.
  split.
  - intros H. assert (T : word_chars (map fst b) = []) by (apply (tags_no_chars lower), (semx_tags_only _ _ H)). split; [exact T|]. destruct (ztags_only lower b T) as [E1 E2]. rewrite <- ztags_fst, E2. apply semx_tags. rewrite <- E1. exact H.
  - intros [T H]. destruct (ztags_only lower b T) as [E1 E2]. rewrite <- ztags_fst, E2 in H. rewrite E1. apply semx_tags, H.
Qed.
Lemma lemma_uses_len s w m : lemma_uses s w m -> length m = length w.
Proof. induction 1; cbn; [reflexivity|congruence|]. rewrite !app_length, repeat_length. congruence. Qed.
Lemma tags_use_len s w m : tags_use s w m -> length m = length w.
Proof. induction 1; cbn; [reflexivity|congruence|]. rewrite !app_length, repeat_length. congruence. Qed.
Lemma semx_item lower i r : item_wf i -> (X.sem (item_key i) (map (syx lower) r) <-> plain (map fst r) /\ item_uses i (map lower (word_chars (map fst r))) (word_tags (map fst r)) (map snd r)).
Proof.
  intros W. assert (NB := used_lemma_wf i W). unfold item_key. rewrite X.sem_app. unfold item_uses. fold (used_lemma i). split.
  - intros (x & y & E & S1 & S2). apply map_app_inv in E as (a & b & -> & <- & <-). apply semx_used in S1 as [T1 S1]; [|exact NB]. apply semx_mtags in S2 as [T2 S2].
    rewrite !map_app, word_chars_app, word_tags_app, T1, T2, app_nil_r. split; [exists (map fst a), (map fst b); auto|]. exists (map snd a), (map snd b). cbn [app]. auto.
  - intros [(a & b & E & T1 & T2) (m1 & m2 & EM & S1 & S2)]. rewrite E, word_chars_app, word_tags_app, T1, T2, app_nil_r in *. cbn [app] in *.
    assert (LA : length a = length m1).
    { assert (LC : length (word_chars a) = length a) by (clear - T1; induction a as [|[c|c|t] a IH]; cbn in *; [reflexivity|f_equal; apply IH, T1..|discriminate]).
      destruct (used_lemma i); [destruct S1 as [_ ->]; rewrite repeat_length, map_length; symmetry; exact LC|]. apply lemma_uses_len in S1. rewrite map_length in S1. congruence. }
    destruct (split_pair _ r a b m1 m2 E EM LA) as (l1 & l2 & -> & <- & <- & <- & <-). exists (map (syx lower) l1), (map (syx lower) l2). rewrite map_app. split; [reflexivity|].
    split; [apply semx_used; [exact NB|]; auto|apply semx_mtags; auto].
Qed.

(** ** sequences of words *)
Section Seq.
Variable lower : char -> char.
Variable defs : list (str * list cat_item).
Hypothesis wf : forall c items, lookup_cat defs c = Some items -> Forall item_wf items.
Definition zuses (c : str) (z : list zitem) : Prop := word_uses lower defs c (map fst z) (map snd z).
Lemma inx_cat_word c r : X.in_cat defs c (map (syx lower) r) <-> zuses c r.
Proof.
  unfold X.in_cat, zuses, word_uses, X.cat_lang. split.
  - intros (items & L & i & Hi & S). apply semx_item in S as [P M]; [|exact (proj1 (Forall_forall _ _) (wf c items L) i Hi)]. split; [exact P|]. exists items, i. auto.
  - intros [P (items & i & L & Hi & M)]. exists items. split; [exact L|]. exists i. split; [exact Hi|]. apply semx_item; [exact (proj1 (Forall_forall _ _) (wf c items L) i Hi)|auto].
Qed.
Lemma semx_no_dollar k : Forall (fun s => s <> KLit (LChar cDOL) /\ forall l, s = KPlus l -> isany l = true) k -> forall x, X.sem k x -> ~ In (LChar cDOL) x.
Proof.
  induction 1 as [|s k [K1 K2] _ IH]; intros x; [intros ->; intros []|]. destruct s as [l|l]; cbn [X.sem].
  - intros (m & x' & -> & [<- _] & S) [->|H]; [|exact (IH _ S H)]. apply K1. reflexivity.
  - intros (v & x' & -> & _ & F & S) H. apply in_app_or in H as [H|H]; [|exact (IH _ S H)]. apply (proj1 (Forall_forall _ _) F) in H as [-> _]. specialize (K2 _ eq_refl). discriminate.
Qed.
Lemma inx_cat_no_dollar c w : X.in_cat defs c w -> ~ In (LChar cDOL) w.
Proof.
  intros (items & L & i & Hi & S). assert (W := proj1 (Forall_forall _ _) (wf c items L) i Hi). revert w S. apply semx_no_dollar. destruct (item_wf_key i W) as [K _]. apply Forall_forall. intros s Hs. split; [exact (proj1 (Forall_forall _ _) K s Hs)|].
  intros l ->. unfold item_key in Hs. apply in_app_or in Hs as [Hs|Hs].
  - assert (NB := used_lemma_wf i W). destruct (used_lemma i) as [|d r]; [destruct Hs as [[= <-]|[]]; reflexivity|]. change (lemma_or_any (d :: r)) with (lemma_key (d :: r)) in Hs. rewrite lemma_key_plain in Hs by exact NB.
    apply in_map_iff in Hs as (e & Hd & _). destruct (e =?c cSTAR); [injection Hd as <-; reflexivity|discriminate].
  - apply in_map_iff in Hs as (g & Hg & _). unfold tag_key in Hg. destruct (str_eqb g [cSTAR]); [injection Hg as <-; reflexivity|discriminate].
Qed.
Definition symx (z : list zitem) : list lab := LChar cCARET :: map (syx lower) z ++ [LChar cDOL].
Fixpoint fedx (zs : list (list zitem)) : list lab := match zs with [] => [] | [z] => symx z | z :: r => symx z ++ LChar cSP :: fedx r end.
Lemma fedx_snoc ws w : fedx (ws ++ [w]) = (match ws with [] => [] | _ => fedx ws ++ [LChar cSP] end) ++ LChar cCARET :: map (syx lower) w ++ [LChar cDOL].
Proof.
  induction ws as [|a ws IH]; [reflexivity|]. destruct ws as [|b ws]; [cbn [app fedx]; unfold symx; repeat (rewrite <- app_assoc; cbn [app]); reflexivity|]. change (fedx ((a :: b :: ws) ++ [w])) with (symx a ++ LChar cSP :: fedx ((b :: ws) ++ [w])).
  rewrite IH. change (fedx (a :: b :: ws)) with (symx a ++ LChar cSP :: fedx (b :: ws)). repeat (rewrite <- app_assoc; cbn [app]). reflexivity.
Qed.
Lemma seqx_last cs x : X.seqm defs cs x -> cs = [] /\ x = [] \/ exists x', x = x' ++ [LChar cDOL].
Proof. intros [|cs' c x' v m1 w m2 S V T1 C [<- _]]; [auto|]. right. exists (x' ++ v ++ m1 :: w). appeq. Qed.
Definition zno_dollar (z : list zitem) : Prop := no_dollar lower (map fst z).
Lemma zno_dollar_in r : zno_dollar r -> ~ In (LChar cDOL) (map (syx lower) r).
Proof.
  intros N H. apply N. apply in_map_iff in H as ([i b] & E & Hi). unfold word_chars. apply in_map_iff. unfold syx in E. cbn in E.
  destruct i as [c|c|t]; (destruct b; [discriminate|]); [exists c|exists c|discriminate]; injection E as E; (split; [auto|]); apply in_flat_map; eexists; (split; [apply in_map_iff; eexists; split; [|exact Hi]; reflexivity|left; reflexivity]).
Qed.
Lemma fedx_nonempty ws w : fedx (ws ++ [w]) <> [].
Proof. rewrite fedx_snoc. intros H. apply app_eq_nil in H as [_ H]. discriminate. Qed.
Lemma lastx_word (A : list lab) v w B r :
  zno_dollar r -> ~ In (LChar cDOL) w ->
  (A = [] /\ v = [] \/ (exists A', A = A' ++ [LChar cDOL]) /\ (v = [] \/ v = [LChar cSP])) ->
  (B = [] \/ exists B', B = B' ++ [LChar cDOL; LChar cSP]) ->
  A ++ v ++ LChar cCARET :: w = B ++ LChar cCARET :: map (syx lower) r ->
  w = map (syx lower) r /\ A ++ v = B.
Proof.
  intros ND NW HA HB E. rewrite app_assoc in E. apply app_eq_app in E as (u & [[E1 E2]|[E1 E2]]).
  - destruct u as [|k u]; [injection E2 as E2; rewrite app_nil_r in E1; auto|]. exfalso. injection E2 as <- E2.
    assert (NU : ~ In (LChar cDOL) u) by (intros H; apply (zno_dollar_in r ND); rewrite E2; apply in_or_app; auto).
    destruct HA as [[-> ->]|[(A' & ->) [->| ->]]].
    + destruct B; discriminate.
    + rewrite app_nil_r in E1. destruct u as [|z u _] using rev_ind; [apply snoc_eq in E1 as [_ E1]; discriminate|].
      change (LChar cCARET :: u ++ [z]) with ((LChar cCARET :: u) ++ [z]) in E1. rewrite app_assoc in E1. apply snoc_eq in E1 as [_ <-]. apply NU. apply in_or_app; right; left; reflexivity.
    + destruct u as [|z u _] using rev_ind; [apply snoc_eq in E1 as [_ E1]; discriminate|].
      change (LChar cCARET :: u ++ [z]) with ((LChar cCARET :: u) ++ [z]) in E1. rewrite app_assoc in E1. apply snoc_eq in E1 as [E1 _].
      destruct u as [|y u _] using rev_ind; [apply snoc_eq in E1 as [_ E1]; discriminate|].
      change (LChar cCARET :: u ++ [y]) with ((LChar cCARET :: u) ++ [y]) in E1. rewrite app_assoc in E1. apply snoc_eq in E1 as [_ <-]. apply NU. rewrite !in_app_iff; cbn; tauto.
  - destruct u as [|k u]; [rewrite app_nil_r in E1; injection E2 as E2; auto|]. exfalso. injection E2 as <- E2.
    destruct HB as [->|(B' & ->)]; [destruct (A ++ v); discriminate|].
    destruct u as [|z u _] using rev_ind.
    { change [LChar cDOL; LChar cSP] with ([LChar cDOL] ++ [LChar cSP]) in E1. rewrite app_assoc in E1. apply snoc_eq in E1 as [_ E1]. discriminate. }
    change [LChar cDOL; LChar cSP] with ([LChar cDOL] ++ [LChar cSP]) in E1. change (LChar cCARET :: u ++ [z]) with ((LChar cCARET :: u) ++ [z]) in E1. rewrite !app_assoc in E1. apply snoc_eq in E1 as [E1 _].
    destruct u as [|y u _] using rev_ind; [apply snoc_eq in E1 as [_ E1]; discriminate|].
    change (LChar cCARET :: u ++ [y]) with ((LChar cCARET :: u) ++ [y]) in E1. rewrite app_assoc in E1. apply snoc_eq in E1 as [_ <-]. apply NW. rewrite E2, !in_app_iff. cbn. tauto.
Qed.
Lemma tkx_char c : X.tkx (LChar c) (LChar c).
Proof. split; [reflexivity|]. split; [discriminate|intros; discriminate]. Qed.
Lemma seqx_fed cs : forall ws, Forall zno_dollar ws -> (X.seqm defs cs (fedx ws) <-> Forall2 zuses cs ws).
Proof.
  induction cs as [|c cs IH] using rev_ind; intros ws ND.
  - destruct ws as [|w ws _] using rev_ind; [split; constructor|]. split.
    + intros H. inversion H as [E|cs' ? ? ? ? ? ? ? ? ? ? ? E]; [|destruct cs'; discriminate]. symmetry in H0. destruct (fedx_nonempty _ _ H0).
    + intros H. inversion H as [E|]. destruct ws; discriminate.
  - split.
    + intros H. inversion H as [E|cs0 c0 x v m1 w m2 S V [<- _] C [<- _] Ec Ex]; [destruct cs; discriminate|]. apply snoc_eq in Ec as [-> ->].
      destruct ws as [|r ws _] using rev_ind; [cbn in Ex; destruct x, v; discriminate|]. apply Forall_app in ND as [ND NR]. inversion_clear NR as [|? ? NR' _].
      set (B := match ws with [] => [] | _ => fedx ws ++ [LChar cSP] end).
      assert (EX : (x ++ v ++ LChar cCARET :: w) ++ [LChar cDOL] = (B ++ LChar cCARET :: map (syx lower) r) ++ [LChar cDOL]).
      { rewrite fedx_snoc in Ex. fold B in Ex. repeat (rewrite <- app_assoc; cbn [app]). exact Ex. }
      apply snoc_eq in EX as [EX _]. assert (NW := inx_cat_no_dollar c w C).
      destruct (lastx_word x v w B r NR' NW) as [Ew EB]; [| |exact EX|].
      { destruct (seqx_last _ _ S) as [[-> ->]|L]; [left; split; [reflexivity|]; destruct V as [->|[V _]]; [reflexivity|contradiction]|]. right. split; [exact L|]. destruct V as [->|[_ (b & -> & [<- _])]]; [left; reflexivity|right; reflexivity]. }
      { unfold B. destruct ws as [|w1 ws _] using rev_ind; [left; reflexivity|right]. 
        exists (match ws with [] => [] | _ => fedx ws ++ [LChar cSP] end ++ LChar cCARET :: map (syx lower) w1).
        destruct (ws ++ [w1]) as [|w2 ws2] eqn:E2; [destruct ws; discriminate|]. rewrite <- E2, fedx_snoc. destruct ws; repeat (rewrite <- app_assoc; cbn [app]); reflexivity. }
      subst w. apply Forall2_app; [|constructor; [apply inx_cat_word, C|constructor]]. apply IH; [exact ND|].
      destruct ws as [|w1 ws _] using rev_ind; [subst B; apply app_eq_nil in EB as [-> ->]; exact S|].
      assert (EB' : x ++ v = fedx (ws ++ [w1]) ++ [LChar cSP]) by (rewrite EB; unfold B; destruct (ws ++ [w1]) eqn:E2; [destruct ws; discriminate|reflexivity]).
      destruct V as [->|[_ (b & -> & _)]]; [|apply snoc_eq in EB' as [<- _]; exact S].
      exfalso. rewrite app_nil_r in EB'. destruct (seqx_last _ _ S) as [[_ ->]|(x' & ->)]; [destruct (fedx (ws ++ [w1])); discriminate|]. apply snoc_eq in EB' as [_ EB']. discriminate.
    + intros H. apply Forall2_app_inv_l in H as (ws1 & ws2 & H1 & H2 & ->). inversion H2 as [|? r ? l2 M H3]; subst. inversion H3; subst. apply Forall_app in ND as [ND _].
      assert (G : exists v, X.sep cs v /\ (match ws1 with [] => [] | _ => fedx ws1 ++ [LChar cSP] end) = fedx ws1 ++ v).
      { destruct ws1 as [|w1 ws1]; [exists []; split; [left; reflexivity|reflexivity]|]. exists [LChar cSP]. split; [|reflexivity]. right. split; [|exists (LChar cSP); split; [reflexivity|apply tkx_char]].
        intros ->. inversion H1. }
      destruct G as (v & V & EV). rewrite fedx_snoc, EV, <- app_assoc. apply X.sq_snoc; [apply IH; assumption|exact V|apply tkx_char|apply inx_cat_word, M|apply tkx_char].
Qed.
End Seq.

(** ** the rules seen *)
Section Seen.
Variable lower : char -> char.
Variable defs : list (str * list cat_item).
Variable ps : list (list str).
Variable t : trans.
Hypothesis wf : forall c items, lookup_cat defs c = Some items -> Forall item_wf items.
Hypothesis comp : compile defs ps = Some t.
Definition no_bs (r : reading) : Prop := ~ In cBS (map lower (word_chars r)).
Lemma takes_word z : Forall2 takes (map (syx lower) z) (map (sy lower) (map fst z)).
Proof. induction z as [|[[c|c|s] b] z IH]; cbn [map fst]; [constructor|..]; (constructor; [unfold syx, sy; cbn; destruct b; cbn; auto|exact IH]). Qed.
Lemma word_takes r : forall y, Forall2 takes y (map (sy lower) r) -> exists z, map fst z = r /\ y = map (syx lower) z.
Proof.
  induction r as [|i r IH]; intros y H; inversion H as [|l m y' x' T F]; subst; [exists []; auto|]. destruct (IH _ F) as (z & <- & ->).
  destruct i as [d|d|s]; destruct l; cbn in T; try contradiction; subst;
    first [exists ((RChar d, false) :: z); split; reflexivity | exists ((REsc d, false) :: z); split; reflexivity | exists ((RTag s, false) :: z); split; reflexivity
          |exists ((RChar d, true) :: z); split; reflexivity | exists ((REsc d, true) :: z); split; reflexivity | exists ((RTag s, true) :: z); split; reflexivity].
Qed.
Lemma takes_fed zs : Forall2 takes (fedx lower zs) (fed lower (map (map fst) zs)).
Proof.
  assert (S1 : forall z, Forall2 takes (symx lower z) (symbols lower (map fst z))).
  { intros z. unfold symx, symbols. constructor; [reflexivity|]. apply Forall2_app; [apply takes_word|repeat constructor]. }
  induction zs as [|z zs IH]; [constructor|]. destruct zs as [|z2 zs]; [apply S1|].
  change (fedx lower (z :: z2 :: zs)) with (symx lower z ++ LChar cSP :: fedx lower (z2 :: zs)). change (fed lower (map (map fst) (z :: z2 :: zs))) with (symbols lower (map fst z) ++ MMark cSP :: fed lower (map (map fst) (z2 :: zs))).
  apply Forall2_app; [apply S1|]. constructor; [reflexivity|exact IH].
Qed.
Lemma takes_mark l c : takes l (MMark c) -> l = LChar c.
Proof. destruct l; cbn; try tauto. intros ->. reflexivity. Qed.
Lemma fed_takes ws : forall y, Forall2 takes y (fed lower ws) -> exists zs, map (map fst) zs = ws /\ y = fedx lower zs.
Proof.
  assert (S1 : forall w y, Forall2 takes y (symbols lower w) -> exists z, map fst z = w /\ y = symx lower z).
  { intros w y H. unfold symbols in H. inversion H as [|l m y' x' T F]; subst. apply takes_mark in T as ->. apply Forall2_app_inv_r in F as (y1 & y2 & F1 & F2 & ->).
    inversion F2 as [|l m y' x' T F]; subst. apply takes_mark in T as ->. inversion F; subst. change (map (fun i => match i with RChar c | REsc c => MChar (lower c) | RTag t => MTag (cLT :: t ++ [cGT]) end) w) with (map (sy lower) w) in F1.
    destruct (word_takes w y1 F1) as (z & <- & ->). exists z. split; reflexivity. }
  induction ws as [|w ws IH]; intros y H; [inversion H; exists []; auto|]. destruct ws as [|w2 ws].
  - destruct (S1 w y H) as (z & <- & ->). exists [z]. auto.
  - change (fed lower (w :: w2 :: ws)) with (symbols lower w ++ MMark cSP :: fed lower (w2 :: ws)) in H. apply Forall2_app_inv_r in H as (y1 & y2 & F1 & F2 & ->).
    inversion F2 as [|l m y' x' T F]; subst. apply takes_mark in T as ->. destruct (S1 w y1 F1) as (z & <- & ->). destruct (IH _ F) as (zs & E & ->). exists (z :: zs).
    split; [cbn; f_equal; exact E|]. destruct zs; [discriminate|reflexivity].
Qed.
Lemma fedx_no_bs zs : Forall no_bs (map (map fst) zs) -> ~ In (LChar cBS) (fedx lower zs).
Proof.
  assert (W : forall z, no_bs (map fst z) -> ~ In (LChar cBS) (map (syx lower) z)).
  { intros z N H. apply N. apply in_map_iff in H as ([i b] & E & Hi). unfold word_chars. apply in_map_iff. unfold syx in E. cbn in E.
    destruct i as [c|c|s]; (destruct b; [discriminate|]); [exists c|exists c|discriminate]; injection E as E; (split; [auto|]); apply in_flat_map; eexists; (split; [apply in_map_iff; eexists; split; [|exact Hi]; reflexivity|left; reflexivity]). }
  induction zs as [|z zs IH] using rev_ind; intros F; [intros []|]. rewrite map_app in F. apply Forall_app in F as [F1 F2]. inversion_clear F2 as [|? ? Fz _]. specialize (IH F1).
  rewrite fedx_snoc. intros H. apply in_app_or in H as [H|[H|H]].
  - destruct zs; [destruct H|]. apply in_app_or in H as [H|[H|[]]]; [exact (IH H)|discriminate].
  - discriminate.
  - apply in_app_or in H as [H|[H|[]]]; [exact (W z Fz H)|discriminate].
Qed.
Definition zrule_uses (n : nat) (zs : list (list zitem)) : Prop := exists cs, nth_error ps (n - 1) = Some cs /\ 1 <= n /\ Forall2 (zuses lower defs) cs zs.
Lemma combine_map (A B : Type) (l : list (A * B)) : combine (map fst l) (map snd l) = l.
Proof. induction l as [|[a b] l IH]; cbn; [reflexivity|]. rewrite IH. reflexivity. Qed.
Lemma combine_fst (A B : Type) (l : list A) (m : list B) : length l = length m -> map fst (combine l m) = l.
Proof. revert m. induction l as [|a l IH]; intros [|b m] H; try discriminate; [reflexivity|]. injection H as H. cbn. rewrite IH by exact H. reflexivity. Qed.
Lemma combine_snd (A B : Type) (l : list A) (m : list B) : length l = length m -> map snd (combine l m) = m.
Proof. revert m. induction l as [|a l IH]; intros [|b m] H; try discriminate; [reflexivity|]. injection H as H. cbn. rewrite IH by exact H. reflexivity. Qed.
Lemma uses_zuses n zs : rule_uses lower defs ps n (map (map fst) zs) (map (map snd) zs) <-> zrule_uses n zs.
Proof.
  assert (E : @combine reading (list bool) (map (map fst) zs) (map (map snd) zs) = map (fun z : list zitem => (map fst z, map snd z)) zs) by (induction zs as [|z zs IH]; cbn; [reflexivity|]; rewrite IH; reflexivity).
  unfold rule_uses, zrule_uses. rewrite E. split.
  - intros (cs & N & L & _ & F). exists cs. split; [exact N|]. split; [exact L|]. clear N E. remember (map (fun z : list zitem => (map fst z, map snd z)) zs) as l eqn:El. revert zs El. induction F as [|c p cs l H F IH]; intros [|z zs] El; try discriminate; [constructor|]. injection El as -> ->. constructor; [exact H|apply IH; reflexivity].
  - intros (cs & N & L & F). exists cs. split; [exact N|]. split; [exact L|]. split; [rewrite !map_length; reflexivity|]. clear N E. induction F; cbn; constructor; auto.
Qed.
Lemma word_uses_len c r m : word_uses lower defs c r m -> length r = length m.
Proof.
  intros ((a & b & -> & T1 & T2) & items & i & _ & _ & m1 & m2 & -> & U1 & U2). rewrite word_chars_app, word_tags_app, T1, T2, app_nil_r in *. cbn [app] in *. rewrite !app_length.
  assert (LC : length (word_chars a) = length a) by (clear - T1; induction a as [|[c|c|t] a IH]; cbn in *; [reflexivity|f_equal; apply IH, T1..|discriminate]).
  assert (LT : length (word_tags b) = length b) by (clear - T2; induction b as [|[c|c|t] a IH]; cbn in *; [reflexivity|discriminate..|f_equal; apply IH, T2]).
  apply tags_use_len in U2. destruct (match ci_tags i with [] => ci_name i | _ :: _ => ci_lemma i end).
  - destruct U1 as [_ ->]. rewrite repeat_length, map_length. lia.
  - apply lemma_uses_len in U1. rewrite map_length in U1. lia.
Qed.
Lemma uses_masks n ws ms : rule_uses lower defs ps n ws ms -> exists zs, map (map fst) zs = ws /\ map (map snd) zs = ms.
Proof.
  intros (cs & _ & _ & L & F). revert ws ms L F. induction cs as [|c cs IH]; intros [|w ws] [|m ms] L F; try discriminate; inversion F as [|? ? ? ? W F']; subst; [exists []; auto|].
  cbn in W. injection L as L. destruct (IH ws ms L F') as (zs & <- & <-). exists (combine w m :: zs). cbn. rewrite combine_fst, combine_snd by (eapply word_uses_len; exact W). auto.
Qed.
Variable ws : list reading.
Hypothesis nd : Forall (no_dollar lower) ws.
Hypothesis nb : Forall no_bs ws.
Lemma has_uses zs : map (map fst) zs = ws -> (forall n, has_rule t (fedx lower zs) n -> zrule_uses n zs) /\ (forall n, zrule_uses n zs -> exists k, k <= n /\ has_rule t (fedx lower zs) k).
Proof.
  intros E. assert (NB : ~ In (LChar cBS) (fedx lower zs)) by (apply fedx_no_bs; rewrite E; exact nb).
  assert (ND : Forall (zno_dollar lower) zs) by (rewrite <- E in nd; rewrite Forall_map in nd; exact nd).
  destruct (X.compile_correct defs ps (defs_key_ok defs wf) t comp (fedx lower zs) NB) as [S C]. split.
  - intros n H. apply X.has_rule_exact in H. destruct (S n H) as (L & cs & N & Q). exists cs. split; [exact N|]. split; [exact L|]. apply (seqx_fed lower defs wf cs zs ND), Q.
  - intros n (cs & N & L & F). destruct (C (n - 1) cs N) as (k & Lk & M); [apply (seqx_fed lower defs wf cs zs ND), F|]. exists k. split; [lia|]. apply X.has_rule_exact, M.
Qed.
Theorem visible_seen n : visible t (fed lower ws) n <-> seen lower defs ps ws n.
Proof.
  split.
  - intros (y & F & H & L). destruct (fed_takes ws y F) as (zs & E & ->). destruct (has_uses zs E) as [S C]. exists (map (map snd) zs). rewrite <- E. split; [apply uses_zuses, S, H|].
    intros m Hm. apply uses_zuses in Hm. destruct (C m Hm) as (k & Lk & Hk). specialize (L k Hk). lia.
  - intros (ms & H & L). destruct (uses_masks n ws ms H) as (zs & E1 & E2). destruct (has_uses zs E1) as [S C]. subst ws ms. apply uses_zuses in H. destruct (C n H) as (k & Lk & Hk).
    assert (n <= k) by (apply L, uses_zuses, S, Hk). assert (k = n) as -> by lia. exists (fedx lower zs). split; [apply takes_fed|]. split; [exact Hk|]. intros m Hm. apply L, uses_zuses, S, Hm.
Qed.
Theorem chosen_banned banned n : classifies t (fed lower ws) banned n <-> seen lower defs ps ws n /\ ~ In n banned /\ forall m, seen lower defs ps ws m -> ~ In m banned -> n <= m.
Proof. unfold classifies. rewrite visible_seen. split; intros (A & B & C); (split; [exact A|split; [exact B|]]); intros m Hm; apply C, visible_seen, Hm. Qed.
End Seen.
(** a rule seen matches; the first rule that matches is seen *)
Lemma lemma_uses_matches s w m : lemma_uses s w m -> lemma_matches s w.
Proof. induction 1; constructor; auto. Qed.
Lemma tags_use_match s w m : tags_use s w m -> tags_match s w.
Proof. induction 1; constructor; auto. Qed.
Lemma lemma_matches_uses s w : lemma_matches s w -> exists m, lemma_uses s w m.
Proof. induction 1 as [|c p w N _ [m IH]|v p w N _ [m IH]]; eexists; constructor; eauto. Qed.
Lemma tags_match_use s w : tags_match s w -> exists m, tags_use s w m.
Proof. induction 1 as [|c p w N _ [m IH]|v p w N _ [m IH]]; eexists; constructor; eauto. Qed.
Lemma word_matches_uses lower defs c r : word_matches lower defs c r <-> exists m, word_uses lower defs c r m.
Proof.
  unfold word_matches, word_uses, item_matches, item_uses. split.
  - intros (P & items & i & L & Hi & A & B). apply tags_match_use in B as [m2 B]. destruct (match ci_tags i with [] => ci_name i | _ :: _ => ci_lemma i end) as [|d s] eqn:E.
    + exists (repeat true (length (map lower (word_chars r))) ++ m2). split; [exact P|]. exists items, i. split; [exact L|]. split; [exact Hi|]. exists (repeat true (length (map lower (word_chars r)))), m2. rewrite E. auto.
    + apply lemma_matches_uses in A as [m1 A]. exists (m1 ++ m2). split; [exact P|]. exists items, i. split; [exact L|]. split; [exact Hi|]. exists m1, m2. rewrite E. auto.
  - intros (m & P & items & i & L & Hi & m1 & m2 & _ & A & B). split; [exact P|]. exists items, i. split; [exact L|]. split; [exact Hi|]. split; [|apply (tags_use_match _ _ _ B)].
    destruct (match ci_tags i with [] => ci_name i | _ :: _ => ci_lemma i end); [apply A|apply (lemma_uses_matches _ _ _ A)].
Qed.
Lemma rule_uses_matches lower defs ps n ws : rule_matches lower defs ps n ws <-> exists ms, rule_uses lower defs ps n ws ms.
Proof.
  split.
  - intros (cs & N & L & F). assert (K : exists ms, length ws = length ms /\ Forall2 (fun c wm => word_uses lower defs c (fst wm) (snd wm)) cs (combine ws ms)).
    { clear N. induction F as [|c w cs ws H F (ms & IL & IF)]; [exists []; split; [reflexivity|constructor]|]. apply word_matches_uses in H as [m H]. exists (m :: ms). split; [cbn; congruence|]. cbn. constructor; [exact H|exact IF]. }
    destruct K as (ms & K1 & K2). exists ms, cs. auto.
  - intros (ms & cs & N & L & K & F). exists cs. split; [exact N|]. split; [exact L|]. clear N. revert ws ms K F. induction cs as [|c cs IH]; intros [|w ws] [|m ms] K F; try discriminate; inversion F as [|? ? ? ? W F']; subst; [constructor|].
    constructor; [apply word_matches_uses; eexists; exact W|]. injection K as K. exact (IH ws ms K F').
Qed.
