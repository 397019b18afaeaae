From Coq Require Import Permutation.
From Verif Require Import Model.Base Proofs.Base Model.TransferMult Spec.TransferMult.

(** ** substring search *)
Lemma prefixb_spec p : forall s, prefixb p s = true <-> exists b, s = p ++ b.
Proof.
  induction p as [|x p IH]; intros s; cbn.
  - split; [exists s; reflexivity|reflexivity].
  - destruct s as [|y s]; [split; [discriminate|intros [b H]; discriminate]|].
    rewrite andb_true_iff, ceq_eq, IH. split.
    + intros [-> [b ->]]. exists b. reflexivity.
    + intros [b H]. injection H as -> ->. eauto.
Qed.
Lemma infixb_spec p : forall s, infixb p s = true <-> Occurs p s.
Proof.
  induction s as [|c s IH]; cbn [infixb]; rewrite orb_true_iff, prefixb_spec.
  - split.
    + intros [[b H]|H]; [exists [], b; exact H|discriminate].
    + intros [a [b H]]. left. destruct a as [|? ?]; [exists b; exact H|discriminate].
  - rewrite IH. split.
    + intros [[b H]|[a [b H]]]; [exists [], b; exact H|exists (c :: a), b; rewrite H; reflexivity].
    + intros [a [b H]]. destruct a as [|x a]; [left; exists b; exact H|]. injection H as -> H. right. exists a, b. exact H.
Qed.
Lemma isDefault_spec w : isDefaultWord w = true <-> Default w.
Proof. apply infixb_spec. Qed.
Lemma sense_spec w : sense w = true <-> Marked w.
Proof. apply infixb_spec. Qed.

(** ** acceptions *)
Lemma acc_piece p : Piece p -> forall s cur r, acc_loop (p ++ s) cur r = acc_loop s (cur ++ p) r.
Proof.
  induction 1 as [|c p H1 H2 Hp IH|c p Hp IH]; intros s cur r.
  - cbn. rewrite app_nil_r. reflexivity.
  - cbn [app acc_loop]. destruct (ceq_spec c cBS); [contradiction|]. destruct (ceq_spec c cSLASH); [contradiction|].
    rewrite IH. rewrite <- app_assoc. reflexivity.
  - cbn [app acc_loop]. rewrite ceq_refl. rewrite IH. rewrite <- app_assoc. reflexivity.
Qed.
(* the list the loop builds: strict insertion of all pieces but the last *)
Fixpoint arrange (acc l : list str) : list str :=
  match l with [] => acc | [p] => add_acc false acc p | p :: r => arrange (add_acc true acc p) r end.
Lemma acc_loop_join l : l <> [] -> Forall Piece l -> forall acc, acc_loop (slash_join l) [] acc = Some (arrange acc l).
Proof.
  induction l as [|p l IH]; intros Hne H acc; [congruence|]. inversion_clear H.
  destruct l as [|q l].
  - cbn [slash_join arrange]. rewrite <- (app_nil_r p) at 1. rewrite acc_piece by assumption. reflexivity.
  - change (slash_join (p :: q :: l)) with (p ++ cSLASH :: slash_join (q :: l)). rewrite acc_piece by assumption.
    cbn [acc_loop app]. change (cSLASH =?c cBS) with false. rewrite ceq_refl. cbv beta iota.
    rewrite IH by (assumption || discriminate). reflexivity.
Qed.
Lemma add_acc_perm b acc p : Permutation (add_acc b acc p) (acc ++ [p]).
Proof.
  destruct acc as [|a acc]; [reflexivity|]. cbn [add_acc].
  destruct ((if b then match acc with [] => false | _ => true end else true) && isDefaultWord p); [|reflexivity].
  eapply Permutation_trans; [apply Permutation_cons_append|]. eapply Permutation_trans; [apply Permutation_app_tail, Permutation_app_comm|].
  cbn. reflexivity.
Qed.
Lemma arrange_perm l : forall acc, Permutation (arrange acc l) (acc ++ l).
Proof.
  induction l as [|p l IH]; intros acc; [cbn; rewrite app_nil_r; reflexivity|].
  destruct l as [|q l]; [cbn [arrange]; apply add_acc_perm|].
  change (arrange acc (p :: q :: l)) with (arrange (add_acc true acc p) (q :: l)).
  rewrite IH. rewrite add_acc_perm. rewrite <- app_assoc. reflexivity.
Qed.
Lemma add_acc_nodef b acc p : isDefaultWord p = false -> add_acc b acc p = acc ++ [p].
Proof. intros H. destruct acc; [reflexivity|]. cbn [add_acc]. rewrite H, andb_false_r. reflexivity. Qed.
Lemma arrange_nodef l : Forall (fun p => isDefaultWord p = false) l -> forall acc, arrange acc l = acc ++ l.
Proof.
  induction 1 as [|p l Hp Hl IH]; intros acc; [cbn; rewrite app_nil_r; reflexivity|].
  destruct l as [|q l]; [cbn [arrange]; apply add_acc_nodef, Hp|].
  change (arrange acc (p :: q :: l)) with (arrange (add_acc true acc p) (q :: l)).
  rewrite IH, add_acc_nodef by exact Hp. rewrite <- app_assoc. reflexivity.
Qed.
Lemma arrange_skip l1 l2 : l2 <> [] -> Forall (fun p => isDefaultWord p = false) l1 -> forall acc, arrange acc (l1 ++ l2) = arrange (acc ++ l1) l2.
Proof.
  intros Hne. induction 1 as [|p l Hp Hl IH]; intros acc; [cbn; rewrite app_nil_r; reflexivity|].
  destruct (l ++ l2) as [|q l'] eqn:E. { destruct l; [cbn in E; congruence|discriminate]. }
  cbn [app]. rewrite E. change (arrange acc (p :: q :: l')) with (arrange (add_acc true acc p) (q :: l')).
  rewrite IH, add_acc_nodef by exact Hp. rewrite <- app_assoc. reflexivity.
Qed.
(* one default piece d at a place other than the second of three or more: it changes places with the first piece *)
Lemma arrange_one a l1 d l2 : Forall (fun p => isDefaultWord p = false) (a :: l1 ++ l2) -> isDefaultWord d = true -> (l1 <> [] \/ l2 = []) ->
  arrange [] ((a :: l1) ++ d :: l2) = d :: l1 ++ a :: l2.
Proof.
  intros H Hd Hc. inversion_clear H. apply Forall_app in H1 as [F1 F2].
  rewrite arrange_skip; [|discriminate|constructor; assumption]. cbn [app].
  destruct l2 as [|q l2].
  - cbn [arrange add_acc]. rewrite Hd. reflexivity.
  - destruct Hc as [Hc|]; [|discriminate].
    change (arrange (a :: l1) (d :: q :: l2)) with (arrange (add_acc true (a :: l1) d) (q :: l2)).
    rewrite arrange_nodef by assumption. cbn [add_acc]. rewrite Hd. destruct l1; [congruence|]. cbn. rewrite <- app_assoc. reflexivity.
Qed.
Lemma arrange_first d l : Forall (fun p => isDefaultWord p = false) l -> arrange [] (d :: l) = d :: l.
Proof.
  intros H. destruct l as [|q l]; [reflexivity|]. change (arrange [] (d :: q :: l)) with (arrange [d] (q :: l)).
  apply arrange_nodef, H.
Qed.
Lemma arrange_second a d q l : Forall (fun p => isDefaultWord p = false) (a :: q :: l) -> arrange [] (a :: d :: q :: l) = a :: d :: q :: l.
Proof.
  intros H. inversion_clear H. change (arrange [] (a :: d :: q :: l)) with (arrange (add_acc true [a] d) (q :: l)).
  rewrite arrange_nodef by assumption. reflexivity.
Qed.
Lemma arrange_ne l : l <> [] -> arrange [] l <> [].
Proof. intros H E. assert (P := arrange_perm l []). rewrite E in P. apply Permutation_nil in P. cbn in P. congruence. Qed.

(** the last step: unmarked senses are dropped when at least two are marked *)
Definition keep_senses (l : list str) : list str :=
  if (2 <=? length l) && (2 <=? length (filter sense l)) then filter sense l else l.
Lemma acceptions_join (at_ : bool) l : l <> [] -> Forall Piece l -> (at_ = false -> hd 0%N (slash_join l) <> cAT) ->
  acceptions ((if at_ then [cAT] else []) ++ slash_join l) = Some (keep_senses (arrange [] l)).
Proof.
  intros Hne H Ha. unfold acceptions.
  assert (E : strip_at ((if at_ then [cAT] else []) ++ slash_join l) = slash_join l).
  { unfold strip_at. destruct at_; [reflexivity|]. cbn [app]. destruct (slash_join l) as [|c r] eqn:E; [reflexivity|]. specialize (Ha eq_refl). cbn in Ha.
    destruct (ceq_spec c cAT); [contradiction|reflexivity]. }
  rewrite E. rewrite acc_loop_join by assumption. reflexivity.
Qed.
Lemma acceptions_ne s r : acceptions s = Some r -> r <> [].
Proof.
  unfold acceptions. destruct (acc_loop _ [] []) as [l|] eqn:E; [|discriminate]. intros H.
  assert (L : l <> []).
  { clear H. revert E. generalize (strip_at s). intros t.
    assert (A : forall n t cur acc, length t <= n -> acc_loop t cur acc = Some l -> l <> []).
    { induction n as [|n IH]; intros t0 cur acc Hn E.
      - destruct t0; [|cbn in Hn; lia]. cbn in E. injection E as <-. destruct acc; cbn; [discriminate|]. destruct (isDefaultWord cur); discriminate.
      - destruct t0 as [|c t0]; [cbn in E; injection E as <-; destruct acc; cbn; [discriminate|]; destruct (isDefaultWord cur); discriminate|].
        cbn in Hn. cbn [acc_loop] in E. destruct (c =?c cBS); [destruct t0 as [|d t0]; [discriminate|]; cbn in Hn; eapply IH; [|exact E]; lia|].
        destruct (c =?c cSLASH); eapply IH; try exact E; lia. }
    intros E. eapply A; [|exact E]. reflexivity. }
  injection H as <-. destruct (_ && _) eqn:E2; [|exact L]. apply andb_prop in E2 as [_ E2]. intros K. rewrite K in E2. discriminate.
Qed.
(* totality: only a text ending in an odd backslash is out of bounds *)
Lemma acc_loop_total : forall n s cur acc, length s <= n -> (exists r, acc_loop s cur acc = Some r) \/ (exists p, Piece p /\ s = p ++ [cBS]) \/ (exists p q, Piece p /\ s = p ++ cSLASH :: q /\ forall cur acc, acc_loop q cur acc = None).
Proof.
  induction n as [|n IH]; intros s cur acc Hn.
  - destruct s; [|cbn in Hn; lia]. left. eexists; reflexivity.
  - destruct s as [|c s]; [left; eexists; reflexivity|]. cbn in Hn. cbn [acc_loop].
    destruct (ceq_spec c cBS) as [->|Hb].
    + destruct s as [|d s]; [right; left; exists []; split; [constructor|reflexivity]|].
      cbn in Hn. destruct (IH s (cur ++ [cBS; d]) acc ltac:(lia)) as [[r E]|[[p [Hp ->]]|[p [q [Hp [-> Hq]]]]]].
      * left. eauto.
      * right; left. exists (cBS :: d :: p). split; [constructor; exact Hp|reflexivity].
      * right; right. exists (cBS :: d :: p), q. split; [constructor; exact Hp|]. split; [reflexivity|exact Hq].
    + destruct (ceq_spec c cSLASH) as [->|Hs].
      * destruct (acc_loop s [] (add_acc true acc cur)) eqn:E; [left; eauto|]. right; right. exists [], s. split; [constructor|]. split; [reflexivity|].
        clear -E. revert E. generalize (add_acc true acc cur) at 1. generalize (@nil char) at 1.
        assert (A : forall n s c1 a1 c2 a2, length s <= n -> acc_loop s c1 a1 = None -> acc_loop s c2 a2 = None).
        { induction n as [|n IH]; intros t c1 a1 c2 a2 Hn E.
          - destruct t; [discriminate|cbn in Hn; lia].
          - destruct t as [|c t]; [discriminate|]. cbn in Hn. cbn [acc_loop] in *. destruct (c =?c cBS); [destruct t as [|d t]; [reflexivity|]; cbn in Hn; eapply IH; [|exact E]; lia|].
            destruct (c =?c cSLASH); (eapply IH; [|exact E]); lia. }
        intros. eapply A; [|exact E]. reflexivity.
      * destruct (IH s (cur ++ [c]) acc ltac:(lia)) as [[r E]|[[p [Hp ->]]|[p [q [Hp [-> Hq]]]]]].
        -- left; eauto.
        -- right; left. exists (c :: p). split; [constructor; assumption|reflexivity].
        -- right; right. exists (c :: p), q. split; [constructor; assumption|]. split; [reflexivity|exact Hq].
Qed.

(** ** writeMultiple *)
Definition pre (m : bool) (l : list str) : str := (if m then sep else []) ++ alternatives l.
Lemma alternatives_cons x l : l <> [] -> alternatives (x :: l) = x ++ sep ++ alternatives l.
Proof. destruct l; [congruence|reflexivity]. Qed.
Lemma alternatives_app l1 l2 : l1 <> [] -> l2 <> [] -> alternatives (l1 ++ l2) = alternatives l1 ++ sep ++ alternatives l2.
Proof.
  induction l1 as [|x l1 IH]; intros H1 H2; [congruence|]. cbn [app]. destruct l1 as [|y l1].
  - cbn [app]. rewrite alternatives_cons by exact H2. reflexivity.
  - rewrite alternatives_cons by discriminate. rewrite IH by (discriminate || exact H2). rewrite (alternatives_cons x (y :: l1)) by discriminate.
    rewrite <- !app_assoc. reflexivity.
Qed.
Lemma choices_ne Ws : Forall (fun l => l <> []) Ws -> choices Ws <> [].
Proof.
  induction 1 as [|l Ws Hl HW IH]; [discriminate|]. cbn. destruct l as [|w l]; [congruence|]. cbn.
  destruct (choices Ws); [congruence|discriminate].
Qed.
Lemma writeMultiple_spec : forall Ws Bs acum m out, Forall (fun l => l <> []) Ws -> length Ws <= S (length Bs) ->
  writeMultiple Ws Bs acum m out = Some (out ++ pre m (map (fun c => acum ++ sentence c Bs) (choices Ws))).
Proof.
  induction Ws as [|ws Ws IH]; intros Bs acum m out H HL.
  - cbn. destruct Bs; cbn; unfold pre; cbn [alternatives]; rewrite app_nil_r; reflexivity.
  - inversion_clear H. cbn [writeMultiple].
    set (refblank := match Ws with [] => [] | _ :: _ => match Bs with [] => [] | b :: _ => b end end).
    set (blanks' := match Ws with [] => Bs | _ :: _ => match Bs with [] => Bs | _ :: bs => bs end end).
    assert (HL' : length Ws <= S (length blanks')).
    { subst blanks'. destruct Ws; cbn in *; [lia|]. destruct Bs; cbn in *; lia. }
    assert (S1 : forall w c, In c (choices Ws) -> cCARET :: w ++ cDOL :: refblank ++ sentence c blanks' = sentence (w :: c) Bs).
    { intros w c Hc. subst refblank blanks'. destruct Ws as [|v Ws].
      - destruct Hc as [<-|[]]. cbn. destruct Bs; reflexivity.
      - destruct Bs as [|b Bs]; [cbn in HL; lia|]. cbn [choices] in Hc. apply in_flat_map in Hc as [v0 [_ Hc]]. apply in_map_iff in Hc as [c' [<- _]].
        reflexivity. }
    assert (GO : forall rw first out0, rw <> [] ->
      (fix go (first : bool) (rw : list str) (out : str) : option str :=
           match rw with
           | [] => Some out
           | w :: rw' => match writeMultiple Ws blanks' (acum ++ cCARET :: w ++ cDOL :: refblank) (m || negb first) out with
                         | Some out' => go false rw' out'
                         | None => None
                         end
           end) first rw out0 = Some (out0 ++ pre (m || negb first) (map (fun c => acum ++ sentence c Bs) (choices (rw :: Ws))))).
    { induction rw as [|w rw IHr]; intros first out0 Hne; [congruence|]. rewrite IH by assumption.
      assert (S2 : map (fun c => (acum ++ cCARET :: w ++ cDOL :: refblank) ++ sentence c blanks') (choices Ws) = map (fun c => acum ++ sentence c Bs) (map (cons w) (choices Ws))).
      { rewrite map_map. apply map_ext_in. intros c Hc. refine (eq_trans _ (f_equal (fun z => acum ++ z) (S1 w c Hc))). appeq. }
      rewrite S2. destruct rw as [|w2 rw].
      - cbn [choices flat_map]. rewrite app_nil_r. reflexivity.
      - rewrite IHr by discriminate. f_equal. rewrite <- app_assoc. f_equal. rewrite orb_true_r. unfold pre.
        change (choices ((w :: w2 :: rw) :: Ws)) with (map (cons w) (choices Ws) ++ choices ((w2 :: rw) :: Ws)).
        assert (N1 := choices_ne Ws H1). assert (N2 : choices ((w2 :: rw) :: Ws) <> []) by (apply choices_ne; constructor; [discriminate|assumption]).
        rewrite map_app, alternatives_app.
        + rewrite <- !app_assoc. reflexivity.
        + destruct (choices Ws); [congruence|discriminate].
        + destruct (choices ((w2 :: rw) :: Ws)); [congruence|discriminate]. }
    assert (E : m = m || negb true) by (rewrite orb_false_r; reflexivity).
    destruct Ws as [|v Ws'].
    + cbv beta iota. rewrite E. rewrite <- GO by assumption. rewrite orb_false_r. destruct Bs; reflexivity.
    + destruct Bs as [|b Bs']; [cbn in HL; lia|]. cbv beta iota. rewrite E. rewrite <- GO by assumption. rewrite orb_false_r. reflexivity.
Qed.
Lemma choices_spec : forall Ws c, In c (choices Ws) <-> Forall2 (fun w ws => In w ws) c Ws.
Proof.
  induction Ws as [|ws Ws IH]; intros c; cbn.
  - split; [intros [<-|[]]; constructor|intros H; inversion H; left; reflexivity].
  - rewrite in_flat_map. split.
    + intros [w [Hw H]]. apply in_map_iff in H as [c' [<- H]]. constructor; [exact Hw|apply IH, H].
    + intros H. inversion H; subst. eexists. split; [eassumption|]. apply in_map, IH. assumption.
Qed.
Lemma choices_length : forall Ws, length (choices Ws) = fold_right (fun ws n => length ws * n) 1 Ws.
Proof.
  induction Ws as [|ws Ws IH]; [reflexivity|]. cbn [choices fold_right]. rewrite <- IH.
  induction ws as [|w ws IHw]; [reflexivity|]. cbn [flat_map]. rewrite app_length, map_length, IHw. cbn. lia.
Qed.
Lemma join_sep_alt l : join_sep l = alternatives l.
Proof. induction l as [|x l IH]; [reflexivity|]. destruct l as [|y l]; [reflexivity|]. change (join_sep (x :: y :: l)) with (x ++ sep ++ join_sep (y :: l)). rewrite IH. reflexivity. Qed.

Lemma alternatives_sep a b l : Occurs sep (alternatives (a :: b :: l)).
Proof. exists a, (alternatives (b :: l)). reflexivity. Qed.
Lemma opt_map_spec {A C} (f : A -> option C) : forall l r, opt_map f l = Some r <-> Forall2 (fun x y => f x = Some y) l r.
Proof.
  induction l as [|x l IH]; intros r; cbn.
  - split; [intros H; injection H as <-; constructor|intros H; inversion H; reflexivity].
  - split.
    + destruct (f x) eqn:E; [|discriminate]. destruct (opt_map f l) eqn:E2; [|discriminate]. intros H. injection H as <-.
      constructor; [exact E|apply IH; reflexivity].
    + intros H. inversion H; subst. rewrite H2. apply IH in H4. rewrite H4. reflexivity.
Qed.
Lemma Forall2_len {A C} (R : A -> C -> Prop) l r : Forall2 R l r -> length l = length r.
Proof. induction 1; cbn; congruence. Qed.

(** what a rule writes *)
Definition RuleOut (bil : str -> str) (ws bs : list str) (o : str) : Prop :=
  exists Ts, Forall2 (fun w t => acceptions (bil w) = Some t) ws Ts /\
    let s := alternatives (map (fun c => sentence c bs) (choices Ts)) in
    (2 <= length (choices Ts) \/ Occurs sep s -> o = bracketed s) /\
    (length (choices Ts) = 1 -> ~ Occurs sep s -> o = s).
Lemma choices_pos Ts : Forall (fun l => l <> []) Ts -> 1 <= length (choices Ts).
Proof. intros H. apply choices_ne in H. destruct (choices Ts); [congruence|cbn; lia]. Qed.
Lemma Forall2_ne (bil : str -> str) ws Ts : Forall2 (fun w t => acceptions (bil w) = Some t) ws Ts -> Forall (fun l => l <> []) Ts.
Proof. induction 1; constructor; [eapply acceptions_ne; eassumption|assumption]. Qed.
Lemma applyRule_spec bil ws bs : length ws <= S (length bs) -> forall o,
  applyRule bil ws bs = Some o <-> RuleOut bil ws bs o.
Proof.
  intros HL o. unfold applyRule, RuleOut. split.
  - destruct (opt_map _ ws) as [Ts|] eqn:E; [|discriminate]. apply opt_map_spec in E. assert (HN := Forall2_ne _ _ _ E).
    assert (L := Forall2_len _ _ _ E).
    rewrite writeMultiple_spec; [|exact HN|lia]. cbn [app].
    change (pre false ?l) with (alternatives l).
    intros H. exists Ts. split; [exact E|]. cbv zeta.
    assert (HP := choices_pos Ts HN).
    assert (E2 : map (fun c => sentence c bs) (choices Ts) = map (fun c => [] ++ sentence c bs) (choices Ts)) by reflexivity. rewrite E2.
    set (s := alternatives _) in *.
    destruct (infixb sep s) eqn:EI; injection H as <-.
    + split; [reflexivity|]. intros _ K. apply infixb_spec in EI. contradiction.
    + split; [|reflexivity]. intros [K|K]; exfalso.
      * assert (O : Occurs sep s). { subst s. destruct (choices Ts) as [|a [|b l]]; cbn in K; try lia. apply alternatives_sep. }
        apply infixb_spec in O. congruence.
      * apply infixb_spec in K. congruence.
  - intros [Ts [E H]]. cbv zeta in H. assert (HN := Forall2_ne _ _ _ E). assert (L := Forall2_len _ _ _ E).
    assert (HP := choices_pos Ts HN).
    apply opt_map_spec in E. rewrite E. rewrite writeMultiple_spec; [|exact HN|lia]. cbn [app].
    change (pre false ?l) with (alternatives l).
    assert (E2 : map (fun c => sentence c bs) (choices Ts) = map (fun c => [] ++ sentence c bs) (choices Ts)) by reflexivity. rewrite E2 in H.
    set (s := alternatives _) in *. destruct (infixb sep s) eqn:EI.
    + apply infixb_spec in EI. f_equal. symmetry. apply H. right. exact EI.
    + f_equal. symmetry. destruct H as [_ H]. apply H.
      * destruct (choices Ts) as [|a [|b l]] eqn:EC; cbn in HP; try lia; [reflexivity|]. exfalso.
        assert (O : Occurs sep s) by (subst s; apply alternatives_sep). apply infixb_spec in O. congruence.
      * intros O. apply infixb_spec in O. congruence.
Qed.

(** ** the tokeniser *)
Definition tok (i : item) : token := match i with W w => TWord w | B b => TBlank b end.
Lemma lex_form : forall n s c b toks, length s <= n -> lex s c b = Some toks -> exists items last, toks = map tok items ++ [TEof last].
Proof.
  induction n as [|n IH]; intros s c b toks Hn H.
  - destruct s; [|cbn in Hn; lia]. cbn in H. destruct b; [discriminate|]. injection H as <-. exists [], c. reflexivity.
  - destruct s as [|x s]; [cbn in H; destruct b; [discriminate|]; injection H as <-; exists [], c; reflexivity|].
    cbn in Hn. cbn [lex] in H. destruct (x =?c cBS); [destruct s as [|d s]; [discriminate|]; cbn in Hn; eapply IH; [|exact H]; lia|].
    destruct b; [eapply IH; [|exact H]; lia|]. destruct (x =?c cLB); [eapply IH; [|exact H]; lia|].
    destruct (x =?c cDOL).
    { destruct (lex s [] false) as [l|] eqn:E; [|discriminate]. injection H as <-. apply IH in E as [it [la ->]]; [|lia]. exists (W c :: it), la. reflexivity. }
    destruct (x =?c cCARET).
    { destruct (lex s [] false) as [l|] eqn:E; [|discriminate]. injection H as <-. apply IH in E as [it [la ->]]; [|lia]. exists (B c :: it), la. reflexivity. }
    eapply IH; [|exact H]; lia.
Qed.

Lemma oapp_nil r : oapp (Some []) r = r.
Proof. destruct r; reflexivity. Qed.
(** ** the loop *)
Inductive Alt : list item -> Prop :=
| alt_nil : Alt []
| alt_w w : Alt [W w]
| alt_wb w b l : Alt l -> Alt (W w :: B b :: l).

Lemma words_app a b : words (a ++ b) = words a ++ words b.
Proof. unfold words. apply flat_map_app. Qed.
Lemma blanks_app a b : blanks (a ++ b) = blanks a ++ blanks b.
Proof. unfold blanks. apply flat_map_app. Qed.

Section Loop.
Variable bil : str -> str.
Variable MS : Type.
Variables (ms_init : MS) (ms_word : MS -> str -> MS) (ms_blank : MS -> MS) (ms_empty ms_final : MS -> bool).
Definition step (m : MS) (i : item) : MS := match i with W w => ms_word m w | B _ => ms_blank m end.
Definition steps (m : MS) (l : list item) : MS := fold_left step l m.
Definition accepts (l : list item) : Prop := ms_final (steps ms_init l) = true.
Hypothesis H_init : ms_empty ms_init = false.
Hypothesis H_fin : forall m, ms_final m = true -> ms_empty m = false.
Hypothesis H_dead : forall m i, ms_empty m = true -> ms_empty (step m i) = true.
Hypothesis H_alt : forall l, ms_empty (steps ms_init l) = false -> Alt l.
Hypothesis H_finw : forall l, accepts l -> exists l' w, l = l' ++ [W w].

Lemma steps_app m a b : steps m (a ++ b) = steps (steps m a) b.
Proof. apply fold_left_app. Qed.
Lemma dead_ext l m : ms_empty m = true -> ms_empty (steps m l) = true.
Proof. revert m. induction l as [|i l IH]; intros m H; [exact H|]. cbn. apply IH, H_dead, H. Qed.
Lemma dead_no_accept a b : ms_empty (steps ms_init a) = true -> ~ accepts (a ++ b).
Proof. unfold accepts. rewrite steps_app. intros H K. apply H_fin in K. rewrite dead_ext in K by exact H. discriminate. Qed.
Lemma alt_words l w : Alt (l ++ [W w]) -> length (words (l ++ [W w])) = S (length (blanks (l ++ [W w]))).
Proof.
  intros H. remember (l ++ [W w]) as L eqn:E. revert l E. induction H as [|v|v b l' H IH]; intros l E.
  - destruct l; discriminate.
  - reflexivity.
  - destruct l as [|x [|y l]]; [discriminate|injection E as ? E; destruct l'; discriminate|].
    injection E as <- <- E. specialize (IH l E). change (S (length (words l')) = S (S (length (blanks l')))). rewrite IH. reflexivity.
Qed.
Lemma accepts_len l : accepts l -> length (words l) = S (length (blanks l)).
Proof. intros H. destruct (H_finw l H) as [l' [w ->]]. apply alt_words, H_alt, H_fin, H. Qed.

Variable items : list item.
Variable last : str.
Let toks := map tok items ++ [TEof last].
Let LOOP := loop bil MS ms_init ms_word ms_blank ms_empty ms_final.
Let SETTLE := settle bil MS ms_init ms_empty.
Let mkst := mkt MS.

Definition RUN := Run accepts (fun ws bs o => applyRule bil ws bs = Some o) (fun w o => defaultWord bil w = Some o).

Lemma tok_at pre i rest : items = pre ++ i :: rest -> nth_error toks (length pre) = Some (tok i).
Proof.
  intros E. unfold toks. rewrite E, map_app, <- app_assoc. rewrite nth_error_app2; rewrite map_length; [|lia]. rewrite Nat.sub_diag. reflexivity.
Qed.
Lemma tok_end : nth_error toks (length items) = Some (TEof last).
Proof. unfold toks. rewrite nth_error_app2; rewrite map_length; [|lia]. rewrite Nat.sub_diag. reflexivity. Qed.

(* isr/last/nw hold the longest accepted prefix of ts of length at most n *)
Definition best (p : nat) (ts : list item) (n : nat) (isr : bool) (la nw : nat) : Prop :=
  (isr = true /\ exists k, 0 < k <= n /\ la = p + k /\ accepts (firstn k ts) /\ nw = length (words (firstn k ts)) /\
       forall j, k < j <= n -> ~ accepts (firstn j ts)) \/
  (isr = false /\ la = p /\ forall j, 0 < j <= n -> ~ accepts (firstn j ts)).

Definition stale_ok (rest : list item) (stale : list str) : Prop :=
  stale = [] \/ match rest with B b :: _ => exists r, stale = b :: r | W _ :: _ => False | [] => True end.
Definition Fresh (rest : list item) (st : tst MS) : Prop :=
  exists pre stale nw, items = pre ++ rest /\ stale_ok rest stale /\ st = mkst (length pre) (length pre) (Some ms_init) false nw [] stale.
Definition BlankRead (rest : list item) (st : tst MS) : Prop :=
  exists pre b r nw rest', rest = B b :: rest' /\ items = pre ++ rest /\ st = mkst (S (length pre)) (length pre) (Some (step ms_init (B b))) false nw [] (b :: r).
Definition Scan (rest : list item) (st : tst MS) : Prop :=
  exists pre w t rest' isr la nw, rest = (W w :: t) ++ rest' /\ items = pre ++ rest /\
    (ms_empty (steps ms_init (removelast (W w :: t))) = false) /\
    best (length pre) (W w :: t) (length t) isr la nw /\
    st = mkst (length pre + S (length t)) la (Some (steps ms_init (W w :: t))) isr nw (words (W w :: t)) (blanks (W w :: t)).
Definition EofRead (rest : list item) (st : tst MS) : Prop :=
  exists pre w t isr la nw pos, rest = W w :: t /\ items = pre ++ rest /\
    ms_empty (steps ms_init (W w :: t)) = false /\
    best (length pre) rest (length rest) isr la nw /\
    st = mkst pos la None isr nw (words rest) (blanks rest ++ [last]).

Lemma fresh_alive rest st : Fresh rest st -> settle bil MS ms_init ms_empty st = Some ([], st).
Proof. intros [pre [stale [nw [_ [_ ->]]]]]. unfold settle, dead, mkst. cbn. rewrite H_init. reflexivity. Qed.
Lemma loop_settle f st o st1 : SETTLE st = Some (o, st1) -> SETTLE st1 = Some ([], st1) -> LOOP (S f) toks st = oapp (Some o) (LOOP (S f) toks st1).
Proof.
  intros H1 H2. unfold LOOP, SETTLE in *. cbn [loop]. rewrite H1, H2.
  destruct (consume _ _ _ _ _) as [[c|st2]|]; [reflexivity| |reflexivity].
  destruct (loop _ _ _ _ _ _ _ f toks st2); cbn [oapp app]; [|reflexivity]. cbn. reflexivity.
Qed.
Lemma init_not_accept : ms_final ms_init = false.
Proof. destruct (ms_final ms_init) eqn:E; [|reflexivity]. destruct (H_finw [] E) as [l [w K]]. destruct l; discriminate. Qed.

Lemma loop_once st st' f : settle bil MS ms_init ms_empty st = Some ([], st) -> consume MS ms_word ms_blank toks (mark MS ms_final st) = Some (inr st') ->
  LOOP (S f) toks st = LOOP f toks st'.
Proof. intros H1 H2. unfold LOOP. cbn [loop]. rewrite H1, H2. apply oapp_nil. Qed.
(* a fresh state reads one token *)
Lemma fresh_step rest st : Fresh rest st ->
  match rest with
  | [] => forall f, LOOP (S f) toks st = Some last
  | W w :: r => exists st', (forall f, LOOP (S f) toks st = LOOP f toks st') /\ Scan rest st'
  | B b :: r => exists st', (forall f, LOOP (S f) toks st = LOOP f toks st') /\ BlankRead rest st'
  end.
Proof.
  intros HF. assert (HS := fresh_alive rest st HF). destruct HF as [pre [stale [nw [E [Hst ->]]]]].
  assert (HM : mark MS ms_final (mkst (length pre) (length pre) (Some ms_init) false nw [] stale) = mkst (length pre) (length pre) (Some ms_init) false nw [] stale).
  { unfold mark, mkst. cbn. rewrite init_not_accept. reflexivity. }
  destruct rest as [|[w|b] r].
  - intros f. unfold LOOP. cbn [loop]. rewrite HS, HM. rewrite app_nil_r in E. unfold consume. cbn [t_pos mkst]. rewrite <- E, tok_end. reflexivity.
  - eexists. split.
    + intros f. apply loop_once; [exact HS|]. rewrite HM. unfold consume. cbn [t_pos mkst]. rewrite (tok_at pre (W w) r E). reflexivity.
    + exists pre, w, [], r, false, (length pre), nw. split; [reflexivity|]. split; [exact E|]. split; [exact H_init|]. split.
      * right. split; [reflexivity|]. split; [reflexivity|]. intros j Hj. cbn in Hj. lia.
      * unfold mkst. cbn. destruct Hst as [->|[]]. rewrite Nat.add_1_r. reflexivity.
  - eexists. split.
    + intros f. apply loop_once; [exact HS|]. rewrite HM. unfold consume. cbn [t_pos mkst]. rewrite (tok_at pre (B b) r E). reflexivity.
    + destruct Hst as [->|[r' ->]].
      * exists pre, b, [], nw, r. split; [reflexivity|]. split; [exact E|reflexivity].
      * exists pre, b, (r' ++ [b]), nw, r. split; [reflexivity|]. split; [exact E|reflexivity].
Qed.
Lemma blank_dead b : ms_empty (step ms_init (B b)) = true.
Proof. destruct (ms_empty (step ms_init (B b))) eqn:E; [reflexivity|]. assert (A := H_alt [B b] E). inversion A. Qed.
Lemma blank_step b r st : BlankRead (B b :: r) st -> exists st1, SETTLE st = Some (b, st1) /\ Fresh r st1.
Proof.
  intros [pre [b0 [r0 [nw [rest' [Eb [E ->]]]]]]]. injection Eb as <- <-. unfold SETTLE, settle, dead, mkst. cbn [t_ms]. rewrite blank_dead. cbn.
  eexists. split; [reflexivity|]. exists (pre ++ [B b]), [], nw. split; [rewrite <- app_assoc; exact E|]. split; [left; reflexivity|].
  rewrite app_length. cbn. rewrite Nat.add_1_r. reflexivity.
Qed.

Lemma best_mark p ts n isr la nw : S n <= length ts -> best p ts n isr la nw ->
  best p ts (S n) (ms_final (steps ms_init (firstn (S n) ts)) || isr)
    (if ms_final (steps ms_init (firstn (S n) ts)) then p + S n else la)
    (if ms_final (steps ms_init (firstn (S n) ts)) then length (words (firstn (S n) ts)) else nw).
Proof.
  intros HL H. destruct (ms_final (steps ms_init (firstn (S n) ts))) eqn:E.
  - left. split; [reflexivity|]. exists (S n). split; [lia|]. split; [reflexivity|]. split; [exact E|]. split; [reflexivity|]. intros j Hj. lia.
  - cbn [orb]. destruct H as [[-> [k [K1 [K2 [K3 [K4 K5]]]]]]|[-> [K2 K3]]]; [left|right].
    + split; [reflexivity|]. exists k. split; [lia|]. split; [exact K2|]. split; [exact K3|]. split; [exact K4|]. intros j Hj K.
      destruct (Nat.eq_dec j (S n)) as [->|]; [unfold accepts in K; congruence|]. apply (K5 j); [lia|exact K].
    + split; [reflexivity|]. split; [exact K2|]. intros j Hj K.
      destruct (Nat.eq_dec j (S n)) as [->|]; [unfold accepts in K; congruence|]. apply (K3 j); [lia|exact K].
Qed.
Lemma removelast_firstn' {A} (l : list A) x y : removelast (x :: l ++ [y]) = x :: l.
Proof. change (x :: l ++ [y]) with ((x :: l) ++ [y]). apply removelast_last. Qed.

(* a live scan reads one more token *)
Lemma scan_step rest st : Scan rest st -> dead MS ms_empty st = false ->
  exists st', (forall f, LOOP (S f) toks st = LOOP f toks st') /\
    ((Scan rest st' /\ t_pos MS st' = S (t_pos MS st)) \/ EofRead rest st').
Proof.
  intros [pre [w [t [rest' [isr [la [nw [Er [Ei [Hl [Hb ->]]]]]]]]]]] HD. set (ts := W w :: t) in *.
  assert (HD' : ms_empty (steps ms_init ts) = false) by exact HD.
  enough (exists st', consume MS ms_word ms_blank toks (mark MS ms_final (mkst (length pre + S (length t)) la (Some (steps ms_init ts)) isr nw (words ts) (blanks ts))) = Some (inr st') /\
    ((Scan rest st' /\ t_pos MS st' = S (t_pos MS (mkst (length pre + S (length t)) la (Some (steps ms_init ts)) isr nw (words ts) (blanks ts)))) \/ EofRead rest st')) as [st' [C1 C2]].
  { exists st'. split; [|exact C2]. intros f. apply loop_once; [|exact C1]. unfold settle. rewrite HD. reflexivity. }
  assert (HM := best_mark (length pre) ts (length t) isr la nw (le_n _) Hb).
  assert (FN : firstn (S (length t)) ts = ts) by (change (S (length t)) with (length ts); apply firstn_all). rewrite FN in HM.
  assert (MK : mark MS ms_final (mkst (length pre + S (length t)) la (Some (steps ms_init ts)) isr nw (words ts) (blanks ts)) =
     mkst (length pre + S (length t)) (if ms_final (steps ms_init ts) then length pre + S (length t) else la) (Some (steps ms_init ts))
       (ms_final (steps ms_init ts) || isr) (if ms_final (steps ms_init ts) then length (words ts) else nw) (words ts) (blanks ts)).
  { unfold mark, mkst. cbn [t_ms t_pos t_tw t_tb]. destruct (ms_final (steps ms_init ts)); reflexivity. }
  rewrite MK. clear MK.
  set (isr' := ms_final (steps ms_init ts) || isr) in *. set (la' := if ms_final (steps ms_init ts) then _ else la) in *. set (nw' := if ms_final (steps ms_init ts) then _ else nw) in *.
  assert (Ei' : items = (pre ++ ts) ++ rest') by (rewrite Ei, Er, <- app_assoc; reflexivity).
  assert (LP : length (pre ++ ts) = length pre + S (length t)) by (rewrite app_length; reflexivity).
  unfold consume. cbn [t_pos mkst]. rewrite <- LP. destruct rest' as [|i rest'].
  - rewrite app_nil_r in Ei', Er. rewrite <- Ei', tok_end. cbn [t_tw].
    assert (Ew : words ts = w :: words t) by reflexivity. rewrite Ew. eexists. split.
    + reflexivity.
    + right. exists pre, w, t, isr', la', nw', (S (length items)). split; [exact Er|]. split; [exact Ei|]. split; [exact HD'|].
      split; [rewrite Er; exact HM|]. rewrite Er. reflexivity.
  - rewrite (tok_at (pre ++ ts) i rest' Ei').
    assert (SC : forall st', st' = mkst (S (length (pre ++ ts))) la' (Some (steps ms_init (ts ++ [i]))) isr' nw' (words (ts ++ [i])) (blanks (ts ++ [i])) ->
       Scan rest st' /\ t_pos MS st' = S (length (pre ++ ts))).
    { intros st' ->. split; [|reflexivity]. exists pre, w, (t ++ [i]), rest', isr', la', nw'. split; [rewrite Er; subst ts; cbn; rewrite <- app_assoc; reflexivity|].
      split; [exact Ei|]. split; [rewrite removelast_firstn'; exact HD'|]. split.
      - rewrite app_length. cbn [length]. rewrite Nat.add_1_r. destruct HM as [[M1 [k [M2 [M3 [M4 [M5 M6]]]]]]|[M1 [M2 M3]]]; [left|right].
        + split; [exact M1|]. exists k. split; [lia|]. split; [exact M3|]. change (W w :: t ++ [i]) with (ts ++ [i]).
          rewrite firstn_app. replace (k - length ts) with 0 by (subst ts; cbn; lia). cbn [firstn]. rewrite app_nil_r. split; [exact M4|]. split; [exact M5|].
          intros j Hj. rewrite firstn_app. replace (j - length ts) with 0 by (subst ts; cbn; lia). cbn [firstn]. rewrite app_nil_r. apply M6, Hj.
        + split; [exact M1|]. split; [exact M2|]. intros j Hj. change (W w :: t ++ [i]) with (ts ++ [i]).
          rewrite firstn_app. replace (j - length ts) with 0 by (subst ts; cbn; lia). cbn [firstn]. rewrite app_nil_r. apply M3, Hj.
      - rewrite LP. rewrite app_length. cbn [length]. unfold mkst. f_equal. lia. }
    destruct i as [v|b]; cbn [tok]; eexists.
    + split; [reflexivity|]. left. apply SC.
      unfold mkst. cbn [t_pos t_last t_ms t_isr t_nw t_tw t_tb option_map]. rewrite words_app, blanks_app, steps_app. cbn. rewrite app_nil_r. reflexivity.
    + split; [reflexivity|]. left. apply SC.
      unfold mkst. cbn [t_pos t_last t_ms t_isr t_nw t_tw t_tb option_map]. rewrite words_app, blanks_app, steps_app. cbn. rewrite app_nil_r. reflexivity.
Qed.

Lemma firstn_words k ts : firstn (length (words (firstn k ts))) (words ts) = words (firstn k ts).
Proof. rewrite <- (firstn_skipn k ts) at 2. rewrite words_app, firstn_app, Nat.sub_diag, firstn_all. cbn. apply app_nil_r. Qed.
Lemma firstn_blanks k ts x : firstn (length (blanks (firstn k ts))) (blanks ts ++ x) = blanks (firstn k ts).
Proof. rewrite <- (firstn_skipn k ts) at 2. rewrite blanks_app, <- app_assoc, firstn_app, Nat.sub_diag, firstn_all. cbn. apply app_nil_r. Qed.

(* resolution of a scan that cannot be continued *)
Lemma resolve rest pre ts rest' w t isr la nw n ms pos x :
  ts = W w :: t -> rest = ts ++ rest' -> items = pre ++ rest -> n <= length ts -> best (length pre) ts n isr la nw ->
  (forall m r, rest = m ++ r -> accepts m -> length m <= n) ->
  (t = [] /\ x = [] \/ (exists b t', t = B b :: t') \/ (t = [] /\ rest' = []) \/
   (exists v t', t = W v :: t' /\ blanks ts ++ x = [])) ->
  dead MS ms_empty (mkst pos la ms isr nw (words ts) (blanks ts ++ x)) = true ->
  (exists o m r st1, rest = m ++ r /\ m <> [] /\ SETTLE (mkst pos la ms isr nw (words ts) (blanks ts ++ x)) = Some (o, st1) /\ Fresh r st1 /\
     (forall o2, RUN r last o2 -> RUN rest last (o ++ o2))) \/
  (SETTLE (mkst pos la ms isr nw (words ts) (blanks ts ++ x)) = None /\
     exists m, (accepts m /\ applyRule bil (words m) (blanks m) = None) \/ defaultWord bil w = None).
Proof.
  intros Ets Er Ei Hn Hb Hmax Hx HD. unfold SETTLE, settle. rewrite HD. cbn [t_isr t_nw t_tw t_tb mkst].
  destruct Hb as [[-> [k [K1 [K2 [K3 [K4 K5]]]]]]|[-> [K2 K3]]].
  - assert (EB : nw - 1 = length (blanks (firstn k ts))) by (rewrite K4, (accepts_len _ K3); lia).
    rewrite EB. rewrite K4, firstn_words, firstn_blanks.
    destruct (applyRule bil (words (firstn k ts)) (blanks (firstn k ts))) as [o|] eqn:EA.
    + left. exists o, (firstn k ts), (skipn k ts ++ rest'). eexists. split; [rewrite app_assoc, firstn_skipn; exact Er|].
      assert (Lk : length (firstn k ts) = k) by (rewrite firstn_length; lia).
      split; [intros K; rewrite K in Lk; cbn in Lk; lia|].
      split; [reflexivity|]. split.
      * exists (pre ++ firstn k ts), [], 0. split; [rewrite Ei, Er, <- app_assoc; f_equal; rewrite app_assoc, firstn_skipn; reflexivity|].
        split; [left; reflexivity|]. rewrite app_length, Lk. cbn. rewrite <- K2. reflexivity.
      * intros o2 H2. rewrite Er. rewrite <- (firstn_skipn k ts) at 1. rewrite <- app_assoc. eapply run_rule.
        -- intros K. rewrite K in Lk. cbn in Lk. lia.
        -- exact K3.
        -- intros m' r' E' A'. rewrite app_assoc, firstn_skipn, <- Er in E'. rewrite Lk. assert (Q := Hmax _ _ E' A').
           destruct (le_lt_dec (length m') k) as [|Hk]; [assumption|]. exfalso. apply (K5 (length m')); [lia|].
           assert (m' = firstn (length m') ts) as <-; [|exact A'].
           assert (Em : firstn (length m') rest = m') by (rewrite E', firstn_app, Nat.sub_diag, firstn_all; cbn; apply app_nil_r).
           rewrite <- Em at 1. rewrite Er, firstn_app. replace (length m' - length ts) with 0 by lia. cbn. apply app_nil_r.
        -- exact EA.
        -- exact H2.
    + right. split; [reflexivity|]. exists (firstn k ts). left. split; assumption.
  - assert (Ew : words ts = w :: words t) by (rewrite Ets; reflexivity). rewrite Ew. cbv beta iota. destruct (defaultWord bil w) as [o|] eqn:EA.
    + left. exists o, [W w], (t ++ rest'). eexists. split; [rewrite Er, Ets; reflexivity|]. split; [discriminate|]. split; [reflexivity|]. split.
      * exists (pre ++ [W w]), (blanks ts ++ x), nw. split; [rewrite Ei, Er, Ets, <- app_assoc; reflexivity|]. split.
        -- destruct Hx as [[-> ->]|[[b [t' ->]]|[[-> ->]|[v [t' [-> Hv]]]]]].
           ++ left. rewrite Ets. reflexivity.
           ++ right. rewrite Ets. cbn. eexists. reflexivity.
           ++ right. exact I.
           ++ left. exact Hv.
        -- rewrite app_length. cbn. rewrite Nat.add_1_r, <- K2. reflexivity.
      * intros o2 H2. rewrite Er, Ets. cbn [app]. apply run_default; [|exact EA|exact H2].
        intros m' r' E' A'. assert (E2 : rest = m' ++ r') by (rewrite Er, Ets; exact E').
        assert (Q := Hmax _ _ E2 A'). apply (K3 (length m')).
        -- split; [|exact Q]. destruct m'; [|cbn; lia]. destruct (H_finw [] A') as [l' [? K]]. destruct l'; discriminate.
        -- assert (Em : firstn (length m') rest = m') by (rewrite E2, firstn_app, Nat.sub_diag, firstn_all; cbn; apply app_nil_r).
           rewrite Er, firstn_app in Em. replace (length m' - length ts) with 0 in Em by lia. cbn in Em. rewrite app_nil_r in Em. rewrite Em. exact A'.
    + right. split; [reflexivity|]. exists []. right. reflexivity.
Qed.

Lemma prefix_cases {A} (a b m r : list A) : a ++ b = m ++ r -> length m <= length a \/ exists y, m = a ++ y.
Proof.
  intros E. destruct (le_lt_dec (length m) (length a)) as [|H]; [left; assumption|right].
  exists (skipn (length a) m). assert (K : firstn (length a) m = a).
  { assert (K2 : firstn (length a) (a ++ b) = firstn (length a) (m ++ r)) by (rewrite E; reflexivity).
    rewrite firstn_app, Nat.sub_diag, firstn_all in K2. cbn in K2. rewrite app_nil_r in K2.
    rewrite firstn_app in K2. replace (length a - length m) with 0 in K2 by lia. cbn in K2. rewrite app_nil_r in K2. symmetry. exact K2. }
  rewrite <- K at 1. symmetry. apply firstn_skipn.
Qed.
Definition Outcome (rest : list item) (st : tst MS) : Prop :=
  (exists o m r st1, rest = m ++ r /\ m <> [] /\ SETTLE st = Some (o, st1) /\ Fresh r st1 /\
     (forall o2, RUN r last o2 -> RUN rest last (o ++ o2))) \/
  (SETTLE st = None /\ ((exists m, accepts m /\ applyRule bil (words m) (blanks m) = None) \/ exists w, defaultWord bil w = None)).
Lemma scan_resolve rest st : Scan rest st -> dead MS ms_empty st = true -> Outcome rest st.
Proof.
  intros [pre [w [t [rest' [isr [la [nw [Er [Ei [Hl [Hb ->]]]]]]]]]]] HD.
  assert (HD' : ms_empty (steps ms_init (W w :: t)) = true) by exact HD.
  destruct (resolve rest pre (W w :: t) rest' w t isr la nw (length t) (Some (steps ms_init (W w :: t))) (length pre + S (length t)) []
    eq_refl Er Ei (le_S _ _ (le_n _)) Hb) as [O|[O1 O2]].
  - intros m r E A. rewrite Er in E. destruct (prefix_cases _ _ _ _ E) as [L|[y ->]].
    + destruct (Nat.eq_dec (length m) (length (W w :: t))) as [Em|]; [|cbn in *; lia]. exfalso.
      assert (m = W w :: t) as ->.
      { assert (K : firstn (length m) ((W w :: t) ++ rest') = firstn (length m) (m ++ r)) by (rewrite E; reflexivity).
        rewrite (firstn_app _ m), Nat.sub_diag, firstn_all in K. cbn [firstn] in K. rewrite app_nil_r in K. rewrite <- K, Em.
        rewrite firstn_app, Nat.sub_diag, firstn_all. cbn. rewrite app_nil_r. reflexivity. }
      apply (dead_no_accept (W w :: t) [] HD'). rewrite app_nil_r. exact A.
    + exfalso. exact (dead_no_accept _ _ HD' A).
  - destruct t as [|[v|b] t]; [left; auto| |right; left; eauto].
    right; right; right. exists v, t. split; [reflexivity|]. destruct t as [|i t]; [reflexivity|].
    exfalso. assert (K : ms_empty (steps ms_init [W w; W v]) = false).
    { destruct (ms_empty (steps ms_init [W w; W v])) eqn:K; [|reflexivity]. 
      change (removelast (W w :: W v :: i :: t)) with ([W w; W v] ++ removelast (i :: t)) in Hl. rewrite steps_app, dead_ext in Hl by exact K. discriminate. }
    apply H_alt in K. inversion K.
  - rewrite app_nil_r. exact HD.
  - rewrite app_nil_r in O. left. exact O.
  - rewrite app_nil_r in O1. right. split; [exact O1|]. destruct O2 as [m [O2|O2]]; eauto.
Qed.
Lemma eof_resolve rest st : EofRead rest st -> Outcome rest st.
Proof.
  intros [pre [w [t [isr [la [nw [pos [Er [Ei [Hl [Hb ->]]]]]]]]]]]. subst rest.
  destruct (resolve (W w :: t) pre (W w :: t) [] w t isr la nw (length (W w :: t)) None pos [last] eq_refl (eq_sym (app_nil_r _)) Ei (le_n _) Hb) as [O|[O1 O2]].
  - intros m r E A. rewrite E, app_length. lia.
  - destruct t as [|[v|b] t]; [right; right; left; auto| |right; left; eauto]. exfalso. apply H_alt in Hl. inversion Hl.
  - reflexivity.
  - left. exact O.
  - right. split; [exact O1|]. destruct O2 as [m [O2|O2]]; eauto.
Qed.

Definition Inv (rest : list item) (st : tst MS) : Prop := Fresh rest st \/ BlankRead rest st \/ Scan rest st \/ EofRead rest st.
Lemma loop_sound : forall f rest st out, Inv rest st -> LOOP f toks st = Some out -> RUN rest last out.
Proof.
  induction f as [|f IH]; intros rest st out HI HL; [discriminate|].
  assert (FR : forall rest st out, Fresh rest st -> LOOP (S f) toks st = Some out -> RUN rest last out).
  { clear rest st out HI HL. intros rest st out HF HL. assert (K := fresh_step rest st HF). destruct rest as [|[w|b] r].
    - rewrite K in HL. injection HL as <-. constructor.
    - destruct K as [st' [E HS]]. rewrite E in HL. eapply IH; [|exact HL]. right; right; left. exact HS.
    - destruct K as [st' [E HS]]. rewrite E in HL. eapply IH; [|exact HL]. right; left. exact HS. }
  assert (OC : Outcome rest st -> RUN rest last out).
  { intros [[o [m [r [st1 [E [Hm [HS [HF HR]]]]]]]]|[HS _]].
    - rewrite (loop_settle f st o st1 HS (fresh_alive _ _ HF)) in HL. destruct (LOOP (S f) toks st1) as [o2|] eqn:E2; [|discriminate].
      cbn in HL. injection HL as <-. apply HR. eapply FR; [exact HF|exact E2].
    - unfold LOOP in HL. cbn [loop] in HL. unfold SETTLE in HS. rewrite HS in HL. discriminate. }
  destruct HI as [HF|[HB|[HS|HE]]].
  - eapply FR; eassumption.
  - assert (HB' := HB). destruct HB as [pre [b [r [nw [rest' [-> _]]]]]]. destruct (blank_step b rest' st HB') as [st1 [HS HF]].
    rewrite (loop_settle f st b st1 HS (fresh_alive _ _ HF)) in HL. destruct (LOOP (S f) toks st1) as [o2|] eqn:E2; [|discriminate].
    cbn in HL. injection HL as <-. apply run_blank. eapply FR; eassumption.
  - destruct (dead MS ms_empty st) eqn:ED.
    + apply OC, scan_resolve; assumption.
    + destruct (scan_step rest st HS ED) as [st' [E [[HS' _]|HE]]]; rewrite E in HL; (eapply IH; [|exact HL]); unfold Inv; auto.
  - apply OC, eof_resolve, HE.
Qed.

Hypothesis H_bil : forall w, acceptions (bil w) <> None.
Lemma default_total w : defaultWord bil w <> None.
Proof. unfold defaultWord. destruct (bil w) eqn:E; [discriminate|]. rewrite <- E. specialize (H_bil w). destruct (acceptions (bil w)); [discriminate|congruence]. Qed.
Lemma rule_total m : accepts m -> applyRule bil (words m) (blanks m) <> None.
Proof.
  intros A. assert (L := accepts_len m A). unfold applyRule.
  destruct (opt_map (fun w => acceptions (bil w)) (words m)) as [Ts|] eqn:E.
  - apply opt_map_spec in E. rewrite writeMultiple_spec; [discriminate|eapply Forall2_ne, E|]. apply Forall2_len in E. lia.
  - exfalso. clear L A. revert E. induction (words m) as [|w l IH]; [discriminate|]. cbn. specialize (H_bil w). destruct (acceptions (bil w)); [|congruence].
    destruct (opt_map _ l); [discriminate|]. intros _. apply IH. reflexivity.
Qed.
Lemma loop_ends : forall n rest st, length rest <= n -> Inv rest st -> exists f out, LOOP f toks st = Some out.
Proof.
  induction n as [n IHn] using lt_wf_ind. intros rest st Hn HI.
  assert (OC : forall rest st, length rest <= n -> (forall r st1, length r < n -> Fresh r st1 -> exists f out, LOOP f toks st1 = Some out) -> Outcome rest st -> exists f out, LOOP f toks st = Some out).
  { clear rest st Hn HI IHn. intros rest st Hn HF [[o [m [r [st1 [E [Hm [HS [HF1 _]]]]]]]]|[HS K]].
    - destruct (HF r st1) as [f [out E2]]; [|exact HF1|].
      { apply (f_equal (@length item)) in E. rewrite app_length in E. destruct m; [congruence|]. cbn in E. lia. }
      destruct f as [|f]; [discriminate|]. exists (S f). rewrite (loop_settle f st o st1 HS (fresh_alive _ _ HF1)), E2. eexists. reflexivity.
    - exfalso. destruct K as [[m [A K]]|[w K]]; [exact (rule_total m A K)|exact (default_total w K)]. }
  assert (SC : forall k rest st, length rest <= n -> length items - t_pos MS st <= k -> (forall r st1, length r < n -> Fresh r st1 -> exists f out, LOOP f toks st1 = Some out) ->
      Scan rest st -> exists f out, LOOP f toks st = Some out).
  { clear rest st Hn HI IHn. induction k as [|k IHk]; intros rest st Hn Hk HF HS;
    (destruct (dead MS ms_empty st) eqn:ED; [apply (OC rest st Hn HF), scan_resolve; assumption|]);
    destruct (scan_step rest st HS ED) as [st' [E1 [[HS' P]|HE]]].
    - exfalso. assert (t_pos MS st' <= length items); [|lia].
      destruct HS' as [pre [w [t [rest' [isr [la [nw [Er [Ei [_ [_ ->]]]]]]]]]]]. cbn. rewrite Ei, Er, !app_length. cbn. lia.
    - destruct (OC rest st' Hn HF (eof_resolve _ _ HE)) as [f [out E]]. exists (S f), out. rewrite E1. exact E.
    - assert (t_pos MS st' <= length items).
      { destruct HS' as [pre [w [t [rest' [isr [la [nw [Er [Ei [_ [_ ->]]]]]]]]]]]. cbn. rewrite Ei, Er, !app_length. cbn. lia. }
      destruct (IHk rest st' Hn ltac:(lia) HF HS') as [f [out E]]. exists (S f), out. rewrite E1. exact E.
    - destruct (OC rest st' Hn HF (eof_resolve _ _ HE)) as [f [out E]]. exists (S f), out. rewrite E1. exact E. }
  assert (FR : forall r st1, length r < n -> Fresh r st1 -> exists f out, LOOP f toks st1 = Some out).
  { intros r st1 Hr HF. eapply (IHn (length r)); [exact Hr|reflexivity|left; exact HF]. }
  assert (BL : forall rest st, length rest <= n -> BlankRead rest st -> exists f out, LOOP f toks st = Some out).
  { intros rest0 st0 Hr HB. assert (HB' := HB). destruct HB as [pre [b [r [nw [rest' [-> _]]]]]]. destruct (blank_step b rest' st0 HB') as [st1 [HS HF]].
    destruct (FR rest' st1) as [f [out E]]; [cbn in Hr; lia|exact HF|]. destruct f as [|f]; [discriminate|]. exists (S f).
    rewrite (loop_settle f st0 b st1 HS (fresh_alive _ _ HF)), E. eexists. reflexivity. }
  destruct HI as [HF|[HB|[HS|HE]]].
  - assert (K := fresh_step rest st HF). destruct rest as [|[w|b] r].
    + exists 1, last. apply K.
    + destruct K as [st' [E HS]]. destruct (SC _ _ _ Hn (le_n _) FR HS) as [f [out E2]]. exists (S f), out. rewrite E. exact E2.
    + destruct K as [st' [E HS]]. destruct (BL _ _ Hn HS) as [f [out E2]]. exists (S f), out. rewrite E. exact E2.
  - apply (BL _ _ Hn HB).
  - apply (SC _ _ _ Hn (le_n _) FR HS).
  - apply (OC rest st Hn FR), eof_resolve, HE.
Qed.
End Loop.

Lemma run_functional (accepts : list item -> Prop) (rule : list str -> list str -> str -> Prop) (default : str -> str -> Prop) : (forall ws bs a b, rule ws bs a -> rule ws bs b -> a = b) -> (forall w a b, default w a -> default w b -> a = b) ->
  (forall l, accepts l -> exists w t, l = W w :: t) ->
  forall items last o1, Run accepts rule default items last o1 -> forall o2, Run accepts rule default items last o2 -> o1 = o2.
Proof.
  intros FR FD FA items last o1 H. induction H as [last|b r last o H IH|m r last o1 o2 Hm HA HX HR H IH|w r last o1 o2 HN HD H IH]; intros o' H'.
  - inversion H' as [| |m r0 ? ? ? K1 K2 K3 K4 K5 E1|]; subst; [reflexivity|]. destruct (FA m K2) as [w [t ->]]. discriminate.
  - inversion H' as [|? ? ? ? K|m r0 ? ? ? K1 K2 K3 K4 K5|]; subst; [f_equal; apply IH; assumption|].
    destruct (FA m K2) as [w [t ->]]. discriminate.
  - destruct (FA m HA) as [w [t ->]]. cbn [app] in H'. inversion H' as [| |m r0 ? oa ob K1 K2 K3 K4 K5 E1|? ? ? oa ob K1 K2 K3]; subst.
    + change (W w :: t ++ r) with ((W w :: t) ++ r) in E1.
      assert (L : length m = length (W w :: t)). { assert (A1 := HX _ _ (eq_sym E1) K2). assert (A2 := K3 _ _ E1 HA). lia. }
      assert (E : m = W w :: t /\ r0 = r).
      { revert L E1. generalize (W w :: t). clear. induction m as [|x m IH]; intros [|y l] L E; cbn in *; try lia; [auto|].
        injection E as -> E. destruct (IH l ltac:(lia) E) as [-> ->]. auto. }
      destruct E as [-> ->]. rewrite (FR _ _ _ _ HR K4). f_equal. apply IH, K5.
    + exfalso. eapply K1; [|exact HA]. reflexivity.
  - inversion H' as [| |m r0 ? oa ob K1 K2 K3 K4 K5 E1|? ? ? oa ob K1 K2 K3]; subst.
    + exfalso. eapply HN; [symmetry; exact E1|exact K2].
    + rewrite (FD _ _ _ HD K2). f_equal. apply IH, K3.
Qed.
