From Coq Require Import Sorted.
From Verif Require Import Model.Base Proofs.Base Model.Regex Spec.Regex.

Lemma trie_ind' (P : trie -> Prop) : (forall c e next, Forall P next -> P (Node c e next)) -> forall t, P t.
Proof.
  intros H. fix IH 1. intros [c e next]. apply H. induction next as [|n r IHr]; constructor; [apply IH|exact IHr].
Qed.

Definition metas : list char := [cBS; cCARET; cDOL; cPIPE; cLP; cRP; cLB; cRB; cLC; cRC].
Definition okc (c : char) : Prop := ~ In c metas.
Definition okl (c : char) : Prop := okc c /\ c <> cDASH /\ c <> cAMP.
Inductive WF0 : trie -> Prop :=
  WF0_i c e next : okc c -> NoDup (map t_c next) -> Forall (fun n => WF0 n /\ (t_next n = [] -> t_fin n = true)) next ->
    (forall n, In n next -> leaf n = true -> okl (t_c n)) -> WF0 (Node c e next).
Definition WF (t : trie) : Prop := WF0 t /\ (t_next t = [] -> t_fin t = true).

(** ** the language of a trie *)
Fixpoint child (x : char) (next : list trie) : option trie :=
  match next with [] => None | n :: r => if t_c n =?c x then Some n else child x r end.
Fixpoint acc (t : trie) (w : str) : Prop :=
  match w with [] => t_fin t = true | x :: w' => match child x (t_next t) with Some n => acc n w' | None => False end end.
Fixpoint trest (t : trie) (s : str) {struct s} : list str :=
  (match s with [] => [] | x :: s' => match child x (t_next t) with Some n => trest n s' | None => [] end end) ++ (if t_fin t then [s] else []).
Definition tms (t : trie) (s : str) : list str := match s with [] => [] | x :: s' => if x =?c t_c t then trest t s' else [] end.

Lemma child_at_child f x c next : (forall n, t_c (f n) = t_c n) ->
  child x (at_child f c next) = if c =?c x then Some (f (match child c next with Some n => n | None => Node c false [] end)) else child x next.
Proof.
  intros Hf. induction next as [|n r IH]; cbn [at_child child].
  - rewrite Hf. cbn [t_c]. destruct (c =?c x); reflexivity.
  - destruct (t_c n =?c c) eqn:E.
    + cbn [child]. rewrite Hf. apply ceq_eq in E. rewrite E. destruct (c =?c x); reflexivity.
    + cbn [child]. destruct (t_c n =?c x) eqn:E2.
      * destruct (c =?c x) eqn:E3; [|reflexivity]. apply ceq_eq in E2, E3. apply ceq_neq in E. congruence.
      * exact IH.
Qed.
Lemma ins_c w t : t_c (ins w t) = t_c t.
Proof. destruct w; reflexivity. Qed.
Lemma acc_ins w : forall t v, acc (ins w t) v <-> v = w \/ acc t v.
Proof.
  induction w as [|c w IH]; intros t v.
  - destruct v as [|x v]; cbn [ins acc t_fin t_next]; [split; [left; reflexivity|reflexivity]|]. split; [right; assumption|]. intros [H|H]; [discriminate|exact H].
  - destruct v as [|x v]; cbn [ins acc t_fin t_next].
    + split; [right; assumption|]. intros [H|H]; [discriminate|exact H].
    + rewrite child_at_child by apply ins_c. destruct (c =?c x) eqn:E.
      * apply ceq_eq in E; subst x. rewrite IH. split.
        -- intros [->|H]; [left; reflexivity|]. right. destruct (child c (t_next t)); [exact H|]. destruct v; cbn in H; [discriminate|contradiction].
        -- intros [H|H]; [left; congruence|]. right. destruct (child c (t_next t)); [exact H|contradiction].
      * apply ceq_neq in E. split; [right; assumption|]. intros [H|H]; [congruence|exact H].
Qed.
Lemma trest_In s : forall t r, In r (trest t s) <-> exists w, s = w ++ r /\ acc t w.
Proof.
  induction s as [|x s IH]; intros t r; cbn [trest].
  - cbn [app]. destruct (t_fin t) eqn:E; split.
    + intros [<-|[]]. exists []. auto.
    + intros [w [H1 H2]]. symmetry in H1. apply app_eq_nil in H1 as [-> ->]. left; reflexivity.
    + intros [].
    + intros [w [H1 H2]]. symmetry in H1. apply app_eq_nil in H1 as [-> ->]. cbn in H2. congruence.
  - rewrite in_app_iff. split.
    + intros [H|H].
      * destruct (child x (t_next t)) as [n|] eqn:E; [|destruct H]. apply IH in H as [w [-> Hw]]. exists (x :: w). split; [reflexivity|]. cbn [acc]. rewrite E. exact Hw.
      * destruct (t_fin t) eqn:E; [|destruct H]. destruct H as [<-|[]]. exists []. auto.
    + intros [w [H1 H2]]. destruct w as [|y w].
      * cbn in H1, H2. rewrite H2. right. left. exact H1.
      * injection H1 as <- ->. cbn [acc] in H2. left. destruct (child x (t_next t)) as [n|]; [|contradiction]. apply IH. exists w. auto.
Qed.
Definition shorter (a b : str) : Prop := length a < length b.
Lemma trest_sorted s : forall t, StronglySorted shorter (trest t s).
Proof.
  induction s as [|x s IH]; intros t; cbn [trest].
  - destruct (t_fin t); cbn; repeat constructor.
  - set (a := match child x (t_next t) with Some n => trest n s | None => [] end).
    assert (Ha : StronglySorted shorter a) by (unfold a; destruct (child x (t_next t)); [apply IH|constructor]).
    assert (Hl : forall r, In r a -> length r <= length s).
    { intros r Hr. unfold a in Hr. destruct (child x (t_next t)); [|destruct Hr]. apply trest_In in Hr as [w [-> _]]. rewrite app_length. lia. }
    destruct (t_fin t); [|rewrite app_nil_r; exact Ha]. clearbody a.
    induction Ha as [|r a Hs IHa Hf]; cbn [app]; [repeat constructor|]. constructor; [apply IHa; intros; apply Hl; right; assumption|].
    apply Forall_app. split; [exact Hf|]. constructor; [|constructor]. unfold shorter. cbn [length]. specialize (Hl r (or_introl eq_refl)). lia.
Qed.

(** ** parsing what unbuildTrie writes *)
Definition run (s : str) (st : pst) : option pst := fold_left pstep s (Some st).
Lemma run_app a b st : run (a ++ b) st = match run a st with Some st' => run b st' | None => None end.
Proof.
  unfold run. rewrite fold_left_app. destruct (fold_left pstep a (Some st)); [reflexivity|].
  induction b as [|c b IH]; cbn [fold_left]; [reflexivity|]. exact IH.
Qed.
Lemma okc_ne c x : okc c -> In x metas -> (c =?c x) = false.
Proof. intros H Hx. apply ceq_neq. intros ->. exact (H Hx). Qed.
Ltac okc_tac H := repeat match goal with |- context[?c =?c ?x] =>
   rewrite (okc_ne c x H) by (unfold metas; cbn [In]; tauto) end.
Lemma run_quote c stk f : okc c -> run (quote c) (stk, f, PN) = Some (stk, push f (Chr c), PN).
Proof.
  intros H. unfold quote, run.
  destruct (c =?c cPLUS) eqn:E1; [reflexivity|]. destruct (c =?c cSTAR) eqn:E2; [reflexivity|].
  destruct (c =?c cQM) eqn:E3; [reflexivity|]. destruct (c =?c cDOT) eqn:E4; [reflexivity|].
  cbn [orb fold_left pstep]. unfold pnormal. rewrite E1, E2, E3, E4.
  rewrite !(okc_ne c _ H) by (unfold metas; cbn [In]; tauto). reflexivity.
Qed.
Lemma quote_ne c : exists x r, quote c = x :: r.
Proof. unfold quote. destruct (_ || _); eauto. Qed.
Lemma run_class_items cs stk f neg : Forall okl cs -> forall l,
  run (flat_map quote cs) (stk, f, PC neg l) = Some (stk, f, PC neg (rev (map (fun c => (c, c)) cs) ++ l)).
Proof.
  induction 1 as [|c cs [H1 [H2 H3]] Hf IH]; intros l; cbn [flat_map map rev]; [reflexivity|].
  rewrite run_app.
  assert (E : run (quote c) (stk, f, PC neg l) = Some (stk, f, PC neg ((c, c) :: l))).
  { unfold quote, run.
    destruct (c =?c cPLUS) eqn:E1; [reflexivity|]. destruct (c =?c cSTAR) eqn:E2; [reflexivity|].
    destruct (c =?c cQM) eqn:E3; [reflexivity|]. destruct (c =?c cDOT) eqn:E4; [reflexivity|].
    cbn [orb fold_left pstep]. unfold pclass.
    rewrite !(okc_ne c _ H1) by (unfold metas; cbn [In]; tauto).
    apply ceq_neq in H2, H3. rewrite H2, H3. reflexivity. }
  rewrite E, IH, <- app_assoc. reflexivity.
Qed.
Lemma run_class c cs stk f : Forall okl (c :: cs) ->
  run (cLB :: flat_map quote (c :: cs) ++ [cRB]) (stk, f, PN) = Some (stk, push f (Cls false (rev (map (fun c => (c, c)) (c :: cs)))), PN).
Proof.
  intros H. change (cLB :: flat_map quote (c :: cs) ++ [cRB]) with ([cLB] ++ flat_map quote (c :: cs) ++ [cRB]).
  rewrite run_app. change (run [cLB] (stk, f, PN)) with (Some (stk, f, PC0)).
  assert (E : run (flat_map quote (c :: cs) ++ [cRB]) (stk, f, PC0) = run (flat_map quote (c :: cs) ++ [cRB]) (stk, f, PC false [])).
  { unfold run. destruct (quote_ne c) as [x [r E]]. cbn [flat_map]. rewrite E. cbn [app fold_left pstep].
    assert (x =?c cCARET = false) as ->; [|reflexivity].
    inversion H as [|? ? [Hc _] _]; subst. unfold quote in E. destruct (_ || _).
    - injection E as <- _. reflexivity.
    - injection E as <- _. apply okc_ne; [exact Hc|unfold metas; cbn [In]; tauto]. }
  cbv beta iota. rewrite E, run_app, run_class_items by exact H. rewrite app_nil_r. cbn [map rev]. unfold run. cbn [fold_left pstep]. unfold pclass.
  change (cRB =?c cRB) with true. cbv iota. destruct (rev (map (fun c0 => (c0, c0)) cs) ++ [(c, c)]) eqn:K; [|reflexivity].
  destruct (rev (map (fun c0 : char => (c0, c0)) cs)); discriminate.
Qed.
Lemma in_range_eq x c : in_range x (c, c) = (c =?c x).
Proof.
  unfold in_range, ceq. cbn [fst snd]. destruct (N.eqb c x) eqn:E.
  - apply N.eqb_eq in E. subst. rewrite !N.leb_refl. reflexivity.
  - apply N.eqb_neq in E. destruct (c <=? x)%N eqn:E1; [|reflexivity]. destruct (x <=? c)%N eqn:E2; [|reflexivity].
    apply N.leb_le in E1, E2. exfalso. apply E. apply N.le_antisymm; assumption.
Qed.
Lemma ms_class cs s : ms (Cls false (rev (map (fun c => (c, c)) cs))) s =
  match s with x :: s' => if mem x cs then [s'] else [] | [] => [] end.
Proof.
  cbn [ms]. destruct s as [|x s]; [reflexivity|]. rewrite xorb_false_l.
  assert (E : existsb (in_range x) (rev (map (fun c => (c, c)) cs)) = mem x cs).
  { apply Bool.eq_iff_eq_true. rewrite existsb_exists, mem_In. split.
    - intros [p [H1 H2]]. apply in_rev, in_map_iff in H1 as [c [<- H1]]. rewrite in_range_eq in H2. apply ceq_eq in H2. subst. exact H1.
    - intros H. exists (x, x). split; [rewrite <- in_rev; apply in_map_iff; eauto|]. rewrite in_range_eq. apply ceq_refl. }
  rewrite E. reflexivity.
Qed.
Lemma ms_seqr_app a b s : ms (seqr (a ++ b)) s = flat_map (ms (seqr a)) (ms (seqr b) s).
Proof.
  revert s. induction a as [|r a IH]; intros s; cbn [app seqr].
  - induction (ms (seqr b) s) as [|x l IHl]; cbn; [reflexivity|]. f_equal. exact IHl.
  - cbn [ms]. rewrite IH. induction (ms (seqr b) s) as [|x l IHl]; cbn [flat_map]; [reflexivity|]. rewrite flat_map_app, IHl. reflexivity.
Qed.
Lemma ms_seqr1 r s : ms (seqr [r]) s = ms r s.
Proof. cbn [seqr ms flat_map]. apply app_nil_r. Qed.

(** a group text and the sequence it is parsed to *)
Definition PG (g : str) (items : list re) : Prop :=
  (exists x r, g = x :: r /\ x <> cLP /\ x <> cQM) /\ (length g = 1 -> exists r, items = [r]) /\
  forall stk f, run g (stk, f, PN) = Some (stk, (fst f, items ++ snd f), PN).
Lemma join_run gs its : Forall2 PG gs its -> gs <> [] -> forall o,
  exists o' it, (forall stk, run (join_alt gs) (stk, (o, []), PN) = Some (stk, (o', it), PN)) /\
    forall s, ms (close (o', it)) s = (match o with None => [] | Some a => ms a s end) ++ flat_map (fun it => ms (seqr it) s) its.
Proof.
  induction 1 as [|g it gs its [_ [_ Hg]] H IH]; intros Hne o; [congruence|].
  destruct gs as [|g2 gs].
  - inversion H; subst. cbn [join_alt]. exists o, it. split; [intros stk; rewrite Hg; cbn [fst snd]; rewrite app_nil_r; reflexivity|].
    intros s. unfold close. cbn [fst snd flat_map]. rewrite app_nil_r. destruct o; reflexivity.
  - change (join_alt (g :: g2 :: gs)) with (g ++ [cPIPE] ++ join_alt (g2 :: gs)). 
    destruct (IH ltac:(discriminate) (Some (close (o, it)))) as [o' [it' [E1 E2]]]. exists o', it'. split.
    { intros stk. rewrite run_app, Hg, run_app. cbn [fst snd]. rewrite app_nil_r.
      change (run [cPIPE] (stk, (o, it), PN)) with (Some (stk, (Some (close (o, it)), @nil re), PN)). apply E1. }
    intros s. rewrite E2. unfold close. cbn [fst snd flat_map]. destruct o; cbn [ms app]; rewrite ?app_assoc; reflexivity.
Qed.
Lemma run_group b stk f o' it : (forall stk, run b (stk, (None, []), PN) = Some (stk, (o', it), PN)) ->
  run (cLP :: cQM :: cCOLON :: b ++ [cRP]) (stk, f, PN) = Some (stk, push f (close (o', it)), PN).
Proof.
  intros H. change (cLP :: cQM :: cCOLON :: b ++ [cRP]) with ([cLP; cQM; cCOLON] ++ b ++ [cRP]). rewrite run_app.
  change (run [cLP; cQM; cCOLON] (stk, f, PN)) with (Some (f :: stk, (@None re, @nil re), PN)). cbv beta iota. rewrite run_app, H. reflexivity.
Qed.
Lemma run_opt stk o r l : run [cQM] (stk, (o, r :: l), PN) = Some (stk, (o, Opt r :: l), PN).
Proof. reflexivity. Qed.

(** ** the main lemma *)
Lemma trest_leaf n s : leaf n = true -> trest n s = [s].
Proof.
  destruct n as [c e nx]. unfold leaf. cbn [t_fin t_next]. intros H. apply andb_prop in H as [-> H]. destruct nx; [|discriminate].
  destruct s; reflexivity.
Qed.
Lemma child_None x next : ~ In x (map t_c next) -> child x next = None.
Proof.
  induction next as [|n r IH]; cbn [map child]; intros H; [reflexivity|]. destruct (t_c n =?c x) eqn:E.
  - apply ceq_eq in E. exfalso. apply H. left. exact E.
  - apply IH. intros K. apply H. right. exact K.
Qed.
Definition below (next : list trie) (s : str) : list str :=
  match s with [] => [] | x :: s' => match child x next with Some n => trest n s' | None => [] end end.
Lemma below_groups next s : NoDup (map t_c next) ->
  flat_map (fun n => tms n s) (filter (fun n => negb (leaf n)) next) ++
  (match s with [] => [] | x :: s' => if mem x (map t_c (filter leaf next)) then [s'] else [] end) = below next s.
Proof.
  intros Hd. destruct s as [|x s]; cbn [below tms].
  - rewrite app_nil_r. induction (filter _ next) as [|n l IH]; [reflexivity|]. exact IH.
  - induction next as [|n r IH]; [reflexivity|]. cbn [map] in Hd. inversion Hd as [|? ? Hn Hr]; subst. specialize (IH Hr).
    cbn [filter child]. destruct (leaf n) eqn:El; cbn [negb].
    + cbn [map]. destruct (t_c n =?c x) eqn:E.
      * apply ceq_eq in E. rewrite (trest_leaf n s El). assert (M : mem x (t_c n :: map t_c (filter leaf r)) = true) by (apply mem_In; left; exact E).
        rewrite M. assert (Z : flat_map (fun n0 => if x =?c t_c n0 then trest n0 s else []) (filter (fun n0 => negb (leaf n0)) r) = []).
        { clear -Hn E. subst x. induction r as [|m r IH]; [reflexivity|]. cbn [filter]. cbn [map] in Hn.
          assert (IH' := IH (fun K => Hn (or_intror K))). destruct (negb (leaf m)); [|exact IH']. cbn [flat_map]. rewrite IH', app_nil_r.
          destruct (t_c n =?c t_c m) eqn:E2; [|reflexivity]. apply ceq_eq in E2. exfalso. apply Hn. left. congruence. }
        rewrite Z. reflexivity.
      * rewrite <- IH. f_equal. unfold mem. cbn [existsb]. unfold ceq in E. rewrite N.eqb_sym, E. reflexivity.
    + cbn [flat_map]. destruct (t_c n =?c x) eqn:E.
      * assert (E' := E). apply ceq_eq in E'. rewrite E', ceq_refl. rewrite (child_None x r) in IH by (rewrite <- E'; exact Hn).
        rewrite <- app_assoc, IH. apply app_nil_r.
      * assert (E' : (x =?c t_c n) = false) by (apply ceq_neq in E; apply ceq_neq; congruence). rewrite E'. exact IH.
Qed.
Definition groups (next : list trie) : list str :=
  let singles := flat_map (fun it => if leaf it then quote (t_c it) else []) next in
  let count := length (filter leaf next) in
  let groups0 := flat_map (fun it => if leaf it then [] else [unbuildTrie it]) next in
  if count =? 0 then groups0 else if count =? 1 then groups0 ++ [singles] else groups0 ++ [cLB :: singles ++ [cRB]].
Lemma unbuild_eq c fin next : unbuildTrie (Node c fin next) = quote c ++
  match groups next with
  | [] => []
  | [g] => (if fin && (1 <? length g) && negb (match g with c0 :: _ => c0 =?c cLP | [] => false end)
            then cLP :: cQM :: cCOLON :: g ++ [cRP] else g) ++ (if fin then [cQM] else [])
  | _ => cLP :: cQM :: cCOLON :: join_alt (groups next) ++ [cRP] ++ (if fin then [cQM] else [])
  end.
Proof. reflexivity. Qed.
Lemma singles_eq next : flat_map (fun it => if leaf it then quote (t_c it) else []) next = flat_map quote (map t_c (filter leaf next)).
Proof. induction next as [|n r IH]; cbn; [reflexivity|]. destruct (leaf n); cbn; rewrite IH; reflexivity. Qed.
Lemma groups0_eq next : flat_map (fun it => if leaf it then [] else [unbuildTrie it]) next = map unbuildTrie (filter (fun n => negb (leaf n)) next).
Proof. induction next as [|n r IH]; cbn; [reflexivity|]. destruct (leaf n); cbn; rewrite IH; reflexivity. Qed.

Lemma groups_ne next : next <> [] -> groups next <> [].
Proof.
  unfold groups. rewrite singles_eq, groups0_eq. intros Hn. destruct (length (filter leaf next) =? 0) eqn:E.
  - apply Nat.eqb_eq, length_zero_iff_nil in E. destruct next as [|n r]; [congruence|]. cbn [filter] in *. destruct (leaf n); [discriminate|]. discriminate.
  - destruct (_ =? 1); intros K; apply app_eq_nil in K as [_ K]; discriminate.
Qed.

Definition parsed (t : trie) : Prop := exists items, PG (unbuildTrie t) items /\ forall s, ms (seqr items) s = tms t s.

Lemma PG_quote c : okc c -> c <> cQM -> PG (quote c) [Chr c].
Proof.
  intros H Hq. split; [|split].
  - destruct (quote_ne c) as [x [r E]]. exists x, r. split; [exact E|]. unfold quote in E. destruct (_ || _); injection E as <- _.
    + split; discriminate.
    + split; [|exact Hq]. intros ->. apply H. unfold metas. cbn [In]. tauto.
  - eauto.
  - intros stk f. rewrite run_quote by exact H. reflexivity.
Qed.
Lemma PG_quote' c : okc c -> PG (quote c) [Chr c].
Proof.
  intros H. destruct (N.eq_dec c cQM) as [->|n]; [|apply PG_quote; assumption]. split; [|split].
  - exists cBS, [cQM]. repeat split; discriminate.
  - discriminate.
  - reflexivity.
Qed.

Lemma groups_parsed next : NoDup (map t_c next) -> (forall n, In n next -> leaf n = true -> okl (t_c n)) ->
  Forall (fun n => leaf n = false -> parsed n) next ->
  exists its, Forall2 PG (groups next) its /\ forall s, flat_map (fun it => ms (seqr it) s) its = below next s.
Proof.
  intros Hd Hl Hp. unfold groups. rewrite singles_eq, groups0_eq.
  assert (G0 : exists its, Forall2 PG (map unbuildTrie (filter (fun n => negb (leaf n)) next)) its /\
     forall s, flat_map (fun it => ms (seqr it) s) its = flat_map (fun n => tms n s) (filter (fun n => negb (leaf n)) next)).
  { clear -Hp. induction Hp as [|n r H Hp IH]; cbn [filter map]; [exists []; split; [constructor|reflexivity]|].
    destruct IH as [its [I1 I2]]. destruct (leaf n) eqn:E; cbn [negb map]; [exists its; auto|].
    destruct (H eq_refl) as [items [P1 P2]]. exists (items :: its). split; [constructor; assumption|]. intros s. cbn [flat_map]. rewrite P2, I2. reflexivity. }
  destruct G0 as [its [I1 I2]].
  assert (HL : Forall okl (map t_c (filter leaf next))).
  { apply Forall_forall. intros c Hc. apply in_map_iff in Hc as [n [<- Hn]]. apply filter_In in Hn as [Hn1 Hn2]. auto. }
  destruct (map t_c (filter leaf next)) as [|c [|c2 cs]] eqn:El; rewrite <- (map_length t_c), El; cbn [length Nat.eqb].
  - exists its. split; [exact I1|]. intros s. rewrite I2, <- (below_groups next s Hd), El. destruct s; cbn; rewrite app_nil_r; reflexivity.
  - exists (its ++ [[Chr c]]). split.
    + apply Forall2_app; [exact I1|]. constructor; [|constructor]. cbn [flat_map]. rewrite app_nil_r. apply PG_quote'. inversion HL as [|? ? [K _] _]; exact K.
    + intros s. rewrite flat_map_app, I2, <- (below_groups next s Hd), El. f_equal. cbn [flat_map]. rewrite app_nil_r, ms_seqr1.
      destruct s as [|x s]; [reflexivity|]. cbn [ms]. unfold mem. cbn [existsb]. rewrite orb_false_r. reflexivity.
  - exists (its ++ [[Cls false (rev (map (fun c => (c, c)) (c :: c2 :: cs)))]]). split.
    + apply Forall2_app; [exact I1|]. constructor; [|constructor]. split; [|split].
      * eexists cLB, _. split; [reflexivity|split; discriminate].
      * eauto.
      * intros stk f. rewrite run_class by exact HL. reflexivity.
    + intros s. rewrite flat_map_app, I2, <- (below_groups next s Hd), El. f_equal. cbn [flat_map]. rewrite app_nil_r, ms_seqr1, ms_class. reflexivity.
Qed.

Lemma ms_node c items G : (forall s, ms (seqr items) s = G s) ->
  forall s, ms (seqr (items ++ [Chr c])) s = match s with [] => [] | x :: s' => if x =?c c then G s' else [] end.
Proof.
  intros H s. rewrite ms_seqr_app, ms_seqr1. cbn [ms]. destruct s as [|x s]; [reflexivity|]. destruct (x =?c c); [|reflexivity].
  cbn [flat_map]. rewrite app_nil_r. apply H.
Qed.
Lemma trest_below t s : trest t s = below (t_next t) s ++ (if t_fin t then [s] else []).
Proof. destruct s; reflexivity. Qed.
Lemma tms_Node c fin next s : tms (Node c fin next) s = match s with [] => [] | x :: s' => if x =?c c then below next s' ++ (if fin then [s'] else []) else [] end.
Proof. destruct s as [|x s]; [reflexivity|]. cbn [tms t_c]. rewrite trest_below. reflexivity. Qed.

Lemma PG_cons c t items' : okc c -> t <> [] -> items' <> [] -> (forall stk f, run t (stk, f, PN) = Some (stk, (fst f, items' ++ snd f), PN)) ->
  PG (quote c ++ t) (items' ++ [Chr c]).
Proof.
  intros Hc Ht Hi Hr. destruct (PG_quote' c Hc) as [[x [r [E [E1 E2]]]] [_ Hq]]. split; [|split].
  - rewrite E. exists x, (r ++ t). auto.
  - rewrite E. cbn [app length]. rewrite app_length. destruct t; [congruence|]. cbn [length]. lia.
  - intros stk f. rewrite run_app, Hq, Hr. cbn [fst snd]. rewrite <- app_assoc. reflexivity.
Qed.

Lemma unbuild_parsed t : WF0 t -> (t_next t <> [] \/ t_fin t = true) -> parsed t.
Proof.
  induction t as [c fin next IH] using trie_ind'. intros H Hne. inversion H as [? ? ? Hc Hd Hf Hl]; subst. cbn [t_next t_fin] in Hne.
  destruct (groups_parsed next Hd Hl) as [its [G1 G2]].
  { rewrite Forall_forall in *. intros n Hn Hlf. destruct (Hf n Hn) as [W1 W2]. apply (IH n Hn W1).
    destruct (t_next n) eqn:E; [right; apply W2; reflexivity|left; discriminate]. }
  unfold parsed. rewrite unbuild_eq. remember (groups next) as GG eqn:EG. destruct G1 as [|g it gs its0 Pg Gs].
  - (* no group *)
    rewrite app_nil_r. exists [Chr c]. split; [apply PG_quote', Hc|]. intros s. rewrite ms_seqr1, tms_Node. cbn [ms].
    destruct s as [|x s]; [reflexivity|]. destruct (x =?c c); [|reflexivity]. rewrite <- (G2 s). cbn [flat_map app].
    destruct fin; [reflexivity|]. exfalso. destruct Hne as [Hne|Hne]; [|discriminate].
    exact (groups_ne next Hne (eq_sym EG)).
  - destruct Gs as [|g2 it2 gs its1 Pg2 Gs].
    + (* one group *)
      assert (G2' : forall s, ms (seqr it) s = below next s) by (intros s; rewrite <- G2; cbn [flat_map]; rewrite app_nil_r; reflexivity).
      destruct Pg as [[x [r [Eg [Ex1 Ex2]]]] [P1 P2]].
      destruct fin; cbn [andb].
      * destruct (1 <? length g) eqn:Elen.
        -- assert (negb match g with c0 :: _ => c0 =?c cLP | [] => false end = true) as ->.
           { rewrite Eg. apply ceq_neq in Ex1. rewrite Ex1. reflexivity. }
           assert (R : forall stk f, run ((cLP :: cQM :: cCOLON :: g ++ [cRP]) ++ [cQM]) (stk, f, PN) = Some (stk, (fst f, [Opt (seqr it)] ++ snd f), PN)).
           { intros stk f. rewrite run_app, (run_group g stk f None it).
             - apply run_opt.
             - intros stk'. rewrite P2. cbn [fst snd]. rewrite app_nil_r. reflexivity. }
           exists ([Opt (seqr it)] ++ [Chr c]). split; [apply PG_cons; [exact Hc|discriminate|discriminate|exact R]|].
           intros s. rewrite (ms_node c _ (fun s => below next s ++ [s])), tms_Node; [reflexivity|].
           intros s'. rewrite ms_seqr1. cbn [ms]. rewrite G2'. reflexivity.
        -- assert (L1 : length g = 1) by (rewrite Eg in *; cbn [length] in *; apply Nat.ltb_ge in Elen; lia).
           destruct (P1 L1) as [r0 ->].
           assert (R : forall stk f, run (g ++ [cQM]) (stk, f, PN) = Some (stk, (fst f, [Opt r0] ++ snd f), PN)).
           { intros stk f. rewrite run_app, P2. reflexivity. }
           exists ([Opt r0] ++ [Chr c]). split; [apply PG_cons; [exact Hc|rewrite Eg; discriminate|discriminate|exact R]|].
           intros s. rewrite (ms_node c _ (fun s => below next s ++ [s])), tms_Node; [reflexivity|].
           intros s'. rewrite ms_seqr1. cbn [ms]. rewrite <- G2', ms_seqr1. reflexivity.
      * rewrite app_nil_r. exists (it ++ [Chr c]). split.
        -- destruct it as [|i0 it0].
           ++ exfalso. assert (R := P2 [] (None, [])). cbn [app fst snd] in R.
              (* a non-empty group text pushes something *)
              assert (B := G2' []). cbn in B. discriminate.
           ++ apply PG_cons; [exact Hc|rewrite Eg; discriminate|discriminate|exact P2].
        -- intros s. rewrite (ms_node c _ (below next)), tms_Node by exact G2'. destruct s; [reflexivity|]. rewrite app_nil_r. reflexivity.
    + (* several groups *)
      assert (F2 : Forall2 PG (g :: g2 :: gs) (it :: it2 :: its1)) by (constructor; [exact Pg|constructor; assumption]).
      destruct (join_run _ _ F2 ltac:(discriminate) None) as [o' [it' [E1 E2]]].
      assert (R : forall stk f, run (cLP :: cQM :: cCOLON :: join_alt (g :: g2 :: gs) ++ [cRP] ++ (if fin then [cQM] else [])) (stk, f, PN) =
         Some (stk, (fst f, [if fin then Opt (close (o', it')) else close (o', it')] ++ snd f), PN)).
      { intros stk f. replace (cLP :: cQM :: cCOLON :: join_alt (g :: g2 :: gs) ++ [cRP] ++ (if fin then [cQM] else []))
          with ((cLP :: cQM :: cCOLON :: join_alt (g :: g2 :: gs) ++ [cRP]) ++ (if fin then [cQM] else []))
          by (rewrite !app_comm_cons, <- !app_assoc; reflexivity).
        rewrite run_app, (run_group _ stk f o' it' E1). destruct fin; reflexivity. }
      exists ([if fin then Opt (close (o', it')) else close (o', it')] ++ [Chr c]). split.
      { apply PG_cons; [exact Hc|discriminate|discriminate|exact R]. }
      intros s. rewrite (ms_node c _ (fun s => below next s ++ (if fin then [s] else []))), tms_Node; [reflexivity|].
      intros s'. rewrite ms_seqr1. destruct fin; cbn [ms]; rewrite E2; cbn [app]; rewrite (G2 s'), ?app_nil_r; reflexivity.
Qed.

(** ** insertion keeps tries well formed *)
Definition okword (w : str) : Prop := Forall okc w /\ (w <> [] -> okl (last w cNUL)).
Lemma okword_tl c w : okword (c :: w) -> okword w.
Proof. intros [H1 H2]. inversion H1; subst. split; [assumption|]. intros Hw. destruct w; [congruence|]. apply H2. discriminate. Qed.
Lemma at_child_In f c next n : In n (at_child f c next) -> In n next \/ exists m, n = f m /\ t_c m = c /\ (In m next \/ m = Node c false []).
Proof.
  induction next as [|m r IH]; cbn [at_child].
  - intros [<-|[]]. right. exists (Node c false []). auto.
  - destruct (t_c m =?c c) eqn:E.
    + intros [<-|H]; [|left; right; exact H]. right. exists m. split; [reflexivity|]. split; [apply ceq_eq, E|left; left; reflexivity].
    + intros [<-|H]; [left; left; reflexivity|]. destruct (IH H) as [K|[m' [K1 [K2 [K3|K3]]]]]; [left; right; exact K|right|right].
      * exists m'. split; [exact K1|]. split; [exact K2|left; right; exact K3].
      * exists m'. auto.
Qed.
Lemma at_child_map f c next : (forall n, t_c (f n) = t_c n) ->
  map t_c (at_child f c next) = if mem c (map t_c next) then map t_c next else map t_c next ++ [c].
Proof.
  intros Hf. induction next as [|m r IH]; cbn [at_child map].
  - rewrite Hf. reflexivity.
  - unfold mem. cbn [existsb]. change (c =? t_c m)%N with (c =?c t_c m). replace (c =?c t_c m) with (t_c m =?c c) by (unfold ceq; apply N.eqb_sym).
    destruct (t_c m =?c c) eqn:E; cbn [orb map].
    + rewrite Hf. reflexivity.
    + rewrite IH. unfold mem. destruct (existsb _ _); reflexivity.
Qed.
Lemma NoDup_snoc (l : list char) c : NoDup l -> ~ In c l -> NoDup (l ++ [c]).
Proof.
  intros H Hc. induction H as [|x l Hx Hl IH]; cbn [app]; [repeat constructor; auto|]. constructor.
  - intros K. apply in_app_or in K as [K|[<-|[]]]; [contradiction|]. apply Hc. left; reflexivity.
  - apply IH. intros K. apply Hc. right; exact K.
Qed.
Lemma ins_WF w : forall t, okword w -> WF0 t -> WF (ins w t).
Proof.
  induction w as [|c w IH]; intros t Hw Ht; inversion Ht as [c0 e next Hc Hd Hf Hl]; subst.
  - split; [constructor; assumption|reflexivity].
  - cbn [ins t_c t_fin t_next].
    assert (Cc : okc c) by (destruct Hw as [H1 _]; inversion H1; assumption).
    split; [|cbn [t_next]; destruct next as [|m r]; cbn [at_child]; [discriminate|]; destruct (t_c m =?c c); discriminate].
    constructor; [exact Hc| | |].
    + rewrite at_child_map by apply ins_c. destruct (mem c (map t_c next)) eqn:E; [exact Hd|]. apply NoDup_snoc; [exact Hd|]. apply mem_nIn, E.
    + rewrite Forall_forall in *. intros n Hn. apply at_child_In in Hn as [Hn|[m [-> [Hm1 [Hm2|Hm2]]]]]; [apply Hf, Hn| |].
      * apply (IH m (okword_tl _ _ Hw)). apply Hf, Hm2.
      * apply (IH m (okword_tl _ _ Hw)). subst m. constructor; [exact Cc|constructor|constructor|intros ? []].
    + intros n Hn Hlf. apply at_child_In in Hn as [Hn|[m [-> [Hm1 _]]]]; [apply Hl; assumption|]. rewrite ins_c, Hm1.
      destruct w as [|c2 w].
      * apply (proj2 Hw). discriminate.
      * exfalso. unfold leaf in Hlf. cbn [ins t_next] in Hlf. apply andb_prop in Hlf as [_ Hlf].
        destruct (t_next m) as [|m0 r0]; cbn [at_child] in Hlf; [discriminate|]. destruct (t_c m0 =?c c2); discriminate.
Qed.
Lemma build_spec options : Forall (fun o => okword (expand false o)) options -> options <> [] ->
  WF0 (build options) /\ t_c (build options) = cLT /\ (t_next (build options) <> [] \/ t_fin (build options) = true) /\
  forall w, acc (build options) w <-> exists o, In o options /\ w = expand false o.
Proof.
  intros H Hne. unfold build.
  assert (G : forall l t, Forall (fun o => okword (expand false o)) l -> WF0 t -> WF0 (fold_left add_entry l t) /\ t_c (fold_left add_entry l t) = t_c t /\
     (l <> [] -> t_next (fold_left add_entry l t) <> [] \/ t_fin (fold_left add_entry l t) = true) /\
     forall w, acc (fold_left add_entry l t) w <-> (exists o, In o l /\ w = expand false o) \/ acc t w).
  { clear. induction l as [|o l IH]; intros t H Ht; cbn [fold_left].
    - split; [exact Ht|]. split; [reflexivity|]. split; [congruence|]. intros w. split; [right; assumption|]. intros [[o [[] _]]|K]; exact K.
    - inversion H as [|? ? Ho Hl]; subst. destruct (ins_WF (expand false o) t Ho Ht) as [W1 W2]. fold (add_entry t o) in W1, W2.
      destruct (IH (add_entry t o) Hl W1) as [I1 [I2 [I3 I4]]]. split; [exact I1|]. split; [rewrite I2; apply ins_c|]. split.
      + intros _. destruct l as [|o2 l]; [|apply I3; discriminate]. cbn [fold_left].
        destruct (t_next (add_entry t o)) eqn:E; [right; apply W2; reflexivity|left; discriminate].
      + intros w. rewrite I4. unfold add_entry. rewrite acc_ins. split.
        * intros [[o' [K1 K2]]|[K|K]]; [left; exists o'; split; [right; exact K1|exact K2]|left; exists o; split; [left; reflexivity|exact K]|right; exact K].
        * intros [[o' [[<-|K1] K2]]|K]; [right; left; exact K2|left; exists o'; auto|right; right; exact K]. }
  destruct (G options (Node cLT false []) H) as [G1 [G2 [G3 G4]]].
  { constructor; [unfold okc, metas; cbn; intuition discriminate|constructor|constructor|intros ? []]. }
  split; [exact G1|]. split; [exact G2|]. split; [apply G3, Hne|]. intros w. rewrite G4. split; [|left; assumption].
  intros [K|K]; [exact K|]. destruct w; cbn in K; [discriminate|contradiction].
Qed.

Lemma run_open b stk f x r : b = x :: r -> x <> cQM -> run (cLP :: b) (stk, f, PN) = run b (f :: stk, (None, []), PN).
Proof.
  intros -> Hx. unfold run. cbn [fold_left pstep]. change (pnormal stk f cLP) with (Some (stk, f, POpen)). cbn [pstep].
  apply ceq_neq in Hx. rewrite Hx. reflexivity.
Qed.
Lemma flat_map_sorted (l : list str) : StronglySorted shorter l ->
  StronglySorted shorter (flat_map (fun s => match s with x :: s' => if x =?c cGT then [s'] else [] | [] => [] end) l).
Proof.
  induction 1 as [|a l Hs IH Hf]; cbn [flat_map]; [constructor|]. destruct a as [|x a]; [exact IH|]. destruct (x =?c cGT); [|exact IH].
  cbn [app]. constructor; [exact IH|]. rewrite Forall_forall in *. intros r Hr. apply in_flat_map in Hr as [[|y b] [Hb Hr]]; [destruct Hr|].
  destruct (y =?c cGT); [|destruct Hr]. destruct Hr as [<-|[]]. specialize (Hf _ Hb). unfold shorter in *. cbn [length] in *. lia.
Qed.
Lemma regex_spec options : Forall (fun o => okword (expand false o)) options -> options <> [] ->
  exists r, parse_re (optimize_regex options) = Some r /\
    (forall s rest, In rest (ms r s) <-> exists o, In o options /\ s = cLT :: expand false o ++ cGT :: rest) /\
    forall s, StronglySorted shorter (ms r s).
Proof.
  intros H Hne. destruct (build_spec options H Hne) as [B1 [B2 [B3 B4]]].
  destruct (unbuild_parsed _ B1 B3) as [items [[[x [r0 [E [Ex1 Ex2]]]] [_ Hr]] Hm]].
  exists (Seq Eps (Seq (seqr items) (Chr cGT))).
  assert (M : forall s, ms (Seq Eps (Seq (seqr items) (Chr cGT))) s = flat_map (fun s => match s with x :: s' => if x =?c cGT then [s'] else [] | [] => [] end) (tms (build options) s)).
  { intros s. cbn [ms flat_map]. rewrite app_nil_r, Hm. reflexivity. }
  split; [|split].
  - assert (R : run (optimize_regex options) ([], (None, []), PN) = Some ([], (None, [Seq (seqr items) (Chr cGT)]), PN)).
    { unfold optimize_regex. refine (eq_trans (run_open (unbuildTrie (build options) ++ [cGT; cRP]) [] (None, []) x (r0 ++ [cGT; cRP]) _ Ex2) _); [rewrite E; reflexivity|].
      rewrite run_app, Hr. cbn [fst snd]. rewrite app_nil_r. reflexivity. }
    unfold parse_re. change (fold_left pstep (optimize_regex options) (Some ([], (None, []), PN))) with (run (optimize_regex options) ([], (None, []), PN)).
    rewrite R. reflexivity.
  - intros s rest. rewrite M, in_flat_map. split.
    + intros [q [Hq Hi]]. destruct q as [|y q]; [destruct Hi|]. destruct (y =?c cGT) eqn:Ey; [|destruct Hi]. destruct Hi as [<-|[]]. apply ceq_eq in Ey; subst y.
      destruct s as [|z s]; [destruct Hq|]. cbn [tms] in Hq. rewrite B2 in Hq. destruct (z =?c cLT) eqn:Ez; [|destruct Hq]. apply ceq_eq in Ez; subst z.
      apply trest_In in Hq as [w [-> Hw]]. apply B4 in Hw as [o [Ho ->]]. exists o. auto.
    + intros [o [Ho ->]]. exists (cGT :: rest). split; [|left; reflexivity]. cbn [tms]. rewrite B2, ceq_refl. apply trest_In.
      exists (expand false o). split; [reflexivity|]. apply B4. eauto.
  - intros s. rewrite M. apply flat_map_sorted. destruct s as [|y s]; cbn [tms]; [constructor|]. destruct (y =?c _); [apply trest_sorted|constructor].
Qed.

(** tags *)
Lemma expand_app a b : ~ In cBS a -> expand false (a ++ b) = expand false a ++ expand false b.
Proof.
  induction a as [|c a IH]; intros H; cbn [app expand]; [reflexivity|].
  assert (c <> cBS) as Hc by (intros ->; apply H; left; reflexivity). apply ceq_neq in Hc. rewrite Hc.
  rewrite IH by (intros K; apply H; right; exact K). destruct (c =?c cDOT); reflexivity.
Qed.
Lemma expand_plain t : Forall plain t -> expand false t = t.
Proof.
  induction 1 as [|c t Hc Ht IH]; cbn [expand]; [reflexivity|]. rewrite IH.
  assert (c <> cBS /\ c <> cDOT) as [H1 H2] by (split; intros ->; apply Hc; cbn [In]; tauto).
  apply ceq_neq in H1, H2. rewrite H1, H2. reflexivity.
Qed.
Lemma expand_item tags : good_tags tags -> cLT :: expand false (item tags) ++ [cGT] = tag_text tags.
Proof.
  intros [Hne H]. destruct tags as [|t r]; [congruence|]. clear Hne. revert t H. induction r as [|t2 r IH]; intros t H; inversion H as [|? ? [T1 [T2 T3]] Hr]; subst.
  - cbn [item]. unfold tag_text. cbn [flat_map]. rewrite app_nil_r, expand_plain by exact T2. reflexivity.
  - change (item (t :: t2 :: r)) with (t ++ cDOT :: item (t2 :: r)).
    assert (N : ~ In cBS t) by (rewrite Forall_forall in T2; intros K; apply (T2 _ K); cbn [In]; tauto).
    rewrite expand_app, expand_plain by assumption. change (expand false (cDOT :: item (t2 :: r))) with (cGT :: cLT :: expand false (item (t2 :: r))).
    unfold tag_text. cbn [flat_map]. fold (tag_text r). rewrite <- !app_assoc. cbn [app]. rewrite <- app_assoc. cbn [app]. rewrite (IH t2 Hr). reflexivity.
Qed.
Lemma last_app_ne {A} (a b : list A) d : b <> [] -> last (a ++ b) d = last b d.
Proof. intros H. induction a as [|x a IH]; cbn [app]; [reflexivity|]. destruct (a ++ b) eqn:E; [destruct a, b; cbn in E; congruence|]. rewrite <- IH. reflexivity. Qed.
Lemma good_okword tags : good_tags tags -> okword (expand false (item tags)).
Proof.
  intros [Hne H]. destruct tags as [|t r]; [congruence|]. clear Hne.
  assert (G : forall r t, Forall (fun t => t <> [] /\ Forall plain t /\ ~ In (last t cNUL) [cDASH; cAMP]) (t :: r) -> okword (expand false (item (t :: r))) /\ expand false (item (t :: r)) <> []).
  { clear. induction r as [|t2 r IH]; intros t H; inversion H as [|? ? [T1 [T2 T3]] Hr]; subst.
    - cbn [item]. rewrite expand_plain by exact T2. split; [|exact T1].
      assert (O : Forall okc t) by (eapply Forall_impl; [|exact T2]; intros c Hc K; apply Hc; unfold metas in K; cbn [In] in *; tauto).
      split; [exact O|]. intros _. split; [|cbn [In] in T3; split; intros K; apply T3; rewrite K; tauto].
      rewrite Forall_forall in O. apply O. destruct t using rev_ind; [congruence|]. rewrite last_last. apply in_or_app. right; left; reflexivity.
    - change (item (t :: t2 :: r)) with (t ++ cDOT :: item (t2 :: r)).
      assert (N : ~ In cBS t) by (rewrite Forall_forall in T2; intros K; apply (T2 _ K); cbn [In]; tauto).
      rewrite expand_app, expand_plain by assumption. change (expand false (cDOT :: item (t2 :: r))) with (cGT :: cLT :: expand false (item (t2 :: r))).
      destruct (IH t2 Hr) as [[O1 O2] O3]. split; [|destruct t; discriminate]. split.
      + apply Forall_app. split; [eapply Forall_impl; [|exact T2]; intros c Hc K; apply Hc; unfold metas in K; cbn [In] in *; tauto|].
        repeat constructor; [unfold okc, metas; cbn; intuition discriminate|unfold okc, metas; cbn; intuition discriminate|exact O1].
      + intros _. rewrite last_app_ne by discriminate.
        change (cGT :: cLT :: expand false (item (t2 :: r))) with ([cGT; cLT] ++ expand false (item (t2 :: r))). rewrite last_app_ne by exact O3. apply O2, O3. }
  apply G, H.
Qed.

(** find *)
Lemma ms_suffix r : forall s rest, In rest (ms r s) -> exists w, s = w ++ rest.
Proof.
  induction r as [|c| |neg l|a IHa b IHb|a IHa b IHb|a IHa]; intros s rest H; cbn [ms] in H.
  - destruct H as [<-|[]]. exists []. reflexivity.
  - destruct s as [|x s]; [destruct H|]. destruct (x =?c c); [|destruct H]. destruct H as [<-|[]]. exists [x]. reflexivity.
  - destruct s as [|x s]; [destruct H|]. destruct H as [<-|[]]. exists [x]. reflexivity.
  - destruct s as [|x s]; [destruct H|]. destruct (xorb _ _); [|destruct H]. destruct H as [<-|[]]. exists [x]. reflexivity.
  - apply in_flat_map in H as [q [H1 H2]]. apply IHa in H1 as [w1 ->]. apply IHb in H2 as [w2 ->]. exists (w1 ++ w2). rewrite app_assoc. reflexivity.
  - apply in_app_or in H as [H|H]; [apply IHa, H|apply IHb, H].
  - apply in_app_or in H as [H|[<-|[]]]; [apply IHa, H|exists []; reflexivity].
Qed.
Lemma find_spec r : forall s pre,
  match find r pre s with
  | Some (a, m, b) => exists s1, a = rev pre ++ s1 /\ s = s1 ++ m ++ b /\ (exists l, ms r (m ++ b) = b :: l) /\
      forall s2 s3, s1 = s2 ++ s3 -> s3 <> [] -> ms r (s3 ++ m ++ b) = []
  | None => forall s2 s3, s = s2 ++ s3 -> ms r s3 = []
  end.
Proof.
  intros s. induction s as [|c s IH]; intros pre; cbn [find].
  - destruct (ms r []) as [|rest l] eqn:E.
    + intros s2 s3 K. symmetry in K. apply app_eq_nil in K as [-> ->]. exact E.
    + assert (H : In rest (ms r [])) by (rewrite E; left; reflexivity). apply ms_suffix in H as [w Hw]. symmetry in Hw. apply app_eq_nil in Hw as [-> ->].
      exists []. cbn [length firstn app]. rewrite app_nil_r. split; [reflexivity|]. split; [reflexivity|]. split; [eauto|].
      intros s2 s3 K. symmetry in K. apply app_eq_nil in K as [_ ->]. congruence.
  - destruct (ms r (c :: s)) as [|rest l] eqn:E.
    + specialize (IH (c :: pre)). destruct (find r (c :: pre) s) as [[[a m] b]|].
      * destruct IH as [s1 [-> [-> [I1 I2]]]]. exists (c :: s1). cbn [rev]. rewrite <- app_assoc. split; [reflexivity|]. split; [reflexivity|]. split; [exact I1|].
        intros [|y s2] s3 K Hs; cbn [app] in K.
        -- subst s3. exact E.
        -- injection K as <- ->. apply (I2 s2 s3); auto.
      * intros [|y s2] s3 K; cbn [app] in K; [subst s3; exact E|]. injection K as <- ->. apply (IH s2 s3). reflexivity.
    + assert (H : In rest (ms r (c :: s))) by (rewrite E; left; reflexivity). apply ms_suffix in H as [w Hw].
      exists []. assert (Fw : firstn (length (c :: s) - length rest) (c :: s) = w).
      { rewrite Hw, app_length. replace (length w + length rest - length rest) with (length w + 0) by lia. rewrite firstn_app_2. cbn [firstn]. apply app_nil_r. }
      rewrite Fw. rewrite app_nil_r. split; [reflexivity|]. split; [exact Hw|]. split; [rewrite <- Hw; eauto|].
      intros s2 s3 K. symmetry in K. apply app_eq_nil in K as [_ ->]. congruence.
Qed.
Lemma app_cut {A} (a1 b1 a2 b2 : list A) : a1 ++ b1 = a2 ++ b2 -> length a1 <= length a2 -> exists c, a2 = a1 ++ c /\ b1 = c ++ b2.
Proof.
  revert a2. induction a1 as [|x a1 IH]; intros a2 E L.
  - exists a2. auto.
  - destruct a2 as [|y a2]; [cbn in L; lia|]. injection E as <- E. cbn in L. destruct (IH a2 E ltac:(lia)) as [c [-> ->]]. exists c. auto.
Qed.
Lemma find_leftmost_longest r texts : (forall s rest, In rest (ms r s) <-> exists t, In t texts /\ s = t ++ rest) ->
  (forall s, StronglySorted shorter (ms r s)) -> forall s,
  match find r [] s with
  | Some (a, m, b) => leftmost_longest texts s a m b
  | None => forall a m b, In m texts -> s <> a ++ m ++ b
  end.
Proof.
  intros H1 H2 s. assert (F := find_spec r s []). destruct (find r [] s) as [[[a m] b]|].
  - destruct F as [s1 [E1 [-> [[l E2] F]]]]. cbn [rev app] in E1. subst s1.
    assert (Hm : In m texts).
    { assert (K : In b (ms r (m ++ b))) by (rewrite E2; left; reflexivity). apply H1 in K as [t [Ht K]]. apply app_inv_tail in K. subst t. exact Ht. }
    split; [reflexivity|]. split; [exact Hm|]. intros a' m' b' E Hm'.
    assert (L : length a <= length a').
    { destruct (le_lt_dec (length a) (length a')) as [L|L]; [exact L|]. exfalso. symmetry in E. destruct (app_cut _ _ _ _ E ltac:(lia)) as [c [K1 K2]].
      assert (Z : ms r (c ++ m ++ b) = []) by (apply (F a' c); [exact K1|intros ->; rewrite app_nil_r in K1; subst; lia]).
      assert (K3 : In b' (ms r (m' ++ b'))) by (apply H1; eauto). rewrite K2, Z in K3. destruct K3. }
    split; [exact L|]. intros EL. destruct (app_cut _ _ _ _ E L) as [c [K1 K2]]. assert (c = []) as -> by (rewrite K1, app_length in EL; destruct c; [reflexivity|cbn in EL; lia]).
    cbn [app] in K2. rewrite K2 in E2.
    assert (K3 : In b' (ms r (m' ++ b'))) by (apply H1; eauto). specialize (H2 (m' ++ b')). rewrite E2 in H2, K3.
    assert (length b <= length b').
    { destruct K3 as [<-|K3]; [lia|]. inversion H2 as [|? ? _ Hf]; subst. rewrite Forall_forall in Hf. specialize (Hf _ K3). unfold shorter in Hf. lia. }
    assert (length (m ++ b) = length (m' ++ b')) by (rewrite K2; reflexivity). rewrite !app_length in *. lia.
  - intros a m b Hm ->. specialize (F a (m ++ b) eq_refl). assert (K : In b (ms r (m ++ b))) by (apply H1; eauto). rewrite F in K. destruct K.
Qed.
