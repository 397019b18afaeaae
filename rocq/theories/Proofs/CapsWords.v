(** The symbols of a word against the pieces of a match. *)
From Coq Require Import String ZArith.
From Verif Require Import Model.Base Model.CapsRules Spec.CapsRules Proofs.Base Proofs.CapsCompile.
Open Scope nat_scope.

(** ** tokenize *)
Lemma tokenize_toks s l : toks s l -> tokenize s = l.
Proof.
  intros T. induction T as [|c s l N1 N2 T IH|d s l T IH|t s l Nt T IH]; [reflexivity| | |].
  - cbn [tokenize]. rewrite (proj2 (ceq_neq _ _) N1), (proj2 (ceq_neq _ _) N2), IH. reflexivity.
  - cbn [tokenize]. rewrite ceq_refl, IH. reflexivity.
  - cbn [tokenize]. rewrite (proj2 (ceq_neq cLT cBS)) by discriminate. rewrite ceq_refl.
    assert (G : forall t acc, ~ In cGT t -> (fix tag (r acc : str) := match r with
                                  | [] => [IChar cLT]
                                  | d :: r' => if d =?c cGT then ITag (acc ++ [d]) :: tokenize r' else tag r' (acc ++ [d])
                                  end) (t ++ cGT :: s) acc = ITag (acc ++ t ++ [cGT]) :: l).
    { clear t Nt. induction t as [|d t IHt]; intros acc N; cbn [app]; [rewrite ceq_refl, IH; reflexivity|].
      rewrite (proj2 (ceq_neq d cGT)) by (intros ->; apply N; left; reflexivity). rewrite IHt by (intros K; apply N; right; exact K). rewrite <- app_assoc. reflexivity. }
    rewrite G by exact Nt. reflexivity.
Qed.
Lemma toks_fun s l l' : toks s l -> toks s l' -> l = l'.
Proof. intros A B. apply tokenize_toks in A. apply tokenize_toks in B. congruence. Qed.

(** ** splitting *)
Lemma split_first {A} (s : A) a1 r1 a2 r2 : ~ In s a1 -> ~ In s a2 -> a1 ++ s :: r1 = a2 ++ s :: r2 -> a1 = a2 /\ r1 = r2.
Proof.
  revert a2. induction a1 as [|x a1 IH]; intros [|y a2] N1 N2 H; cbn [app] in H; inversion H; subst.
  - auto.
  - exfalso. apply N2. left. reflexivity.
  - exfalso. apply N1. left. reflexivity.
  - destruct (IH a2) as [-> ->]; auto; intros K; [apply N1|apply N2]; right; exact K.
Qed.
Lemma split_last {A} (s : A) x1 r1 x2 r2 : ~ In s r1 -> ~ In s r2 -> x1 ++ s :: r1 = x2 ++ s :: r2 -> x1 = x2 /\ r1 = r2.
Proof.
  intros N1 N2 H. apply (f_equal (@rev A)) in H. rewrite !rev_app_distr in H. cbn [rev] in H. rewrite <- !app_assoc in H. cbn [app] in H.
  destruct (split_first s (rev r1) (rev x1) (rev r2) (rev x2)) as [A1 A2]; [rewrite <- in_rev; exact N1|rewrite <- in_rev; exact N2|exact H|].
  apply (f_equal (@rev A)) in A1. apply (f_equal (@rev A)) in A2. rewrite !rev_involutive in *. auto.
Qed.
Definition after1 (prev : option isym) (c : piece) : option isym :=
  match c with One i => if prev_dec prev i then prev else None | Plus i => Some i | Star i => Some i end.
Definition after (prev : option isym) (ps : list piece) : option isym := fold_left after1 ps prev.
Lemma plang_app ps : forall prev ps2 x, plang prev (ps ++ ps2) x <-> exists y z, x = y ++ z /\ plang prev ps y /\ plang (after prev ps) ps2 z.
Proof.
  induction ps as [|c ps IH]; intros prev ps2 x.
  - cbn. split; [intros H; exists [], x; auto|]. intros (y & z & -> & -> & H). exact H.
  - destruct c as [i|i|i]; cbn [app plang after fold_left after1].
    + destruct (prev_dec prev i); [apply IH|]. split.
      * intros (a & y & -> & Ha & H). apply IH in H. destruct H as (y1 & z & -> & H1 & H2). exists (a :: y1), z. repeat split; auto. exists a, y1. auto.
      * intros (y & z & -> & (a & y1 & -> & Ha & H1) & H2). exists a, (y1 ++ z). repeat split; auto. apply IH. eauto.
    + destruct (prev_dec prev i) as [->|]; [apply IH|]. split.
      * intros (y & z & -> & Ny & Ha & H). apply IH in H. destruct H as (y1 & z1 & -> & H1 & H2). exists (y ++ y1), z1. rewrite app_assoc. repeat split; auto. exists y, y1. auto.
      * intros (y & z & -> & (y1 & z1 & -> & Ny & Ha & H1) & H2). exists y1, (z1 ++ z). rewrite app_assoc. repeat split; auto. apply IH. eauto.
    + split.
      * intros (y & z & -> & Ha & H). apply IH in H. destruct H as (y1 & z1 & -> & H1 & H2). exists (y ++ y1), z1. rewrite app_assoc. repeat split; auto. exists y, y1. auto.
      * intros (y & z & -> & (y1 & z1 & -> & Ha & H1) & H2). exists y1, (z1 ++ z). rewrite app_assoc. repeat split; auto. apply IH. eauto.
Qed.

Section W.
Variable isupper : char -> bool.
Notation alts := (alts isupper).
Notation class_sym := (class_sym isupper).
Notation kind_of := (kind_of isupper).
Notation of_kind := (of_kind isupper).
Lemma class_kind c d : class_sym c = class_sym d <-> kind_of c = kind_of d.
Proof.
  unfold class_sym, kind_of. destruct (c =?c cSTAR), (d =?c cSTAR), (c =?c cSP), (d =?c cSP), (isupper c), (isupper d); split; intros H; try reflexivity; try discriminate H;
    vm_compute in H; discriminate H.
Qed.
Lemma class_not_slash c : class_sym c <> IChar cSLASH.
Proof. unfold class_sym. destruct (c =?c cSTAR), (c =?c cSP), (isupper c); discriminate. Qed.
Lemma class_not_tag c : class_sym c <> any_tag.
Proof. unfold class_sym. destruct (c =?c cSTAR), (c =?c cSP), (isupper c); intros H; vm_compute in H; discriminate. Qed.
Lemma own_neq t n : ~ In t own_tags -> In n own_tags -> ITag t <> ITag n.
Proof. intros N I H. injection H as ->. contradiction. Qed.
Ltac own := apply own_neq; [assumption|vm_compute; tauto].
Lemma class_in c x : usual x \/ (exists d, x = IChar d) -> In (class_sym c) (alts x) <-> of_kind (kind_of c) x.
Proof.
  intros U. destruct x as [d|t].
  - clear U. unfold CapsRules.alts, CapsCompile.class_sym, CapsRules.kind_of. destruct (c =?c cSTAR); cbn [CapsRules.of_kind].
    { split; [auto|]. intros _. destruct (isupper d); right; left; reflexivity. }
    destruct (c =?c cSP).
    { split; [|intros ->; destruct (isupper cSP); left; reflexivity]. intros H. destruct (isupper d), H as [H|[H|[H|[]]]]; try discriminate; injection H as ->; reflexivity. }
    destruct (isupper c), (isupper d); split; intros H; try discriminate; try reflexivity; try (destruct H as [H|[H|[H|[]]]]; vm_compute in H; discriminate); right; right; left; reflexivity.
  - destruct U as [U|[d U]]; [|discriminate]. cbn [usual] in U. cbn [CapsRules.of_kind]. split; [|intros []]. intros [H|[H|[]]].
    + unfold CapsCompile.class_sym in H. destruct (c =?c cSTAR); [revert H; own|]. destruct (c =?c cSP); [discriminate|]. destruct (isupper c); revert H; own.
    + symmetry in H. exact (class_not_tag _ H).
Qed.
Lemma all_in_map (P : isym -> Prop) i l : (forall x, In x l -> In i (alts x) <-> P x) -> all_in i (map alts l) <-> Forall P l.
Proof.
  unfold all_in. intros H. rewrite Forall_map, !Forall_forall. split; intros K x Hx; apply H; auto.
Qed.
Lemma map_split {A B} (f : A -> B) l y z : map f l = y ++ z -> exists l1 l2, l = l1 ++ l2 /\ y = map f l1 /\ z = map f l2.
Proof.
  revert l. induction y as [|b y IH]; intros l H; [exists [], l; auto|]. destruct l as [|a l]; [discriminate|]. cbn in H. injection H as <- H. destruct (IH _ H) as (l1 & l2 & -> & -> & ->).
  exists (a :: l1), l2. auto.
Qed.
Definition fine (l : list isym) : Prop := Forall (fun x => usual x \/ exists d, x = IChar d) l.
Lemma fine_app a b : fine (a ++ b) <-> fine a /\ fine b.
Proof. apply Forall_app. Qed.
(** ** case *)
Lemma skip_same c s z : plang (Some (class_sym c)) (spec_pieces isupper s) z <->
  exists r s', s = r ++ s' /\ Forall (fun d => kind_of d = kind_of c) r /\ (forall d s1, s' = d :: s1 -> kind_of d <> kind_of c) /\ plang None (spec_pieces isupper s') z.
Proof.
  induction s as [|d s IH]; cbn [spec_pieces map plang].
  - split; [intros ->; exists [], []; repeat split; auto; discriminate|]. intros (r & s' & H & _ & _ & P). symmetry in H. apply app_eq_nil in H. destruct H as [-> ->]. exact P.
  - destruct (prev_dec (Some (class_sym c)) (class_sym d)) as [Q|Q].
    + assert (K : kind_of d = kind_of c) by (apply class_kind; congruence). fold (spec_pieces isupper s). rewrite IH. split.
      * intros (r & s' & -> & F & N & P). exists (d :: r), s'. repeat split; auto.
      * intros ([|d' r] & s' & H & F & N & P); cbn [app] in H; [exfalso; exact (N d s (eq_sym H) K)|]. injection H as <- ->. inversion F; subst. exists r, s'. auto.
    + assert (K : kind_of d <> kind_of c) by (intros K; apply Q; f_equal; symmetry; apply class_kind; exact K). split.
      * intros P. exists [], (d :: s). repeat split; [constructor|intros e s1 H; injection H as <- <-; exact K|]. cbn [spec_pieces map plang]. destruct (prev_dec None _); [discriminate|]. exact P.
      * intros ([|d' r] & s' & H & F & N & P); cbn [app] in H; [|injection H as <- ->; inversion F; contradiction]. subst s'. cbn [spec_pieces map plang] in P. destruct (prev_dec None _); [discriminate|]. exact P.
Qed.
Lemma case_lang n : forall s l, length s <= n -> fine l -> plang None (spec_pieces isupper s) (map alts l) <-> case_text isupper s l.
Proof.
  induction n as [|n IH]; intros s l L F.
  - destruct s; [|cbn in L; lia]. cbn. split; [intros H; destruct l; [constructor|discriminate]|]. intros H. inversion H. reflexivity.
  - destruct s as [|c s]; cbn [spec_pieces map plang].
    + split; [intros H; destruct l; [constructor|discriminate]|]. intros H. inversion H. reflexivity.
    + destruct (prev_dec None _); [discriminate|]. fold (spec_pieces isupper s). cbn in L. split.
      * intros (y & z & H & Ny & Ha & P). apply map_split in H. destruct H as (l1 & l2 & -> & -> & ->). apply fine_app in F. destruct F as [F1 F2].
        apply skip_same in P. destruct P as (r & s' & -> & Fr & N & P). rewrite app_length in L. apply IH in P; [|lia|exact F2]. apply CT_run; auto; [intros ->; auto|].
        apply all_in_map with (P := of_kind (kind_of c)) in Ha; [exact Ha|]. intros x Hx. apply class_in. unfold fine in F1. rewrite Forall_forall in F1. auto.
      * intros H. inversion H as [|c' r s' l1 l2 Fr Nl Fl N P E1 E2]; subst. apply fine_app in F. destruct F as [F1 F2]. exists (map alts l1), (map alts l2). rewrite map_app. rewrite app_length in L. repeat split.
        -- destruct l1; [congruence|discriminate].
        -- apply all_in_map with (P := of_kind (kind_of c)); [|exact Fl]. intros x Hx. apply class_in. unfold fine in F1. rewrite Forall_forall in F1. auto.
        -- apply skip_same. exists r, s'. repeat split; auto. apply IH; [lia|exact F2|exact P].
Qed.
(** ** literals *)
Lemma char_in c x : In (IChar c) (alts x) <-> x = IChar c.
Proof.
  destruct x as [d|t]; cbn [CapsRules.alts].
  - split; [|intros H; injection H as ->; destruct (isupper c); left; reflexivity]. intros H. destruct (isupper d), H as [H|[H|[H|[]]]]; try discriminate; exact H.
  - split; [|discriminate]. intros [H|[H|[]]]; discriminate.
Qed.
Lemma any_in x : usual x \/ (exists d, x = IChar d) -> In any_char (alts x) <-> of_kind Any x.
Proof. intros U. rewrite <- (class_in cSTAR x U). reflexivity. Qed.
Lemma skip_stars s z : plang (Some any_char) (map lit_piece s) z <->
  exists r s', s = r ++ s' /\ Forall (fun d => d = cSTAR) r /\ (forall s1, s' <> cSTAR :: s1) /\ plang None (map lit_piece s') z.
Proof.
  induction s as [|d s IH]; cbn [map].
  - split; [intros P; exists [], []; repeat split; auto; discriminate|]. intros (r & s' & H & _ & _ & P). symmetry in H. apply app_eq_nil in H. destruct H as [-> ->]. exact P.
  - unfold lit_piece at 1. destruct (ceq_spec d cSTAR) as [->|N].
    + cbn [plang]. destruct (prev_dec (Some any_char) any_char) as [_|Q]; [|congruence]. rewrite IH. split.
      * intros (r & s' & -> & F & N & P). exists (cSTAR :: r), s'. repeat split; auto.
      * intros ([|d' r] & s' & H & F & N & P); cbn [app] in H; [exfalso; exact (N s (eq_sym H))|]. injection H as <- ->. inversion F; subst. exists r, s'. auto.
    + cbn [plang]. destruct (prev_dec (Some any_char) (IChar d)) as [Q|_]; [discriminate|]. split.
      * intros P. exists [], (d :: s). repeat split; [constructor|intros s1 H; injection H as -> ->; congruence|]. cbn [map plang]. unfold lit_piece at 1. rewrite (proj2 (ceq_neq _ _) N). cbn [plang].
        destruct (prev_dec None (IChar d)); [discriminate|]. exact P.
      * intros ([|d' r] & s' & H & F & Nn & P); cbn [app] in H; [|injection H as <- ->; inversion F; contradiction]. subst s'. cbn [map] in P. unfold lit_piece at 1 in P. rewrite (proj2 (ceq_neq _ _) N) in P. cbn [plang] in P.
        destruct (prev_dec None (IChar d)); [discriminate|]. exact P.
Qed.
Lemma lit_lang n : forall s l, length s <= n -> fine l -> plang None (map lit_piece s) (map alts l) <-> literal_text isupper s l.
Proof.
  induction n as [|n IH]; intros s l L F.
  - destruct s; [|cbn in L; lia]. cbn. split; [intros H; destruct l; [constructor|discriminate]|]. intros H. inversion H. reflexivity.
  - destruct s as [|c s]; cbn [map plang].
    + split; [intros H; destruct l; [constructor|discriminate]|]. intros H. inversion H. reflexivity.
    + unfold lit_piece at 1. destruct (ceq_spec c cSTAR) as [->|N]; cbn [plang]; (destruct (prev_dec None _); [discriminate|]); cbn in L.
      * split.
        -- intros (y & z & H & Ny & Ha & P). apply map_split in H. destruct H as (l1 & l2 & -> & -> & ->). apply fine_app in F. destruct F as [F1 F2].
           apply skip_stars in P. destruct P as (r & s' & -> & Fr & N & P). rewrite app_length in L. apply IH in P; [|lia|exact F2]. apply LT_stars; auto; [intros ->; auto|].
           apply all_in_map with (P := of_kind Any) in Ha; [exact Ha|]. intros x Hx. apply any_in. unfold fine in F1. rewrite Forall_forall in F1. auto.
        -- intros H. inversion H as [|c' s' l' N P|r s' l1 l2 Fr Nl Fl N P E1 E2]; subst; [congruence|]. apply fine_app in F. destruct F as [F1 F2]. exists (map alts l1), (map alts l2). rewrite map_app. rewrite app_length in L. repeat split.
           ++ destruct l1; [congruence|discriminate].
           ++ apply all_in_map with (P := of_kind Any); [|exact Fl]. intros x Hx. apply any_in. unfold fine in F1. rewrite Forall_forall in F1. auto.
           ++ apply skip_stars. exists r, s'. repeat split; auto. apply IH; [lia|exact F2|exact P].
      * split.
        -- intros (a & y & H & Ha & P). destruct l as [|x l]; [discriminate|]. cbn in H. injection H as <- <-. inversion F; subst. apply char_in in Ha. subst x. apply IH in P; [|lia|assumption]. constructor; assumption.
        -- intros H. inversion H as [|c' s' l' N' P|r s' l1 l2 Fr Nl Fl N' P E1 E2]; subst; [|congruence]. inversion F; subst. eexists _, _. split; [reflexivity|]. split; [apply char_in; reflexivity|]. apply IH; [lia|assumption|assumption].
Qed.
(** ** tags *)
Lemma anytag_in x : In any_tag (alts x) <-> is_tag x.
Proof.
  destruct x as [d|t]; cbn [is_tag CapsRules.alts]; [|split; auto; intros _; right; left; reflexivity].
  split; [|intros []]. intros H. destruct (isupper d), H as [H|[H|[H|[]]]]; vm_compute in H; discriminate.
Qed.
Lemma tag_in t x : ~ In t own_tags -> In (ITag t) (alts x) <-> x = ITag t.
Proof.
  intros N. destruct x as [d|t']; cbn [CapsRules.alts].
  - split; [|discriminate]. intros H. exfalso. destruct (isupper d), H as [H|[H|[H|[]]]]; try discriminate; symmetry in H; revert H; own.
  - split; [|intros H; injection H as ->; left; reflexivity]. intros [H|[H|[]]]; [exact H|]. exfalso. symmetry in H. revert H. own.
Qed.
Definition looped (prev : option isym) : bool := match prev with Some i => if isym_eq_dec i any_tag then true else false | None => false end.
Lemma looped_true prev : looped prev = true <-> prev = Some any_tag.
Proof. unfold looped. destruct prev as [i|]; [destruct (isym_eq_dec i any_tag)|]; split; congruence. Qed.
Lemma tag_text_fun ts l : tag_text ts l -> tag_text ts l. Proof. auto. Qed.
Lemma tag_lang ts : forall prev l, (forall i, prev = Some i -> i <> any_tag -> forall t, i <> ITag t \/ In t own_tags) -> plain_tags (looped prev) ts ->
  plang prev (flat_map tag_piece ts) (map alts l) <-> tag_text ts l.
Proof.
  induction ts as [|t ts IH]; intros prev l HP PT; cbn [flat_map].
  - cbn. split; [intros H; destruct l; [constructor|discriminate]|]. intros H. inversion H. reflexivity.
  - cbn [plain_tags] in PT. unfold tag_piece at 1. change [cPLUS] with (u "+"%string). change [cSTAR] with (u "*"%string). change [cQM] with (u "?"%string).
    assert (NN : forall i : isym, None = Some i -> i <> any_tag -> forall t, i <> ITag t \/ In t own_tags) by discriminate.
    assert (NA : forall i : isym, Some any_tag = Some i -> i <> any_tag -> forall t, i <> ITag t \/ In t own_tags) by congruence.
    destruct (str_eqb t (u "+"%string)) eqn:E1.
    { apply str_eqb_eq in E1. subst t. destruct PT as [A PT]. cbn [app plang]. destruct (prev_dec prev any_tag) as [Q|_]; [apply looped_true in Q; congruence|]. split.
      - intros (y & z & H & Ny & Ha & P). apply map_split in H. destruct H as (l1 & l2 & -> & -> & ->). apply IH in P; [|exact NA|exact PT]. apply TT_some; [intros ->; auto| |exact P].
        apply all_in_map with (P := is_tag) in Ha; [exact Ha|]. intros. apply anytag_in.
      - intros H. inversion H as [| |x s l' Hx T E|l1 s l' Nl Fl T E|l1 s l' Fl T E|t' s l' N1 N2 T E]; subst; try discriminate.
        + exists (map alts l1), (map alts l'). rewrite map_app. repeat split; [destruct l1; [congruence|discriminate]|apply all_in_map with (P := is_tag); [intros; apply anytag_in|exact Fl]|]. apply IH; [exact NA|exact PT|exact T].
        + exfalso. apply N2. right; left; reflexivity. }
    destruct (str_eqb t (u "*"%string)) eqn:E2.
    { apply str_eqb_eq in E2. subst t. cbn [app plang]. split.
      - intros (y & z & H & Ha & P). apply map_split in H. destruct H as (l1 & l2 & -> & -> & ->). apply IH in P; [|exact NA|exact PT]. apply TT_any; [|exact P].
        apply all_in_map with (P := is_tag) in Ha; [exact Ha|]. intros. apply anytag_in.
      - intros H. inversion H as [| |x s l' Hx T E|l1 s l' Nl Fl T E|l1 s l' Fl T E|t' s l' N1 N2 T E]; subst; try discriminate.
        + exists (map alts l1), (map alts l'). rewrite map_app. repeat split; [apply all_in_map with (P := is_tag); [intros; apply anytag_in|exact Fl]|]. apply IH; [exact NA|exact PT|exact T].
        + exfalso. apply N2. right; right; left; reflexivity. }
    destruct (str_eqb t (u "?"%string)) eqn:E3.
    { apply str_eqb_eq in E3. subst t. destruct PT as [A PT]. cbn [app plang]. destruct (prev_dec prev any_tag) as [Q|_]; [apply looped_true in Q; congruence|]. split.
      - intros (a & y & H & Ha & P). destruct l as [|x l]; [discriminate|]. cbn in H. injection H as <- <-. apply IH in P; [|exact NN|exact PT]. apply TT_one; [|exact P]. apply anytag_in. exact Ha.
      - intros H. inversion H as [| |x s l' Hx T E|l1 s l' Nl Fl T E|l1 s l' Fl T E|t' s l' N1 N2 T E]; subst; try discriminate.
        + eexists _, _. split; [reflexivity|]. split; [apply anytag_in; exact Hx|]. apply IH; [exact NN|exact PT|exact T].
        + exfalso. apply N2. left; reflexivity. }
    destruct t as [|c t].
    + cbn [app]. rewrite IH by assumption. split; [apply TT_empty|]. intros H. inversion H as [|s l' T E|x s l' Hx T E|l1 s l' Nl Fl T E|l1 s l' Fl T E|t' s l' N1 N2 T E]; subst; try discriminate; [exact T|congruence].
    + destruct PT as [A PT]. remember (c :: t) as tg eqn:Etg. cbn [app plang]. destruct (prev_dec prev (ITag (cLT :: tg ++ [cGT]))) as [Q|_].
      { exfalso. destruct (HP _ Q) with (t := cLT :: tg ++ [cGT]) as [K|K]; [|congruence|exact (A K)]. intros K. injection K as K. apply A. change (u "<"%string ++ tg ++ u ">"%string) with (cLT :: tg ++ [cGT]). rewrite K. vm_compute. tauto. }
      split.
      * intros (a & y & H & Ha & P). destruct l as [|x l]; [discriminate|]. cbn in H. injection H as <- <-. apply IH in P; [|exact NN|exact PT].
        apply tag_in in Ha; [|exact A]. subst x. apply TT_tag; [subst tg; discriminate| |exact P]. intros [K|[K|[K|[]]]]; [rewrite <- K in E3|rewrite <- K in E1|rewrite <- K in E2]; discriminate.
      * assert (Nt : tg <> []) by (subst tg; discriminate). clear Etg c t. intros H. inversion H as [|s l' T E|x s l' Hx T E|l1 s l' Nl Fl T E|l1 s l' Fl T E|t' s l' N1 N2 T E]; subst; try congruence.
        -- discriminate E3.
        -- discriminate E1.
        -- discriminate E2.
        -- eexists _, _. split; [reflexivity|]. split; [apply tag_in; [exact A|reflexivity]|]. apply IH; [exact NN|exact PT|exact T].
Qed.

(** ** a match and a word *)
Lemma plang_prev prev ps x : (match ps with One j :: _ | Plus j :: _ => prev <> Some j | _ => True end) -> plang prev ps x <-> plang None ps x.
Proof.
  destruct ps as [|[j|j|j] ps]; intros H; cbn [plang]; [reflexivity| | |reflexivity]; destruct (prev_dec prev j); [contradiction| |contradiction|]; destruct (prev_dec None j); try discriminate; reflexivity.
Qed.
Lemma after_sym ps : forall prev i, after prev ps = Some i -> prev = Some i \/ In (Plus i) ps \/ In (Star i) ps.
Proof.
  induction ps as [|c ps IH]; intros prev i H; [left; exact H|]. cbn [after fold_left] in H. apply IH in H. destruct H as [H|[H|H]]; [|right; left; right; exact H|right; right; right; exact H].
  destruct c as [j|j|j]; cbn [after1] in H.
  - destruct (prev_dec prev j); [left; exact H|discriminate].
  - injection H as ->. right; left; left; reflexivity.
  - injection H as ->. right; right; left; reflexivity.
Qed.
Definition sym_of (c : piece) : isym := match c with One i | Plus i | Star i => i end.
Definition no_slash (ps : list piece) : Prop := Forall (fun c => sym_of c <> IChar cSLASH) ps.
Definition SL : list isym := [IChar cSLASH].
Lemma after_noslash prev ps : no_slash ps -> prev <> Some (IChar cSLASH) -> after prev ps <> Some (IChar cSLASH).
Proof.
  intros N P H. apply after_sym in H. unfold no_slash in N. rewrite Forall_forall in N. destruct H as [H|[H|H]]; [contradiction| |]; apply N in H; apply H; reflexivity.
Qed.
Lemma plang_noslash ps : forall prev x, no_slash ps -> plang prev ps x -> ~ In SL x.
Proof.
  assert (G : forall i x, i <> IChar cSLASH -> all_in i x -> ~ In SL x).
  { intros i x N A K. unfold all_in in A. rewrite Forall_forall in A. apply A in K. destruct K as [K|[]]. congruence. }
  induction ps as [|c ps IH]; intros prev x N P.
  - cbn in P. subst x. intros [].
  - inversion N as [|? ? N1 N2]; subst. destruct c as [i|i|i]; cbn [plang sym_of] in *.
    + destruct (prev_dec prev i); [eapply IH; eauto|]. destruct P as (a & y & -> & Ha & P). intros [K|K]; [subst a; destruct Ha as [Ha|[]]; congruence|]. exact (IH _ _ N2 P K).
    + destruct (prev_dec prev i); [eapply IH; eauto|]. destruct P as (y & z & -> & _ & Ha & P). rewrite in_app_iff. intros [K|K]; [exact (G _ _ N1 Ha K)|exact (IH _ _ N2 P K)].
    + destruct P as (y & z & -> & Ha & P). rewrite in_app_iff. intros [K|K]; [exact (G _ _ N1 Ha K)|exact (IH _ _ N2 P K)].
Qed.
Lemma spec_noslash s : no_slash (spec_pieces isupper s).
Proof. unfold no_slash, spec_pieces. rewrite Forall_map. apply Forall_forall. intros c _. apply class_not_slash. Qed.
Lemma lit_noslash s : ~ In cSLASH s -> no_slash (map lit_piece s).
Proof.
  intros N. unfold no_slash. rewrite Forall_map. apply Forall_forall. intros c Hc. unfold lit_piece. destruct (c =?c cSTAR); cbn; [discriminate|]. intros K. injection K as ->. contradiction.
Qed.
Lemma text_noslash lit case : ~ In cSLASH (given lit) -> no_slash (text_pieces isupper lit case).
Proof. intros N. unfold text_pieces. destruct (is_star (attr lit)); [apply spec_noslash|apply lit_noslash; exact N]. Qed.
Lemma tags_noslash ts : no_slash (flat_map tag_piece ts).
Proof.
  unfold no_slash. apply Forall_forall. intros c H. apply in_flat_map in H. destruct H as (t & _ & H). unfold tag_piece in H.
  destruct (str_eqb t [cPLUS]); [destruct H as [<-|[]]; discriminate|]. destruct (str_eqb t [cSTAR]); [destruct H as [<-|[]]; discriminate|]. destruct (str_eqb t [cQM]); [destruct H as [<-|[]]; discriminate|].
  destruct t; [destruct H|destruct H as [<-|[]]; discriminate].
Qed.
Lemma text_lang lit case l : fine l -> plang None (text_pieces isupper lit case) (map alts l) <-> text_ok isupper lit case l.
Proof.
  intros F. unfold text_pieces, text_ok, is_star. change (attr lit) with (given lit). change [cSTAR] with (u "*"%string). destruct (str_eqb (given lit) (u "*"%string)).
  - eapply case_lang; [apply Nat.le_refl|exact F].
  - eapply lit_lang; [apply Nat.le_refl|exact F].
Qed.
Lemma text_after lit case i : after None (text_pieces isupper lit case) = Some i -> i <> any_tag /\ forall t, i <> ITag t \/ In t own_tags.
Proof.
  intros H. apply after_sym in H. assert (K : exists c, i = class_sym c).
  { destruct H as [H|[H|H]]; [discriminate| |]; unfold text_pieces in H; destruct (is_star (attr lit)); apply in_map_iff in H; destruct H as (c & H & _).
    - injection H as <-. exists c. reflexivity.
    - unfold lit_piece in H. destruct (c =?c cSTAR); [|discriminate]. injection H as <-. exists cSTAR. reflexivity.
    - discriminate.
    - unfold lit_piece in H. destruct (c =?c cSTAR); discriminate. }
  destruct K as (c & ->). split; [apply class_not_tag|]. intros t. unfold CapsCompile.class_sym.
  destruct (c =?c cSTAR); [|destruct (c =?c cSP); [left; discriminate|destruct (isupper c)]].
  - destruct (in_dec (list_eq_dec N.eq_dec) t own_tags); [right; assumption|left]. intros K. symmetry in K. revert K. own.
  - destruct (in_dec (list_eq_dec N.eq_dec) t own_tags); [right; assumption|left]. intros K. symmetry in K. revert K. own.
  - destruct (in_dec (list_eq_dec N.eq_dec) t own_tags); [right; assumption|left]. intros K. symmetry in K. revert K. own.
Qed.
Lemma plang_slash prev ps x : prev <> Some (IChar cSLASH) -> plang prev ([slash] ++ ps) x <-> exists a y, x = a :: y /\ In (IChar cSLASH) a /\ plang None ps y.
Proof. intros N. cbn [app plang slash]. destruct (prev_dec prev (IChar cSLASH)); [contradiction|reflexivity]. Qed.
Lemma match_lang m y : plain_match m -> plang None (match_pieces isupper m) y <-> exists a s1 b s2 c d s3 e,
  y = a ++ s1 :: b ++ s2 :: c ++ d ++ s3 :: e /\ In (IChar cSLASH) s1 /\ In (IChar cSLASH) s2 /\ In (IChar cSLASH) s3 /\
  plang None (spec_pieces isupper (given (cm_srcsurf m))) a /\ plang None (spec_pieces isupper (given (cm_srclem m))) b /\
  plang None (text_pieces isupper (cm_lemma m) (cm_trglem m)) c /\ plang (after None (text_pieces isupper (cm_lemma m) (cm_trglem m))) (flat_map tag_piece (given_tags (cm_tags m))) d /\
  plang None (text_pieces isupper (cm_surface m) (cm_trgsurf m)) e.
Proof.
  intros (PT & NL & NS). unfold match_pieces. change (attr (cm_srcsurf m)) with (given (cm_srcsurf m)). change (attr (cm_srclem m)) with (given (cm_srclem m)). change (attr_tags (cm_tags m)) with (given_tags (cm_tags m)).
  assert (A1 : after None (spec_pieces isupper (given (cm_srcsurf m))) <> Some (IChar cSLASH)) by (apply after_noslash; [apply spec_noslash|discriminate]).
  assert (A2 : after None (spec_pieces isupper (given (cm_srclem m))) <> Some (IChar cSLASH)) by (apply after_noslash; [apply spec_noslash|discriminate]).
  assert (A3 : after None (text_pieces isupper (cm_lemma m) (cm_trglem m)) <> Some (IChar cSLASH)) by (apply after_noslash; [apply text_noslash; exact NL|discriminate]).
  assert (A4 : after (after None (text_pieces isupper (cm_lemma m) (cm_trglem m))) (flat_map tag_piece (given_tags (cm_tags m))) <> Some (IChar cSLASH)) by (apply after_noslash; [apply tags_noslash|exact A3]).
  rewrite plang_app. split.
  - intros (a & y1 & -> & Pa & P). apply plang_slash in P; [|exact A1]. destruct P as (s1 & y2 & -> & H1 & P). apply plang_app in P. destruct P as (b & y3 & -> & Pb & P).
    apply plang_slash in P; [|exact A2]. destruct P as (s2 & y4 & -> & H2 & P). apply plang_app in P. destruct P as (c & y5 & -> & Pc & P). apply plang_app in P. destruct P as (d & y6 & -> & Pd & P).
    apply plang_slash in P; [|exact A4]. destruct P as (s3 & e & -> & H3 & P). exists a, s1, b, s2, c, d, s3, e. auto 12.
  - intros (a & s1 & b & s2 & c & d & s3 & e & -> & H1 & H2 & H3 & Pa & Pb & Pc & Pd & Pe). eexists _, _. split; [reflexivity|]. split; [exact Pa|]. apply plang_slash; [exact A1|].
    eexists _, _. split; [reflexivity|]. split; [exact H1|]. apply plang_app. eexists _, _. split; [reflexivity|]. split; [exact Pb|]. apply plang_slash; [exact A2|].
    eexists _, _. split; [reflexivity|]. split; [exact H2|]. apply plang_app. eexists _, _. split; [reflexivity|]. split; [exact Pc|]. apply plang_app. eexists _, _. split; [reflexivity|]. split; [exact Pd|].
    apply plang_slash; [exact A4|]. eexists _, _. split; [reflexivity|]. split; [exact H3|exact Pe].
Qed.
Definition body (src form surf : str) : stream := note_syms isupper src ++ SL :: map alts (tokenize form) ++ SL :: map alts (tokenize surf).
Lemma word_body src form surf : word_syms isupper src form surf = body src form surf ++ [[word_boundary]].
Proof. unfold word_syms, body, SL. rewrite <- !app_assoc. cbn [app]. rewrite <- !app_assoc. reflexivity. Qed.
Lemma noslash_alts l : Forall usual l -> Forall (fun a => ~ In (IChar cSLASH) a) (map alts l).
Proof. intros F. rewrite Forall_map. eapply Forall_impl; [|exact F]. intros x U K. apply char_in in K. subst x. cbn in U. congruence. Qed.
Lemma note_slash src : Forall (fun a => In (IChar cSLASH) a -> a = SL) (note_syms isupper src).
Proof.
  unfold note_syms. rewrite Forall_map. apply Forall_forall. intros c _. destruct (ceq_spec c cSLASH) as [->|N]; [reflexivity|]. intros K. apply char_in in K. injection K as ->. congruence.
Qed.
Lemma note_split src a b : note_syms isupper src = a ++ SL :: b -> exists ss sl, src = ss ++ cSLASH :: sl /\ a = note_syms isupper ss /\ b = note_syms isupper sl.
Proof.
  unfold note_syms. intros H. apply map_split in H. destruct H as (l1 & l2 & -> & -> & H). destruct l2 as [|c l2]; [discriminate|]. cbn [map] in H. assert (H1 : SL = if c =?c cSLASH then [IChar c] else alts (IChar c)) by congruence. assert (H2 : b = map (fun c => if c =?c cSLASH then [IChar c] else alts (IChar c)) l2) by congruence.
  exists l1, l2. repeat split; auto. f_equal. f_equal. destruct (ceq_spec c cSLASH) as [->|N]; [reflexivity|]. exfalso. assert (K : In (IChar cSLASH) (alts (IChar c))) by (rewrite <- H1; left; reflexivity).
  apply char_in in K. congruence.
Qed.
Lemma note_plain ss : ~ In cSLASH ss -> note_syms isupper ss = map alts (map IChar ss).
Proof.
  intros N. unfold note_syms. rewrite map_map. apply map_ext_in. intros c Hc. destruct (ceq_spec c cSLASH) as [->|]; [contradiction|reflexivity].
Qed.
Lemma note_SL ss : In cSLASH ss -> In SL (note_syms isupper ss).
Proof. intros H. unfold note_syms. apply in_map_iff. exists cSLASH. rewrite ceq_refl. auto. Qed.
Lemma fine_chars ss : fine (map IChar ss).
Proof. unfold fine. rewrite Forall_map. apply Forall_forall. intros c _. right. eauto. Qed.
Lemma fine_usual l : Forall usual l -> fine l.
Proof. intros F. eapply Forall_impl; [|exact F]. auto. Qed.
Lemma match_word m src form surf : plain_match m -> good_word (src, form, surf) -> plang None (match_pieces isupper m) (body src form surf) <-> word_ok isupper m (src, form, surf).
Proof.
  intros PM ((lf & Tf & Uf) & (ls & Ts & Us)). rewrite (match_lang m _ PM). destruct PM as (PT & NL & NS). unfold body. rewrite (tokenize_toks _ _ Tf), (tokenize_toks _ _ Ts).
  assert (SF : ~ In SL (map alts lf)) by (intros K; pose proof (noslash_alts _ Uf) as N; rewrite Forall_forall in N; apply N in K; apply K; left; reflexivity).
  assert (SS : ~ In SL (map alts ls)) by (intros K; pose proof (noslash_alts _ Us) as N; rewrite Forall_forall in N; apply N in K; apply K; left; reflexivity).
  assert (HT : forall i, after None (text_pieces isupper (cm_lemma m) (cm_trglem m)) = Some i -> i <> any_tag -> forall t, i <> ITag t \/ In t own_tags) by (intros i K _; exact (proj2 (text_after _ _ _ K))).
  assert (HL : looped (after None (text_pieces isupper (cm_lemma m) (cm_trglem m))) = false).
  { destruct (looped _) eqn:K; [|reflexivity]. apply looped_true in K. exfalso. exact (proj1 (text_after _ _ _ K) eq_refl). }
  split.
  - intros (a & s1 & b & s2 & c & d & s3 & e & H & H1 & H2 & H3 & Pa & Pb & Pc & Pd & Pe).
    assert (All : Forall (fun x => In (IChar cSLASH) x -> x = SL) (note_syms isupper src ++ SL :: map alts lf ++ SL :: map alts ls)).
    { apply Forall_app. split; [apply note_slash|]. constructor; [auto|]. apply Forall_app. split; [eapply Forall_impl; [|apply noslash_alts; exact Uf]; cbn; intros; contradiction|].
      constructor; [auto|]. eapply Forall_impl; [|apply noslash_alts; exact Us]. cbn; intros; contradiction. }
    rewrite Forall_forall in All.
    assert (s1 = SL) by (apply All; [rewrite H; repeat (apply in_or_app; right); left; reflexivity|exact H1]). subst s1.
    assert (s2 = SL) by (apply All; [rewrite H; apply in_or_app; right; right; apply in_or_app; right; left; reflexivity|exact H2]). subst s2.
    assert (s3 = SL) by (apply All; [rewrite H; apply in_or_app; right; right; apply in_or_app; right; right; apply in_or_app; right; apply in_or_app; right; left; reflexivity|exact H3]). subst s3. clear All.
    pose proof (plang_noslash _ _ _ (spec_noslash _) Pa) as Na. pose proof (plang_noslash _ _ _ (spec_noslash _) Pb) as Nb. pose proof (plang_noslash _ _ _ (text_noslash _ _ NL) Pc) as Nc.
    pose proof (plang_noslash _ _ _ (tags_noslash _) Pd) as Nd. pose proof (plang_noslash _ _ _ (text_noslash _ _ NS) Pe) as Ne.
    replace (note_syms isupper src ++ SL :: map alts lf ++ SL :: map alts ls) with ((note_syms isupper src ++ SL :: map alts lf) ++ SL :: map alts ls) in H by (rewrite <- app_assoc; reflexivity).
    replace (a ++ SL :: b ++ SL :: c ++ d ++ SL :: e) with ((a ++ SL :: b ++ SL :: c ++ d) ++ SL :: e) in H by (repeat (rewrite <- app_assoc; cbn [app]); reflexivity).
    apply split_last in H; [|exact SS|exact Ne]. destruct H as [H <-].
    replace (a ++ SL :: b ++ SL :: c ++ d) with ((a ++ SL :: b) ++ SL :: c ++ d) in H by (rewrite <- app_assoc; reflexivity).
    apply split_last in H; [|exact SF|rewrite in_app_iff; tauto]. destruct H as [H H']. apply note_split in H. destruct H as (ss & sl & -> & -> & ->).
    assert (Q1 : ~ In cSLASH ss) by (intros K; apply Na, note_SL; exact K). assert (Q2 : ~ In cSLASH sl) by (intros K; apply Nb, note_SL; exact K).
    rewrite note_plain in Pa, Pb by assumption. apply map_split in H'. destruct H' as (lem & tags & -> & -> & ->).
    apply Forall_app in Uf. destruct Uf as [Ul Ut].
    change (cSLASH :: sl) with (u "/"%string ++ sl). apply WO with (lem := lem) (tags := tags) (lsurf := ls); auto.
    + eapply case_lang; [apply Nat.le_refl|apply fine_chars|exact Pa].
    + eapply case_lang; [apply Nat.le_refl|apply fine_chars|exact Pb].
    + apply text_lang; [apply fine_usual; exact Ul|exact Pc].
    + eapply tag_lang; [exact HT| |exact Pd]. rewrite HL. exact PT.
    + apply text_lang; [apply fine_usual; exact Us|exact Pe].
  - intros H. inversion H as [ss sl form' lem tags surf' lsurf N1 N2 C1 C2 Tf' Tx Tg Ts' Tx2 E1]; subst. rewrite <- (toks_fun _ _ _ Ts Ts') in *. assert (lf = lem ++ tags) by (eapply toks_fun; eauto). subst lf.
    apply Forall_app in Uf. destruct Uf as [Ul Ut].
    exists (map alts (map IChar ss)), SL, (map alts (map IChar sl)), SL, (map alts lem), (map alts tags), SL, (map alts ls). repeat split; try (left; reflexivity).
    + rewrite <- !note_plain by assumption. rewrite map_app. unfold note_syms. rewrite map_app. cbn [map u app]. repeat (rewrite <- app_assoc; cbn [app]). reflexivity.
    + eapply case_lang; [apply Nat.le_refl|apply fine_chars|exact C1].
    + eapply case_lang; [apply Nat.le_refl|apply fine_chars|exact C2].
    + apply text_lang; [apply fine_usual; exact Ul|exact Tx].
    + eapply tag_lang; [exact HT| |exact Tg]. rewrite HL. exact PT.
    + apply text_lang; [apply fine_usual; exact Us|exact Tx2].
Qed.
End W.
