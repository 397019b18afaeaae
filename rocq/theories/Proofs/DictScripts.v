(** Proofs about the dictionary and rule filtering scripts. *)
From Coq Require Import String Lia.
From Verif Require Import Model.Base Model.DictScripts Spec.DictScripts Proofs.Base.
Open Scope nat_scope.

Lemma xml_ind' (P : xml -> Prop) : (forall n a k, Forall P k -> P (El n a k)) -> (forall s, P (Tx s)) -> (forall s, P (Mk s)) -> forall x, P x.
Proof. intros HE HT HM. fix IH 1. intros [n a k|s|s]; [|apply HT|apply HM]. apply HE. induction k as [|x k IHk]; constructor; [apply IH|exact IHk]. Qed.
Lemma isin_In x l : isin x l = true <-> In x l.
Proof.
  unfold isin. rewrite existsb_exists. split.
  - intros (y & I & E). apply str_eqb_eq in E. now subst y.
  - intros I. exists x. split; [exact I|apply str_eqb_eq; reflexivity].
Qed.
Lemma isin_nIn x l : isin x l = false <-> ~ In x l.
Proof. rewrite <- isin_In. destruct (isin x l); split; congruence. Qed.
Lemma str_eqb_r x : str_eqb x x = true. Proof. apply str_eqb_eq. reflexivity. Qed.
Lemma str_eqb_n x y : x <> y -> str_eqb x y = false.
Proof. intros N. destruct (str_eqb x y) eqn:E; [apply str_eqb_eq in E; congruence|reflexivity]. Qed.
Lemma fm_eq {A B} (f g : A -> list B) l : Forall (fun x => f x = g x) l -> flat_map f l = flat_map g l.
Proof. induction 1 as [|x l H _ IH]; cbn; [reflexivity|]. now rewrite H, IH. Qed.
Lemma fm_fm {A B C} (f : A -> list B) (g : B -> list C) l : flat_map g (flat_map f l) = flat_map (fun x => flat_map g (f x)) l.
Proof. induction l as [|x l IH]; cbn; [reflexivity|]. now rewrite flat_map_app, IH. Qed.

(** ** filter-dix *)
Notation R_ := (u "r"%string).
Notation V_ := (u "v"%string).
Notation E_ := (u "e"%string).
Lemma del_rv (a : list (str * str)) : Forall (fun p => fst p = R_ \/ fst p = V_) a -> del R_ (del V_ a) = [].
Proof.
  induction 1 as [|[x v] a [H|H] _ IH]; [reflexivity| |]; cbn in H; subst x; unfold del in *.
  - cbn [filter]. change (str_eqb (fst (R_, v)) V_) with false. cbn [negb filter]. change (str_eqb (fst (R_, v)) R_) with true. cbn [negb]. exact IH.
  - cbn [filter]. change (str_eqb (fst (V_, v)) V_) with true. cbn [negb]. exact IH.
Qed.
Definition side (left : bool) : dir := if left then LR else RL.
Lemma name_not_e n l : In n (map u l) -> isin E_ (map u l) = false -> str_eqb n E_ = false.
Proof. intros I F. apply str_eqb_n. intros ->. apply isin_nIn in F. contradiction. Qed.

Ltac names I := cbn [map In] in I; repeat (destruct I as [<-|I]; [try reflexivity|]); [..|destruct I].

Section F.
Variables (lang : str) (left : bool).
Notation fd := (fd lang left).
Definition mine (v : str) : bool := str_eqb v lang.
(* the two halves of an entry's fate *)
Definition fate (d : dir) (a : list (str * str)) : bool :=
  match fd_e lang left a with None => false | Some None => true | Some (Some r) => usable d [(R_, r)] end.
Definition wanted (d : dir) (a : list (str * str)) : bool := usable d a && (of_variety mine a || dir_eqb d (side left)).
Lemma usable_one d r : usable d [(R_, r)] = if str_eqb r (u "LR"%string) then dir_eqb d LR else if str_eqb r (u "RL"%string) then dir_eqb d RL else true.
Proof. unfold usable. cbn [att]. change (str_eqb R_ R_) with true. reflexivity. Qed.
Definition no_reverse (a : list (str * str)) : Prop := left = true -> of_variety mine a = false -> att R_ a <> Some (u "RL"%string).
Lemma fate_wanted d a : no_reverse a -> fate d a = wanted d a.
Proof.
  unfold no_reverse, fate, wanted, fd_e, of_variety, mine. intros NR.
  destruct (att V_ a) as [v|] eqn:V.
  - destruct (str_eqb v lang) eqn:E.
    + cbn [orb]. rewrite Bool.andb_true_r. unfold usable at 2. destruct (att R_ a) as [r|] eqn:RR; [|reflexivity]. apply usable_one.
    + cbn [orb]. destruct left.
      * rewrite usable_one. change (str_eqb (u "LR"%string) (u "LR"%string)) with true. cbv iota. cbn [side]. unfold usable.
        specialize (NR eq_refl eq_refl).
        destruct (att R_ a) as [r|] eqn:RR; [|destruct d; reflexivity].
        destruct (str_eqb r (u "LR"%string)) eqn:E1; [destruct d; reflexivity|].
        destruct (str_eqb r (u "RL"%string)) eqn:E2; [apply str_eqb_eq in E2; congruence|]. destruct d; reflexivity.
      * unfold usable at 2. cbn [side]. destruct (att R_ a) as [r|] eqn:RR.
        -- destruct (str_eqb r (u "LR"%string)) eqn:E1; [destruct d; reflexivity|]. rewrite usable_one. change (str_eqb (u "RL"%string) (u "LR"%string)) with false.
           change (str_eqb (u "RL"%string) (u "RL"%string)) with true. cbv iota. destruct (str_eqb r (u "RL"%string)); destruct d; reflexivity.
        -- rewrite usable_one. change (str_eqb (u "RL"%string) (u "LR"%string)) with false.
           change (str_eqb (u "RL"%string) (u "RL"%string)) with true. cbv iota. destruct d; reflexivity.
  - cbn [orb]. rewrite Bool.andb_true_r. unfold usable at 2. destruct (att R_ a) as [r|] eqn:RR; [|reflexivity]. apply usable_one.
Qed.
Lemma fd_entry a k : fd (El E_ a k) = match fd_e lang left a with None => [] | Some None => [El E_ [] (flat_map fd k)] | Some (Some r) => [El E_ [(R_, r)] (flat_map fd k)] end.
Proof. reflexivity. Qed.
Lemma fd_view d x : covered x -> (forall a, entry_in a x -> no_reverse a) -> flat_map (view (usable d)) (fd x) = view (wanted d) x.
Proof.
  induction x as [n a k IH|s|s] using xml_ind'; intros C NR; [|reflexivity|reflexivity].
  assert (K : Forall covered k -> flat_map (view (usable d)) (flat_map fd k) = flat_map (view (wanted d)) k).
  { intros CK. rewrite fm_fm. apply fm_eq. rewrite Forall_forall in *. intros x X. apply IH; auto. intros b B. apply NR. eapply E_below; eauto. }
  clear IH. inversion C as [| |? ? A CK|? ? I CK|? ? I|? I|? ? CK|? ? ? CK]; subst.
  - specialize (K CK). rewrite fd_entry. cbn [view]. change (str_eqb E_ E_) with true. cbv iota. rewrite (del_rv _ A).
    assert (F : fate d a = wanted d a) by (apply fate_wanted, NR; constructor). rewrite <- F. unfold fate. rewrite <- K.
    destruct (fd_e lang left a) as [[r|]|]; cbn [flat_map app]; [|reflexivity|reflexivity].
    rewrite app_nil_r. cbn [view]. change (str_eqb E_ E_) with true. cbv iota. destruct (usable d [(R_, r)]); reflexivity.
  - specialize (K CK). cbn [DictScripts.fd view]. rewrite (name_not_e _ _ I) by reflexivity.
    rewrite (proj2 (isin_In n bare) I). cbn [flat_map]. rewrite app_nil_r. cbn [view]. rewrite (name_not_e _ _ I) by reflexivity. now rewrite K.
  - names I.
  - names I.
  - specialize (K CK). cbn [DictScripts.fd]. cbn [view]. change (str_eqb (u "pardef"%string) E_) with false. cbv iota.
    change (isin (u "pardef"%string) bare) with false. change (isin (u "pardef"%string) named) with false. change (isin (u "pardef"%string) empties) with false. change (str_eqb (u "pardef"%string) (u "pardef"%string)) with true. cbv iota.
    cbn [flat_map]. rewrite app_nil_r. cbn [view]. change (str_eqb (u "pardef"%string) E_) with false. cbv iota. rewrite K. reflexivity.
  - specialize (K CK). cbn [DictScripts.fd]. cbn [view]. change (str_eqb (u "section"%string) E_) with false. cbv iota.
    change (isin (u "section"%string) bare) with false. change (isin (u "section"%string) named) with false. change (isin (u "section"%string) empties) with false. change (str_eqb (u "section"%string) (u "pardef"%string)) with false. change (str_eqb (u "section"%string) (u "section"%string)) with true. cbv iota.
    cbn [flat_map]. rewrite app_nil_r. cbn [view]. change (str_eqb (u "section"%string) E_) with false. cbv iota. rewrite K. reflexivity.
Qed.
(* what comes out comes out again *)
Lemma fd_again x : flat_map fd (fd x) = fd x.
Proof.
  induction x as [n a k IH|s|s] using xml_ind'; [|reflexivity|reflexivity].
  assert (K : flat_map fd (flat_map fd k) = flat_map fd k) by (rewrite fm_fm; apply fm_eq; exact IH).
  cbn [DictScripts.fd]. destruct (str_eqb n E_) eqn:E.
  { apply str_eqb_eq in E. subst n. destruct (fd_e lang left a) as [[r|]|]; cbn [flat_map app]; rewrite ?app_nil_r; [| |reflexivity].
    - rewrite fd_entry. cbn. now rewrite K.
    - rewrite fd_entry. cbn. now rewrite K. }
  destruct (isin n bare) eqn:B; [cbn [flat_map DictScripts.fd]; rewrite E, B, app_nil_r; now rewrite K|].
  destruct (isin n named) eqn:N; [cbn [flat_map DictScripts.fd]; rewrite E, B, N, app_nil_r; reflexivity|].
  destruct (isin n empties) eqn:M; [cbn [flat_map DictScripts.fd]; rewrite E, B, N, M, app_nil_r; reflexivity|].
  destruct (str_eqb n (u "pardef"%string)) eqn:P; [cbn [flat_map DictScripts.fd]; rewrite E, B, N, M, P, app_nil_r, K; reflexivity|].
  destruct (str_eqb n (u "section"%string)) eqn:S; [cbn [flat_map DictScripts.fd]; rewrite E, B, N, M, P, S, app_nil_r, K; reflexivity|].
  exact K.
Qed.
End F.

(** ** genvdix *)
Section G.
Variable ws : char -> bool.
Notation words := (words ws).
Lemma words_word w s cur : Forall (fun c => ws c = false) cur ->
  (In w (words s cur) <-> (exists b t, rev cur ++ s = w ++ b /\ w <> [] /\ Forall (fun c => ws c = false) w /\ List.length cur <= List.length w /\ (b = [] \/ exists c b', b = c :: b' /\ ws c = true) /\ t = b)
                       \/ (exists a c b, s = a ++ c :: b /\ ws c = true /\ In w (words b []))).
Proof.
  revert cur. induction s as [|c s IH]; intros cur F; cbn [DictScripts.words].
  - split.
    + intros I. left. destruct cur as [|x cur]; [destruct I|]. destruct I as [<-|[]]. exists [], []. split; [reflexivity|].
      split; [cbn; intros E; apply (f_equal (@List.length N)) in E; rewrite app_length in E; cbn in E; lia|]. split; [apply Forall_rev; exact F|].
      rewrite rev_length. auto.
    + intros [(b & t & E & NE & FW & L & B & _)|(a & c & b & E & _)]; [|destruct a; discriminate].
      rewrite app_nil_r in E. destruct cur as [|x cur]; [destruct w; [congruence|discriminate]|].
      assert (b = []). { apply (f_equal (@List.length N)) in E. rewrite app_length, rev_length in E. destruct b; [reflexivity|cbn in *; lia]. }
      subst b. rewrite app_nil_r in E. left. exact E.
  - destruct (ws c) eqn:W.
    + assert (Q : In w (match cur with [] => words s [] | _ => rev cur :: words s [] end) <-> (cur <> [] /\ w = rev cur) \/ In w (words s [])).
      { destruct cur as [|x cur]; [split; [auto|intros [[X _]|X]; [congruence|exact X]]|]. cbn [In]. split; intros [X|X]; auto; [left; split; [discriminate|auto]|destruct X; auto]. }
      rewrite Q. clear Q. split.
      * intros [[NE ->]|I].
        -- left. exists (c :: s), (c :: s). split; [reflexivity|]. split; [intros E; apply NE; apply (f_equal (@rev N)) in E; rewrite rev_involutive in E; exact E|]. split; [apply Forall_rev; exact F|]. rewrite rev_length. split; [lia|]. split; [right; eauto|reflexivity].
        -- right. exists [], c, s. auto.
      * intros [(b & t & E & NE & FW & L & B & _)|(a & c' & b & E & W' & I)].
        -- (* w begins with rev cur and has no space: it is rev cur *)
           assert (P : w = rev cur).
           { assert (E2 : exists z, w = rev cur ++ z).
             { exists (skipn (List.length cur) w). rewrite <- (firstn_skipn (List.length cur) w) at 1. f_equal.
               apply (f_equal (firstn (List.length cur))) in E. rewrite firstn_app in E. rewrite rev_length, Nat.sub_diag in E. rewrite firstn_all2 in E by (rewrite rev_length; lia). cbn [firstn] in E. rewrite app_nil_r in E.
               rewrite firstn_app in E. replace (List.length cur - List.length w) with 0 in E by lia. cbn [firstn] in E. rewrite app_nil_r in E. symmetry. exact E. }
             destruct E2 as [z ->]. rewrite <- app_assoc in E. apply app_inv_head in E. destruct z as [|y z]; [now rewrite app_nil_r|]. injection E as <- E. rewrite Forall_app in FW. destruct FW as [_ FW]. inversion FW; congruence. }
           left. split; [|exact P]. subst w. destruct cur; [cbn in NE; congruence|discriminate].
        -- right. destruct a as [|y a]; injection E as <- ->; [exact I|].
           apply IH; [constructor|]. right. exists a, c', b. auto.
    + rewrite IH by (constructor; auto). cbn [rev]. split.
      * intros [(b & t & E & NE & FW & L & B & _)|(a & c' & b & -> & W' & I)].
        -- left. exists b, b. rewrite <- app_assoc in E. cbn [app] in E. cbn [List.length] in L. split; [exact E|]. repeat (split; [auto; lia|]). auto.
        -- right. exists (c :: a), c', b. auto.
      * intros [(b & t & E & NE & FW & L & B & _)|(a & c' & b & E & W' & I)].
        -- left. exists b, b. rewrite <- app_assoc. cbn [app List.length]. split; [exact E|]. split; [exact NE|]. split; [exact FW|]. split; [|auto].
           destruct (Nat.eq_dec (List.length cur) (List.length w)) as [EQ|]; [|lia]. exfalso.
           assert (w = rev cur /\ b = c :: s) as [-> ->].
           { assert (X : forall (p q x y : str), List.length p = List.length q -> p ++ x = q ++ y -> p = q /\ x = y).
             { induction p as [|z p IHp]; destruct q; cbn; intros x y LL EE; try discriminate; auto. injection LL as LL. injection EE as -> EE. destruct (IHp _ _ _ LL EE) as [-> ->]. auto. }
             destruct (X (rev cur) w (c :: s) b) as [<- <-]; auto. now rewrite rev_length. }
           destruct B as [B|(c' & b' & B & WB)]; [discriminate|]. injection B as -> ->. congruence.
        -- destruct a as [|y a]; injection E as <- ->; [congruence|]. right. exists a, c', b. auto.
Qed.
Lemma words_spec w s : In w (words s []) <-> word ws w s.
Proof.
  remember (List.length s) as n eqn:En. revert s En. induction n as [n IHn] using lt_wf_ind. intros s ->. rewrite words_word by constructor. cbn [rev app List.length]. split.
  - intros [(b & t & -> & NE & FW & L & B & _)|(a & c & b & -> & W & I)].
    + exists [], b. auto 8.
    + apply (IHn (List.length b)) in I; [|rewrite app_length; cbn; lia|reflexivity].
      destruct I as (a' & b' & -> & NE & FW & A & B). exists (a ++ c :: a'), b'. split; [rewrite <- app_assoc; reflexivity|]. split; [exact NE|]. split; [exact FW|]. split; [|exact B]. right.
      destruct A as [->|(a2 & c2 & -> & W2)]; [exists a, c; auto|]. exists (a ++ c :: a2), c2. rewrite <- app_assoc. auto.
  - intros (a & b & -> & NE & FW & A & B). destruct A as [->|(a' & c & -> & W)].
    + left. exists b, b. cbn [app]. split; [reflexivity|]. repeat split; auto. lia.
    + right. exists a', c, (w ++ b). rewrite <- app_assoc. split; [reflexivity|]. split; [exact W|].
      apply (IHn (List.length (w ++ b))); [rewrite !app_length; cbn; lia|reflexivity|]. exists [], b. auto 8.
Qed.

Variables (var alt : str).
Notation new_attrs := (new_attrs ws var alt).
Notation step := (step ws var alt).
(* the tree that is written *)
Fixpoint newtree (x : xml) : list xml :=
  match x with El n a k => [El n (new_attrs n a) (flat_map newtree k)] | Tx s => [Tx s] | Mk _ => [] end.
Lemma other_alt : other alt <> alt /\ (other alt = u "other"%string \/ alt = u "other"%string /\ other alt = u "rehto"%string).
Proof.
  unfold other. destruct (str_eqb alt (u "other"%string)) eqn:E.
  - apply str_eqb_eq in E. subst alt. split; [discriminate|]. right. split; reflexivity.
  - split; [|now left]. intros <-. now rewrite str_eqb_r in E.
Qed.
Lemma newtree_relabelled x0 : relabelled ws var alt [x0] (newtree x0).
Proof.
  assert (G : forall k, Forall (fun x => forall y z, relabelled ws var alt y z -> relabelled ws var alt (x :: y) (newtree x ++ z)) k -> relabelled ws var alt k (flat_map newtree k)).
  { induction 1 as [|x k H _ IH]; [constructor|]. cbn [flat_map]. apply H. exact IH. }
  assert (H : forall x y z, relabelled ws var alt y z -> relabelled ws var alt (x :: y) (newtree x ++ z)).
  { intros x; induction x as [n a k IH|s|s] using xml_ind'; intros y z YZ; cbn [newtree app]; [|now constructor|now constructor].
    unfold DictScripts.new_attrs. destruct (att var a) as [v|] eqn:V; [|constructor; auto].
    destruct (str_eqb n E_) eqn:E; [|constructor; auto; left; intros ->; now rewrite str_eqb_r in E].
    apply str_eqb_eq in E. subst n. apply L_entry with (v := v); auto.
    destruct (isin alt (words v [])) eqn:I.
    - left. split; [|reflexivity]. apply isin_In in I. now apply words_spec.
    - right. split; [|apply other_alt]. apply isin_nIn in I. intros W. apply I. now apply words_spec. }
  rewrite <- (app_nil_r (newtree x0)). apply H. constructor.
Qed.

(** *** The text *)
Definition start (n : str) (a : list (str * str)) : str := u "<"%string ++ n ++ printAttrs ws (new_attrs n a).
Fixpoint prt (x : xml) : str :=
  match x with
  | El n a k => match flat_map events k with [] => start n a ++ u "/>"%string | _ => start n a ++ u ">"%string ++ flat_map prt k ++ u "</"%string ++ n ++ u ">"%string end
  | Tx s => escape s
  | Mk _ => []
  end.
Lemma open_start n a : proper ws n -> open_tag (start n a ++ u ">"%string) = true.
Proof.
  intros [NE F]. destruct n as [|c n]; [congruence|]. inversion F as [|? ? [_ Hc] _]; subst. unfold start. cbn [app u].
  change (u "<"%string) with [60%N]. cbn [app]. unfold open_tag. cbn [rev]. rewrite !rev_app_distr. change (u ">"%string) with [62%N]. cbn [rev app].
  rewrite !ceq_refl. cbn [andb negb]. destruct (c =?c 47%N) eqn:E; [|reflexivity]. apply ceq_eq in E. subst c. exfalso. apply Hc. cbn; tauto.
Qed.
Lemma removelast_app1 (l : str) (x : char) : removelast (l ++ [x]) = l.
Proof. rewrite removelast_app by discriminate. cbn. apply app_nil_r. Qed.
Definition names_ok : xml -> Prop := all_elements (fun n a => proper ws n).
Lemma concat_rev_cons (b : str) (bs : list str) : concat (rev (b :: bs)) = concat (rev bs) ++ b.
Proof. cbn [rev]. rewrite concat_app. cbn. now rewrite app_nil_r. Qed.
Lemma events_El n a k : events (El n a k) = Start n a :: flat_map events k ++ [End n]. Proof. reflexivity. Qed.
Definition runs (x : xml) : Prop := forall buf out, fold_left step (events x) (buf, out) = match events x with [] => (buf, out) | _ => ([], out ++ concat (rev buf) ++ prt x) end.
Lemma runs_list k : Forall runs k -> forall buf out, fold_left step (flat_map events k) (buf, out) = match flat_map events k with [] => (buf, out) | _ => ([], out ++ concat (rev buf) ++ flat_map prt k) end.
Proof.
  induction 1 as [|x k H _ IH]; intros buf out; [reflexivity|]. cbn [flat_map]. rewrite fold_left_app, H.
  destruct (events x) as [|e es] eqn:E.
  - cbn [app]. rewrite IH. assert (prt x = []) as ->. { destruct x as [n a l|s|s]; cbn in E; [discriminate|discriminate|reflexivity]. } reflexivity.
  - rewrite IH. cbn [app]. destruct (flat_map events k) eqn:F.
    + assert (flat_map prt k = []) as ->; [|now rewrite app_nil_r].
      clear - F. induction k as [|y k IHk]; [reflexivity|]. cbn [flat_map] in *. apply app_eq_nil in F. destruct F as [F1 F2]. destruct y; cbn in F1; try discriminate. cbn. auto.
    + cbn [rev concat app]. rewrite <- !app_assoc. reflexivity.
Qed.
Lemma events_run x : names_ok x -> runs x.
Proof.
  induction x as [n a k IH|s|s] using xml_ind'; intros NO buf out; [|cbn; now rewrite <- app_assoc|reflexivity].
  inversion NO as [? ? ? PN NK| |]; subst.
  assert (K : Forall runs k) by (rewrite Forall_forall in *; intros x X; apply (IH x X (NK x X))).
  rewrite events_El. cbn [fold_left]. rewrite fold_left_app. cbn [DictScripts.step fst snd].
  replace (u "<"%string ++ n ++ printAttrs ws (new_attrs n a) ++ u ">"%string) with (start n a ++ u ">"%string) by (unfold start; rewrite <- !app_assoc; reflexivity).
  rewrite runs_list by exact K. cbn [prt]. destruct (flat_map events k) eqn:F.
  - cbn [fold_left DictScripts.step fst snd]. rewrite (open_start _ _ PN). unfold flush. cbn [fst snd]. rewrite concat_rev_cons. change (u ">"%string) with [62%N]. rewrite removelast_app1. reflexivity.
  - cbn [fold_left DictScripts.step fst snd]. unfold flush. cbn [fst snd]. rewrite concat_rev_cons. change (concat (rev (@nil str))) with (@nil N). rewrite app_nil_r, <- !app_assoc. reflexivity.
Qed.

(** *** The text is XML for the tree *)
Lemma escape_chars bad s : (forall c, In c bad -> In c s -> c = 60%N \/ c = 38%N) -> chars bad (escape s) s.
Proof.
  induction s as [|c s IH]; intros B; [constructor|]. assert (IH' : chars bad (escape s) s) by (apply IH; intros; apply B; cbn; auto). clear IH.
  change (escape (c :: s)) with (esc1 c ++ escape s). unfold esc1.
  destruct (c =?c 38%N) eqn:E1; [apply ceq_eq in E1; subst; now constructor|].
  destruct (c =?c 62%N) eqn:E2; [apply ceq_eq in E2; subst; now constructor|].
  destruct (c =?c 60%N) eqn:E3; [apply ceq_eq in E3; subst; now constructor|].
  cbn [app]. constructor; [|exact IH']. intros I. apply ceq_neq in E1, E3. destruct (B c I); [cbn; auto|congruence|congruence].
Qed.
Lemma lstrip_id c s : ws c = false -> lstrip ws (c :: s) = c :: s.
Proof. intros E. cbn. now rewrite E. Qed.
Lemma lstrip_rev_sp s : ws 32%N = true -> lstrip ws (rev (s ++ [32%N])) = lstrip ws (rev s).
Proof. intros W. rewrite rev_app_distr. cbn. now rewrite W. Qed.
Hypothesis ws_sp : ws 32%N = true.
Hypothesis ws_q : ws 34%N = false.
Definition attr_ok (p : str * str) : Prop := proper ws (fst p) /\ ~ In 34%N (snd p).
Definition plain_attr (p : str * str) : str := [32%N] ++ fst p ++ u "="%string ++ [34%N] ++ escape (snd p) ++ [34%N].
Lemma print_shift a : flat_map print_attr a ++ [] = flat_map print_attr a /\ [32%N] ++ flat_map print_attr a = flat_map plain_attr a ++ [32%N].
Proof.
  split; [apply app_nil_r|]. induction a as [|p a IH]; [reflexivity|]. cbn [flat_map]. unfold print_attr at 1, plain_attr at 1. change (u " "%string) with [32%N].
  rewrite <- !app_assoc. do 5 f_equal. f_equal. exact IH.
Qed.
Lemma print_plain a : Forall attr_ok a -> printAttrs ws a = flat_map plain_attr a.
Proof.
  intros F. destruct a as [|p a]; [reflexivity|]. unfold printAttrs. set (l := p :: a) in *. change (u " "%string) with [32%N].
  assert (S1 : exists c r, flat_map print_attr l = c :: r /\ ws c = false).
  { subst l. inversion F as [|? ? [[NE FN] _] _]; subst. destruct p as [[|c n] v]; [cbn in NE; congruence|]. cbn [fst] in *. inversion FN as [|? ? [Wc _] _]; subst. exists c. eexists. split; [reflexivity|exact Wc]. }
  assert (S2 : exists r, flat_map print_attr l = r ++ [34%N; 32%N]).
  { assert (l <> []) by (subst l; discriminate). clearbody l. clear - H. induction l as [|q l IH]; [congruence|]. destruct l as [|q' l].
    - exists (fst q ++ u "="%string ++ [34%N] ++ escape (snd q)). cbn [flat_map]. unfold print_attr. change (u " "%string) with [32%N]. rewrite app_nil_r, <- !app_assoc. reflexivity.
    - destruct IH as [r Hr]; [discriminate|]. exists (print_attr q ++ r). change (flat_map print_attr (q :: q' :: l)) with (print_attr q ++ flat_map print_attr (q' :: l)). rewrite Hr. now rewrite app_assoc. }
  destruct (print_shift l) as [_ SH]. destruct S1 as (c & r & E1 & W1). destruct S2 as [r2 E2].
  unfold strip. rewrite E1, (lstrip_id _ _ W1), <- E1. rewrite E2.
  replace (r2 ++ [34%N; 32%N]) with ((r2 ++ [34%N]) ++ [32%N]) by (rewrite <- app_assoc; reflexivity). rewrite lstrip_rev_sp by exact ws_sp.
  rewrite rev_app_distr. cbn [rev app]. rewrite (lstrip_id _ _ ws_q). cbn [rev]. rewrite rev_involutive.
  rewrite E2 in SH. replace (r2 ++ [34%N; 32%N]) with ((r2 ++ [34%N]) ++ [32%N]) in SH by (rewrite <- app_assoc; reflexivity). rewrite app_assoc in SH. apply app_inj_tail in SH. apply SH.
Qed.
Lemma plain_attrs_text a : Forall attr_ok a -> attrs_text ws (flat_map plain_attr a) a.
Proof.
  induction 1 as [|[n v] a [PN Q] _ IH]; [constructor|]. cbn [flat_map]. unfold plain_attr at 1. cbn [fst snd] in *.
  rewrite <- !app_assoc. constructor; auto. apply escape_chars. intros c [<-|[<-|[<-|[]]]] I; auto. contradiction.
Qed.
Lemma prt_written x : all_elements (fun n a => proper ws n /\ Forall attr_ok (new_attrs n a)) x ->
  forall r ks, written ws r ks -> written ws (prt x ++ r) (newtree x ++ ks).
Proof.
  induction x as [n a k IH|s|s] using xml_ind'; intros H r ks W; [| |exact W].
  2:{ cbn [prt newtree app]. constructor; auto. apply escape_chars. intros c [<-|[<-|[]]] _; auto. }
  inversion H as [? ? ? [PN FA] HK| |]; subst.
  assert (AT : attrs_text ws (printAttrs ws (new_attrs n a)) (new_attrs n a)) by (rewrite print_plain by exact FA; now apply plain_attrs_text).
  assert (K : written ws (flat_map prt k) (flat_map newtree k)).
  { clear - IH HK. induction k as [|x k IHk]; [constructor|]. inversion IH; subst. inversion HK; subst. cbn [flat_map]. auto. }
  cbn [prt newtree app]. destruct (flat_map events k) as [|e es] eqn:F.
  - assert (flat_map newtree k = []) as ->.
    { clear - F. induction k as [|y k IHk]; [reflexivity|]. cbn [flat_map] in *. apply app_eq_nil in F. destruct F as [F1 F2]. destruct y; cbn in F1; try discriminate. cbn. auto. }
    unfold start. rewrite <- !app_assoc. constructor; auto.
  - unfold start. rewrite <- !app_assoc. constructor; auto.
Qed.
Lemma att_in x a v : att x a = Some v -> In (x, v) a.
Proof.
  induction a as [|[y w] a IH]; [discriminate|]. cbn. destruct (str_eqb y x) eqn:E; [apply str_eqb_eq in E; subst; intros H; injection H as ->; auto|]. auto.
Qed.
Lemma word_sub w s c : word ws w s -> In c w -> In c s.
Proof. intros (a & b & -> & _) I. rewrite !in_app_iff. auto. Qed.
Lemma new_attrs_ok n a : Forall attr_ok a -> Forall attr_ok (new_attrs n a).
Proof.
  intros F. unfold DictScripts.new_attrs. destruct (att var a) as [v|] eqn:V; [|exact F]. destruct (str_eqb n E_); [|exact F].
  apply Forall_app. split.
  - rewrite Forall_forall in *. intros p I. apply F. unfold del in I. apply filter_In in I. apply I.
  - constructor; [|constructor]. apply att_in in V. rewrite Forall_forall in F. destruct (F _ V) as [P Q]. split; [exact P|]. cbn [snd] in *.
    destruct (isin alt (words v [])) eqn:I.
    + intros X. apply Q. apply isin_In, words_spec in I. eapply word_sub; eauto.
    + destruct other_alt as [_ [->|[_ ->]]]; cbn; intuition discriminate.
Qed.
Lemma printable_new x : printable ws x -> all_elements (fun n a => proper ws n /\ Forall attr_ok (new_attrs n a)) x.
Proof.
  unfold printable. induction x as [n a k IH|s|s] using xml_ind'; intros H; [|constructor|constructor]. inversion H as [? ? ? [P F] K| |]; subst.
  constructor; [split; [exact P|now apply new_attrs_ok]|]. rewrite Forall_forall in *. auto.
Qed.
Lemma printable_names x : printable ws x -> names_ok x.
Proof.
  unfold printable. induction x as [n a k IH|s|s] using xml_ind'; intros H; [|constructor|constructor]. inversion H as [? ? ? [P F] K| |]; subst.
  constructor; [exact P|]. rewrite Forall_forall in *. intros x X. apply (IH x X (K x X)).
Qed.
Theorem genv_written n a k : printable ws (El n a k) -> written ws (genv ws var alt (El n a k)) (newtree (El n a k)).
Proof.
  intros H. unfold genv. pose proof (events_run _ (printable_names _ H) [] []) as R.
  refine (eq_ind_r (fun z => written ws (snd z) _) _ R). change (written ws (prt (El n a k)) (newtree (El n a k))).
  rewrite <- (app_nil_r (prt _)), <- (app_nil_r (newtree _)). apply prt_written; [|constructor]. now apply printable_new.
Qed.
End G.

(** *** Both together *)
Section B.
Variables (ws : char -> bool) (lang : str).
Definition listed (v : str) : bool := isin lang (words ws v []).
Lemma listed_spec v : listed v = true <-> word ws lang v.
Proof. unfold listed. rewrite isin_In. apply words_spec. Qed.
Notation newt := (newtree ws V_ lang).
Notation newa := (new_attrs ws V_ lang).
Lemma att_del x y a : x <> y -> att x (del y a) = att x a.
Proof.
  intros N. induction a as [|[z v] a IH]; [reflexivity|]. unfold del in *. cbn [filter fst]. destruct (str_eqb z y) eqn:E; cbn [negb].
  - apply str_eqb_eq in E. subst z. cbn [att]. rewrite (str_eqb_n y x) by congruence. exact IH.
  - cbn [att]. destruct (str_eqb z x); [reflexivity|exact IH].
Qed.
Lemma att_del_same x a : att x (del x a) = None.
Proof. induction a as [|[z v] a IH]; [reflexivity|]. unfold del in *. cbn [filter fst]. destruct (str_eqb z x) eqn:E; cbn [negb]; [exact IH|]. cbn [att]. now rewrite E. Qed.
Lemma att_app x a b : att x (a ++ b) = match att x a with Some v => Some v | None => att x b end.
Proof. induction a as [|[z v] a IH]; [reflexivity|]. cbn. destruct (str_eqb z x); [reflexivity|exact IH]. Qed.
Lemma newa_r n a : att R_ (newa n a) = att R_ a.
Proof.
  unfold DictScripts.new_attrs. destruct (att V_ a); [|reflexivity]. destruct (str_eqb n E_); [|reflexivity]. rewrite att_app, att_del by discriminate.
  destruct (att R_ a); reflexivity.
Qed.
Lemma newa_v a : of_variety (mine lang) (newa E_ a) = of_variety listed a.
Proof.
  unfold of_variety, DictScripts.new_attrs. destruct (att V_ a) as [v|] eqn:V; [|now rewrite V]. rewrite str_eqb_r, att_app, att_del_same.
  cbn [att]. change (str_eqb V_ V_) with true. cbv iota. unfold mine, listed. destruct (isin lang (words ws v [])); [apply str_eqb_r|]. apply str_eqb_n. apply other_alt.
Qed.
Lemma newa_del a : del R_ (del V_ (newa E_ a)) = del R_ (del V_ a).
Proof.
  unfold DictScripts.new_attrs. destruct (att V_ a) as [v|] eqn:V; [|reflexivity]. rewrite str_eqb_r. unfold del. rewrite !filter_app. cbn [filter fst]. change (str_eqb V_ V_) with true. cbn [negb filter]. rewrite app_nil_r.
  f_equal. clear. induction a as [|[z v] a IH]; [reflexivity|]. cbn [filter fst]. destruct (str_eqb z V_) eqn:E; cbn [negb]; [exact IH|]. cbn [filter fst]. rewrite E. cbn [negb]. now rewrite IH.
Qed.
Lemma newa_other n a : n <> E_ -> newa n a = a.
Proof. intros N. unfold DictScripts.new_attrs. destruct (att V_ a); [|reflexivity]. now rewrite (str_eqb_n _ _ N). Qed.
Lemma newt_covered x : covered x -> Forall covered (newt x).
Proof.
  induction x as [n a k IH|s|s] using xml_ind'; intros C; [|repeat constructor|constructor]. cbn [newtree].
  assert (K : Forall covered k -> Forall covered (flat_map newt k)).
  { clear - IH. intros F. induction k as [|x k IHk]; [constructor|]. inversion IH; subst. inversion F; subst. cbn [flat_map]. apply Forall_app. auto. }
  constructor; [|constructor]. inversion C as [| |? ? A CK|? ? I CK|? ? I|? I|? ? CK|? ? ? CK]; subst.
  - constructor; auto. unfold DictScripts.new_attrs. destruct (att V_ a); [|exact A]. rewrite str_eqb_r. apply Forall_app. split; [|constructor; [cbn; auto|constructor]].
    rewrite Forall_forall in *. intros p I. apply A. unfold del in I. apply filter_In in I. apply I.
  - rewrite newa_other by (intros ->; cbn [map In] in I; repeat (destruct I as [I|I]; [discriminate|]); destruct I). apply V_bare; auto.
  - rewrite newa_other by (intros ->; cbn [map In] in I; repeat (destruct I as [I|I]; [discriminate|]); destruct I). apply V_named; auto.
  - rewrite newa_other by (intros ->; cbn [map In] in I; repeat (destruct I as [I|I]; [discriminate|]); destruct I). apply V_empty; auto.
  - rewrite newa_other by discriminate. constructor; auto.
  - rewrite newa_other by discriminate. constructor; auto.
Qed.
Lemma newt_view p q x : (forall a, p (newa E_ a) = q a) -> flat_map (view p) (newt x) = view q x.
Proof.
  intros H. induction x as [n a k IH|s|s] using xml_ind'; [|reflexivity|reflexivity]. cbn [newtree flat_map]. rewrite app_nil_r. cbn [view].
  assert (K : flat_map (view p) (flat_map newt k) = flat_map (view q) k) by (rewrite fm_fm; apply fm_eq; exact IH).
  destruct (str_eqb n E_) eqn:E.
  - apply str_eqb_eq in E. subst n. rewrite H, newa_del, K. reflexivity.
  - rewrite newa_other by (intros ->; now rewrite str_eqb_r in E). now rewrite K.
Qed.
Lemma entry_newt b x y : In y (newt x) -> entry_in b y -> exists a, b = newa E_ a /\ entry_in a x.
Proof.
  revert y b. induction x as [n a k IH|s|s] using xml_ind'; intros y b I E; [|destruct I as [<-|[]]; inversion E|destruct I].
  destruct I as [<-|[]]. cbn [newtree] in E. remember (El n (newa n a) (flat_map newt k)) as w0 eqn:W0. destruct E as [k0|n0 b0 k0 z Z EZ]; injection W0 as ? ? ?; subst.
  - exists a. split; [reflexivity|constructor].
  - apply in_flat_map in Z. destruct Z as (w & W & Z). rewrite Forall_forall in IH. destruct (IH _ W _ _ Z EZ) as (a' & -> & EA). exists a'. split; [reflexivity|]. eapply E_below; eauto.
Qed.
Lemma both_view left d x : covered x ->
  (forall a, entry_in a x -> left = true -> of_variety listed a = false -> att R_ a <> Some (u "RL"%string)) ->
  flat_map (view (usable d)) (flat_map (fd lang left) (newt x)) = view (fun a => usable d a && (of_variety listed a || dir_eqb d (side left))) x.
Proof.
  intros C NR. rewrite fm_fm.
  erewrite fm_eq; [apply newt_view with (p := wanted lang left d)|].
  - intros a. unfold wanted, usable. rewrite newa_r, newa_v. reflexivity.
  - apply Forall_forall. intros y Y. apply fd_view.
    + pose proof (newt_covered _ C) as F. rewrite Forall_forall in F. now apply F.
    + intros b E. destruct (entry_newt _ _ _ Y E) as (a & -> & EA). intros L V. rewrite newa_r. rewrite newa_v in V. eapply NR; eauto.
Qed.
End B.

(** ** translate-to-default-equivalent *)
Lemma ends_D_spec s : ends_D s = true <-> exists x, s = x ++ u " D"%string.
Proof.
  unfold ends_D. split.
  - destruct (rev s) as [|d [|sp r]] eqn:E; try discriminate. intros H. apply andb_prop in H. destruct H as [H1 H2]. apply ceq_eq in H1, H2. subst d sp.
    exists (rev r). rewrite <- (rev_involutive s), E. cbn. now rewrite <- app_assoc.
  - intros (x & ->). rewrite rev_app_distr. reflexivity.
Qed.
Definition entries_of (keep : list (str * str) -> bool) (i t : str) (k : list xml) : list (str * str * list xml) :=
  flat_map (fun e => match e with El m b c => if str_eqb m E_ && keep b then [(i, t, filter is_elt c)] else [] | _ => [] end) k.
Lemma answers_dict keep n a k : answers keep (El n a k) =
  flat_map (fun s => match s with El m b c => if str_eqb m (u "section"%string) then entries_of keep (att0 (u "id"%string) b) (att0 (u "type"%string) b) c else [] | _ => [] end) k.
Proof. reflexivity. Qed.
Definition marked (d : dir) (a : list (str * str)) : bool := usable d a && default_for d a.
Lemma filter_elts k : filter is_elt (nl :: filter is_elt k ++ [nl]) = filter is_elt k.
Proof. cbn [filter is_elt nl]. rewrite filter_app. cbn. rewrite app_nil_r. induction k as [|x k IH]; [reflexivity|]. cbn. destruct (is_elt x) eqn:E; cbn; [rewrite E, IH|]; auto. Qed.
Lemma usable_nil d : usable d [] = true. Proof. reflexivity. Qed.
Lemma default_LR a : default_for LR a = match att (u "slr"%string) a with Some v => ends_D v | None => true end. Proof. reflexivity. Qed.
Lemma default_RL a : default_for RL a = match att (u "srl"%string) a with Some v => ends_D v | None => true end. Proof. reflexivity. Qed.
Lemma td_e_answers d i t a c : consistent a -> (att (u "slr"%string) a <> None \/ att (u "srl"%string) a <> None) ->
  entries_of (usable d) i t (td_e a c) = if marked d a then [(i, t, filter is_elt c)] else [].
Proof.
  intros C NN. specialize (C NN). destruct C as (C1 & C2 & C3 & C4). unfold marked.
  assert (O : forall r, entries_of (usable d) i t [El E_ r (nl :: filter is_elt c ++ [nl])] = if usable d r then [(i, t, filter is_elt c)] else []).
  { intros r. unfold entries_of. cbn [flat_map]. change (str_eqb E_ E_) with true. cbn [andb]. destruct (usable d r); [|reflexivity]. rewrite filter_elts. reflexivity. }
  unfold td_e. revert C1 C2 C3 C4 NN.
  destruct (att (u "slr"%string) a) as [slr|] eqn:S; [destruct slr as [|s0 slr]|]; (destruct (att (u "srl"%string) a) as [srl|] eqn:T; [destruct srl as [|t0 srl]|]); intros C1 C2 C3 C4 NN; cbn [full]; try (exfalso; apply C1; reflexivity); try (exfalso; apply C2; reflexivity); try (exfalso; destruct NN as [NN|NN]; apply NN; reflexivity); clear C1 C2.
  - assert (C3' := fun H => C3 H ltac:(discriminate)). assert (C4' := fun H => C4 H ltac:(discriminate)). clear C3 C4. rewrite default_RL, T in C3'. rewrite default_LR, S in C4'.
    assert (DF : default_for d a = match d with LR => ends_D (s0 :: slr) | RL => ends_D (t0 :: srl) end) by (destruct d; [now rewrite default_LR, S|now rewrite default_RL, T]). rewrite DF. clear DF S T NN. unfold usable at 2. 
    destruct (ends_D (t0 :: srl)) eqn:DT; destruct (ends_D (s0 :: slr)) eqn:DS; cbn [andb]; rewrite ?O.
    + rewrite usable_nil. destruct (att R_ a) as [r|]; [|destruct d; reflexivity].
      rewrite (str_eqb_n r (u "LR"%string)) by (intros ->; discriminate C3'; reflexivity). rewrite (str_eqb_n r (u "RL"%string)) by (intros ->; discriminate C4'; reflexivity). destruct d; reflexivity.
    + destruct (att R_ a) as [r|]; [|destruct d; reflexivity].
      rewrite (str_eqb_n r (u "LR"%string)) by (intros ->; discriminate C3'; reflexivity). destruct (str_eqb r (u "RL"%string)); destruct d; reflexivity.
    + destruct (att R_ a) as [r|]; [|destruct d; reflexivity].
      rewrite (str_eqb_n r (u "RL"%string)) by (intros ->; discriminate C4'; reflexivity). destruct (str_eqb r (u "LR"%string)); destruct d; reflexivity.
    + rewrite (Bool.andb_comm _ (match d with LR => false | RL => false end)). destruct d; reflexivity.
  - assert (C4' := fun H => C4 H ltac:(discriminate)). clear C3 C4. rewrite default_LR, S in C4'.
    assert (DF : default_for d a = match d with LR => ends_D (s0 :: slr) | RL => true end) by (destruct d; [now rewrite default_LR, S|now rewrite default_RL, T]). rewrite DF. clear DF S T NN. unfold usable at 2. 
    destruct (att R_ a) as [r|]; [|destruct (ends_D (s0 :: slr)); cbn [andb]; rewrite ?O; destruct d; reflexivity].
    destruct (str_eqb r (u "LR"%string)) eqn:E1; destruct (ends_D (s0 :: slr)) eqn:DS; cbn [andb]; rewrite ?O; try (destruct d; reflexivity).
    + rewrite (str_eqb_n r (u "RL"%string)) by (intros ->; discriminate C4'; reflexivity). destruct d; reflexivity.
    + destruct (str_eqb r (u "RL"%string)); destruct d; reflexivity.
  - assert (C3' := fun H => C3 H ltac:(discriminate)). clear C3 C4. rewrite default_RL, T in C3'.
    assert (DF : default_for d a = match d with LR => true | RL => ends_D (t0 :: srl) end) by (destruct d; [now rewrite default_LR, S|now rewrite default_RL, T]). rewrite DF. clear DF S T NN. unfold usable at 2. 
    destruct (att R_ a) as [r|]; [|destruct (ends_D (t0 :: srl)); cbn [andb]; rewrite ?O; destruct d; reflexivity].
    destruct (str_eqb r (u "RL"%string)) eqn:E2; destruct (ends_D (t0 :: srl)) eqn:DT; cbn [andb]; rewrite ?O.
    + rewrite (str_eqb_n r (u "LR"%string)) by (intros ->; discriminate C3'; reflexivity). destruct d; reflexivity.
    + apply str_eqb_eq in E2. subst r. destruct d; reflexivity.
    + rewrite (str_eqb_n r (u "LR"%string)) by (intros ->; discriminate C3'; reflexivity). destruct d; reflexivity.
    + destruct (str_eqb r (u "LR"%string)); destruct d; reflexivity.
Qed.
Lemma td_entries d i t k : (forall n c es, In (El n c es) k -> n = E_ /\ consistent c) ->
  entries_of (usable d) i t (flat_map td k) = entries_of (marked d) i t k.
Proof.
  unfold entries_of at 1. intros H. rewrite fm_fm. unfold entries_of at 1. apply fm_eq. apply Forall_forall. intros x X. destruct x as [n a c|s|s]; [|reflexivity|reflexivity].
  destruct (H _ _ _ X) as [-> C]. cbn [td]. change (str_eqb E_ E_) with true. cbn [andb]. cbv iota.
  assert (U : att (u "slr"%string) a = None -> att (u "srl"%string) a = None -> marked d a = usable d a).
  { intros N1 N2. unfold marked. destruct d; [rewrite default_LR, N1|rewrite default_RL, N2]; apply Bool.andb_true_r. }
  destruct (att (u "slr"%string) a) eqn:S; [|destruct (att (u "srl"%string) a) eqn:T].
  - refine (eq_trans _ (td_e_answers d i t a c C _)); [reflexivity|]. left. congruence.
  - refine (eq_trans _ (td_e_answers d i t a c C _)); [reflexivity|]. right. congruence.
  - rewrite U by auto. cbn [flat_map]. change (str_eqb E_ E_) with true. cbn [andb]. rewrite app_nil_r. reflexivity.
Qed.
Definition dict_of (l : list xml) : list xml := filter is_elt l.
Lemma filter_is_el_other n m k : str_eqb n m = false -> filter (is_el n) (filter (is_el m) k) = [].
Proof.
  intros N. induction k as [|x k IH]; [reflexivity|]. cbn. destruct (is_el m x) eqn:E; [|exact IH]. cbn. destruct x as [p b c|s|s]; try discriminate. cbn in E. apply str_eqb_eq in E. subst p. cbn [is_el].
  rewrite (str_eqb_n m n), IH; [reflexivity|]. intros ->. now rewrite str_eqb_r in N.
Qed.
Lemma filter_twice n k : filter (is_el n) (filter (is_el n) k) = filter (is_el n) k.
Proof. induction k as [|x k IH]; [reflexivity|]. cbn. destruct (is_el n x) eqn:E; [|exact IH]. cbn. now rewrite E, IH. Qed.
Lemma is_el_in n x k : In x (filter (is_el n) k) -> exists a c, x = El n a c.
Proof. intros I. apply filter_In in I. destruct I as [_ I]. destruct x as [m a c|s|s]; try discriminate. cbn in I. apply str_eqb_eq in I. subst m. eauto. Qed.
Lemma td_section a c : td (El (u "section"%string) a c) = [nl; El (u "section"%string) [(u "id"%string, att0 (u "id"%string) a); (u "type"%string, att0 (u "type"%string) a)] (nl :: flat_map td c); nl].
Proof. reflexivity. Qed.
Definition new_dict (k : list xml) : xml :=
  El (u "dictionary"%string) [] (nl :: filter (is_el (u "alphabet"%string)) k ++ nl :: filter (is_el (u "sdefs"%string)) k ++ nl :: filter (is_el (u "pardefs"%string)) k ++ nl ::
                      flat_map td (filter (is_el (u "section"%string)) k)).
Lemma translate_dict a k : translate (El (u "dictionary"%string) a k) = [nl; new_dict k; nl].
Proof. reflexivity. Qed.
Definition in_section (keep : list (str * str) -> bool) (s : xml) :=
  match s with El m b c => if str_eqb m (u "section"%string) then entries_of keep (att0 (u "id"%string) b) (att0 (u "type"%string) b) c else [] | _ => [] end.
Lemma in_section_other keep n k : str_eqb n (u "section"%string) = false -> flat_map (in_section keep) (filter (is_el n) k) = [].
Proof.
  intros N. induction k as [|x k IH]; [reflexivity|]. cbn [filter]. destruct (is_el n x) eqn:E; [|exact IH]. cbn [flat_map]. rewrite IH, app_nil_r. destruct x as [m b c|s|s]; try discriminate. cbn in E. apply str_eqb_eq in E. subst m. cbn [in_section]. now rewrite N.
Qed.
Theorem translate_answers d root : well_made root -> exists k, translate root = [nl; El (u "dictionary"%string) [] k; nl] /\
  answers (usable d) (El (u "dictionary"%string) [] k) = answers (marked d) root.
Proof.
  intros (a & k & -> & W). rewrite translate_dict. unfold new_dict. eexists. split; [reflexivity|]. rewrite !answers_dict.
  change (flat_map (in_section (usable d)) (nl :: filter (is_el (u "alphabet"%string)) k ++ nl :: filter (is_el (u "sdefs"%string)) k ++ nl :: filter (is_el (u "pardefs"%string)) k ++ nl ::
                      flat_map td (filter (is_el (u "section"%string)) k)) = flat_map (in_section (marked d)) k).
  cbn [flat_map in_section nl]. rewrite flat_map_app, in_section_other by reflexivity. cbn [flat_map in_section app]. rewrite flat_map_app, in_section_other by reflexivity.
  cbn [flat_map in_section app]. rewrite flat_map_app, in_section_other by reflexivity. cbn [flat_map in_section app].
  rewrite fm_fm.
  assert (E : forall l, (forall x, In x l -> In x k) -> flat_map (fun x => flat_map (in_section (usable d)) (td x)) (filter (is_el (u "section"%string)) l) = flat_map (in_section (marked d)) l).
  { induction l as [|x l IH]; intros L; [reflexivity|]. cbn [filter flat_map]. rewrite <- IH by (intros y Y; apply L; cbn; auto). clear IH. destruct x as [m b c|s|s]; [|reflexivity|reflexivity].
    cbn [is_el in_section]. destruct (str_eqb m (u "section"%string)) eqn:M; [|reflexivity]. apply str_eqb_eq in M. subst m. cbn [flat_map]. f_equal. rewrite td_section. cbn [flat_map in_section nl app]. change (str_eqb (u "section"%string) (u "section"%string)) with true. cbv iota.
    unfold att0 at 1 2. cbn [att]. change (str_eqb (u "id"%string) (u "id"%string)) with true. change (str_eqb (u "id"%string) (u "type"%string)) with false. change (str_eqb (u "type"%string) (u "type"%string)) with true. cbv iota.
    rewrite app_nil_r. rewrite <- (td_entries d). 2:{ intros n e es I. eapply W; [|exact I]. apply L. now left. }
    unfold entries_of at 1. cbn [flat_map]. reflexivity. }
  apply E. auto.
Qed.
Lemma section_no n k : str_eqb (u "section"%string) n = false -> filter (is_el n) (flat_map td (filter (is_el (u "section"%string)) k)) = [].
Proof.
  intros N. induction k as [|x k IH]; [reflexivity|]. cbn [filter]. destruct (is_el (u "section"%string) x) eqn:E; [|exact IH]. destruct x as [m a c|s|s]; try discriminate. cbn in E. apply str_eqb_eq in E. subst m.
  cbn [flat_map]. rewrite td_section, filter_app, IH, app_nil_r. cbn [filter is_el nl]. now rewrite N.
Qed.
Theorem translate_rest n a k : In n (map u ["alphabet"; "sdefs"; "pardefs"]%string) ->
  exists k', translate (El (u "dictionary"%string) a k) = [nl; El (u "dictionary"%string) [] k'; nl] /\ filter (is_el n) k' = filter (is_el n) k.
Proof.
  intros I. rewrite translate_dict. unfold new_dict. eexists. split; [reflexivity|].
  cbn [map In] in I. destruct I as [<-|[<-|[<-|[]]]]; cbn [filter is_el nl]; repeat (rewrite filter_app; cbn [filter is_el nl]); rewrite section_no by reflexivity;
    rewrite filter_twice; rewrite ?filter_is_el_other by reflexivity; rewrite ?app_nil_r; reflexivity.
Qed.

(** ** Rule files *)
Section P.
Variables (spared : str -> bool) (attr : str) (ours : str -> bool).
Definition dec (n : str) (a : list (str * str)) : verdict :=
  if spared n then Same else match att attr a with Some v => if ours v then Into (del attr a) else Drop | None => Into a end.
Notation prune := (prune dec).
Definition solid (x : xml) : Prop := match x with Tx _ => False | _ => True end.
Lemma lead_chop f k : (forall x y, solid x -> f x = Some y -> solid y) -> lead (chop f true k) = [] /\ lead (chop f false k) = lead k.
Proof.
  intros S. induction k as [|x k [IH1 IH2]]; [split; reflexivity|].
  destruct x as [n a c|s|s]; cbn [chop].
  - destruct (f (El n a c)) as [y|] eqn:F.
    + apply S in F; [|exact I]. destruct y; [split; reflexivity|destruct F|split; reflexivity].
    + split; [exact IH1|]. rewrite IH1. reflexivity.
  - split; [exact IH1|]. change (lead (Tx s :: chop f false k)) with (s ++ lead (chop f false k)). now rewrite IH2.
  - destruct (f (Mk s)) as [y|] eqn:F.
    + apply S in F; [|exact I]. destruct y; [split; reflexivity|destruct F|split; reflexivity].
    + split; [exact IH1|]. rewrite IH1. reflexivity.
Qed.
Lemma prune_solid x y : solid x -> prune x = Some y -> solid y.
Proof. destruct x as [n a c|s|s]; cbn; [|contradiction|]; intros _ H; [|injection H as <-; exact I]. destruct (dec n a); [injection H as <-|discriminate|injection H as <-]; exact I. Qed.
Notation way := (list (str * list (str * str))) (only parsing).
Definition sel (pre : way) (l : list (way * str)) : list (way * str) :=
  flat_map (fun p => match selected spared attr ours (fst p) with Some r => [(pre ++ r, snd p)] | None => [] end) l.
(* the elements of a tree, below a way *)
Lemma elements_pre w x : elements w x = map (fun p => (w ++ fst p, snd p)) (elements [] x).
Proof.
  revert w. induction x as [n a k IH|s|s] using xml_ind'; intros w; [|reflexivity|reflexivity]. cbn [elements map fst snd app]. f_equal.
  rewrite !flat_map_concat_map, concat_map, map_map. f_equal. apply map_ext_in. intros x X. rewrite Forall_forall in IH.
  rewrite (IH _ X (w ++ [(n, a)])), (IH _ X [(n, a)]), map_map. apply map_ext. intros [p t]. cbn [fst snd]. now rewrite app_assoc.
Qed.
Lemma elements_El n a k : elements [] (El n a k) = ([(n, a)], lead k) :: map (fun p => ((n, a) :: fst p, snd p)) (flat_map (elements []) k).
Proof.
  cbn [elements app]. f_equal. rewrite !flat_map_concat_map, concat_map, map_map. f_equal. apply map_ext. intros x. apply elements_pre.
Qed.
Lemma fm_map {A B C} (f : A -> B) (g : B -> list C) l : flat_map g (map f l) = flat_map (fun x => g (f x)) l.
Proof. induction l as [|x l IH]; cbn; [reflexivity|]. now rewrite IH. Qed.
Lemma map_fm {A B C} (f : A -> list B) (g : B -> C) l : map g (flat_map f l) = flat_map (fun x => map g (f x)) l.
Proof. induction l as [|x l IH]; cbn; [reflexivity|]. now rewrite map_app, IH. Qed.
Lemma sel_app l m : sel [] (l ++ m) = sel [] l ++ sel [] m.
Proof. apply flat_map_app. Qed.
Definition els (o : option xml) : list (way * str) := match o with Some x => elements [] x | None => [] end.
Lemma chop_elements k : Forall (fun x => els (prune x) = sel [] (elements [] x)) k -> forall g, flat_map (elements []) (chop prune g k) = sel [] (flat_map (elements []) k).
Proof.
  induction 1 as [|x k H _ IH]; intros g; [reflexivity|]. cbn [flat_map]. rewrite sel_app, <- H.
  destruct x as [n a c|s|s]; cbn [chop].
  - destruct (prune (El n a c)) as [y|] eqn:P; cbn [flat_map els app]; now rewrite IH.
  - cbn [els elements]. destruct g; cbn [flat_map elements app]; apply IH.
  - cbn [DictScripts.prune flat_map elements els app]. apply IH.
Qed.
Lemma sel_all n a (l : list (way * str)) : spared n = true -> sel [] (map (fun p => ((n, a) :: fst p, snd p)) l) = map (fun p => ((n, a) :: fst p, snd p)) l.
Proof. intros S. unfold sel. induction l as [|[p t] l IH]; [reflexivity|]. cbn [map flat_map fst snd selected]. rewrite S. cbn [app]. f_equal. exact IH. Qed.
Lemma prune_elements x : els (prune x) = sel [] (elements [] x).
Proof.
  induction x as [n a k IH|s|s] using xml_ind'; [|reflexivity|reflexivity]. cbn [DictScripts.prune].
  rewrite elements_El. change (sel [] (([(n, a)], lead k) :: ?l)) with (sel [] ([([(n, a)], lead k)] ++ l)). 
  set (rest := map _ _). unfold dec at 1.
  destruct (spared n) eqn:SP.
  { cbn [els]. rewrite elements_El. unfold sel at 1. cbn [flat_map fst snd selected app]. rewrite SP. cbn [app]. f_equal. symmetry. subst rest. now apply sel_all. }
  assert (GO : forall a', (match att attr a with Some v => ours v | None => true end) = true -> del attr a = a' ->
     elements [] (El n a' (chop prune false k)) = sel [] (([(n, a)], lead k) :: rest)).
  { intros a' OK <-. rewrite elements_El, (proj2 (lead_chop prune k prune_solid)). unfold sel at 1. cbn [flat_map fst snd selected app]. rewrite SP, OK. cbn [option_map app]. f_equal.
    rewrite (chop_elements _ IH). subst rest. unfold sel. rewrite fm_map, map_fm. apply fm_eq, Forall_forall. intros [p t] _. cbn [fst snd selected]. rewrite SP, OK.
    destruct (selected spared attr ours p); reflexivity. }
  assert (NO : (match att attr a with Some v => ours v | None => true end) = false -> sel [] (([(n, a)], lead k) :: rest) = []).
  { clear GO. intros OK. unfold sel. cbn [flat_map fst snd selected app]. rewrite SP, OK. cbn [app]. subst rest. induction (flat_map (elements []) k) as [|[p t] l IHl]; [reflexivity|]. cbn [map flat_map fst snd selected]. rewrite SP, OK. cbn [app]. exact IHl. }
  destruct (att attr a) as [v|] eqn:A; [destruct (ours v) eqn:O|].
  - cbn [els]. now apply GO.
  - symmetry. now apply NO.
  - cbn [els]. apply GO; [reflexivity|]. clear - A. induction a as [|[y w] a IH]; [reflexivity|]. cbn [att] in A. destruct (str_eqb y attr) eqn:E; [discriminate|]. unfold del in *. cbn [filter fst]. rewrite E. cbn [negb]. now rewrite IH.
Qed.
Theorem prune_root_elements n a k : elements [] (prune_root dec (El n a k)) = after_selection spared attr ours (elements [] (El n a k)).
Proof.
  cbn [prune_root]. rewrite !elements_El, (proj2 (lead_chop prune k prune_solid)). unfold after_selection. cbn [flat_map fst snd selected app]. f_equal.
  rewrite chop_elements by (apply Forall_forall; intros; apply prune_elements). unfold sel. rewrite fm_map, map_fm. apply fm_eq, Forall_forall. intros [p t] _. cbn [fst snd].
  destruct (selected spared attr ours p); reflexivity.
Qed.
End P.
Lemma prune_ext d1 d2 x : (forall n a, d1 n a = d2 n a) -> prune d1 x = prune d2 x.
Proof.
  intros E. induction x as [n a k IH|s|s] using xml_ind'; [|reflexivity|reflexivity]. cbn [prune]. rewrite E. destruct (d2 n a); try reflexivity. do 2 f_equal.
  assert (G : forall g, chop (prune d1) g k = chop (prune d2) g k).
  { induction k as [|x k IHk]; intros g; [reflexivity|]. inversion IH as [|? ? Hx Hk]; subst. destruct x as [m b c|s|s]; cbn [chop].
    - rewrite Hx. destruct (prune d2 (El m b c)); rewrite IHk by exact Hk; reflexivity.
    - destruct g; rewrite IHk by exact Hk; reflexivity.
    - cbn [prune]. rewrite IHk by exact Hk; reflexivity. }
  apply G.
Qed.
Lemma prune_root_ext d1 d2 x : (forall n a, d1 n a = d2 n a) -> prune_root d1 x = prune_root d2 x.
Proof.
  intros E. destruct x as [n a k|s|s]; [|reflexivity|reflexivity]. cbn [prune_root]. f_equal.
  assert (G : forall g, chop (prune d1) g k = chop (prune d2) g k); [|apply G].
  induction k as [|x k IHk]; intros g; [reflexivity|]. destruct x as [m b c|s|s]; cbn [chop].
    - rewrite (prune_ext _ _ _ E). destruct (prune d2 (El m b c)); rewrite IHk; reflexivity.
    - destruct g; rewrite IHk; reflexivity.
    - cbn [prune]. rewrite IHk; reflexivity.
Qed.
Lemma bool_iff (a b : bool) : (a = true <-> b = true) -> a = b.
Proof. destruct a, b; intros [H1 H2]; try reflexivity; [symmetry; auto|auto]. Qed.
Theorem rules_elements ws langs ours n a k : (forall v, ours v = true <-> forall l, In l langs -> word ws l v) ->
  elements [] (filter_rules ws langs (El n a k)) = after_selection (fun n => isin n SKIP_TAGS) V_ ours (elements [] (El n a k)).
Proof.
  intros H. rewrite <- prune_root_elements. unfold filter_rules. rewrite (prune_root_ext (rules_dec ws langs) (dec (fun n => isin n SKIP_TAGS) V_ ours)); [reflexivity|].
  intros m b. unfold rules_dec, dec. destruct (isin m SKIP_TAGS); [reflexivity|]. destruct (att V_ b) as [v|]; [|reflexivity].
  replace (forallb (fun l => isin l (words ws v [])) langs) with (ours v); [reflexivity|]. apply bool_iff. rewrite H, forallb_forall.
  split; intros X l I; [apply isin_In, words_spec; auto|apply words_spec, isin_In; auto].
Qed.
Lemma commas_item s : forall cur w, ~ In 44%N cur ->
  (In w (commas s cur) <-> (exists a b, rev cur ++ s = a ++ w ++ b /\ ~ In 44%N w /\ (a = [] \/ exists a' , a = a' ++ [44%N]) /\ (b = [] \/ exists b', b = 44%N :: b'))).
Proof.
  induction s as [|c s IH]; intros cur w NC; cbn [commas].
  - split.
    + intros [<-|[]]. exists [], []. rewrite <- in_rev. rewrite !app_nil_r. auto 8.
    + intros (a & b & E & NW & A & B). rewrite app_nil_r in E. left.
      assert (F : forall x, In x (a ++ w ++ b) -> x <> 44%N) by (intros x I ->; rewrite <- E, <- in_rev in I; contradiction).
      destruct A as [->|(a' & ->)]; [|exfalso; eapply F; [|reflexivity]; rewrite !in_app_iff; cbn; auto].
      destruct B as [->|(b' & ->)]; [|exfalso; eapply F; [|reflexivity]; rewrite !in_app_iff; cbn; auto].
      now rewrite app_nil_r in E.
  - destruct (c =?c 44%N) eqn:C.
    + apply ceq_eq in C. subst c. cbn [In]. rewrite IH by (intros []). cbn [rev app]. split.
      * intros [<-|(a & b & -> & NW & A & B)].
        -- exists [], (44%N :: s). rewrite <- in_rev. cbn. split; [reflexivity|]. split; [exact NC|]. split; [auto|]. right. eauto.
        -- exists (rev cur ++ [44%N] ++ a), b. rewrite <- !app_assoc. split; [reflexivity|]. split; [exact NW|]. split; [|exact B]. right.
           destruct A as [->|(a' & ->)]; [exists (rev cur); reflexivity|]. exists (rev cur ++ [44%N] ++ a'). now rewrite <- !app_assoc.
      * intros (a & b & E & NW & A & B).
        destruct A as [->|(a' & ->)].
        -- left. cbn [app] in E.
           assert (X : forall (p q : str), ~ In 44%N p -> ~ In 44%N q -> forall x b, (b = [] \/ exists b', b = 44%N :: b') -> p ++ 44%N :: x = q ++ b -> p = q).
           { clear. induction p as [|y p IHp]; intros [|z q] NP NQ x b B E; auto.
             - cbn in E. injection E as <- _. exfalso. apply NQ. now left.
             - cbn in E. destruct B as [->|(b' & ->)]; [discriminate|]. injection E as -> _. exfalso. apply NP. now left.
             - injection E as -> E. f_equal. eapply IHp; eauto; intros I; [apply NP|apply NQ]; now right. }
           eapply X; eauto. now rewrite <- in_rev.
        -- right. rewrite <- !app_assoc in E.
           assert (X : forall (p q : str), ~ In 44%N p -> forall x y, p ++ 44%N :: x = q ++ 44%N :: y -> (q = p /\ x = y) \/ exists z, q = p ++ 44%N :: z /\ x = z ++ 44%N :: y).
           { clear. induction p as [|y p IHp]; intros [|z q] NP x y0 E; cbn in E.
             - injection E as ->. auto.
             - injection E as -> ->. right. exists q. auto.
             - injection E as -> _. exfalso. apply NP. now left.
             - injection E as -> E. destruct (IHp q) with (x := x) (y := y0) as [[-> ->]|(w & -> & ->)]; auto; [intros I; apply NP; now right|]. right. exists w. auto. }
           cbn [app] in E. destruct (X (rev cur) a') with (x := s) (y := w ++ b) as [[-> ->]|(z & -> & ->)]; auto; [now rewrite <- in_rev| |].
           ++ exists [], b. auto.
           ++ exists (z ++ [44%N]), b. rewrite <- !app_assoc. split; [reflexivity|]. split; [exact NW|]. split; [right; eauto|exact B].
    + rewrite IH by (cbn; intros [->|I]; [now rewrite ceq_refl in C|contradiction]). cbn [rev]. rewrite <- app_assoc. reflexivity.
Qed.
Lemma commas_spec w s : In w (commas s []) <-> item w s.
Proof. rewrite commas_item by (intros []). reflexivity. Qed.
Theorem xml_elements attr keep var ours root n a k : no_comments root = [El n a k] -> (forall v, ours v = true <-> exists w, item w v /\ item w var) ->
  elements [] (filter_xml attr keep var root) = after_selection (fun n => isin n keep) attr ours (elements [] (El n a k)).
Proof.
  intros R H. unfold filter_xml. rewrite R, <- prune_root_elements. rewrite (prune_root_ext (xml_dec attr keep var) (dec (fun n => isin n keep) attr ours)); [reflexivity|].
  intros m b. unfold xml_dec, dec. destruct (isin m keep); [reflexivity|]. destruct (att attr b) as [v|]; [|reflexivity].
  replace (existsb (fun l => isin l (commas var [])) (commas v [])) with (ours v); [reflexivity|]. apply bool_iff. rewrite H, existsb_exists.
  split; intros (w & I & J); exists w; rewrite ?isin_In, ?commas_spec in *; auto.
Qed.
