From Coq Require Import String.
From Verif Require Import Model.Base Model.Format Spec.Format Proofs.Base.
From Coq Require Import Lia Arith.

(** ** UTF-8 *)
Lemma valid_unfold a r : valid (a :: r) =
  if (a <? 128)%N then valid r
  else match r with [] => false | b :: r =>
     if within 194 223 a then cont b && valid r
     else match r with [] => false | c :: r =>
        if within 224 239 a then (if (a =? 224)%N then within 160 191 b else if (a =? 237)%N then within 128 159 b else cont b) && cont c && valid r
        else match r with [] => false | d :: r =>
           if within 240 244 a then (if (a =? 240)%N then within 144 191 b else if (a =? 244)%N then within 128 143 b else cont b) && cont c && cont d && valid r
           else false end end end.
Proof. destruct r as [|b [|c [|d r]]]; reflexivity. Qed.

(** one character: ASCII or multi-byte *)
Definition multi (c : str) : Prop :=
  2 <= length c /\ (forall x, In x c -> (128 <= x)%N) /\ (forall p q, c = p ++ q -> p <> [] -> q <> [] -> valid p = false) /\
  (forall r, valid (c ++ r) = valid r).
Definition onechar (c : str) : Prop := (exists a, c = [a] /\ (a < 128)%N) \/ multi c.
Lemma within_le a b c : within a b c = true <-> (a <= c <= b)%N.
Proof. unfold within. rewrite andb_true_iff, !N.leb_le. reflexivity. Qed.
Lemma cont_le c : cont c = true -> (128 <= c)%N.
Proof. unfold cont. rewrite within_le. lia. Qed.
Lemma within_ge a b c k : within a b c = true -> (k <= a)%N -> (k <= c)%N.
Proof. rewrite within_le. lia. Qed.

Ltac bits := repeat match goal with
  | H : _ && _ = true |- _ => apply andb_prop in H; destruct H
  end.
Lemma prefixes (c : str) (P : str -> Prop) :
  (forall k, 0 < k < length c -> P (firstn k c)) -> forall p q, c = p ++ q -> p <> [] -> q <> [] -> P p.
Proof.
  intros H p q -> Hp Hq. specialize (H (length p)). rewrite firstn_app, firstn_all, Nat.sub_diag, firstn_O, app_nil_r in H.
  apply H. rewrite app_length. destruct p; [congruence|]. destruct q; [congruence|]. cbn. lia.
Qed.
Lemma valid_char s : valid s = true -> s <> [] -> exists c r, s = c ++ r /\ onechar c /\ valid r = true.
Proof.
  destruct s as [|a r]; [congruence|]. intros V _. rewrite valid_unfold in V.
  destruct (a <? 128)%N eqn:Ha.
  { exists [a], r. split; [reflexivity|]. split; [|exact V]. left. exists a. split; [reflexivity|]. now apply N.ltb_lt. }
  assert (Ha' : (128 <= a)%N) by now apply N.ltb_ge.
  destruct r as [|b r]; [discriminate|].
  destruct (within 194 223 a) eqn:W2.
  { bits. exists [a; b], r. split; [reflexivity|]. split; [|assumption]. right. split; [cbn; lia|]. split.
    - intros x [<-|[<-|[]]]; auto using cont_le.
    - split.
      + apply prefixes. intros k Hk. cbn in Hk. assert (k = 1) as -> by lia. cbn [firstn]. rewrite valid_unfold, Ha. reflexivity.
      + intros t. cbn [app]. rewrite valid_unfold, Ha, W2, H. reflexivity. }
  destruct r as [|c r]; [discriminate|].
  destruct (within 224 239 a) eqn:W3.
  { bits. exists [a; b; c], r. split; [reflexivity|]. split; [|assumption]. right. split; [cbn; lia|]. split.
    - intros x [<-|[<-|[<-|[]]]]; auto using cont_le.
      destruct (a =? 224)%N; [eapply within_ge; [eassumption|lia]|]. destruct (a =? 237)%N; [eapply within_ge; [eassumption|lia]|]. now apply cont_le.
    - split.
      + apply prefixes. intros k Hk. cbn in Hk. assert (k = 1 \/ k = 2) as [-> | ->] by lia; cbn [firstn]; rewrite valid_unfold, Ha; [reflexivity|]. rewrite W2. reflexivity.
      + intros t. cbn [app]. rewrite valid_unfold, Ha, W2, W3, H, H1. reflexivity. }
  destruct r as [|d r]; [discriminate|].
  destruct (within 240 244 a) eqn:W4; [|discriminate].
  bits. exists [a; b; c; d], r. split; [reflexivity|]. split; [|assumption]. right. split; [cbn; lia|]. split.
  - intros x [<-|[<-|[<-|[<-|[]]]]]; auto using cont_le.
    destruct (a =? 240)%N; [eapply within_ge; [eassumption|lia]|]. destruct (a =? 244)%N; [eapply within_ge; [eassumption|lia]|]. now apply cont_le.
  - split.
    + apply prefixes. intros k Hk. cbn in Hk. assert (k = 1 \/ k = 2 \/ k = 3) as [-> | [-> | ->]] by lia; cbn [firstn]; rewrite valid_unfold, Ha; [reflexivity| |]; rewrite W2; [reflexivity|]. rewrite W3. reflexivity.
    + intros t. cbn [app]. rewrite valid_unfold, Ha, W2, W3, W4, H, H1, H2. reflexivity.
Qed.
Lemma onechar_app c r : onechar c -> valid (c ++ r) = valid r.
Proof.
  intros [[a [-> Ha]]|(_ & _ & _ & H)]; [|apply H]. cbn [app]. rewrite valid_unfold. apply N.ltb_lt in Ha. now rewrite Ha.
Qed.
Lemma onechar_valid c : onechar c -> valid c = true.
Proof. intros H. rewrite <- (app_nil_r c), (onechar_app c [] H). reflexivity. Qed.
Lemma onechar_nil c : onechar c -> c <> [].
Proof. intros [[a [-> Ha]]|(H & _)]; [congruence|]. destruct c; [cbn in H; lia|congruence]. Qed.
Lemma valid_ind (P : str -> Prop) :
  P [] -> (forall c r, onechar c -> valid r = true -> P r -> P (c ++ r)) -> forall s, valid s = true -> P s.
Proof.
  intros H0 HS s. remember (length s) as n eqn:E. revert s E. induction n as [n IH] using lt_wf_ind. intros s -> V.
  destruct s as [|a s0] eqn:Es; [exact H0|]. rewrite <- Es in *.
  destruct (valid_char s V) as (c & r & -> & Hc & Vr); [congruence|].
  apply HS; auto. refine (IH _ _ r eq_refl Vr). rewrite app_length. pose proof (onechar_nil c Hc). destruct c; [congruence|cbn; lia].
Qed.
Lemma valid_app s t : valid s = true -> valid (s ++ t) = valid t.
Proof.
  intros V. revert V. revert s. apply (valid_ind (fun s => valid (s ++ t) = valid t)); [reflexivity|].
  intros c r Hc Vr IH. rewrite <- app_assoc, onechar_app by exact Hc. exact IH.
Qed.
Lemma valid_split s n : valid s = true -> valid (firstn n s) = true -> valid (skipn n s) = true.
Proof. intros V Vf. rewrite <- (firstn_skipn n s) in V. now rewrite valid_app in V. Qed.
Lemma usize_app s t : usize (s ++ t) = usize s + usize t.
Proof. unfold usize. induction s as [|c s IH]; [reflexivity|]. cbn [app fold_right]. rewrite IH. lia. Qed.
(** a multi-byte character has a leading byte of positive size *)
Lemma onechar_usize c : onechar c -> 1 <= usize c.
Proof.
  intros [[a [-> Ha]]|(L & B & Pf & V)].
  - cbn. apply N.ltb_lt in Ha. rewrite Ha. lia.
  - destruct c as [|a c]; [cbn in L; lia|]. cbn [usize fold_right]. specialize (V []). rewrite app_nil_r, valid_unfold in V.
    destruct (a <? 128)%N; [lia|]. destruct (a <? 192)%N eqn:E; [exfalso|destruct (a <? 240)%N; lia].
    apply N.ltb_lt in E. cbn in V. 
    destruct c as [|b c]; [discriminate|]. destruct (within 194 223 a) eqn:W2; [apply within_le in W2; lia|].
    destruct c as [|b' c]; [discriminate|]. destruct (within 224 239 a) eqn:W3; [apply within_le in W3; lia|].
    destruct c as [|b'' c]; [discriminate|]. destruct (within 240 244 a) eqn:W4; [apply within_le in W4; lia|]. discriminate.
Qed.
Lemma usize_0 s : valid s = true -> usize s = 0 -> s = [].
Proof.
  intros V. revert V. revert s. apply (valid_ind (fun s => usize s = 0 -> s = [])); [reflexivity|].
  intros c r Hc _ _ H. rewrite usize_app in H. pose proof (onechar_usize c Hc). lia.
Qed.

(** ** Reads *)
Lemma Reads_refl F s : Reads F s s.
Proof. induction s; constructor; auto. Qed.
Lemma Reads_app F x v x' v' : Reads F x v -> Reads F x' v' -> Reads F (x ++ x') (v ++ v').
Proof.
  intros H. induction H; intros H'; cbn [app]; [exact H'|now apply Rd_char; auto|].
  rewrite <- !app_assoc. apply Rd_ent; auto.
Qed.
Lemma Reads_no_entities F x v : f_repl F = [] -> Reads F x v -> x = v.
Proof. intros E H. induction H; [reflexivity|congruence|]. unfold entities in H. rewrite E in H. destruct H. Qed.

Lemma cstr_id s : ~ In cNUL s -> cstr s = s.
Proof.
  induction s as [|c s IH]; [reflexivity|]. intros H. cbn [cstr]. destruct (ceq_spec c cNUL) as [E|E]; [exfalso; apply H; left; auto|].
  rewrite IH; [reflexivity|]. intros H'. apply H. now right.
Qed.
Lemma lookup_In k t v : lookup k t = Some v -> In (k, v) t.
Proof.
  induction t as [|[a b] t IH]; [discriminate|]. cbn [lookup]. destruct (lookup k t) eqn:E.
  - intros H. injection H as <-. right. apply IH. reflexivity.
  - destruct (str_eqb a k) eqn:Ek; [|discriminate]. apply str_eqb_eq in Ek. intros H. injection H as <-. left. congruence.
Qed.
Lemma lookup_None k t : (forall v, ~ In (k, v) t) -> lookup k t = None.
Proof. intros H. destruct (lookup k t) eqn:E; [|reflexivity]. apply lookup_In in E. now apply H in E. Qed.

(** ** flex *)
Lemma pick_some {A} (l : list (matcher * A)) s n a : pick l s = Some (n, a) -> exists m, In (m, a) l /\ m s = Some n /\ 0 < n.
Proof.
  induction l as [|[m b] l IH]; [discriminate|]. cbn [pick].
  destruct (m s) as [[|k]|] eqn:Em.
  - intros H. destruct (IH H) as (m' & Hin & H'). exists m'. split; [now right|exact H'].
  - destruct (pick l s) as [[k' b']|] eqn:Ep.
    + destruct (k' <=? S k).
      * intros H. injection H as <- <-. exists m. split; [now left|]. split; [exact Em|lia].
      * intros H. injection H as <- <-. destruct (IH eq_refl) as (m' & Hin & H'). exists m'. split; [now right|exact H'].
    + intros H. injection H as <- <-. exists m. split; [now left|]. split; [exact Em|lia].
  - intros H. destruct (IH H) as (m' & Hin & H'). exists m'. split; [now right|exact H'].
Qed.
(** single characters come last, so they are taken only where nothing else matches *)
Lemma pick_last {A} (l1 l2 : list (matcher * A)) s : (forall n a, pick l2 s = Some (n, a) -> n = 1) ->
  pick (l1 ++ l2) s = match pick l1 s with Some x => Some x | None => pick l2 s end.
Proof.
  intros H1. induction l1 as [|[m b] l1 IH]; [reflexivity|]. cbn [app pick]. rewrite IH.
  destruct (m s) as [[|k]|] eqn:Em.
  - destruct (pick l1 s); reflexivity.
  - destruct (pick l1 s) as [[k' b']|] eqn:Ep.
    + destruct (k' <=? S k); reflexivity.
    + destruct (pick l2 s) as [[k' b']|] eqn:Ep2; [|reflexivity]. rewrite (H1 _ _ eq_refl). reflexivity.
  - destruct (pick l1 s); reflexivity.
Qed.
Lemma pick_none {A} (l : list (matcher * A)) s : pick l s = None -> forall m a n, In (m, a) l -> m s = Some n -> n = 0.
Proof.
  induction l as [|[m b] l IH]; [intros _ ? ? ? []|]. cbn [pick].
  destruct (m s) as [[|k]|] eqn:Em.
  - intros H m' a n [E|Hin] Hm; [injection E as <- <-; congruence|]. eapply IH; eassumption.
  - destruct (pick l s) as [[k' b']|]; [destruct (k' <=? S k); discriminate|discriminate].
  - intros H m' a n [E|Hin] Hm; [injection E as <- <-; congruence|]. eapply IH; eassumption.
Qed.
Lemma pick_none' {A} (l : list (matcher * A)) s : (forall m a, In (m, a) l -> m s = None) -> pick l s = None.
Proof.
  induction l as [|[m b] l IH]; [reflexivity|]. intros H. cbn [pick]. rewrite (H m b (or_introl eq_refl)). apply IH. intros; eapply H; right; eassumption.
Qed.

(** ** The reformatter, piece by piece *)
Definition opens (o : str) : bool := match o with a :: b :: _ => (a =?c cLB) && (b =?c cRB) | _ => false end.
Section Ref.
Variable F : format.
Hypothesis G : good_format F.
Definition R (fs : files) (o y : str) : Prop := forall n, length o <= n -> rf F n fs o = Some y.

Lemma two_esc c o : is_esc F c = true -> esc_match F (cBS :: c :: o) = Some [c].
Proof. intros H. unfold esc_match. rewrite (g_group F G), ceq_refl, H. reflexivity. Qed.
Lemma two_none c o : c <> cBS -> esc_match F (c :: o) = None.
Proof.
  intros H. unfold esc_match. rewrite (g_group F G). destruct o as [|b o]; [reflexivity|].
  destruct (ceq_spec c cBS); [congruence|reflexivity].
Qed.
Lemma R_nil fs : R fs [] [].
Proof. intros [|n] _; reflexivity. Qed.
Lemma R_plain fs c o y : c <> cLB -> c <> cRB -> c <> cBS -> opens o = false -> R fs o y -> R fs (c :: o) (plain_out F c ++ y).
Proof.
  intros H1 H2 H3 Ho H n L. destruct n as [|n]; [cbn in L; lia|]. cbn [rf].
  destruct (ceq_spec c cLB); [congruence|]. destruct (ceq_spec c cRB); [congruence|].
  fold (opens o). rewrite Ho, andb_false_r, two_none by exact H3. rewrite H by (cbn in L; lia). reflexivity.
Qed.
Lemma R_rb fs o y : R fs o y -> R fs (cRB :: o) y.
Proof. intros H n L. destruct n as [|n]; [cbn in L; lia|]. cbn [rf]. change (cRB =?c cLB) with false. rewrite ceq_refl. apply H. cbn in L; lia. Qed.
Lemma R_dot fs o y : R fs o y -> R fs (u ".[]" ++ o) y.
Proof.
  intros H n L. destruct n as [|n]; [cbn in L; lia|]. change (u ".[]" ++ o) with (cDOT :: cLB :: cRB :: o) in *. cbn [rf].
  change (cDOT =?c cLB) with false. change (cDOT =?c cRB) with false. rewrite !ceq_refl. cbn [andb skipn]. apply H. cbn in L; lia.
Qed.
Lemma R_esc fs c o y : is_esc F c = true -> R fs o y -> R fs (cBS :: c :: o) (c :: y).
Proof.
  intros Hc H n L. destruct n as [|n]; [cbn in L; lia|]. cbn [rf].
  change (cBS =?c cLB) with false. change (cBS =?c cRB) with false. change (cBS =?c cDOT) with false. cbn [andb].
  rewrite two_esc by exact Hc. cbn [tl]. rewrite H by (cbn in L; lia). reflexivity.
Qed.
(** the contents of a blank *)
Definition restored (t : str) : str := flat_map (fun c => if is_esc F c then [c] else plain_out F c) t.
Lemma escape_cons c t : escape F (c :: t) = (if is_esc F c then [cBS; c] else [c]) ++ escape F t.
Proof. reflexivity. Qed.
Lemma escape_app s t : escape F (s ++ t) = escape F s ++ escape F t.
Proof. unfold escape. apply flat_map_app. Qed.
Lemma escape_opens t o : opens o = false -> opens (escape F t ++ o) = false.
Proof.
  intros Ho. destruct t as [|c t]; [exact Ho|]. rewrite escape_cons. destruct (is_esc F c) eqn:E; [reflexivity|].
  cbn [app]. destruct (ceq_spec c cLB) as [->|N]; [rewrite (g_lb F G) in E; discriminate|].
  unfold opens. destruct (escape F t ++ o); [reflexivity|]. destruct (ceq_spec c cLB); [congruence|reflexivity].
Qed.
Lemma R_escape fs t o y : opens o = false -> R fs o y -> R fs (escape F t ++ o) (restored t ++ y).
Proof.
  intros Ho H. induction t as [|c t IH]; [exact H|]. rewrite escape_cons. unfold restored. cbn [flat_map]. fold (restored t).
  destruct (is_esc F c) eqn:E; rewrite <- !app_assoc; cbn [app].
  - now apply R_esc.
  - assert (forall d, is_esc F d = true -> c <> d) as K by (intros d Hd ->; congruence).
    apply R_plain; [apply K, (g_lb F G)|apply K, (g_rb F G)|apply K, (g_bs F G)|now apply escape_opens|exact IH].
Qed.
(** an opening bracket that begins neither a file name nor an escaped at sign *)
Lemma R_lb fs a b o y : a <> cAT -> ~ (a = cBS /\ b = cAT) -> R fs (a :: b :: o) y -> R fs (cLB :: a :: b :: o) y.
Proof.
  intros Ha Hb H n L. destruct n as [|n]; [cbn in L; lia|]. cbn [rf]. rewrite ceq_refl.
  destruct (ceq_spec a cAT); [congruence|].
  assert ((a =?c cBS) && (b =?c cAT) = false) as E.
  { destruct (ceq_spec a cBS); [|reflexivity]. destruct (ceq_spec b cAT); [exfalso; auto|reflexivity]. }
  rewrite E. apply H. cbn [length] in L |- *. lia.
Qed.
Lemma R_lb_at fs o y : R fs o y -> R fs (cLB :: cBS :: cAT :: o) (cAT :: y).
Proof.
  intros H n L. destruct n as [|n]; [cbn in L; lia|]. cbn [rf]. rewrite ceq_refl. change (cBS =?c cAT) with false. rewrite !ceq_refl.
  cbn [andb]. rewrite H by (cbn in L; lia). reflexivity.
Qed.
Lemma plain_out_Reads c : Reads F (plain_out F c) [c].
Proof.
  unfold plain_out. destruct (lookup [c] (f_prefer F)) as [k|] eqn:E; [|apply Reads_refl].
  apply lookup_In in E. destruct (g_prefer F G _ _ E) as [Hin Hn]. rewrite cstr_id by exact Hn.
  rewrite <- (app_nil_r k). change [c] with ([c] ++ []). apply Rd_ent; [exact Hin|constructor].
Qed.
Lemma restored_Reads t : Reads F (restored t) t.
Proof.
  induction t as [|c t IH]; [constructor|]. unfold restored. cbn [flat_map]. change (c :: t) with ([c] ++ t).
  apply Reads_app; [|exact IH]. destruct (is_esc F c); [apply Reads_refl|apply plain_out_Reads].
Qed.
Lemma R_block fs t o y : t <> [] -> opens o = false -> R fs o y ->
  exists w, Reads F w t /\ R fs (block F t ++ o) (w ++ y).
Proof.
  intros Ht Ho H. destruct t as [|c t]; [congruence|]. unfold block. rewrite escape_cons.
  assert (Hrb : R fs (cRB :: o) y) by now apply R_rb.
  assert (Hor : opens (cRB :: o) = false) by (destruct o; reflexivity).
  destruct (ceq_spec c cAT) as [->|Nc].
  - exists (cAT :: restored t). split; [apply Rd_char, restored_Reads|].
    destruct (is_esc F cAT) eqn:E; cbn [app].
    + change (cBS =?c cAT) with false. cbn [app]. apply R_lb_at. rewrite <- !app_assoc. apply R_escape; [exact Hor|exact Hrb].
    + rewrite ceq_refl. cbn [app]. apply R_lb_at. rewrite <- !app_assoc. apply R_escape; [exact Hor|exact Hrb].
  - exists (restored (c :: t)). split; [apply restored_Reads|].
    assert (K : R fs (escape F (c :: t) ++ cRB :: o) (restored (c :: t) ++ y)) by now apply R_escape.
    rewrite escape_cons in K. destruct (is_esc F c) eqn:E; cbn [app] in *.
    + change (cBS =?c cAT) with false. cbn [app]. rewrite <- !app_assoc. cbn [app]. apply R_lb; [discriminate|intros [_ ?]; congruence|exact K].
    + destruct (ceq_spec c cAT); [congruence|]. cbn [app]. rewrite <- !app_assoc in *. cbn [app] in *.
      destruct (escape F t ++ cRB :: o) as [|b x] eqn:Ex; [destruct (escape F t); discriminate|].
      apply R_lb; [exact Nc| |exact K]. intros [-> _]. rewrite (g_bs F G) in E. discriminate.
Qed.
Lemma until_rb_app n o : ~ In cRB n -> until_rb (n ++ cRB :: o) = Some (n, o).
Proof.
  induction n as [|c n IH]; intros H; cbn [app until_rb]; [now rewrite ceq_refl|].
  destruct (ceq_spec c cRB); [exfalso; apply H; now left|]. rewrite IH; [reflexivity|]. intros ?; apply H; now right.
Qed.
Lemma take_first n x fs : (forall v, ~ In (n, v) fs) -> take_file n ((n, x) :: fs) = Some (x, fs).
Proof.
  intros H. unfold take_file. cbn [lookup filter fst]. rewrite lookup_None by exact H. rewrite str_eqb_refl. cbn [negb].
  do 2 f_equal. induction fs as [|[a b] fs IH]; [reflexivity|]. cbn [filter fst].
  destruct (str_eqb a n) eqn:E; [apply str_eqb_eq in E; subst; exfalso; eapply H; left; reflexivity|]. cbn [negb]. f_equal. apply IH.
  intros v Hv. eapply H. right. exact Hv.
Qed.
Lemma R_file fs n x o y : n <> [] -> ~ In cRB n -> (forall v, ~ In (n, v) fs) -> R fs o y ->
  R ((n, x) :: fs) (u "[@" ++ n ++ u "]" ++ o) (x ++ y).
Proof.
  intros Hn Hb Hf H k L. destruct k as [|k]; [cbn in L; lia|].
  change (u "[@" ++ n ++ u "]" ++ o) with (cLB :: cAT :: (n ++ cRB :: o)) in *. cbn [rf]. rewrite !ceq_refl.
  rewrite until_rb_app by exact Hb.
  destruct n as [|a n]; [congruence|]. rewrite take_first by exact Hf. rewrite H; [reflexivity|]. cbn [length] in L. rewrite app_length in L. cbn in L. lia.
Qed.
Lemma R_plains fs w o y : (forall c, In c w -> c <> cLB /\ c <> cRB /\ c <> cBS) -> opens o = false -> R fs o y ->
  exists z, Reads F z w /\ R fs (w ++ o) (z ++ y) /\ opens (w ++ o) = false.
Proof.
  induction w as [|c w IH]; intros Hw Ho H.
  - exists []. split; [constructor|]. split; [exact H|exact Ho].
  - destruct (IH (fun d Hd => Hw d (or_intror Hd)) Ho H) as (z & Hz & Rz & Oz).
    destruct (Hw c (or_introl eq_refl)) as (A & B & C).
    exists (plain_out F c ++ z). split; [change (c :: w) with ([c] ++ w); apply Reads_app; [apply plain_out_Reads|exact Hz]|].
    split; [rewrite <- app_assoc; now apply R_plain|].
    cbn [app]. unfold opens. destruct (w ++ o); [reflexivity|]. destruct (ceq_spec c cLB); [congruence|reflexivity].
Qed.
End Ref.

(** ** The deformatter *)
Section Def.
Variable F : format.
Hypothesis G : good_format F.
Variable eos : bool.
Variable tmpname : nat -> str.
Hypothesis N : good_names tmpname.
Notation lex := (lex F eos false false tmpname).
Notation printBuffer := (printBuffer F eos false false tmpname).
Notation act := (act F eos false false tmpname).

Definition long (st : list frule) : list (matcher * action) :=
  match st with
  | [] => map (fun r => (r_m r, AFmt r)) (f_rules F) ++ map (fun p => (fst p, ARepl (snd p))) (f_repl F)
  | c :: _ => map (fun r => (r_m r, AFmt r)) (inner F c) ++ [(match r_end c with Some m => m | None => fun _ => None end, APop)]
  end.
Definition singles (st : list frule) : list (matcher * action) :=
  match st with
  | [] => [(one (f_space F), ASpace); (one (is_esc F), AEsc); (one (fun c => negb (c =?c cNL)), AChar)]
  | _ => [(one (fun _ => true), AAny)]
  end.
Lemma rules_split st : rules_of F st = long st ++ singles st.
Proof. destruct st; unfold rules_of, initial, comment_rules, long, singles; now rewrite <- app_assoc. Qed.
Definition stack_ok (st : list frule) : Prop := Forall (fun r => In r (f_rules F) /\ r_end r <> None) st.
Lemma insert_prio_In r x l : In x (insert_prio r l) -> x = r \/ In x l.
Proof.
  induction l as [|y l IH]; cbn [insert_prio].
  - intros [<-|[]]; auto.
  - destruct (r_prio r <=? r_prio y).
    + intros [<-|H]; auto.
    + intros [<-|H]; [right; now left|]. destruct (IH H); [auto|right; now right].
Qed.
Lemma inner_In c x : In x (inner F c) -> In x (f_rules F).
Proof.
  unfold inner. assert (forall l, (forall y, In y l -> In y (f_rules F)) -> In x (fold_right insert_prio [] l) -> In x (f_rules F)) as K.
  { induction l as [|y l IH]; [intros _ []|]. intros Hl H. cbn [fold_right] in H. apply insert_prio_In in H. destruct H as [->|H]; [apply Hl; now left|].
    apply IH; [intros; apply Hl; now right|exact H]. }
  apply K. intros y Hy. apply filter_In in Hy. apply Hy.
Qed.
Lemma long_whole st m a : stack_ok st -> In (m, a) (long st) -> whole m.
Proof.
  intros S H. destruct st as [|c st]; unfold long in H; apply in_app_or in H; destruct H as [H|H].
  - apply in_map_iff in H. destruct H as (r & E & Hr). injection E as <- <-. exact (proj1 (g_rule F G r Hr)).
  - apply in_map_iff in H. destruct H as ([m' t] & E & Hr). injection E as <- <-. exact (g_repl F G m' t Hr).
  - apply in_map_iff in H. destruct H as (r & E & Hr). injection E as <- <-. exact (proj1 (g_rule F G r (inner_In _ _ Hr))).
  - destruct H as [E|[]]. injection E as <- <-. inversion S as [|? ? [Hc He] _]; subst.
    destruct (r_end c) as [m'|] eqn:Em; [|congruence]. exact (proj2 (g_rule F G c Hc) m' Em).
Qed.
Definition long_action (st : list frule) (a : action) : Prop :=
  match a with
  | AFmt r => In r (f_rules F)
  | ARepl t => exists m, In (m, t) (f_repl F)
  | APop => True
  | _ => False
  end.
Lemma long_act st m a : In (m, a) (long st) -> long_action st a.
Proof.
  intros H. destruct st as [|c st]; unfold long in H; apply in_app_or in H; destruct H as [H|H].
  - apply in_map_iff in H. destruct H as (r & E & Hr). injection E as <- <-. exact Hr.
  - apply in_map_iff in H. destruct H as ([m' t] & E & Hr). injection E as <- <-. exists m'. exact Hr.
  - apply in_map_iff in H. destruct H as (r & E & Hr). injection E as <- <-. now apply inner_In in Hr.
  - destruct H as [E|[]]. injection E as <- <-. exact I.
Qed.
Lemma singles_1 st s n a : pick (singles st) s = Some (n, a) -> n = 1.
Proof.
  intros H. apply pick_some in H. destruct H as (m & Hin & Hm & _).
  assert (exists f, m = one f) as [f ->].
  { destruct st as [|c st]; cbn [singles In] in Hin; repeat (destruct Hin as [E|Hin]; [injection E as <- <-; eexists; reflexivity|]); destruct Hin. }
  destruct s as [|c s]; [discriminate|]. cbn [one] in Hm. destruct (f c); congruence.
Qed.
Lemma pick_rules st s : pick (rules_of F st) s = match pick (long st) s with Some x => Some x | None => pick (singles st) s end.
Proof. rewrite rules_split. apply pick_last. intros n a. apply singles_1. Qed.

Definition single (st : list frule) : action := match st with [] => AChar | _ => AAny end.
Lemma singles_byte st b t : (128 <= b)%N -> pick (singles st) (b :: t) = Some (1, single st).
Proof.
  intros Hb. destruct st as [|c st]; [|reflexivity]. cbn [singles pick one].
  assert (f_space F b = false) as -> by (destruct (f_space F b) eqn:E; [pose proof (g_ascii F G b (or_intror E)); lia|reflexivity]).
  assert (is_esc F b = false) as -> by (destruct (is_esc F b) eqn:E; [pose proof (g_ascii F G b (or_introl E)); lia|reflexivity]).
  destruct (ceq_spec b cNL) as [->|_]; [cbv in Hb; congruence|]. reflexivity.
Qed.
(** nothing but single bytes matches inside a character at whose beginning nothing matched *)
Lemma no_mid st c r p q : stack_ok st -> multi c -> valid r = true -> pick (long st) (c ++ r) = None -> c = p ++ q -> q <> [] ->
  pick (long st) (q ++ r) = None.
Proof.
  intros S M V H E Hq. destruct p as [|p0 p'] eqn:Ep; [cbn in E; subst; exact H|]. rewrite <- Ep in *.
  apply pick_none'. intros m a Hin. destruct (m (q ++ r)) as [k|] eqn:Em; [exfalso|reflexivity].
  pose proof (long_whole st m a S Hin) as [W1 W2]. destruct M as (_ & _ & Pf & Va).
  assert (valid p = false) as Vp by (eapply Pf; [exact E|congruence|exact Hq]).
  assert (m ((p ++ q) ++ r) <> None) as K.
  { apply W2; [rewrite <- E, <- (app_nil_r c), Va; reflexivity|exact Vp|congruence]. }
  rewrite <- E in K. destruct (m (c ++ r)) as [j|] eqn:Ej; [|congruence].
  pose proof (pick_none _ _ H _ _ _ Hin Ej) as ->. destruct (W1 (c ++ r) 0) as [? _]; [rewrite Va; exact V|exact Ej|lia].
Qed.
Lemma ge128_nul b : (128 <= b)%N -> b <> cNUL.
Proof. intros H ->. cbv in H. congruence. Qed.

(** the bytes of a character in running text *)
Lemma text_loop c r dot eoh tmp fuel : multi c -> valid r = true -> pick (long []) (c ++ r) = None -> dot && negb eos = false ->
  forall q p, c = p ++ q -> q <> [] ->
  lex (length q + fuel) (mkd [] p dot eoh [] tmp) (q ++ r) =
  (let '(o, f) := lex fuel (mkd [] [] dot eoh [] tmp) r in (c ++ o, f)).
Proof.
  intros M V H Hd. induction q as [|b q IH]; intros p E Hq; [congruence|].
  assert (Hb : (128 <= b)%N) by (apply (proj1 (proj2 M)); rewrite E; apply in_or_app; right; now left).
  cbn [length plus app Format.lex d_stack]. rewrite pick_rules, (no_mid [] c r p (b :: q) (Forall_nil _) M V H E Hq : pick (long []) (b :: q ++ r) = None), singles_byte by exact Hb.
  cbn [firstn skipn single]. unfold Format.act, Format.printBuffer. cbn [d_buf d_sym d_dot d_eoh d_stack d_tmp]. rewrite Hd, andb_false_r.
  change (usize []) with 0. change (f_large F <? 0) with false. cbn [orb andb Nat.ltb Nat.leb Nat.eqb app cstr].
  destruct (ceq_spec b cNUL) as [Eb|_]; [now apply ge128_nul in Hb|].
  assert ((if negb eos then false else dot) = dot) as -> by (destruct eos, dot; cbn in *; congruence).
  unfold with_sym. cbn [d_buf d_dot d_eoh d_stack d_tmp d_sym].
  destruct q as [|b' q'] eqn:Eq.
  - assert (valid (p ++ [b]) = true) as ->. { rewrite <- E. rewrite <- (app_nil_r c). destruct M as (_ & _ & _ & Va). now rewrite Va. }
    cbn [length plus app]. destruct (lex fuel _ r). now rewrite <- E.
  - assert (valid (p ++ [b]) = false) as ->.
    { destruct M as (_ & _ & Pf & _). eapply (Pf (p ++ [b]) (b' :: q')); [rewrite <- app_assoc; exact E|destruct p; discriminate|congruence]. }
    rewrite <- Eq in *. rewrite (IH (p ++ [b])); [|rewrite <- app_assoc; exact E|congruence].
    destruct (lex fuel _ r). reflexivity.
Qed.
Lemma text_char c r buf dot eoh tmp fuel : multi c -> valid r = true -> pick (long []) (c ++ r) = None ->
  lex (length c + fuel) (mkd buf [] dot eoh [] tmp) (c ++ r) =
  (let '(o1, f1, d1) := printBuffer (mkd buf [] dot eoh [] tmp) in let '(o, f) := lex fuel d1 r in (o1 ++ c ++ o, f1 ++ f)).
Proof.
  intros M V H. destruct c as [|b q] eqn:Ec; [destruct M as (L & _); cbn in L; lia|]. rewrite <- Ec in *.
  assert (Hb : (128 <= b)%N) by (apply (proj1 (proj2 M)); rewrite Ec; now left).
  assert (Hq : q <> []) by (destruct M as (L & _); rewrite Ec in L; cbn in L; destruct q; [cbn in L; lia|congruence]).
  assert (K : forall t, exists tmp', snd (printBuffer (mkd buf [] dot eoh [] tmp)) = mkd [] [] (if negb eos then false else dot) eoh [] tmp' /\
     (tmp' = t \/ True)).
  { intros t. unfold Format.printBuffer. cbn [d_buf d_sym d_dot d_eoh d_stack d_tmp].
    destruct (_ <? _); [eexists; split; [reflexivity|auto]|]. destruct (_ || _); eexists; (split; [reflexivity|auto]). }
  destruct (K 0) as (tmp' & E1 & _). clear K.
  rewrite Ec at 1 2. cbn [length plus app Format.lex d_stack].
  rewrite pick_rules. assert (pick (long []) (b :: q ++ r) = None) as -> by (rewrite Ec in H; exact H). rewrite singles_byte by exact Hb.
  cbn [firstn skipn single]. unfold Format.act.
  destruct (printBuffer (mkd buf [] dot eoh [] tmp)) as [[o1 f1] d1] eqn:Epb. cbn [snd] in E1. subst d1.
  cbn [d_sym app cstr]. destruct (ceq_spec b cNUL) as [Eb|_]; [now apply ge128_nul in Hb|].
  assert (valid [b] = false) as ->. { destruct M as (_ & _ & Pf & _). eapply (Pf [b] q); [exact Ec|congruence|exact Hq]. }
  unfold with_sym. cbn [d_buf d_dot d_eoh d_stack d_tmp d_sym].
  rewrite (text_loop c r (if negb eos then false else dot) eoh tmp' fuel M V H) with (p := [b]); [|destruct eos, dot; reflexivity|exact Ec|exact Hq].
  destruct (lex fuel _ r). reflexivity.
Qed.
(** the bytes of a character in a comment *)
Lemma comment_loop c r k st buf dot eoh tmp fuel : stack_ok (k :: st) -> multi c -> valid r = true -> pick (long (k :: st)) (c ++ r) = None ->
  forall q p, c = p ++ q -> q <> [] ->
  lex (length q + fuel) (mkd buf p dot eoh (k :: st) tmp) (q ++ r) = lex fuel (mkd (buf ++ c) [] dot eoh (k :: st) tmp) r.
Proof.
  intros S M V H. induction q as [|b q IH]; intros p E Hq; [congruence|].
  assert (Hb : (128 <= b)%N) by (apply (proj1 (proj2 M)); rewrite E; apply in_or_app; right; now left).
  cbn [length plus app Format.lex d_stack]. rewrite pick_rules, (no_mid (k :: st) c r p (b :: q) S M V H E Hq : pick (long (k :: st)) (b :: q ++ r) = None), singles_byte by exact Hb.
  cbn [firstn skipn single]. unfold Format.act. cbn [d_sym cstr].
  destruct (ceq_spec b cNUL) as [Eb|_]; [now apply ge128_nul in Hb|].
  destruct q as [|b' q'] eqn:Eq.
  - assert (valid (p ++ [b]) = true) as ->. { rewrite <- E. rewrite <- (app_nil_r c). destruct M as (_ & _ & _ & Va). now rewrite Va. }
    unfold append, with_sym. cbn [length plus app d_buf d_dot d_eoh d_stack d_tmp d_sym]. rewrite <- E. destruct (lex fuel _ r). reflexivity.
  - assert (valid (p ++ [b]) = false) as ->.
    { destruct M as (_ & _ & Pf & _). eapply (Pf (p ++ [b]) (b' :: q')); [rewrite <- app_assoc; exact E|destruct p; discriminate|congruence]. }
    rewrite <- Eq in *. unfold with_sym. cbn [d_buf d_dot d_eoh d_stack d_tmp d_sym].
    rewrite (IH (p ++ [b])); [|rewrite <- app_assoc; exact E|congruence].
    destruct (lex fuel _ r). reflexivity.
Qed.

(** *** what the output says *)
Definition Q (tmp : nat) (o : str) (f : files) (s : str) : Prop :=
  opens o = false /\ (forall n v, In (n, v) f -> exists k, tmp <= k /\ n = tmpname k) /\
  exists v y, Reads F s v /\ Reads F y v /\ R F f o y.
Lemma Q_weaken t t' o f s : t <= t' -> Q t' o f s -> Q t o f s.
Proof. intros L (A & B & C). split; [exact A|]. split; [|exact C]. intros n v H. destruct (B n v H) as (k & Hk & E). exists k. split; [lia|exact E]. Qed.
Lemma Q_plains t w o f s : (forall c, In c w -> c <> cLB /\ c <> cRB /\ c <> cBS) -> Q t o f s -> Q t (w ++ o) f (w ++ s).
Proof.
  intros Hw (A & B & v & y & H1 & H2 & H3). destruct (R_plains F G f w o y Hw A H3) as (z & Hz & Rz & Oz).
  split; [exact Oz|]. split; [exact B|]. exists (w ++ v), (z ++ y). split; [apply Reads_app; [apply Reads_refl|exact H1]|]. split; [now apply Reads_app|exact Rz].
Qed.
Lemma Q_entity t k w o f s : In (k, w) (entities F) -> Q t o f s -> Q t (w ++ o) f (k ++ s).
Proof.
  intros Hk (A & B & v & y & H1 & H2 & H3).
  destruct (R_plains F G f w o y (fun c Hc => let H := g_target F G k w c Hk Hc in conj (proj1 H) (conj (proj1 (proj2 H)) (proj1 (proj2 (proj2 H))))) A H3) as (z & Hz & Rz & Oz).
  split; [exact Oz|]. split; [exact B|]. exists (w ++ v), (z ++ y). split; [now apply Rd_ent|]. split; [now apply Reads_app|exact Rz].
Qed.
Lemma Q_esc t c o f s : is_esc F c = true -> Q t o f s -> Q t (cBS :: c :: o) f (c :: s).
Proof.
  intros Hc (A & B & v & y & H1 & H2 & H3). split; [reflexivity|]. split; [exact B|].
  exists (c :: v), (c :: y). split; [now apply Rd_char|]. split; [now apply Rd_char|]. now apply R_esc.
Qed.
Lemma Q_dot t o f s : Q t o f s -> Q t (u ".[]" ++ o) f s.
Proof. intros (A & B & v & y & H1 & H2 & H3). split; [reflexivity|]. split; [exact B|]. exists v, y. split; [exact H1|]. split; [exact H2|]. now apply R_dot. Qed.
Lemma Q_opt (b : bool) t o f s : Q t o f s -> Q t ((if b then u ".[]" else []) ++ o) f s.
Proof. destruct b; [apply Q_dot|auto]. Qed.
Lemma Q_block t b o f s : b <> [] -> Q t o f s -> Q t (block F b ++ o) f (b ++ s).
Proof.
  intros Hb (A & B & v & y & H1 & H2 & H3). destruct (R_block F G f b o y Hb A H3) as (w & Hw & Rw).
  split.
  - unfold block. destruct b as [|c b]; [congruence|]. rewrite escape_cons. destruct (is_esc F c) eqn:E.
    + reflexivity.
    + cbn [app]. destruct (ceq_spec c cAT); [reflexivity|]. cbn [app]. unfold opens. destruct (ceq_spec c cRB) as [->|]; [rewrite (g_rb F G) in E; discriminate|]. now rewrite andb_false_r.
  - split; [exact B|]. exists (b ++ v), (w ++ y). split; [apply Reads_app; [apply Reads_refl|exact H1]|]. split; [now apply Reads_app|exact Rw].
Qed.
Lemma Q_file t b o f s : Q (S t) o f s -> Q t (u "[@" ++ tmpname t ++ u "]" ++ o) ((tmpname t, b) :: f) (b ++ s).
Proof.
  intros (A & B & v & y & H1 & H2 & H3). destruct N as [Ni Ng]. destruct (Ng t) as [Hn Hr].
  split; [reflexivity|]. split.
  - intros n x [E|H]; [injection E as <- <-; exists t; auto|]. destruct (B n x H) as (k & Hk & E). exists k. split; [lia|exact E].
  - exists (b ++ v), (b ++ y). split; [apply Reads_app; [apply Reads_refl|exact H1]|]. split; [apply Reads_app; [apply Reads_refl|exact H2]|].
    apply R_file; auto. intros x H. destruct (B _ _ H) as (k & Hk & E). apply Ni in E. lia.
Qed.
Lemma PB d o1 f1 d1 o f s : printBuffer d = (o1, f1, d1) -> valid (d_buf d) = true -> Q (d_tmp d1) o f s ->
  Q (d_tmp d) (o1 ++ o) (f1 ++ f) (d_buf d ++ s) /\
  d_buf d1 = [] /\ d_sym d1 = d_sym d /\ d_stack d1 = d_stack d.
Proof.
  intros E V H. unfold Format.printBuffer, preDot, dot_mark in E. rewrite andb_false_r in E. cbn [app] in E.
  destruct (f_large F <? usize (d_buf d)) eqn:El; [injection E as <- <- <-|destruct ((1 <? usize (d_buf d)) || _) eqn:Eb; injection E as <- <- <-].
  - cbn [d_buf d_sym d_stack d_tmp] in *. split; [|auto]. rewrite <- !app_assoc. apply Q_opt. apply Q_opt.
    refine (eq_ind _ (fun z => Q _ z _ _) (Q_file _ (d_buf d) _ _ _ H) _ _). cbn. now rewrite <- app_assoc.
  - cbn [d_buf d_sym d_stack d_tmp] in *. split; [|auto]. rewrite <- !app_assoc. apply Q_opt. apply Q_opt. cbn [app]. apply Q_block; [|exact H].
    intros E0. rewrite E0 in Eb. discriminate.
  - cbn [d_buf d_sym d_stack d_tmp] in *. split; [|auto]. rewrite <- !app_assoc. apply Q_opt. cbn [app].
    apply orb_false_iff in Eb. destruct Eb as [E1 E2]. apply Nat.ltb_ge in E1.
    destruct (usize (d_buf d)) as [|[|n]] eqn:Eu; [| |lia].
    + apply usize_0 in Eu; [|exact V]. rewrite Eu. exact H.
    + cbn in E2. apply negb_false_iff in E2. apply str_eqb_eq in E2. rewrite E2. apply Q_plains; [|exact H].
      intros c [<-|[]]. repeat split; discriminate.
Qed.

Definition ok (d : dst) : Prop := d_sym d = [] /\ valid (d_buf d) = true /\ stack_ok (d_stack d).
Theorem lex_ok : forall n s d fuel o f, length s = n -> length s < fuel -> valid s = true -> ~ In cNUL s -> ok d ->
  lex fuel d s = (o, f) -> Q (d_tmp d) o f (d_buf d ++ s).
Proof.
  induction n as [n IH] using lt_wf_ind. intros s d fuel o f Hn Hf V Z [Hy [Hb Hst]] E.
  destruct s as [|a0 s0] eqn:Es.
  { destruct fuel as [|fuel]; [cbn in Hf; lia|]. cbn [Format.lex] in E.
    destruct (printBuffer (mkd (d_buf d) (d_sym d) true (d_eoh d) (d_stack d) (d_tmp d))) as [[o1 f1] d1] eqn:Epb. injection E as <- <-.
    unfold preDot, dot_mark. apply Q_opt.
    assert (Q (d_tmp d1) [] [] []) as K. { split; [reflexivity|]. split; [intros ? ? []|]. exists [], []. split; [constructor|]. split; [constructor|]. apply R_nil. }
    destruct (PB _ _ _ _ [] [] [] Epb Hb K) as [K' _]. rewrite !app_nil_r in K'. cbn [d_tmp d_buf] in K'. rewrite app_nil_r. exact K'. }
  rewrite <- Es in *. assert (Hne : s <> []) by congruence.
  assert (step : forall m d' o' f', 0 < m <= length s -> valid (firstn m s) = true -> ok d' -> forall fuel', fuel = S fuel' ->
      lex fuel' d' (skipn m s) = (o', f') -> Q (d_tmp d') o' f' (d_buf d' ++ skipn m s)).
  { intros m d' o' f' Hm Vm Hd fuel' -> E'. refine (IH (length (skipn m s)) _ _ _ _ _ _ eq_refl _ (valid_split s m V Vm) _ Hd E').
    - rewrite skipn_length. lia.
    - rewrite skipn_length. lia.
    - intros K. apply Z. rewrite <- (firstn_skipn m s). apply in_or_app. now right. }
  destruct (pick (long (d_stack d)) s) as [[k a]|] eqn:Ep.
  - (* a rule matches *)
    destruct fuel as [|fuel]; [lia|]. rewrite Es in E. cbn [Format.lex] in E. rewrite <- Es in E. rewrite pick_rules, Ep in E.
    destruct (pick_some _ _ _ _ Ep) as (m & Hin & Hm & Hk).
    destruct (long_whole _ m a Hst Hin) as [W _]. destruct (W s k V Hm) as [Hk2 Vk]. clear W.
    assert (Zk : cstr (firstn k s) = firstn k s). { apply cstr_id. intros K. apply Z. rewrite <- (firstn_skipn k s). apply in_or_app. now left. }
    pose proof (long_act _ _ _ Hin) as La.
    assert (Vb : valid (d_buf d ++ firstn k s) = true) by (rewrite valid_app; [exact Vk|exact Hb]).
    destruct a as [r|t| | | | |]; cbn [long_action] in La; try destruct La.
    + (* format rule *)
      cbn [Format.act] in E. rewrite Zk in E.
      set (d' := mkd (d_buf d ++ firstn k s) _ _ _ _ _) in E.
      destruct (lex fuel d' (skipn k s)) as [o' f'] eqn:E'. injection E as <- <-.
      assert (Hd : ok d'). { split; [exact Hy|]. split; [exact Vb|]. cbn [d' d_stack]. destruct (r_end r) eqn:Er; [|exact Hst]. constructor; [|exact Hst]. split; [exact La|congruence]. }
      pose proof (step k d' o' f' Hk2 Vk Hd fuel eq_refl E') as K. cbn [d' d_tmp d_buf] in K. rewrite <- app_assoc, firstn_skipn in K. exact K.
    + (* replacement rule *)
      rename x into m'. cbn [Format.act] in E. rewrite Zk in E. destruct (lookup (firstn k s) t) as [v|] eqn:El.
      * destruct (printBuffer d) as [[o1 f1] d1] eqn:Epb. destruct (lex fuel d1 (skipn k s)) as [o' f'] eqn:E'. injection E as <- <-.
        assert (He : In (firstn k s, v) (entities F)). { apply lookup_In in El. unfold entities. apply in_flat_map. exists (m', t). split; [exact H|exact El]. }
        assert (Zv : cstr v = v). { apply cstr_id. intros K. apply (g_target F G _ _ _ He) in K. tauto. }
        rewrite Zv. rewrite <- app_assoc.
        assert (Hd1 : d_buf d1 = [] /\ d_sym d1 = d_sym d /\ d_stack d1 = d_stack d).
        { unfold Format.printBuffer in Epb. destruct (_ <? _); [injection Epb as _ _ <-; auto|]. destruct (_ || _); injection Epb as _ _ <-; auto. }
        destruct Hd1 as (B1 & B2 & B3).
        assert (Hd : ok d1). { split; [congruence|]. split; [now rewrite B1|congruence]. }
        pose proof (step k d1 o' f' Hk2 Vk Hd fuel eq_refl E') as K. rewrite B1 in K. cbn [app] in K.
        rewrite <- (firstn_skipn k s). apply (PB d o1 f1 d1); [exact Epb|exact Hb|]. now apply Q_entity.
      * set (d' := append d (firstn k s)) in E.
        destruct (lex fuel d' (skipn k s)) as [o' f'] eqn:E'. injection E as <- <-.
        assert (Hd : ok d') by (split; [exact Hy|]; split; [exact Vb|exact Hst]).
        pose proof (step k d' o' f' Hk2 Vk Hd fuel eq_refl E') as K. cbn [d' append d_tmp d_buf] in K. rewrite <- app_assoc, firstn_skipn in K. exact K.
    + (* end of a comment *)
      cbn [Format.act] in E. rewrite Zk in E.
      set (d' := mkd (d_buf d ++ firstn k s) _ _ _ _ _) in E.
      destruct (lex fuel d' (skipn k s)) as [o' f'] eqn:E'. injection E as <- <-.
      assert (Hd : ok d'). { split; [exact Hy|]. split; [exact Vb|]. cbn [d' d_stack]. destruct Hst; [constructor|assumption]. }
      pose proof (step k d' o' f' Hk2 Vk Hd fuel eq_refl E') as K. cbn [d' d_tmp d_buf] in K. rewrite <- app_assoc, firstn_skipn in K. exact K.
  - (* a single character *)
    destruct (valid_char s V Hne) as (c & r & Ec & Hc & Vr).
    assert (Zr : ~ In cNUL r) by (intros K; apply Z; rewrite Ec; apply in_or_app; now right).
    destruct d as [buf sym dot eoh st tmp]. cbn [d_buf d_sym d_stack d_tmp] in *. subst sym.
    destruct Hc as [(a & Ea & Ha)|M].
    + subst c. cbn [app] in Ec. rewrite Ec in *. destruct fuel as [|fuel]; [lia|]. cbn [Format.lex d_stack] in E.
      rewrite pick_rules, Ep in E.
      assert (Na : a <> cNUL) by (intros ->; apply Z; now left).
      assert (Va : valid [a] = true) by (rewrite valid_unfold; apply N.ltb_lt in Ha; now rewrite Ha).
      assert (Ca : cstr [a] = [a]) by (cbn [cstr]; destruct (ceq_spec a cNUL); [congruence|reflexivity]).
      assert (st1 : forall d' o' f', ok d' -> lex fuel d' r = (o', f') -> Q (d_tmp d') o' f' (d_buf d' ++ r)).
      { intros d' o' f' Hd. apply (step 1 d' o' f'); [cbn; lia|exact Va|exact Hd|reflexivity]. }
      assert (app1 : forall o' f' d', ok d' -> d_tmp d' = tmp -> d_buf d' = buf ++ [a] -> (let '(o0, f0) := lex fuel d' r in ([] ++ o0, [] ++ f0)) = (o', f') -> Q tmp o' f' (buf ++ a :: r)).
      { intros o' f' d' Hd Et Eb E'. destruct (lex fuel d' r) as [o0 f0] eqn:E0. injection E' as <- <-.
        pose proof (st1 _ _ _ Hd E0) as K. rewrite Et, Eb, <- app_assoc in K. exact K. }
      assert (Vba : valid (buf ++ [a]) = true) by (rewrite valid_app; assumption).
      destruct st as [|k st].
      * cbn [singles pick one] in E. destruct (f_space F a) eqn:Es1.
        -- assert ((if is_esc F a then Some 1 else None : option nat) = None \/ True) as _ by auto.
           assert (exists A : action, (let '(o0, f0, d') := act ASpace [a] (mkd buf [] dot eoh [] tmp) in let '(o', f') := lex fuel d' r in (o0 ++ o', f0 ++ f')) = (o, f)) as [_ E'].
           { exists ASpace. destruct (is_esc F a); destruct (negb (a =?c cNL)); cbn [Nat.leb] in E; exact E. }
           cbn [Format.act] in E'. rewrite Ca in E'. eapply (app1 o f (append (mkd buf [] dot eoh [] tmp) [a])); [|reflexivity|reflexivity|exact E'].
           split; [reflexivity|]. split; [exact Vba|exact Hst].
        -- destruct (printBuffer (mkd buf [] dot eoh [] tmp)) as [[o1 f1] d1] eqn:Epb.
           assert (Hd1 : d_buf d1 = [] /\ d_sym d1 = [] /\ d_stack d1 = []).
           { unfold Format.printBuffer in Epb. destruct (_ <? _); [injection Epb as _ _ <-; auto|]. destruct (_ || _); injection Epb as _ _ <-; auto. }
           destruct Hd1 as (B1 & B2 & B3).
           assert (Hd : ok d1). { split; [congruence|]. split; [now rewrite B1|rewrite B3; constructor]. }
           destruct (is_esc F a) eqn:Es2.
           ++ assert ((let '(o0, f0, d') := act AEsc [a] (mkd buf [] dot eoh [] tmp) in let '(o', f') := lex fuel d' r in (o0 ++ o', f0 ++ f')) = (o, f)) as E'.
              { destruct (negb (a =?c cNL)); cbn [Nat.leb] in E; exact E. }
              cbn [Format.act] in E'. rewrite Epb in E'. destruct (lex fuel d1 r) as [o' f'] eqn:E0. injection E' as <- <-.
              pose proof (st1 _ _ _ Hd E0) as K. rewrite B1 in K. cbn [app] in K. rewrite <- app_assoc. cbn [app].
              apply (PB (mkd buf [] dot eoh [] tmp) o1 f1 d1); [exact Epb|exact Hb|]. now apply Q_esc.
           ++ destruct (ceq_spec a cNL) as [->|Hnl]; [destruct (g_nl F G); congruence|]. cbn [negb] in E.
              cbn [firstn skipn Format.act] in E. rewrite Epb, B2, Ca in E. cbn [app] in E. rewrite Va in E.
              assert (Hd' : ok (with_sym d1 [])) by (split; [reflexivity|]; split; [cbn; now rewrite B1|cbn; rewrite B3; constructor]).
              destruct (lex fuel (with_sym d1 []) r) as [o' f'] eqn:E0. injection E as <- <-.
              pose proof (st1 _ _ _ Hd' E0) as K. cbn [with_sym d_buf d_tmp] in K. rewrite B1 in K. cbn [app] in K. rewrite <- app_assoc.
              apply (PB (mkd buf [] dot eoh [] tmp) o1 f1 d1); [exact Epb|exact Hb|]. change (a :: r) with ([a] ++ r). apply Q_plains; [|exact K].
              intros c' [<-|[]]. assert (forall x, is_esc F x = true -> a <> x) as K' by (intros x Hx ->; congruence).
              repeat split; apply K'; [apply (g_lb F G)|apply (g_rb F G)|apply (g_bs F G)].
      * cbn [singles pick one firstn skipn Format.act d_sym] in E. rewrite Ca in E. cbn [app] in E. rewrite Va in E.
        eapply (app1 o f _); [| | |exact E]; [|reflexivity|reflexivity].
        split; [reflexivity|]. split; [exact Vba|exact Hst].
    + rewrite Ec in *. rewrite app_length in Hf, Hn.
      assert (Lc : 2 <= length c) by apply M.
      replace fuel with (length c + (fuel - length c)) in E by lia.
      destruct st as [|k st].
      * rewrite text_char in E by assumption.
        destruct (printBuffer (mkd buf [] dot eoh [] tmp)) as [[o1 f1] d1] eqn:Epb.
        assert (Hd1 : d_buf d1 = [] /\ d_sym d1 = [] /\ d_stack d1 = []).
        { unfold Format.printBuffer in Epb. destruct (_ <? _); [injection Epb as _ _ <-; auto|]. destruct (_ || _); injection Epb as _ _ <-; auto. }
        destruct Hd1 as (B1 & B2 & B3).
        assert (Hd : ok d1). { split; [congruence|]. split; [now rewrite B1|rewrite B3; constructor]. }
        destruct (lex (fuel - length c) d1 r) as [o' f'] eqn:E0. injection E as <- <-.
        assert (K : Q (d_tmp d1) o' f' (d_buf d1 ++ r)).
        { eapply (IH (length r)); [lia|reflexivity| |exact Vr|exact Zr|exact Hd|exact E0]. lia. }
        rewrite B1 in K. cbn [app] in K. apply (PB (mkd buf [] dot eoh [] tmp) o1 f1 d1); [exact Epb|exact Hb|]. apply Q_plains; [|exact K].
        intros x Hx. apply M in Hx. repeat split; intros ->; cbv in Hx; congruence.
      * rewrite (comment_loop c r k st buf dot eoh tmp (fuel - length c) Hst M Vr Ep c []) in E; [|reflexivity|destruct c; [cbn in Lc; lia|congruence]].
        assert (K : Q tmp o f ((buf ++ c) ++ r)).
        { eapply (IH (length r)) with (d := mkd (buf ++ c) [] dot eoh (k :: st) tmp); [lia|reflexivity| |exact Vr|exact Zr| |exact E]; [lia|].
          split; [reflexivity|]. split; [|exact Hst]. cbn [d_buf]. rewrite valid_app by exact Hb. apply onechar_valid. now right. }
        rewrite <- app_assoc in K. exact K.
Qed.
End Def.

(** ** Everything the deformatter writes is a well-formed stream *)
Section WF.
Variable F : format.
Hypothesis G : reserves F.
Variables eos noDot markEoh : bool.
Variable tmpname : nat -> str.
Notation lex := (lex F eos noDot markEoh tmpname).
Notation printBuffer := (printBuffer F eos noDot markEoh tmpname).
Notation act := (act F eos noDot markEoh tmpname).
Notation Wf := (WellFormed F tmpname).

Lemma Wf_plains w r : (forall c, In c w -> is_esc F c = false) -> Wf r -> Wf (w ++ r).
Proof. induction w as [|c w IH]; intros H W; [exact W|]. cbn [app]. apply W_char; [apply H; now left|]. apply IH; [|exact W]. intros; apply H; now right. Qed.
Lemma escape_Body t : Body F (escape F t).
Proof. induction t as [|c t IH]; [constructor|]. rewrite escape_cons. destruct (is_esc F c) eqn:E; cbn [app]; [apply B_esc|apply B_char]; auto. Qed.
Lemma escape_hd t : hd_error (escape F t) <> Some cAT.
Proof.
  destruct t as [|c t]; [discriminate|]. rewrite escape_cons. destruct (is_esc F c) eqn:E; [discriminate|].
  cbn. intros K. injection K as ->. destruct G as (_ & K & _). congruence.
Qed.
Lemma Wf_block t r : Wf r -> Wf (block F t ++ r).
Proof.
  intros W. unfold block. destruct (escape F t) as [|c x] eqn:E.
  - exact (W_blank F tmpname [] r (B_nil F) ltac:(discriminate) W).
  - pose proof (escape_hd t) as H. rewrite E in H. destruct (ceq_spec c cAT) as [->|_]; [exfalso; apply H; reflexivity|].
    cbn [app]. rewrite <- app_assoc. apply (W_blank F tmpname (c :: x) r); [rewrite <- E; apply escape_Body|exact H|exact W].
Qed.
Lemma high c : (128 <= c)%N -> is_esc F c = false.
Proof. intros H. destruct (is_esc F c) eqn:E; [|reflexivity]. destruct G as [K _]. apply K in E. lia. Qed.
Hypothesis dot_plain : is_esc F cDOT = false.
Lemma Wf_mark r : Wf r -> Wf (dot_mark noDot ++ r).
Proof.
  intros W. assert (B : Wf (cLB :: cRB :: r)) by exact (W_blank F tmpname [] r (B_nil F) ltac:(discriminate) W).
  unfold dot_mark. destruct noDot; [exact B|]. apply (W_char F tmpname cDOT (cLB :: cRB :: r)); [exact dot_plain|exact B].
Qed.
Lemma Wf_pre r : Wf r -> Wf (preDot eos noDot ++ r).
Proof. unfold preDot. destruct eos; [apply Wf_mark|auto]. Qed.
Lemma Wf_eoh r : Wf r -> Wf (eoh_mark ++ r).
Proof.
  intros W. apply (W_blank F tmpname [] ([226; 157; 161]%N ++ r)); [constructor|discriminate|]. apply Wf_plains; [|exact W].
  intros c [<-|[<-|[<-|[]]]]; apply high; cbv; congruence.
Qed.
Lemma usize_0_high b : usize b = 0 -> forall c, In c b -> (128 <= c)%N.
Proof.
  induction b as [|a b IH]; [intros _ ? []|]. cbn [usize fold_right]. intros H c [<-|Hin].
  - destruct (a <? 128)%N eqn:E; [lia|]. now apply N.ltb_ge.
  - apply IH; [fold (usize b) in H; lia|exact Hin].
Qed.
Lemma Wf_print d o1 f1 d1 r : printBuffer d = (o1, f1, d1) -> Wf r -> Wf (o1 ++ r) /\ d_sym d1 = d_sym d.
Proof.
  intros E W. unfold Format.printBuffer in E.
  assert (P1 : forall (b : bool) x, Wf x -> Wf ((if b then eoh_mark else []) ++ x)) by (intros [|] x Hx; [now apply Wf_eoh|exact Hx]).
  assert (P2 : forall (b : bool) x, Wf x -> Wf ((if b then dot_mark noDot else []) ++ x)) by (intros [|] x Hx; [now apply Wf_mark|exact Hx]).
  destruct (_ <? _); [injection E as <- <- <-|destruct (_ || _) eqn:Eb; injection E as <- <- <-]; (split; [|reflexivity]); rewrite <- !app_assoc; apply P1, P2.
  - apply Wf_pre. refine (eq_ind _ (fun z => Wf z) (W_file F tmpname (d_tmp d) r W) _ _). cbn. now rewrite <- app_assoc.
  - apply Wf_pre, Wf_block, W.
  - apply Wf_plains; [|exact W]. apply orb_false_iff in Eb. destruct Eb as [E1 E2]. apply Nat.ltb_ge in E1.
    destruct (usize (d_buf d)) as [|[|n]] eqn:Eu; [| |lia].
    + intros c Hc. apply high. eapply usize_0_high; eassumption.
    + cbn in E2. apply negb_false_iff in E2. apply str_eqb_eq in E2. rewrite E2. intros c [<-|[]]. apply G.
Qed.
(** the bytes kept of a character never make valid text *)
Definition partial (s : str) : Prop := forall p q, s = p ++ q -> p <> [] -> valid p = false.
Lemma partial_one s : partial s -> forall b, valid (s ++ [b]) = true -> onechar (s ++ [b]).
Proof.
  intros P b V. destruct (valid_char _ V) as (c & r & E & Hc & Vr); [destruct s; discriminate|].
  destruct r as [|r0 r'] using rev_ind.
  - rewrite app_nil_r in E. now rewrite E.
  - clear IHr'. rewrite app_assoc in E. apply app_inj_tail in E. destruct E as [E <-].
    pose proof (P _ _ E (onechar_nil c Hc)) as K. rewrite (onechar_valid c Hc) in K. discriminate.
Qed.
Lemma partial_snoc s b : partial s -> valid (s ++ [b]) = false -> partial (s ++ [b]).
Proof.
  intros P V p q E Hp. destruct q as [|q0 q'] using rev_ind; [rewrite app_nil_r in E; congruence|].
  clear IHq'. rewrite app_assoc in E. apply app_inj_tail in E. destruct E as [E _]. eapply P; eassumption.
Qed.
Lemma partial_nil : partial [].
Proof. intros p q E H. destruct p; [congruence|discriminate]. Qed.
Lemma cstr1 b : cstr [b] = [b] \/ cstr [b] = [].
Proof. cbn [cstr]. destruct (b =?c cNUL); auto. Qed.
Lemma partial_cstr s b : partial s -> partial (if valid (s ++ cstr [b]) then [] else s ++ cstr [b]).
Proof.
  intros P. destruct (valid _) eqn:V; [apply partial_nil|]. destruct (cstr1 b) as [E|E]; rewrite E in *; [now apply partial_snoc|]. now rewrite app_nil_r.
Qed.
Lemma emitted s b : partial s -> is_esc F b = false -> valid (s ++ cstr [b]) = true -> forall c, In c (s ++ cstr [b]) -> is_esc F c = false.
Proof.
  intros P Hb V c Hc. destruct (cstr1 b) as [E|E]; rewrite E in *.
  - destruct (partial_one s P b V) as [(a & Ea & Ha)|M].
    + destruct s as [|s0 s]; [|destruct s; discriminate]. destruct Hc as [<-|[]]. exact Hb.
    + apply high. now apply M.
  - rewrite app_nil_r in *. destruct s as [|s0 s]; [destruct Hc|]. rewrite (P (s0 :: s) []) in V; [discriminate|now rewrite app_nil_r|congruence].
Qed.
Lemma cstr_In c s : In c (cstr s) -> In c s.
Proof. induction s as [|a s IH]; [auto|]. cbn [cstr]. destruct (a =?c cNUL); [intros []|]. intros [<-|H]; [now left|right; auto]. Qed.
Lemma pick_In_rules st s n a : pick (rules_of F st) s = Some (n, a) ->
  match a with ARepl t => exists m, In (m, t) (f_repl F)
  | AEsc => n = 1 /\ exists c r, s = c :: r /\ is_esc F c = true
  | AChar => n = 1 /\ exists c r, s = c :: r /\ is_esc F c = false
  | AAny => n = 1
  | _ => True end.
Proof.
  rewrite rules_split, pick_last by (intros ? ?; apply singles_1).
  destruct (pick (long F st) s) as [[k b]|] eqn:E.
  - intros K. injection K as <- <-. apply pick_some in E. destruct E as (m & Hin & _). apply long_act in Hin. destruct b; auto; destruct Hin.
  - intros K. pose proof (singles_1 _ _ _ _ _ K) as ->. destruct st as [|x st].
    + destruct s as [|c r]; [discriminate|]. cbn [singles pick one] in K.
      destruct (f_space F c); [destruct (is_esc F c); destruct (negb (c =?c cNL)); cbn [Nat.leb] in K; injection K as <-; exact I|].
      destruct (is_esc F c) eqn:Ec; [destruct (negb (c =?c cNL)); cbn [Nat.leb] in K; injection K as <-; split; eauto|].
      destruct (negb (c =?c cNL)); [|discriminate]. injection K as <-. split; eauto.
    + destruct s as [|c r]; [discriminate|]. cbn [singles pick one] in K. injection K as <-. reflexivity.
Qed.
Theorem lex_wf : forall fuel d s, partial (d_sym d) -> Wf (fst (lex fuel d s)).
Proof.
  induction fuel as [|fuel IH]; intros d s P; [constructor|]. cbn [Format.lex]. destruct s as [|c r].
  - destruct (printBuffer _) as [[o1 f1] d1] eqn:E. cbn [fst]. apply Wf_pre. rewrite <- (app_nil_r o1). eapply Wf_print; [exact E|constructor].
  - destruct (pick (rules_of F (d_stack d)) (c :: r)) as [[n a]|] eqn:Ep.
    + pose proof (pick_In_rules _ _ _ _ Ep) as Ha. destruct (act a (firstn n (c :: r)) d) as [[o1 f1] d1] eqn:Ea.
      pose proof (IH d1 (skipn n (c :: r))) as K. destruct (lex fuel d1 _) as [o' f']. cbn [fst] in *.
      destruct a as [x|t| | | | |]; cbn [Format.act] in Ea.
      * injection Ea as <- <- <-. apply K. exact P.
      * destruct (lookup _ t) as [v|] eqn:El.
        -- destruct (printBuffer d) as [[o2 f2] d2] eqn:E2. injection Ea as <- <- <-. rewrite <- app_assoc.
           assert (K' : d_sym d2 = d_sym d) by (eapply (Wf_print d); [exact E2|apply W_nil]).
           eapply Wf_print; [exact E2|]. apply Wf_plains; [|apply K; now rewrite K'].
           intros x Hx. apply cstr_In in Hx. destruct Ha as [m Hm]. apply lookup_In in El. destruct G as (_ & _ & _ & T). eapply T; [|exact Hx].
           unfold entities. apply in_flat_map. exists (m, t). split; [exact Hm|exact El].
        -- injection Ea as <- <- <-. apply K. exact P.
      * injection Ea as <- <- <-. apply K. exact P.
      * destruct Ha as [-> (c' & r' & E' & Hc)]. injection E' as <- <-. destruct (printBuffer d) as [[o2 f2] d2] eqn:E2. injection Ea as <- <- <-.
        assert (K' : d_sym d2 = d_sym d) by (eapply (Wf_print d); [exact E2|apply W_nil]).
        rewrite <- app_assoc. eapply Wf_print; [exact E2|]. cbn [firstn app]. apply W_esc. apply K. now rewrite K'.
      * destruct Ha as [-> (c' & r' & E' & Hc)]. injection E' as <- <-. destruct (printBuffer d) as [[o2 f2] d2] eqn:E2.
        assert (K' : d_sym d2 = d_sym d) by (eapply (Wf_print d); [exact E2|apply W_nil]).
        cbn [firstn] in Ea. rewrite K' in Ea. pose proof (partial_cstr (d_sym d) c P) as P2. destruct (valid (d_sym d ++ cstr [c])) eqn:V; injection Ea as <- <- <-.
        -- rewrite <- app_assoc. eapply Wf_print; [exact E2|]. apply Wf_plains; [now apply emitted|]. apply K. exact P2.
        -- eapply Wf_print; [exact E2|]. apply K. exact P2.
      * injection Ea as <- <- <-. apply K. exact P.
      * subst n. cbn [firstn] in Ea. pose proof (partial_cstr (d_sym d) c P) as P2. generalize dependent (d_sym d ++ cstr [c]). intros x Ea P2.
        destruct (valid x); injection Ea as <- <- <-; apply K; exact P2.
    + pose proof (IH d r P) as K. destruct (lex fuel d r) as [o' f']. cbn [fst] in *. apply W_char; [|exact K].
      rewrite rules_split, pick_last in Ep by (intros ? ?; apply singles_1).
      destruct (pick (long F (d_stack d)) (c :: r)); [discriminate|]. destruct (d_stack d) as [|x st]; [|discriminate].
      cbn [singles pick one] in Ep. destruct (is_esc F c); [|reflexivity]. destruct (f_space F c); destruct (negb (c =?c cNL)); discriminate.
Qed.
End WF.

(** expressions whose matches begin and end with an ASCII character match whole characters *)
Lemma ascii_bounded_whole (m : matcher) :
  (forall s n, m s = Some n -> 0 < n <= length s /\ (nth 0 s 0 < 128)%N /\ (nth (n - 1) s 0 < 128)%N) -> whole m.
Proof.
  intros H. split.
  - intros s n V Hm. destruct (H s n Hm) as (Hn & H0 & H1). split; [exact Hn|].
    revert n Hm Hn H0 H1. clear H. 
    assert (K : forall s, valid s = true -> forall n, 0 < n <= length s -> (nth (n - 1) s 0 < 128)%N -> valid (firstn n s) = true).
    { apply (valid_ind (fun s => forall n, 0 < n <= length s -> (nth (n - 1) s 0 < 128)%N -> valid (firstn n s) = true)).
      - intros n Hn. cbn in Hn. lia.
      - intros c r Hc Vr IH n Hn H1. rewrite app_length in Hn.
        destruct (le_lt_dec n (length c)) as [L|L].
        + rewrite app_nth1 in H1 by lia. rewrite firstn_app. replace (n - length c) with 0 by lia. rewrite firstn_O, app_nil_r.
          destruct Hc as [(a & -> & Ha)|M].
          * cbn in L. assert (n = 1) as -> by lia. cbn [firstn]. rewrite valid_unfold. apply N.ltb_lt in Ha. now rewrite Ha.
          * pose proof (proj1 (proj2 M) (nth (n - 1) c 0%N)) as K. specialize (K ltac:(apply nth_In; lia)). lia.
        + rewrite app_nth2 in H1 by lia. rewrite firstn_app, firstn_all2 by lia. rewrite onechar_app by exact Hc.
          apply IH; [lia|]. replace (n - length c - 1) with (n - 1 - length c) by lia. exact H1. }
    intros n Hm Hn _ H1. now apply K.
  - intros p q r V Vp Hm. exfalso. destruct (m (q ++ r)) as [n|] eqn:E; [|congruence].
    destruct (H _ _ E) as (Hn & H0 & _).
    assert (K : forall s, valid s = true -> forall p q, s = p ++ q -> valid p = false -> forall r, q ++ r <> [] -> (nth 0 (q ++ r) 0 < 128)%N -> False).
    { apply (valid_ind (fun s => forall p q, s = p ++ q -> valid p = false -> forall r, q ++ r <> [] -> (nth 0 (q ++ r) 0 < 128)%N -> False)).
      - intros p0 q0 E0 V0. destruct p0; [discriminate|discriminate].
      - intros c t Hc Vt IH p0 q0 E0 V0 r0 Hne Hlt.
        destruct (le_lt_dec (length c) (length p0)) as [L|L].
        + assert (p0 = c ++ skipn (length c) p0) as Ep.
          { rewrite <- (firstn_skipn (length c) p0) at 1. f_equal. 
            assert (firstn (length c) (c ++ t) = firstn (length c) (p0 ++ q0)) as K by now rewrite E0.
            rewrite !firstn_app, firstn_all, Nat.sub_diag, firstn_O, app_nil_r in K. replace (length c - length p0) with 0 in K by lia.
            now rewrite firstn_O, app_nil_r in K. }
          rewrite Ep in E0, V0. rewrite <- app_assoc in E0. apply app_inv_head in E0. rewrite onechar_app in V0 by exact Hc.
          eapply IH; eassumption.
        + assert (exists x, c = p0 ++ x /\ x <> [] /\ q0 = x ++ t) as (x & Ex & Hx & Eq).
          { exists (skipn (length p0) c). 
            assert (firstn (length p0) (c ++ t) = firstn (length p0) (p0 ++ q0)) as K by now rewrite E0.
            rewrite !firstn_app, firstn_all, Nat.sub_diag, firstn_O, app_nil_r in K. replace (length p0 - length c) with 0 in K by lia. rewrite firstn_O, app_nil_r in K.
            assert (skipn (length p0) (c ++ t) = skipn (length p0) (p0 ++ q0)) as K2 by now rewrite E0.
            rewrite !skipn_app, skipn_all, Nat.sub_diag in K2. cbn [app skipn] in K2. replace (length p0 - length c) with 0 in K2 by lia. cbn [skipn] in K2.
            split; [rewrite <- K at 1; now rewrite firstn_skipn|]. split; [|now symmetry].
            intros K3. apply (f_equal (@length char)) in K3. rewrite skipn_length in K3. cbn in K3. lia. }
          destruct p0 as [|p1 p0]; [discriminate|]. destruct x as [|x0 x]; [congruence|]. subst q0. cbn [app nth] in Hlt.
          destruct Hc as [(a & -> & Ha)|M].
          * destruct p0; [|destruct p0]; cbn in Ex; try discriminate; cbn in L; lia.
          * pose proof (proj1 (proj2 M) x0) as K. specialize (K ltac:(rewrite Ex; apply in_or_app; right; now left)). lia. }
    eapply (K (p ++ q) V p q eq_refl Vp r); [|exact H0]. intros E'. rewrite E' in Hn. cbn in Hn. lia.
Qed.
