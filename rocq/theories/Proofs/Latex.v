(** LaTeX there and back. *)
From Coq Require Import String Lia.
From Verif Require Import Model.Base Proofs.Base Model.Latex Spec.Latex.
Open Scope nat_scope.

(** ** The scanner, without fuel *)
Inductive lexes (rs : list rule) : st -> str -> str -> Prop :=
| lexes_nil x : lexes rs x [] []
| lexes_step x s n o y r : s <> [] -> step rs x s = Some (n, o, y) -> lexes rs y (skipn n s) r -> lexes rs x s (o ++ r).
Lemma lexes_lex rs x s o : lexes rs x s o -> exists f, forall f', f <= f' -> lex f' rs x s = Some o.
Proof.
  induction 1 as [x|x s n o y r Hs E H (f & IH)].
  - exists 1. intros [|f'] L; [lia | reflexivity].
  - exists (S f). intros [|f'] L; [lia|]. cbn [lex]. destruct s; [contradiction|]. rewrite E, (IH f') by lia. reflexivity.
Qed.
Lemma lex_lexes rs f : forall x s o, lex f rs x s = Some o -> lexes rs x s o.
Proof.
  induction f as [|f IH]; intros x s o E; [discriminate|]. cbn [lex] in E. destruct s as [|c s].
  - injection E as <-. constructor.
  - destruct (step rs x (c :: s)) as [((n, o1), y)|] eqn:S; [|discriminate]. destruct (lex f rs y (skipn n (c :: s))) as [o2|] eqn:L; [|discriminate].
    injection E as <-. eapply lexes_step; [discriminate | exact S | apply IH, L].
Qed.

(* one step over a known prefix *)
Lemma step_over rs x w s o y r : w <> [] -> step rs x (w ++ s) = Some (length w, o, y) -> lexes rs y s r -> lexes rs x (w ++ s) (o ++ r).
Proof.
  intros Hw E H. eapply lexes_step; [destruct w; [contradiction | discriminate] | exact E|]. rewrite skipn_app, skipn_all, Nat.sub_diag. exact H.
Qed.

(** ** The longest match *)
Definition below (rs : list rule) (c : cond) (s : str) (n : nat) : Prop :=
  forall r m, In r rs -> cond_eqb (r_cond r) c = true -> mt (r_pat r) s = Some m -> m < n.
Lemma pick_none_or rs c s : forall n, below rs c s n -> match pick rs c s with Some (m, _) => m < n | None => True end.
Proof.
  induction rs as [|r rs IH]; intros n H; [exact I|]. cbn [pick].
  assert (H' : below rs c s n) by (intros r' m I; apply H; right; exact I). specialize (IH n H').
  destruct (cond_eqb (r_cond r) c) eqn:C; [|destruct (pick rs c s) as [(m, r')|]; exact IH].
  destruct (mt (r_pat r) s) as [k|] eqn:M; [|destruct (pick rs c s) as [(m, r')|]; exact IH].
  pose proof (H r k (or_introl eq_refl) C M). destruct (pick rs c s) as [(m, r')|]; [|assumption]. destruct (m <=? k); assumption.
Qed.
Lemma pick_best rs1 r rs2 c s n : cond_eqb (r_cond r) c = true -> mt (r_pat r) s = Some n -> below rs1 c s n -> below rs2 c s (S n) ->
  pick (rs1 ++ r :: rs2) c s = Some (n, r).
Proof.
  intros C M H1 H2. revert H1. induction rs1 as [|r1 rs1 IH]; intros H1; cbn [app pick].
  - rewrite C, M. pose proof (pick_none_or rs2 c s (S n) H2) as H. destruct (pick rs2 c s) as [(m, r')|]; [|reflexivity].
    destruct (Nat.leb_spec m n); [reflexivity | lia].
  - rewrite IH by (intros r' m I; apply H1; right; exact I).
    destruct (cond_eqb (r_cond r1) c) eqn:C1; [|reflexivity]. destruct (mt (r_pat r1) s) as [k|] eqn:M1; [|reflexivity].
    pose proof (H1 r1 k (or_introl eq_refl) C1 M1). destruct (Nat.leb_spec n k); [lia | reflexivity].
Qed.
(* only the rules that can begin with the character *)
Definition can (c : char) (ps : list pat) : bool := match ps with One p :: _ => p c | Plus p :: _ => p c | _ => true end.
Definition live (k : cond) (c : char) (r : rule) : bool := cond_eqb (r_cond r) k && can c (r_pat r).
Lemma can_none c ps s : can c ps = false -> mt ps (c :: s) = None.
Proof. destruct ps as [|[p|p|p|p] ps]; cbn [can mt span]; intros E; try discriminate; rewrite E; reflexivity. Qed.
Lemma pick_filter rs k c s : pick rs k (c :: s) = pick (filter (live k c) rs) k (c :: s).
Proof.
  induction rs as [|r rs IH]; [reflexivity|]. cbn [pick filter]. unfold live at 1. destruct (cond_eqb (r_cond r) k) eqn:C; cbn [andb].
  - destruct (can c (r_pat r)) eqn:E; [cbn [pick]; rewrite C, IH; reflexivity|]. rewrite (can_none _ _ _ E), IH. destruct (pick _ _ _) as [(m, r')|]; reflexivity.
  - rewrite IH. destruct (pick _ _ _) as [(m, r')|]; reflexivity.
Qed.
Lemma step_pick rs x c s n r o y : pick (filter (live (s_cond x) c) rs) (s_cond x) (c :: s) = Some (n, r) -> r_act r x (firstn n (c :: s)) = Some (o, y) ->
  step rs x (c :: s) = Some (n, o, y).
Proof. intros P A. unfold step. rewrite pick_filter, P, A. reflexivity. Qed.

(** ** Matches *)
Lemma mt_lit w : forall ps s, mt (lit w ++ ps) (w ++ s) = option_map (Nat.add (length w)) (mt ps s).
Proof.
  induction w as [|c w IH]; intros ps s; cbn [lit map app mt length]; [destruct (mt ps s); reflexivity|].
  rewrite ceq_refl, IH. destruct (mt ps s); reflexivity.
Qed.
Lemma mt_lit_inv w : forall ps s m, mt (lit w ++ ps) s = Some m -> exists r k, s = w ++ r /\ mt ps r = Some k /\ m = length w + k.
Proof.
  induction w as [|c w IH]; intros ps s m E; cbn [lit map app mt] in E; [exists s, m; auto|].
  destruct s as [|d s]; [discriminate|]. destruct (ceq_spec d c) as [->|]; [|discriminate]. destruct (mt (map _ w ++ ps) s) as [k|] eqn:M; [|discriminate].
  injection E as <-. destruct (IH _ _ _ M) as (r & j & -> & K & ->). exists r, j. auto.
Qed.
Lemma span_all p w : Forall (fun c => p c = true) w -> span p w = length w.
Proof. induction 1 as [|c w H _ IH]; cbn [span length]; [reflexivity|]. rewrite H, IH. reflexivity. Qed.
Lemma span_app p w s : Forall (fun c => p c = true) w -> match s with c :: _ => p c = false | [] => True end -> span p (w ++ s) = length w.
Proof.
  induction 1 as [|c w H _ IH]; intros Hs; cbn [span length app]; [destruct s as [|c s]; [reflexivity | cbn; rewrite Hs; reflexivity]|]. rewrite H, IH by exact Hs. reflexivity.
Qed.
Lemma skipn_len {A} (w s : list A) : skipn (length w) (w ++ s) = s.
Proof. rewrite skipn_app, skipn_all, Nat.sub_diag. reflexivity. Qed.
Lemma mt_plus p w ps s : w <> [] -> Forall (fun c => p c = true) w -> match s with c :: _ => p c = false | [] => True end ->
  mt (Plus p :: ps) (w ++ s) = option_map (Nat.add (length w)) (mt ps s).
Proof. intros Hw F Hs. cbn [mt]. rewrite (span_app p w s F Hs), skipn_len. destruct w; [contradiction | reflexivity]. Qed.
Lemma mt_star p w ps s : Forall (fun c => p c = true) w -> match s with c :: _ => p c = false | [] => True end ->
  mt (Star p :: ps) (w ++ s) = option_map (Nat.add (length w)) (mt ps s).
Proof. intros F Hs. cbn [mt]. rewrite (span_app p w s F Hs), skipn_len. reflexivity. Qed.
Definition outside (p : char -> bool) (s : str) : Prop := match s with c :: _ => p c = false | [] => True end.
(* a word, then something the class has not *)
Lemma mt_word p w p0 more : Forall (fun c => p c = true) w -> (forall c, p c = true -> p0 c = false) -> forall n s m,
  Forall (fun c => p c = true) n -> outside p s -> mt (lit w ++ One p0 :: more) (n ++ s) = Some m -> n = w /\ exists k, mt (One p0 :: more) s = Some k /\ m = length w + k.
Proof.
  intros Fw Hp0. induction Fw as [|c w Hc _ IH]; intros n s m Fn Hs E; cbn [lit map app] in E.
  - destruct n as [|d n]; [split; [reflexivity|]; exists m; auto|]. cbn [app mt] in E. inversion Fn as [|? ? Hd ?]; subst. rewrite (Hp0 d Hd) in E. discriminate.
  - destruct n as [|d n].
    + cbn [app mt] in E. destruct s as [|d s]; [discriminate|]. cbn [outside] in Hs. destruct (ceq_spec d c) as [->|]; [rewrite Hc in Hs; discriminate | discriminate].
    + cbn [app mt] in E. inversion Fn as [|? ? Hd Fn']; subst. destruct (ceq_spec d c) as [->|]; [|discriminate].
      destruct (mt (map _ w ++ One p0 :: more) (n ++ s)) as [j|] eqn:M; [|discriminate]. injection E as <-.
      destruct (IH n s j Fn' Hs M) as (-> & k & K & ->). split; [reflexivity|]. exists k. auto.
Qed.
Fixpoint ones (ps : list pat) : bool := match ps with [] => true | One _ :: ps => ones ps | _ => false end.
Lemma mt_ones ps : ones ps = true -> forall s m, mt ps s = Some m -> m = length ps.
Proof.
  induction ps as [|[p|p|p|p] ps IH]; cbn [ones mt length]; intros O s m E; try discriminate; [injection E as <-; reflexivity|].
  destruct s as [|c s]; [discriminate|]. destruct (p c); [|discriminate]. destruct (mt ps s) as [k|] eqn:M; [|discriminate]. injection E as <-. f_equal. eapply IH; eauto.
Qed.
Lemma below_nil c s n : below [] c s n.
Proof. intros r m []. Qed.
Lemma below_cons r rs c s n : (forall m, mt (r_pat r) s = Some m -> m < n) -> below rs c s n -> below (r :: rs) c s n.
Proof. intros H1 H2 r' m [<-|I] C M; [apply H1, M | eapply H2; eauto]. Qed.

(** ** Fixed tokens *)
Definition P (cl : str) (g : bool) : st := mkst INITIAL cl g.
Definition lits1 : list (str * str) := map (fun p => (u (fst p), u (snd p)))
  [("\\", "<BR/>"); ("\{", "<LEFTESCAPEDBRACE/>"); ("\%", "<ESCAPEDPERCENT/>"); ("\&", "&amp;"); ("\(", "<MATH_PAR>"); ("\)", "</MATH_PAR>"); ("\[", "<MATH_BRA>"); ("\]", "</MATH_BRA>");
   ("~", "&NBSP;"); ("}", "</CONTENTS>"); ("'", "&apos;"); ("<", "&lt;"); (">", "&gt;"); ("&", "<AMP/>"); ("?`", "¿"); ("!`", "¡")]%string.
Definition keeps (rs : list rule) (x : st) (w o : str) : Prop := forall s, step rs x (w ++ s) = Some (length w, o, x).
Lemma pre_lits cl g : Forall (fun p => keeps pre (P cl g) (fst p) (snd p)) lits1.
Proof. unfold keeps, P. repeat (apply Forall_cons; [intros s; reflexivity|]). apply Forall_nil. Qed.
Lemma post_lits : Forall (fun p => keeps post init (snd p) (fst p)) lits1.
Proof. unfold keeps. repeat (apply Forall_cons; [intros s; reflexivity|]). apply Forall_nil. Qed.

(** ** Rules by number *)
Lemma below_pats rs c s n : Forall (fun ps => forall m, mt ps s = Some m -> m < n) (map r_pat rs) -> below rs c s n.
Proof. intros F r m I _ M. rewrite Forall_map, Forall_forall in F. exact (F r I m M). Qed.
Lemma step_at rs x c s i n o y r : nth_error (filter (live (s_cond x) c) rs) i = Some r -> mt (r_pat r) (c :: s) = Some n ->
  Forall (fun ps => forall m, mt ps (c :: s) = Some m -> m < n) (map r_pat (firstn i (filter (live (s_cond x) c) rs))) ->
  Forall (fun ps => forall m, mt ps (c :: s) = Some m -> m < S n) (map r_pat (skipn (S i) (filter (live (s_cond x) c) rs))) ->
  r_act r x (firstn n (c :: s)) = Some (o, y) -> step rs x (c :: s) = Some (n, o, y).
Proof.
  intros N M H1 H2 A. eapply step_pick; [|exact A]. set (F := filter _ rs) in *.
  assert (S : F = firstn i F ++ r :: skipn (S i) F).
  { clear - N. revert i N. induction F as [|q F IH]; intros [|i] N; cbn in N |- *; try discriminate; [injection N as <-; reflexivity|]. f_equal. apply IH, N. }
  assert (C : cond_eqb (r_cond r) (s_cond x) = true).
  { apply nth_error_In in N. apply filter_In in N as (_ & L). unfold live in L. apply Bool.andb_true_iff in L as (L & _). exact L. }
  rewrite S. apply pick_best; [exact C | exact M | apply below_pats, H1 | apply below_pats, H2].
Qed.
Ltac each := repeat first [apply Forall_nil | apply Forall_cons].
Ltac dead := let m := fresh in let E := fresh in intros m E; cbn in E; first [discriminate E | injection E as <-; cbn; lia].

(** ** Commands *)
Lemma is_letter_b c : is_letter c <-> letter c = true.
Proof. unfold is_letter, letter. rewrite Bool.orb_true_iff, !Bool.andb_true_iff, !N.leb_le. tauto. Qed.
Lemma letter_ne a k : letter a = true -> letter k = false -> (a =?c k) = false.
Proof. intros H K. apply ceq_neq. intros ->. congruence. Qed.
Lemma below_ones ps s n : ones ps = true -> length ps < n -> forall m, mt ps s = Some m -> m < n.
Proof. intros O L m E. rewrite (mt_ones ps O s m E). exact L. Qed.
Lemma below_word w p0 more a s n : Forall (fun c => letter c = true) w -> (forall c, letter c = true -> p0 c = false) ->
  forall nm x, Forall (fun c => letter c = true) nm -> outside letter x -> s = a :: nm ++ x -> (nm = w -> outside p0 x) ->
  forall m, mt (One (fun d => d =?c a) :: lit w ++ One p0 :: more) s = Some m -> m < n.
Proof.
  intros Fw H0 nm x Fn Hx -> Ho m E. cbn [mt] in E. rewrite ceq_refl in E. destruct (mt (lit w ++ One p0 :: more) (nm ++ x)) as [k|] eqn:M; [|discriminate].
  destruct (mt_word letter w p0 more Fw H0 nm x k Fn Hx M) as (Q & j & K & _). specialize (Ho Q). cbn [mt] in K. destruct x as [|d x]; [discriminate|].
  cbn [outside] in Ho. rewrite Ho in K. discriminate.
Qed.
Lemma letters_w w : forallb letter w = true -> Forall (fun c => letter c = true) w.
Proof. intros H. apply Forall_forall. intros c I. rewrite forallb_forall in H. exact (H c I). Qed.
Lemma eqc_letter k c : letter k = false -> letter c = true -> eqc k c = false.
Proof. intros K C. exact (letter_ne c k C K). Qed.

Definition tail92 : list (list pat) :=
  [lit (u "\{"%string); lit (u "\{"%string); lit (u "\%"%string)] ++ map (fun d => r_pat (verb_rule d)) [124; 33; 63; 47; 35; 43]%N
  ++ [lit (u "\("%string); lit (u "\)"%string); lit (u "\["%string); lit (u "\]"%string); lit (u "\&"%string); [One any]].
Lemma tail92_ok : map r_pat (skipn 14 (filter (live INITIAL 92%N) pre)) = tail92.
Proof. reflexivity. Qed.
Definition head92 : list (list pat) :=
  [lit (u "\t{"%string) ++ [One dot; One dot; One (eqc 125)]; lit (u "\l"%string);
   BS ++ [One (fun c => is "^'`"%string c || eqc 34 c)] ++ lit (u "{\"%string) ++ [One (is "ij"%string); One (eqc 125)];
   BS ++ [One (fun c => is "^'`"%string c || eqc 34 c)] ++ BS ++ [One (is "ij"%string)];
   lit (u "\#"%string) ++ [Plus digit]; lit (u "\#"%string); BS ++ [One accs] ++ [One (eqc 123); One dot; One (eqc 125)]].
Lemma head92_ok : map r_pat (firstn 7 (filter (live INITIAL 92%N) pre)) = head92.
Proof. reflexivity. Qed.
Definition mid92 : list (list pat) :=
  [lit (u "\\"%string); lit (u "\usepackage["%string) ++ [Star (fun c => negb (c =?c 93%N)); One (eqc 93)];
   lit (u "\begin"%string) ++ [One (fun c => negb (alnum c || (c =?c cUND)))]; lit (u "\end"%string) ++ [One (fun c => negb (alnum c || (c =?c cUND)))];
   BS ++ [Plus letter; One (eqc 42)]].
Lemma mid92_ok : map r_pat (firstn 5 (skipn 8 (filter (live INITIAL 92%N) pre))) = mid92.
Proof. reflexivity. Qed.
Lemma all92_ok : map r_pat (filter (live INITIAL 92%N) pre) = head92 ++ [BS ++ [One accs; One dot]] ++ mid92 ++ [BS ++ [Plus letter]] ++ tail92.
Proof. reflexivity. Qed.
Section Command.
  Variables (cl : str) (g : bool) (a : char) (n' x : str).
  Hypothesis Ha : letter a = true.
  Hypothesis Fn : Forall (fun c => letter c = true) n'.
  Hypothesis Ho : ~ In (a :: n') odd_names.
  Hypothesis Hx : outside letter x.
  Hypothesis Hp : a :: n' = u "usepackage"%string -> outside (eqc 91) x.
  Let s := 92%N :: (a :: n') ++ x.
  (* rules of letters, then something that is not *)
  Lemma word_rule w p0 more n : forallb letter w = true -> (forall c, letter c = true -> p0 c = false) -> (a :: n' = w -> outside p0 x) ->
    forall m, mt (One (fun d => d =?c 92%N) :: lit w ++ One p0 :: more) s = Some m -> m < n.
  Proof. intros Hw H0 Hq m. apply (below_word w p0 more 92%N s n (letters_w w Hw) H0 (a :: n') x); [constructor; assumption | exact Hx | reflexivity | exact Hq]. Qed.
  Lemma odd w : existsb (str_eqb w) odd_names = true -> a :: n' = w -> False.
  Proof. intros I E. apply existsb_exists in I as (v & I & Ev). apply str_eqb_eq in Ev as ->. rewrite E in Ho. contradiction. Qed.
  (* rules whose second character is no letter *)
  Lemma second_rule p0 p1 more n : p1 a = false -> forall m, mt (One p0 :: One p1 :: more) s = Some m -> m < n.
  Proof. intros H m E. unfold s in E. cbn [mt app] in E. rewrite H in E. destruct (p0 92%N); discriminate. Qed.
  Lemma outside_letter_ne k : letter k = true -> forall c r, x = c :: r -> (c =?c k) = false.
  Proof. intros K c r E. rewrite E in Hx. apply ceq_neq. intros ->. cbn in Hx. congruence. Qed.
  Hypothesis Hs : outside (eqc 42) x.
  Ltac wr w p0 more := apply (word_rule w p0 more); [reflexivity | intros c; apply eqc_letter; reflexivity | intros Q; exfalso; revert Q; apply (odd w); reflexivity].
  Ltac sec := eapply second_rule; cbn; unfold eqc; repeat rewrite (letter_ne a) by (exact Ha || reflexivity); reflexivity.
  Ltac on := apply below_ones; [reflexivity | cbn; lia].
  Lemma alnum_non c : letter c = true -> negb (alnum c || (c =?c cUND)) = false.
  Proof. intros H. unfold alnum. rewrite H. reflexivity. Qed.
  Lemma acc_braces n : n' <> [] \/ accs a = false -> forall m, mt (BS ++ [One accs] ++ [One (eqc 123); One dot; One (eqc 125)]) s = Some m -> m < n.
  Proof.
    intros [H|H] m E; unfold s in E; cbn [mt app BS] in E; change (eqc 92 92%N) with true in E; cbv iota in E.
    - destruct n' as [|b q] eqn:En; [contradiction|]. inversion Fn as [|? ? Hb _]; subst. cbn [app] in E. rewrite (eqc_letter 123%N b eq_refl Hb) in E. destruct (accs a); discriminate.
    - rewrite H in E. discriminate.
  Qed.
  Lemma name_mt : mt [One (eqc 92); Plus letter] s = Some (S (S (length n'))).
  Proof.
    unfold s. cbn [mt]. change (eqc 92 92%N) with true. cbv iota. rewrite (span_app letter (a :: n') x); [|constructor; assumption | exact Hx]. cbn [length Nat.eqb option_map].
    rewrite Nat.add_0_r. reflexivity.
  Qed.
  Lemma star_mt n : forall m, mt [One (eqc 92); Plus letter; One (eqc 42)] s = Some m -> m < n.
  Proof.
    intros m E. unfold s in E. cbn [mt] in E. change (eqc 92 92%N) with true in E. cbv iota in E. rewrite (span_app letter (a :: n') x) in E; [|constructor; assumption | exact Hx].
    change (length (a :: n') =? 0) with false in E. cbv iota in E. rewrite skipn_len in E. destruct x as [|d r]; [discriminate|]. cbn [outside] in Hs. rewrite Hs in E. discriminate.
  Qed.
  Lemma firstn_name : firstn (S (S (length n'))) s = 92%N :: a :: n'.
  Proof. unfold s. change (S (S (length n'))) with (length (92%N :: a :: n')). change (92%N :: (a :: n') ++ x) with ((92%N :: a :: n') ++ x). rewrite firstn_app, firstn_all, Nat.sub_diag. cbn. rewrite app_nil_r. reflexivity. Qed.
  Ltac wn w := apply (word_rule w (fun c => negb (alnum c || (c =?c cUND))) []); [reflexivity | exact alnum_non | intros Q; exfalso; revert Q; apply (odd w); reflexivity].
  Lemma verb_below d n : letter d = false -> forall m, mt (r_pat (verb_rule d)) s = Some m -> m < n.
  Proof.
    intros Hd. apply (word_rule (u "verb"%string) (eqc d) [Plus (fun c => negb (c =?c d)); One (eqc d)]);
    [reflexivity | intros c; apply eqc_letter; exact Hd | intros Q; exfalso; revert Q; apply (odd (u "verb"%string)); reflexivity].
  Qed.
  Ltac we d := exact (verb_below d _ eq_refl).
  Lemma after_tail n : 1 < n -> Forall (fun ps => forall m, mt ps s = Some m -> m < n) (map r_pat (skipn 14 (filter (live INITIAL 92%N) pre))).
  Proof. intros L. rewrite tail92_ok. each; [sec | sec | sec | we 124%N | we 33%N | we 63%N | we 47%N | we 35%N | we 43%N | sec | sec | sec | sec | sec | apply below_ones; [reflexivity | exact L]]. Qed.
  Lemma usep n : forall m, mt (lit (u "\usepackage["%string) ++ [Star (fun c => negb (c =?c 93%N)); One (eqc 93)]) s = Some m -> m < n.
  Proof. apply (word_rule (u "usepackage"%string) (fun d => d =?c 91%N) [Star (fun c => negb (c =?c 93%N)); One (eqc 93)]); [reflexivity | | exact Hp]. intros c H. apply letter_ne; [exact H | reflexivity]. Qed.
  Lemma before_7 n : 2 < n \/ n = 2 /\ n' = [] -> 1 < n -> n' <> [] \/ accs a = false ->
    Forall (fun ps => forall m, mt ps s = Some m -> m < n) (map r_pat (firstn 7 (filter (live INITIAL 92%N) pre))).
  Proof.
    intros Hl L Hq. rewrite head92_ok. each.
    - wr (u "t"%string) (fun d => d =?c 123%N) ([One dot; One dot; One (eqc 125)]).
    - destruct Hl as [Hl|(_ & Hl)]; [apply below_ones; [reflexivity | exact Hl]|]. intros m E. exfalso. unfold s in E. rewrite Hl in E. cbn in E.
      destruct (ceq_spec a 108%N) as [->|]; [apply Ho; rewrite Hl; cbn; tauto | discriminate].
    - sec.
    - sec.
    - sec.
    - sec.
    - apply acc_braces, Hq.
  Qed.
  Lemma mid4 n : Forall (fun ps => forall m, mt ps s = Some m -> m < n) (firstn 4 mid92).
  Proof. each; [sec | apply usep | wn (u "begin"%string) | wn (u "end"%string)]. Qed.
  Lemma mid n : Forall (fun ps => forall m, mt ps s = Some m -> m < n) (map r_pat (firstn 5 (skipn 8 (filter (live INITIAL 92%N) pre)))).
  Proof. rewrite mid92_ok. change mid92 with (firstn 4 mid92 ++ [BS ++ [Plus letter; One (eqc 42)]]). apply Forall_app; split; [apply mid4|]. apply Forall_cons; [apply star_mt | apply Forall_nil]. Qed.
  Lemma cmd_long : n' = [] /\ accs a = false \/ 2 <= length n' \/ n' <> [] /\ accs a = false ->
    step pre (P cl g) s = Some (S (S (length n')), u "<"%string ++ a :: n' ++ u "/>"%string, P cl g).
  Proof.
    intros Hl. unfold s. eapply (step_at pre (P cl g) 92%N _ 13).
    - reflexivity.
    - exact name_mt.
    - rewrite <- firstn_map. change (map r_pat (filter _ _)) with (map r_pat (filter (live INITIAL 92%N) pre)). rewrite all92_ok. change (firstn 13 _) with (head92 ++ [BS ++ [One accs; One dot]] ++ mid92). rewrite <- head92_ok, <- mid92_ok.
      fold s. apply Forall_app; split; [|apply Forall_app; split; [|apply mid]].
      + apply before_7; [|lia|]; destruct Hl as [(-> & H)|[H|(H & H')]]; cbn [length]; try (right; auto; fail); try (left; destruct n'; [contradiction | cbn; lia]); try (left; lia); left; auto.
        destruct n'; [cbn in H; lia | discriminate].
      + apply Forall_cons; [|apply Forall_nil]. destruct Hl as [(_ & H)|[H|(_ & H)]]; [| apply below_ones; [reflexivity | cbn; lia] |];
          (apply (second_rule (eqc 92) accs [One dot]); exact H).
    - apply after_tail. lia.
    - change (r_act _ _ _) with (act (fun t => u "<"%string ++ skipn 1 t ++ u "/>"%string) (P cl g) (firstn (S (S (length n'))) s)). rewrite firstn_name. reflexivity.
  Qed.
End Command.
Lemma single_acc a : letter a = true -> ~ In [a] odd_names -> accs a = false.
Proof.
  intros Ha Ho. unfold accs. apply Bool.orb_false_iff. split; [|apply (letter_ne a 34%N Ha eq_refl)]. destruct (mem a _) eqn:E; [|reflexivity]. exfalso. apply mem_In in E.
  assert (A : forallb (fun k => negb (letter k) || existsb (str_eqb [k]) odd_names) (u "`'^H~ck=b.druv"%string) = true) by reflexivity.
  rewrite forallb_forall in A. apply A in E. rewrite Ha in E. cbn [negb orb] in E. apply existsb_exists in E as (v & I & Ev). apply str_eqb_eq in Ev as <-. contradiction.
Qed.
Lemma look_In k m o : look k m = Some o -> In (k, o) m.
Proof. induction m as [|(a, b) m IH]; cbn [look]; [discriminate|]. destruct (str_eqb a k) eqn:E; [apply str_eqb_eq in E as ->; intros [= <-]; left; reflexivity | right; auto]. Qed.
Lemma accent_letters a b : letter a = true -> ~ In [a; b] odd_names -> accent [a; b] = None.
Proof.
  intros Ha Ho. assert (N : forall m, forallb (fun p => negb (letter (hd 0%N (fst p))) || str_eqb (fst p) (u "cc"%string) || str_eqb (fst p) (u "cC"%string)) m = true -> look [a; b] m = None).
  { intros m F. destruct (look [a; b] m) as [o|] eqn:L; [|reflexivity]. apply look_In in L. rewrite forallb_forall in F. apply F in L. cbn [fst hd] in L. rewrite Ha in L. cbn [negb orb] in L.
    apply Bool.orb_true_iff in L as [L|L]; apply str_eqb_eq in L; exfalso; apply Ho; rewrite L; cbn; tauto. }
  unfold accent. rewrite !N by (vm_compute; reflexivity). reflexivity.
Qed.
Lemma accs_lt a : accs a = true -> (a <? 128)%N = true.
Proof.
  unfold accs, mem. rewrite Bool.orb_true_iff, existsb_exists. intros [(k & I & E)|E]; apply N.eqb_eq in E as ->; [|reflexivity].
  revert k I. apply Forall_forall. unfold u. repeat (apply Forall_cons; [reflexivity|]). apply Forall_nil.
Qed.
Lemma letter_lt a : letter a = true -> (a <? 128)%N = true.
Proof. intros H. apply is_letter_b in H. apply N.ltb_lt. unfold is_letter in H. lia. Qed.
(* \name *)
Lemma step_command cl g n x : n <> [] -> Forall (fun c => letter c = true) n -> ~ In n odd_names -> outside letter x -> outside (eqc 42) x ->
  (n = u "usepackage"%string -> outside (eqc 91) x) -> step pre (P cl g) (92%N :: n ++ x) = Some (S (length n), u "<"%string ++ n ++ u "/>"%string, P cl g).
Proof.
  intros Hn F Ho Hx Hs Hp. destruct n as [|a n']; [contradiction|]. inversion F as [|? ? Ha Fn]; subst. destruct n' as [|b q] eqn:En.
  - apply (cmd_long cl g a [] x Ha (Forall_nil _) Ho Hx Hp Hs). left. split; [reflexivity|].
    exact (single_acc a Ha Ho).
  - destruct (accs a) eqn:Ea; [|apply (cmd_long cl g a (b :: q) x Ha Fn Ho Hx Hp Hs); right; right; split; [discriminate | exact Ea]].
    destruct q as [|c q]; [|apply (cmd_long cl g a (b :: c :: q) x Ha Fn Ho Hx Hp Hs); right; left; cbn; lia].
    inversion Fn as [|? ? Hb _]; subst. eapply (step_at pre (P cl g) 92%N _ 7).
    + reflexivity.
    + cbn [r_pat]. cbn [app BS mt]. change (eqc 92 92%N) with true. cbv iota. rewrite Ea. unfold dot. rewrite (letter_ne b cNL Hb eq_refl). reflexivity.
    + change (map r_pat _) with (map r_pat (firstn 7 (filter (live INITIAL 92%N) pre))). apply (before_7 a [b] x Ha Fn Ho Hx Hp); [left; cbn; lia | cbn; lia | left; discriminate].
    + rewrite <- skipn_map. change (map r_pat (filter _ _)) with (map r_pat (filter (live INITIAL 92%N) pre)). rewrite all92_ok. change (skipn 8 _) with (mid92 ++ [BS ++ [Plus letter]] ++ tail92).
      rewrite <- mid92_ok, <- tail92_ok. apply Forall_app; split; [apply (mid a [b] x Ha Fn Ho Hx Hp Hs)|]. apply Forall_cons.
      * intros m E. pose proof (name_mt a [b] x Ha Fn Hx) as N. change (BS ++ [Plus letter]) with [One (eqc 92); Plus letter] in E. cbn zeta in N. pose proof (eq_trans (eq_sym N) E) as Q. injection Q as <-. cbn. lia.
      * apply (after_tail a [b] x Ha Fn Ho Hx). cbn; lia.
    + change (r_act _ _ _) with (accent_act (P cl g) [92%N; a; b]). unfold accent_act. cbn [forallb length nth_c nth Nat.eqb]. rewrite (accs_lt a Ea), (letter_lt b Hb). change (92 <? 128)%N with true. cbn [andb].
      change (nth_c [92%N; a; b] 1) with a. change (nth_c [92%N; a; b] 2) with b. rewrite (accent_letters a b Ha Ho). reflexivity.
Qed.
(* \name* *)
Lemma step_star cl g n x : n <> [] -> Forall (fun c => letter c = true) n -> ~ In n odd_names ->
  step pre (P cl g) (92%N :: n ++ 42%N :: x) = Some (S (S (length n)), u "<"%string ++ n ++ u "_STAR/>"%string, P cl g).
Proof.
  intros Hn F Ho. destruct n as [|a n']; [contradiction|]. inversion F as [|? ? Ha Fn]; subst.
  assert (Hx : outside letter (42%N :: x)) by reflexivity. assert (Hp : a :: n' = u "usepackage"%string -> outside (eqc 91) (42%N :: x)) by (intros _; reflexivity).
  assert (Hacc : n' <> [] \/ accs a = false).
  { destruct n' as [|b q]; [right; exact (single_acc a Ha Ho) | left; discriminate]. }
  eapply (step_at pre (P cl g) 92%N _ 12).
  - reflexivity.
  - cbn [r_pat]. cbn [app BS mt]. change (eqc 92 92%N) with true. cbv iota. change (a :: n' ++ 42%N :: x) with ((a :: n') ++ 42%N :: x). rewrite (span_app letter (a :: n') (42%N :: x)); [|exact F | exact Hx]. cbn [length Nat.eqb].
    change (S (length n')) with (length (a :: n')). rewrite skipn_len. change (eqc 42 42%N) with true. cbv iota. cbn [option_map length]. rewrite Nat.add_1_r. reflexivity.
  - rewrite <- firstn_map. change (map r_pat (filter _ _)) with (map r_pat (filter (live INITIAL 92%N) pre)). rewrite all92_ok. change (firstn 12 _) with (head92 ++ [BS ++ [One accs; One dot]] ++ firstn 4 mid92).
    rewrite <- head92_ok. apply Forall_app; split; [|apply Forall_app; split].
    + apply (before_7 a n' (42%N :: x) Ha Fn Ho Hx Hp); [left; cbn; lia | cbn; lia | exact Hacc].
    + apply Forall_cons; [|apply Forall_nil]. destruct Hacc as [Hq|Hq]; [apply below_ones; [reflexivity | destruct n'; [contradiction | cbn; lia]] | apply (second_rule a n' (42%N :: x) (eqc 92) accs [One dot]); exact Hq].
    + apply (mid4 a n' (42%N :: x) Ha Fn Ho Hx Hp).
  - rewrite <- skipn_map. change (map r_pat (filter _ _)) with (map r_pat (filter (live INITIAL 92%N) pre)). rewrite all92_ok. change (skipn 13 _) with ([BS ++ [Plus letter]] ++ tail92).
    rewrite <- tail92_ok. apply Forall_cons; [|apply (after_tail a n' (42%N :: x) Ha Fn Ho Hx); cbn; lia].
    intros m E. pose proof (name_mt a n' (42%N :: x) Ha Fn Hx) as N. change (BS ++ [Plus letter]) with [One (eqc 92); Plus letter] in E. cbn zeta in N. pose proof (eq_trans (eq_sym N) E) as Q. injection Q as <-. cbn. lia.
  - change (r_act _ _ _) with (act (fun t => u "<"%string ++ cut 1 1 t ++ u "_STAR/>"%string) (P cl g) (firstn (S (S (length (a :: n')))) (92%N :: (a :: n') ++ 42%N :: x))).
    replace (92%N :: (a :: n') ++ 42%N :: x) with ((92%N :: (a :: n') ++ [42%N]) ++ x) by (cbn; rewrite <- app_assoc; reflexivity).
    replace (S (S (length (a :: n')))) with (length (92%N :: (a :: n') ++ [42%N])) by (cbn; rewrite app_length; cbn; lia).
    rewrite firstn_app, firstn_all, Nat.sub_diag. cbn [firstn]. rewrite app_nil_r. unfold act, cut. cbn [length]. rewrite app_length. cbn [length].
    replace (S (S (length n') + 1) - 1) with (S (length (a :: n'))) by (cbn; lia). cbn [firstn skipn]. rewrite firstn_app, firstn_all, Nat.sub_diag. cbn [firstn]. rewrite app_nil_r. reflexivity.
Qed.

(** ** Tags, on the way back *)
Definition head60 : list (list pat) :=
  map (fun w => lit (u w)) ["<AMP/>"; "<LEFTESCAPEDBRACE/>"; "<RIGHTESCAPEDBRACE/>"; "<ESCAPEDPERCENT/>"; "<MATH_DOLLARS>"; "<MATH_DOLLAR>"; "<MATH_PAR>"; "</MATH_PAR>"; "<MATH_BRA>"; "</MATH_BRA>";
    "<CONTENTS>"; "</CONTENTS>"; "<BR/>"]%string ++
  [lit (u "<COMMENT>"%string) ++ [Star (fun c => negb (c =?c cLT))]; lit (u "</COMMENT>"%string); lit (u "<PARAM>"%string) ++ [Star (fun c => negb (c =?c cLT))]; lit (u "</PARAM>"%string); lit (u "<VERB>"%string); lit (u "</VERB>"%string)].
Definition tags60 : list (list pat) :=
  map (fun p => lit (u (fst p)) ++ [Plus alnum] ++ lit (u (snd p))) [("<", ">"); ("<", "_STAR>"); ("</", ">"); ("</", "_STAR>"); ("<", "/>"); ("<", "_STAR/>")]%string.
Lemma all60_ok : map r_pat (filter (live INITIAL 60%N) post) = head60 ++ tags60 ++ [[One any]].
Proof. reflexivity. Qed.
Lemma is_alnum_b c : is_alnum c <-> alnum c = true.
Proof. unfold is_alnum, alnum, digit. rewrite Bool.orb_true_iff, <- is_letter_b, Bool.andb_true_iff, !N.leb_le. tauto. Qed.
Lemma alnum_ne a k : alnum a = true -> alnum k = false -> (a =?c k) = false.
Proof. intros H K. apply ceq_neq. intros ->. congruence. Qed.

Section Tag.
  Variables (nm T m : str).
  Hypothesis Hn : nm <> [].
  Hypothesis Fn : Forall (fun c => alnum c = true) nm.
  Hypothesis HT : outside alnum (T ++ m).
  Let s := 60%N :: nm ++ T ++ m.
  Lemma tag_word w p0 more n : forallb alnum w = true -> (forall c, alnum c = true -> p0 c = false) -> (nm = w -> mt (One p0 :: more) (T ++ m) = None) ->
    forall k, mt (One (fun d => d =?c 60%N) :: lit w ++ One p0 :: more) s = Some k -> k < n.
  Proof.
    intros Fw H0 Ho k E. unfold s in E. cbn [mt] in E. rewrite ceq_refl in E. destruct (mt (lit w ++ One p0 :: more) (nm ++ T ++ m)) as [j|] eqn:M; [|discriminate].
    assert (Fw' : Forall (fun c => alnum c = true) w) by (apply Forall_forall; intros c I; rewrite forallb_forall in Fw; exact (Fw c I)).
    destruct (mt_word alnum w p0 more Fw' H0 nm (T ++ m) j Fn HT M) as (Q & i & K & _). rewrite (Ho Q) in K. discriminate.
  Qed.
  (* a closing tag *)
  Lemma tag_second p0 p1 more n : (forall c, alnum c = true -> p1 c = false) -> forall k, mt (One p0 :: One p1 :: more) s = Some k -> k < n.
  Proof.
    intros H k E. unfold s in E. cbn [mt] in E. destruct nm as [|a q]; [contradiction|]. inversion Fn as [|? ? Ha _]; subst. cbn [app] in E. rewrite (H a Ha) in E. destruct (p0 60%N); discriminate.
  Qed.
  Lemma tag_plus ps : mt (One (fun d => d =?c 60%N) :: Plus alnum :: ps) s = option_map (fun k => S (length nm + k)) (mt ps (T ++ m)).
  Proof.
    unfold s. cbn [mt]. rewrite ceq_refl. rewrite (span_app alnum nm (T ++ m) Fn HT), skipn_len. destruct nm; [contradiction|]. cbn [length Nat.eqb]. destruct (mt ps (T ++ m)); reflexivity.
  Qed.
  Hypothesis Hw : forall w tl, In (w, tl) (map (fun p => (u (fst p), u (snd p)))
    [("AMP", "/>"); ("LEFTESCAPEDBRACE", "/>"); ("RIGHTESCAPEDBRACE", "/>"); ("ESCAPEDPERCENT", "/>"); ("MATH", "_DOLLARS>"); ("MATH", "_DOLLAR>"); ("MATH", "_PAR>"); ("MATH", "_BRA>"); ("CONTENTS", ">");
     ("BR", "/>"); ("COMMENT", ">"); ("PARAM", ">"); ("VERB", ">")]%string) -> nm = w -> forall ps, mt (lit tl ++ ps) (T ++ m) = None.
  Lemma tag_lit w c tl ps n : forallb alnum w = true -> alnum c = false -> (nm = w -> mt (lit (c :: tl) ++ ps) (T ++ m) = None) ->
    forall k, mt (lit (60%N :: w ++ c :: tl) ++ ps) s = Some k -> k < n.
  Proof.
    intros F Hc H k E. replace (lit (60%N :: w ++ c :: tl) ++ ps) with (One (fun d => d =?c 60%N) :: lit w ++ One (fun d => d =?c c) :: lit tl ++ ps) in E.
    - revert E. apply (tag_word w (fun d => d =?c c) (lit tl ++ ps)); [exact F | intros d Hd; exact (alnum_ne d c Hd Hc) | exact H].
    - unfold lit. cbn [map app]. rewrite map_app, <- app_assoc. reflexivity.
  Qed.
  Ltac tl w c t ps := apply (tag_lit w c t ps); [reflexivity | reflexivity | intros Q; apply (Hw w (c :: t)); [cbn; tauto | exact Q]].
  Ltac cl := eapply tag_second; intros d Hd; apply alnum_ne; [exact Hd | reflexivity].
  Lemma before_tags n : Forall (fun ps => forall k, mt ps s = Some k -> k < n) head60.
  Proof.
    each.
    - tl (u "AMP"%string) 47%N (u ">"%string) (@nil pat).
    - tl (u "LEFTESCAPEDBRACE"%string) 47%N (u ">"%string) (@nil pat).
    - tl (u "RIGHTESCAPEDBRACE"%string) 47%N (u ">"%string) (@nil pat).
    - tl (u "ESCAPEDPERCENT"%string) 47%N (u ">"%string) (@nil pat).
    - tl (u "MATH"%string) 95%N (u "DOLLARS>"%string) (@nil pat).
    - tl (u "MATH"%string) 95%N (u "DOLLAR>"%string) (@nil pat).
    - tl (u "MATH"%string) 95%N (u "PAR>"%string) (@nil pat).
    - cl.
    - tl (u "MATH"%string) 95%N (u "BRA>"%string) (@nil pat).
    - cl.
    - tl (u "CONTENTS"%string) 62%N (@nil char) (@nil pat).
    - cl.
    - tl (u "BR"%string) 47%N (u ">"%string) (@nil pat).
    - tl (u "COMMENT"%string) 62%N (@nil char) [Star (fun c => negb (c =?c cLT))].
    - cl.
    - tl (u "PARAM"%string) 62%N (@nil char) [Star (fun c => negb (c =?c cLT))].
    - cl.
    - tl (u "VERB"%string) 62%N (@nil char) (@nil pat).
    - cl.
  Qed.
End Tag.
Definition gives (o y : str) : Prop := forall m r, lexes post init m r -> lexes post init (o ++ m) (y ++ r).
Lemma gives_nil : gives [] [].
Proof. intros m r H. exact H. Qed.
Lemma gives_app o1 y1 o2 y2 : gives o1 y1 -> gives o2 y2 -> gives (o1 ++ o2) (y1 ++ y2).
Proof. intros H1 H2 m r H. rewrite <- !app_assoc. apply H1, H2, H. Qed.
Lemma gives_step o y : o <> [] -> (forall m, step post init (o ++ m) = Some (length o, y, init)) -> gives o y.
Proof. intros Ho S m r H. apply (step_over post init o m y init r Ho (S m) H). Qed.
(* in one step *)
Definition gives1 (o y : str) : Prop := o <> [] /\ forall m, step post init (o ++ m) = Some (length o, y, init).
Lemma gives1_gives o y : gives1 o y -> gives o y.
Proof. intros (H1 & H2). apply gives_step; assumption. Qed.
Lemma act_whole f x w s : act f x (firstn (length w) (w ++ s)) = Some (f w, x).
Proof. rewrite firstn_app, firstn_all, Nat.sub_diag. cbn [firstn]. rewrite app_nil_r. reflexivity. Qed.
Lemma cut_mid a (w m z : str) : length a = length a -> cut (length a) (length z) (a ++ m ++ z) = m.
Proof.
  intros _. unfold cut. rewrite !app_length. replace (length a + (length m + length z) - length z) with (length (a ++ m)) by (rewrite app_length; lia).
  rewrite app_assoc, firstn_app, firstn_all, Nat.sub_diag. cbn [firstn]. rewrite app_nil_r. apply skipn_len.
Qed.
Ltac pats60 := rewrite <- ?firstn_map, <- ?skipn_map; change (map r_pat (filter _ _)) with (map r_pat (filter (live INITIAL 60%N) post)); rewrite all60_ok.
Definition free_names (n T : str) : Prop := forall w tl, In (w, tl) (map (fun p => (u (fst p), u (snd p)))
    [("AMP", "/>"); ("LEFTESCAPEDBRACE", "/>"); ("RIGHTESCAPEDBRACE", "/>"); ("ESCAPEDPERCENT", "/>"); ("MATH", "_DOLLARS>"); ("MATH", "_DOLLAR>"); ("MATH", "_PAR>"); ("MATH", "_BRA>"); ("CONTENTS", ">");
     ("BR", "/>"); ("COMMENT", ">"); ("PARAM", ">"); ("VERB", ">")]%string) -> n = w -> forall ps m, mt (lit tl ++ ps) (T ++ m) = None.
Lemma free_slash n : ~ In n tag_names -> free_names n (u "/>"%string).
Proof.
  intros H w tl I E ps m. assert (A : Forall (fun p => In (fst p) tag_names \/ forall ps m, mt (lit (snd p) ++ ps) (u "/>"%string ++ m) = None)
    (map (fun p => (u (fst p), u (snd p)))
    [("AMP", "/>"); ("LEFTESCAPEDBRACE", "/>"); ("RIGHTESCAPEDBRACE", "/>"); ("ESCAPEDPERCENT", "/>"); ("MATH", "_DOLLARS>"); ("MATH", "_DOLLAR>"); ("MATH", "_PAR>"); ("MATH", "_BRA>"); ("CONTENTS", ">");
     ("BR", "/>"); ("COMMENT", ">"); ("PARAM", ">"); ("VERB", ">")]%string)).
  { cbn [map]. each; first [right; intros; reflexivity | left; cbn; tauto]. }
  rewrite Forall_forall in A. destruct (A _ I) as [J|J]; [cbn [fst] in J; rewrite <- E in J; contradiction | apply J].
Qed.
Lemma free_gt n : ~ In n env_names -> free_names n (u ">"%string).
Proof.
  intros H w tl I E ps m. assert (A : Forall (fun p => In (fst p) env_names \/ forall ps m, mt (lit (snd p) ++ ps) (u ">"%string ++ m) = None)
    (map (fun p => (u (fst p), u (snd p)))
    [("AMP", "/>"); ("LEFTESCAPEDBRACE", "/>"); ("RIGHTESCAPEDBRACE", "/>"); ("ESCAPEDPERCENT", "/>"); ("MATH", "_DOLLARS>"); ("MATH", "_DOLLAR>"); ("MATH", "_PAR>"); ("MATH", "_BRA>"); ("CONTENTS", ">");
     ("BR", "/>"); ("COMMENT", ">"); ("PARAM", ">"); ("VERB", ">")]%string)).
  { cbn [map]. each; first [right; intros; reflexivity | left; cbn; tauto]. }
  rewrite Forall_forall in A. destruct (A _ I) as [J|J]; [cbn [fst] in J; rewrite <- E in J; contradiction | apply J].
Qed.
Lemma free_star n T : T = u "_STAR>"%string \/ T = u "_STAR/>"%string -> free_names n T.
Proof.
  intros H w tl I _. revert w tl I. intros w tl I. cbn [map fst snd] in I. destruct H as [->| ->]; repeat (destruct I as [[= <- <-]|I]; [intros; reflexivity|]); destruct I.
Qed.
Section Tags.
  Variable n : str.
  Hypothesis Hn : n <> [].
  Hypothesis Fn : Forall (fun c => alnum c = true) n.
  (* another rule does not reach as far *)
  Definition shorter (T : str) (ps : list pat) : Prop :=
    (exists rest, ps = One (fun d => d =?c 60%N) :: Plus alnum :: rest /\ forall m, mt rest (T ++ m) = None) \/
    (exists p0 p1 rest, ps = One p0 :: One p1 :: rest /\ forall c, alnum c = true -> p1 c = false) \/ ps = [One any].
  Lemma open_tag i T f : (forall m, outside alnum (T ++ m)) -> free_names n T ->
    (exists r, nth_error (filter (live INITIAL 60%N) post) (19 + i) = Some r /\ r_pat r = One (fun d => d =?c 60%N) :: Plus alnum :: lit T /\ r_act r = act f) ->
    Forall (shorter T) (firstn i tags60) -> Forall (shorter T) (skipn (S i) (tags60 ++ [[One any]])) -> i < 6 ->
    gives1 (60%N :: n ++ T) (f (60%N :: n ++ T)).
  Proof.
    intros HT Hf (r & Nr & Pr & Ar) H1 H2 Li. split; [discriminate|]. intros m.
    assert (Sh : forall ps, shorter T ps -> forall k, mt ps (60%N :: n ++ T ++ m) = Some k -> k < length (60%N :: n ++ T)).
    { intros ps [(rest & -> & N)|[(p0 & p1 & rest & -> & N)| ->]] k E.
      - rewrite (tag_plus n T m Hn Fn (HT m)), N in E. discriminate.
      - revert E. apply (tag_second n T m Hn Fn p0 p1 rest _ N).
      - apply (mt_ones [One any] eq_refl) in E as ->. cbn. rewrite app_length. destruct n; [contradiction | cbn; lia]. }
    change ((60%N :: n ++ T) ++ m) with (60%N :: (n ++ T) ++ m). rewrite <- app_assoc. eapply (step_at post init 60%N _ (19 + i)).
    - exact Nr.
    - rewrite Pr, (tag_plus n T m Hn Fn (HT m)). replace (mt (lit T) (T ++ m)) with (Some (length T)); [cbn; rewrite app_length; reflexivity|].
      rewrite <- (app_nil_r (lit T)), mt_lit. cbn. rewrite Nat.add_0_r. reflexivity.
    - pats60. change (firstn (19 + i) (head60 ++ tags60 ++ [[One any]])) with (firstn (length head60 + i) (head60 ++ tags60 ++ [[One any]])). rewrite firstn_app_2.
      apply Forall_app; split; [apply (before_tags n T m Hn Fn (HT m)); intros w tl I E ps; exact (Hf w tl I E ps m)|].
      replace (firstn i (tags60 ++ [[One any]])) with (firstn i tags60) by (rewrite firstn_app; replace (i - length tags60) with 0 by (change (length tags60) with 6; lia); cbn [firstn]; rewrite app_nil_r; reflexivity).
      eapply Forall_impl; [|exact H1]. exact Sh.
    - pats60. change (S (19 + i)) with (length head60 + S i). rewrite skipn_app, skipn_all2 by lia. replace (length head60 + S i - length head60) with (S i) by lia.
      eapply Forall_impl; [|exact H2]. intros ps H k E. apply Nat.lt_lt_succ_r, (Sh ps H k E).
    - rewrite Ar. rewrite app_assoc. exact (act_whole f init (60%N :: n ++ T) m).
  Qed.
  Ltac sh := each; first [left; eexists; split; [reflexivity | intros; reflexivity] | right; left; eexists _, _, _; split; [reflexivity | intros d Hd; apply alnum_ne; [exact Hd | reflexivity]] | right; right; reflexivity].
  Ltac tg i T f pre_ post_ := refine (eq_ind _ (fun z => gives1 _ z) (open_tag i T f _ _ _ _ _ _) _ _);
    [intros m; reflexivity | | eexists; repeat split; reflexivity | sh | sh | lia | cbv beta; change (60%N :: n ++ T) with ([60%N] ++ n ++ T); exact (f_equal (fun z => pre_ ++ z ++ post_) (cut_mid [60%N] [] n T eq_refl))].
  Lemma tag_gt : ~ In n env_names -> gives1 (60%N :: n ++ u ">"%string) (u "\begin{"%string ++ n ++ u "}"%string).
  Proof. intros H. tg 0 (u ">"%string) (fun t => u "\begin{"%string ++ cut 1 1 t ++ u "}"%string) (u "\begin{"%string) (u "}"%string). apply free_gt, H. Qed.
  Lemma tag_star_gt : gives1 (60%N :: n ++ u "_STAR>"%string) (u "\begin{"%string ++ n ++ u "*}"%string).
  Proof. tg 1 (u "_STAR>"%string) (fun t => u "\begin{"%string ++ cut 1 6 t ++ u "*}"%string) (u "\begin{"%string) (u "*}"%string). apply free_star. left. reflexivity. Qed.
  Lemma tag_slash : ~ In n tag_names -> gives1 (60%N :: n ++ u "/>"%string) (u "\"%string ++ n).
  Proof. intros H. rewrite <- (app_nil_r (u "\"%string ++ n)), <- app_assoc. refine (eq_ind _ (fun z => gives1 _ z) (open_tag 4 (u "/>"%string) (fun t => u "\"%string ++ cut 1 2 t) _ _ _ _ _ _) _ _);
    [intros m; reflexivity | apply free_slash, H | eexists; repeat split; reflexivity | sh | sh | lia | cbv beta; rewrite app_nil_r; exact (f_equal (fun z => u "\"%string ++ z) (cut_mid [60%N] [] n (u "/>"%string) eq_refl))]. Qed.
  Lemma tag_star_slash : gives1 (60%N :: n ++ u "_STAR/>"%string) (u "\"%string ++ n ++ u "*"%string).
  Proof. tg 5 (u "_STAR/>"%string) (fun t => u "\"%string ++ cut 1 7 t ++ u "*"%string) (u "\"%string) (u "*"%string). apply free_star. right. reflexivity. Qed.
  (* closing *)
  Definition shorter2 (T : str) (ps : list pat) : Prop :=
    (exists rest, ps = One (fun d => d =?c 60%N) :: One (fun d => d =?c 47%N) :: Plus alnum :: rest /\ forall m, mt rest (T ++ m) = None) \/
    (forall s, mt ps (60%N :: 47%N :: s) = None) \/ ps = [One any] \/
    exists w c tl, ps = lit (60%N :: 47%N :: w ++ c :: tl) /\ forallb alnum w = true /\ alnum c = false /\ (n = w -> forall m, mt (lit (c :: tl)) (T ++ m) = None).
  Lemma close_tag i T f : (forall m, outside alnum (T ++ m)) ->
    (exists r, nth_error (filter (live INITIAL 60%N) post) i = Some r /\ r_pat r = One (fun d => d =?c 60%N) :: One (fun d => d =?c 47%N) :: Plus alnum :: lit T /\ r_act r = act f) ->
    Forall (shorter2 T) (firstn i (head60 ++ tags60 ++ [[One any]])) -> Forall (shorter2 T) (skipn (S i) (head60 ++ tags60 ++ [[One any]])) ->
    gives1 (60%N :: 47%N :: n ++ T) (f (60%N :: 47%N :: n ++ T)).
  Proof.
    intros HT (r & Nr & Pr & Ar) H1 H2. split; [discriminate|]. intros m.
    assert (Pl : forall ps, mt (One (fun d => d =?c 60%N) :: One (fun d => d =?c 47%N) :: Plus alnum :: ps) (60%N :: 47%N :: n ++ T ++ m) = option_map (fun k => S (S (length n + k))) (mt ps (T ++ m))).
    { intros ps. cbn [mt]. rewrite !ceq_refl. rewrite (span_app alnum n (T ++ m) Fn (HT m)), skipn_len. destruct n; [contradiction|]. cbn [length Nat.eqb]. destruct (mt ps (T ++ m)); reflexivity. }
    assert (Sh : forall ps, shorter2 T ps -> forall k, mt ps (60%N :: 47%N :: n ++ T ++ m) = Some k -> k < length (60%N :: 47%N :: n ++ T)).
    { intros ps [(rest & -> & N)|[N|[->|(w & c & tl & -> & Fw & Hc & N)]]] k E.
      - rewrite Pl, N in E. discriminate.
      - rewrite N in E. discriminate.
      - apply (mt_ones [One any] eq_refl) in E as ->. cbn. lia.
      - exfalso. cbn [lit map mt] in E. rewrite !ceq_refl in E. destruct (mt _ (n ++ T ++ m)) as [j|] eqn:M; [|discriminate].
        rewrite map_app in M. assert (Fw' : Forall (fun c => alnum c = true) w) by (apply Forall_forall; intros d I; rewrite forallb_forall in Fw; exact (Fw d I)).
        destruct (mt_word alnum w (fun d => d =?c c) (lit tl) Fw' (fun d Hd => alnum_ne d c Hd Hc) n (T ++ m) j Fn (HT m) M) as (Q & q & K & _). pose proof (eq_trans (eq_sym (N Q m)) K). discriminate. }
    change ((60%N :: 47%N :: n ++ T) ++ m) with (60%N :: 47%N :: (n ++ T) ++ m). rewrite <- app_assoc. eapply (step_at post init 60%N _ i).
    - exact Nr.
    - rewrite Pr, Pl. replace (mt (lit T) (T ++ m)) with (Some (length T)); [cbn; rewrite app_length; reflexivity|].
      rewrite <- (app_nil_r (lit T)), mt_lit. cbn. rewrite Nat.add_0_r. reflexivity.
    - pats60. eapply Forall_impl; [|exact H1]. exact Sh.
    - pats60. eapply Forall_impl; [|exact H2]. intros ps H k E. apply Nat.lt_lt_succ_r, (Sh ps H k E).
    - rewrite Ar, app_assoc. exact (act_whole f init (60%N :: 47%N :: n ++ T) m).
  Qed.
  Ltac cls H w c tl := exists (u w), c, (u tl); split; [reflexivity | split; [reflexivity | split; [reflexivity | first [intros _ m; reflexivity | let Q := fresh in intros Q; exfalso; apply H; rewrite Q; cbn; tauto]]]].
  Ltac sh2 H := each; first [ right; left; intros s; reflexivity
    | left; eexists; split; [reflexivity | intros; reflexivity]
    | right; right; left; reflexivity
    | right; right; right; first
      [ cls H "MATH"%string 95%N "PAR>"%string
      | cls H "MATH"%string 95%N "BRA>"%string
      | cls H "CONTENTS"%string 62%N ""%string
      | cls H "COMMENT"%string 62%N ""%string
      | cls H "PARAM"%string 62%N ""%string
      | cls H "VERB"%string 62%N ""%string ] ].
  Lemma tag_close : ~ In n env_names -> gives1 (60%N :: 47%N :: n ++ u ">"%string) (u "\end{"%string ++ n ++ u "}"%string).
  Proof.
    intros H. refine (eq_ind _ (fun z => gives1 _ z) (close_tag 21 (u ">"%string) (fun t => u "\end{"%string ++ cut 2 1 t ++ u "}"%string) _ _ _ _) _ _);
    [intros m; reflexivity | eexists; repeat split; reflexivity | sh2 H | sh2 H | exact (f_equal (fun z => u "\end{"%string ++ z ++ u "}"%string) (cut_mid [60%N; 47%N] [] n (u ">"%string) eq_refl))].
  Qed.
  Lemma tag_star_close : gives1 (60%N :: 47%N :: n ++ u "_STAR>"%string) (u "\end{"%string ++ n ++ u "*}"%string).
  Proof.
    assert (H : True) by exact I. refine (eq_ind _ (fun z => gives1 _ z) (close_tag 22 (u "_STAR>"%string) (fun t => u "\end{"%string ++ cut 2 6 t ++ u "*}"%string) _ _ _ _) _ _);
    [intros m; reflexivity | eexists; repeat split; reflexivity | sh2 H | sh2 H | exact (f_equal (fun z => u "\end{"%string ++ z ++ u "*}"%string) (cut_mid [60%N; 47%N] [] n (u "_STAR>"%string) eq_refl))].
  Qed.
End Tags.

(** ** Characters, comments, parameters and mathematics, on the way back *)
Definition specials : list N := [92; 37; 91; 123; 125; 126; 36; 63; 33; 39; 60; 62; 38; 35; 34; 0; 194]%N.
Lemma ord_ne c : ordinary c -> Forall (fun k => (c =?c k) = false) specials.
Proof.
  intros (A & B & C & D). unfold specials. each; apply ceq_neq; first [assumption | intros ->; apply A; cbn; tauto].
Qed.
Ltac ord H := let F := fresh in pose proof (ord_ne _ H) as F; unfold specials in F; repeat match goal with F : Forall _ (_ :: _) |- _ => inversion F; clear F; subst end.
Ltac rwf := repeat match goal with H : (_ =?c _) = false |- _ => rewrite H; clear H end.
Lemma filter_out {A} (p : A -> bool) l : Forall (fun a => p a = false) l -> filter p l = [].
Proof. induction 1 as [|a l H _ IH]; cbn [filter]; [reflexivity|]. rewrite H. exact IH. Qed.
Lemma post_free c : (c =?c 38%N) = false -> (c =?c 60%N) = false -> (c =?c 35%N) = false -> (c =?c 194%N) = false -> Forall (fun r => live INITIAL c r = false) (removelast (removelast post)).
Proof. intros H1 H2 H3 H4. cbv [post post_common post_begin post_tags removelast app]. each; first [reflexivity | exact H1 | exact H2 | exact H3 | exact H4]. Qed.
Lemma gives_free c : (c =?c 38%N) = false -> (c =?c 60%N) = false -> (c =?c 35%N) = false -> (c =?c 194%N) = false -> gives [c] [c].
Proof.
  intros H1 H2 H3 H4. apply gives_step; [discriminate|]. intros m. cbn [app length]. apply (step_pick post init c m 1 (R INITIAL [One any] (act (fun t => t)))); [|reflexivity].
  change (s_cond init) with INITIAL. change post with (removelast (removelast post) ++ [R INITIAL [One any] (act (fun t => t)); R mathenv [One any] (act (fun t => t))]).
  rewrite filter_app, (filter_out _ _ (post_free c H1 H2 H3 H4)). reflexivity.
Qed.
Lemma gives_ord c : ordinary c -> gives [c] [c].
Proof. intros H. ord H. apply gives_free; assumption. Qed.
Lemma gives_word w : Forall (fun c => gives [c] [c]) w -> gives w w.
Proof. induction 1 as [|c w H _ IH]; [apply gives_nil|]. apply (gives_app [c] [c] w w); assumption. Qed.
(* 194 and what follows *)
Lemma post_latin c m r : c <> 161%N -> c <> 191%N -> lexes post init (c :: m) r -> lexes post init (194%N :: c :: m) (194%N :: r).
Proof.
  intros H1 H2 H. change (194%N :: r) with ([194%N] ++ r). apply (lexes_step post init (194%N :: c :: m) 1 [194%N] init r); [discriminate | | exact H].
  eapply (step_at post init 194%N (c :: m) 2 1).
  - reflexivity.
  - reflexivity.
  - change (map r_pat _) with [lit [194; 191]%N; lit [194; 161]%N]. each; intros k E; cbn in E; rewrite ?(proj2 (ceq_neq c 191%N) H2), ?(proj2 (ceq_neq c 161%N) H1) in E; discriminate.
  - apply Forall_nil.
  - reflexivity.
Qed.
Lemma gives_latin c : ordinary c -> c <> 161%N -> c <> 191%N -> gives [194%N; c] [194%N; c].
Proof. intros H H1 H2 m r L. cbn [app]. apply post_latin; [exact H1 | exact H2|]. exact (gives_ord c H m r L). Qed.
Lemma gives_2 o1 o2 y : (forall m r, lexes post init (o2 ++ m) r -> lexes post init (o1 ++ o2 ++ m) (y ++ r)) -> gives o2 [] -> gives (o1 ++ o2) y.
Proof. intros H1 H2 m r L. rewrite <- app_assoc. apply H1, (H2 m r L). Qed.
Ltac upto E := cbn in E; first [discriminate E | injection E as <-; cbn; lia].
Lemma star_step tag b o m : Forall (fun c => c <> 60%N) b -> (tag = u "<COMMENT>"%string /\ o = u "%"%string \/ tag = u "<PARAM>"%string /\ o = u "["%string) ->
  step post init ((tag ++ b) ++ 60%N :: m) = Some (length (tag ++ b), o ++ b, init).
Proof.
  intros F H.
  assert (F' : Forall (fun c => negb (c =?c cLT) = true) b) by (eapply Forall_impl; [|exact F]; intros c Hc; cbn beta; rewrite (proj2 (ceq_neq c cLT) Hc); reflexivity).
  assert (M : mt (lit tag ++ [Star (fun c => negb (c =?c cLT))]) ((tag ++ b) ++ 60%N :: m) = Some (length (tag ++ b))).
  { rewrite <- app_assoc, mt_lit, (mt_star _ b [] (60%N :: m) F' eq_refl). cbn [mt option_map]. rewrite Nat.add_0_r, app_length. reflexivity. }
  destruct H as [(-> & ->)|(-> & ->)].
  - eapply (step_at post init 60%N _ 13).
    + reflexivity.
    + exact M.
    + pats60. change (firstn 13 _) with (firstn 13 head60). each; intros k E; upto E.
    + pats60. change (skipn 14 _) with (skipn 14 head60 ++ tags60 ++ [[One any]]). each; intros k E; upto E.
    + exact (act_whole (fun t => u "%"%string ++ skipn 9 t) init (u "<COMMENT>"%string ++ b) (60%N :: m)).
  - eapply (step_at post init 60%N _ 15).
    + reflexivity.
    + exact M.
    + pats60. change (firstn 15 _) with (firstn 15 head60). each; intros k E; upto E.
    + pats60. change (skipn 16 _) with (skipn 16 head60 ++ tags60 ++ [[One any]]). each; intros k E; upto E.
    + exact (act_whole (fun t => u "["%string ++ skipn 7 t) init (u "<PARAM>"%string ++ b) (60%N :: m)).
Qed.
Lemma star_tag tag b o m r : Forall (fun c => c <> 60%N) b -> (tag = u "<COMMENT>"%string /\ o = u "%"%string \/ tag = u "<PARAM>"%string /\ o = u "["%string) ->
  lexes post init (60%N :: m) r -> lexes post init (tag ++ b ++ 60%N :: m) ((o ++ b) ++ r).
Proof.
  intros F H L. rewrite app_assoc. apply (step_over post init (tag ++ b) (60%N :: m) (o ++ b) init r); [destruct H as [(-> & _)|(-> & _)]; discriminate | apply star_step; assumption | exact L].
Qed.
Lemma gives_comment b : Forall (fun c => c <> 60%N) b -> gives (u "<COMMENT>"%string ++ b ++ u "</COMMENT>"%string) (u "%"%string ++ b).
Proof.
  intros F m r L. rewrite <- (app_assoc (u "<COMMENT>"%string)), <- (app_assoc b). apply (star_tag (u "<COMMENT>"%string) b (u "%"%string) (u "/COMMENT>"%string ++ m) r F); [left; split; reflexivity|].
  exact (step_over post init (u "</COMMENT>"%string) m [] init r ltac:(discriminate) eq_refl L).
Qed.
Lemma gives_param b : Forall (fun c => c <> 60%N) b -> gives (u "<PARAM>"%string ++ b ++ u "</PARAM>"%string) (u "["%string ++ b ++ u "]"%string).
Proof.
  intros F m r L. rewrite <- (app_assoc (u "<PARAM>"%string)), <- (app_assoc b), (app_assoc (u "["%string)), <- (app_assoc (u "["%string ++ b)).
  apply (star_tag (u "<PARAM>"%string) b (u "["%string) (u "/PARAM>"%string ++ m) (u "]"%string ++ r) F); [right; split; reflexivity|].
  exact (step_over post init (u "</PARAM>"%string) m (u "]"%string) init r ltac:(discriminate) eq_refl L).
Qed.
(* mathematics: nothing looks like the end *)
Definition M0 : st := mkst mathenv [] false.
Lemma math_body b : ~ has_part (u "</"%string) b -> forall m r, (exists q, m = 60%N :: q) -> lexes post M0 m r -> lexes post M0 (b ++ m) (b ++ r).
Proof.
  induction b as [|c b IH]; intros Hb m r Hm L; [exact L|]. cbn [app]. change (c :: b ++ r) with ([c] ++ (b ++ r)).
  assert (Hb' : ~ has_part (u "</"%string) b) by (intros (p & q & ->); apply Hb; exists (c :: p), q; reflexivity).
  apply (lexes_step post M0 (c :: b ++ m) 1 [c] M0 (b ++ r)); [discriminate | | apply (IH Hb' m r Hm L)].
  assert (Hn : forall d q, b ++ m = d :: q -> c = 60%N -> (d =?c 47%N) = false).
  { intros d q E ->. apply ceq_neq. intros ->. destruct b as [|e b]; [cbn in E; destruct Hm as (z & ->); discriminate|]. injection E as -> E. apply Hb. exists [], b. reflexivity. }
  unfold step. assert (P1 : pick post (s_cond M0) (c :: b ++ m) = Some (1, R mathenv [One any] (act (fun t => t)))).
  { change post with (removelast post ++ R mathenv [One any] (act (fun t => t)) :: []). apply pick_best; [reflexivity | reflexivity | | apply below_nil].
    assert (A : Forall (fun q => cond_eqb (r_cond q) mathenv = true -> forall k, mt (r_pat q) (c :: b ++ m) = Some k -> False) (removelast post)).
    { revert Hn. generalize (b ++ m). intros z Hn. cbv [post post_common post_begin post_tags removelast app]. each; try discriminate; intros _ k E;
      (cbn in E; destruct (ceq_spec c 60%N) as [Ec|]; [|discriminate]; destruct z as [|d q]; [discriminate|]; rewrite (Hn d q eq_refl Ec) in E; discriminate). }
    intros q k I C E. exfalso. rewrite Forall_forall in A. exact (A q I C k E). }
  rewrite P1. reflexivity.
Qed.
Lemma gives_math b : ~ has_part (u "</"%string) b -> gives (u "<MATH_DOLLAR>"%string ++ b ++ u "</MATH_DOLLAR>"%string) (u "$"%string ++ b ++ u "$"%string).
Proof.
  intros Hb m r L. rewrite <- !app_assoc. refine (step_over post init (u "<MATH_DOLLAR>"%string) _ (u "$"%string) M0 _ ltac:(discriminate) eq_refl _).
  apply (math_body b Hb); [eexists; reflexivity|]. exact (step_over post M0 (u "</MATH_DOLLAR>"%string) m (u "$"%string) init r ltac:(discriminate) eq_refl L).
Qed.
Lemma gives_display b : ~ has_part (u "</"%string) b -> gives (u "<MATH_DOLLARS>"%string ++ b ++ u "</MATH_DOLLARS>"%string) (u "$$"%string ++ b ++ u "$$"%string).
Proof.
  intros Hb m r L. rewrite <- !app_assoc. refine (step_over post init (u "<MATH_DOLLARS>"%string) _ (u "$$"%string) M0 _ ltac:(discriminate) eq_refl _).
  apply (math_body b Hb); [eexists; reflexivity|]. exact (step_over post M0 (u "</MATH_DOLLARS>"%string) m (u "$$"%string) init r ltac:(discriminate) eq_refl L).
Qed.
(* \verb *)
Lemma gives_verb d b : among "|!?/+"%string d -> Forall (verbatim d) b -> gives (u "<VERB>"%string ++ ([d] ++ b ++ [d]) ++ u "</VERB>"%string) (u "\verb"%string ++ [d] ++ b ++ [d]).
Proof.
  intros Hd F. assert (G : gives ([d] ++ b ++ [d]) ([d] ++ b ++ [d])).
  { apply gives_word. assert (D : gives [d] [d]) by (cbn in Hd; destruct Hd as [<-|[<-|[<-|[<-|[<-|[]]]]]]; apply gives_free; reflexivity).
    apply Forall_app; split; [constructor; [exact D | constructor]|]. apply Forall_app; split; [|constructor; [exact D | constructor]].
    eapply Forall_impl; [|exact F]. intros c (_ & A & B). apply gives_free; apply ceq_neq; first [assumption | intros ->; apply A; cbn; tauto]. }
  rewrite <- (app_nil_r (u "\verb"%string ++ _)), <- (app_assoc (u "\verb"%string)). apply gives_app; [apply gives_step; [discriminate | reflexivity]|].
  apply gives_app; [exact G|]. apply gives_step; [discriminate | reflexivity].
Qed.

(** ** There *)
Definition fwd (g : bool) (s o : str) (g' : bool) (s' : str) : Prop :=
  forall cl, exists cl', forall r, lexes pre (P cl' g') s' r -> lexes pre (P cl g) s (o ++ r).
Lemma fwd_step g w x o g' : w <> [] -> (forall cl, step pre (P cl g) (w ++ x) = Some (length w, o, P cl g')) -> fwd g (w ++ x) o g' x.
Proof. intros Hw S cl. exists cl. intros r L. exact (step_over pre _ w x o _ r Hw (S cl) L). Qed.
Notation inits c := (map r_pat (filter (live INITIAL c) pre)).
Ltac pats c L := rewrite <- ?firstn_map, <- ?skipn_map; change (map r_pat (filter _ _)) with (inits c); change (inits c) with L; cbn [firstn skipn].
Definition pre_heads : list N := [92; 34; 37; 91; 123; 125; 126; 36; 63; 33; 39; 60; 62; 38]%N.
Definition pre_free : list rule := removelast (removelast pre).
Lemma pre_out c : Forall (fun k => (c =?c k) = false) pre_heads -> Forall (fun r => live INITIAL c r = false) pre_free.
Proof.
  unfold pre_heads. intros F. repeat match goal with F : Forall _ (_ :: _) |- _ => inversion F; clear F; subst end.
  cbv [pre_free pre removelast app map]. each; first [reflexivity | assumption].
Qed.
Lemma fwd_plain g c x : Forall (fun k => (c =?c k) = false) pre_heads -> c <> 0%N -> fwd g (c :: x) [c] g x.
Proof.
  intros F Hc. apply (fwd_step g [c] x [c] g); [discriminate|]. intros cl. cbn [app length].
  apply (step_pick pre (P cl g) c x 1 (R INITIAL [One any] (act until_nul))).
  - change (s_cond (P cl g)) with INITIAL. change pre with (pre_free ++ [R INITIAL [One any] (act until_nul); R mathenv [One any] (act until_nul)]).
    rewrite filter_app, (filter_out _ _ (pre_out c F)). reflexivity.
  - change (Some (until_nul [c], P cl g) = Some ([c], P cl g)). cbn [until_nul]. rewrite (proj2 (ceq_neq c cNUL) Hc). reflexivity.
Qed.
Lemma ord_heads c : ordinary c -> Forall (fun k => (c =?c k) = false) pre_heads.
Proof. intros H. ord H. unfold pre_heads. each; assumption. Qed.
Lemma fwd_ord g c x : ordinary c -> fwd g (c :: x) [c] g x.
Proof. intros H. apply fwd_plain; [apply ord_heads, H | apply H]. Qed.
Lemma fwd_app g s o1 g1 s1 o2 g2 s2 : fwd g s o1 g1 s1 -> fwd g1 s1 o2 g2 s2 -> fwd g s (o1 ++ o2) g2 s2.
Proof. intros F1 F2 cl. destruct (F1 cl) as (cl1 & H1). destruct (F2 cl1) as (cl2 & H2). exists cl2. intros r L. rewrite <- app_assoc. apply H1, H2, L. Qed.
Lemma fwd_latin g c x : ordinary c -> fwd g (194%N :: c :: x) [194%N; c] g x.
Proof. intros H. apply (fwd_app g _ [194%N] g (c :: x) [c]); [apply fwd_plain; [unfold pre_heads; each; reflexivity | discriminate] | apply fwd_ord, H]. Qed.
(* ? and ! *)
Lemma fwd_mark g c x : among "?!"%string c -> next_not (among "`"%string) x -> fwd g (c :: x) [c] g x.
Proof.
  intros Hc Hx. assert (N : match x with d :: _ => (d =?c 96%N) = false | [] => True end) by (destruct x as [|d x]; [exact I|]; apply ceq_neq; intros ->; apply Hx; cbn; tauto).
  apply (fwd_step g [c] x [c] g); [discriminate|]. intros cl. cbn in Hc. destruct Hc as [<-|[<-|[]]].
  - eapply (step_at pre (P cl g) 63%N x 1); [reflexivity | reflexivity | | | reflexivity].
    + pats 63%N [lit (u "?`"%string); [One any]]. each. intros k E. cbn in E. destruct x as [|d x]; [discriminate|]. rewrite N in E. discriminate.
    + pats 63%N [lit (u "?`"%string); [One any]]. each.
  - eapply (step_at pre (P cl g) 33%N x 1); [reflexivity | reflexivity | | | reflexivity].
    + pats 33%N [lit (u "!`"%string); [One any]]. each. intros k E. cbn in E. destruct x as [|d x]; [discriminate|]. rewrite N in E. discriminate.
    + pats 33%N [lit (u "!`"%string); [One any]]. each.
Qed.
(* the double quote *)
Lemma not_among l x : next_not (among l) x -> match x with d :: _ => is l d = false | [] => True end.
Proof. destruct x as [|d x]; [auto|]. cbn [next_not]. intros H. unfold is. destruct (mem d (u l)) eqn:E; [|reflexivity]. apply mem_In in E. contradiction. Qed.
Lemma fwd_quote g x : next_not (among "oOaAuUsS"%string) x -> fwd g (34%N :: x) (u "&quot;"%string) g x.
Proof.
  intros Hx. apply not_among in Hx. apply (fwd_step g [34%N] x (u "&quot;"%string) g); [discriminate|]. intros cl.
  eapply (step_at pre (P cl g) 34%N x 1); [reflexivity | reflexivity | | | reflexivity].
  + pats 34%N [[One (eqc 34); One (is "oOaAuUsS"%string)]; [One (eqc 34)]; [One any]]. each. intros k E. cbn -[is] in E. destruct x as [|d x]; [discriminate|]. rewrite Hx in E. discriminate.
  + pats 34%N [[One (eqc 34); One (is "oOaAuUsS"%string)]; [One (eqc 34)]; [One any]]. each. apply below_ones; [reflexivity | cbn; lia].
Qed.
Lemma fwd_umlaut (g : bool) c x (o : str) : In c (u "oOaAuUsS"%string) -> o = (if g then match lookc c umlauts with Some v => v | None => [] end else [34%N; c]) -> fwd g (34%N :: c :: x) o g x.
Proof.
  intros Hc Ho. apply (fwd_step g [34%N; c] x o g); [discriminate|]. intros cl. rewrite Ho. clear Ho. revert c Hc. apply Forall_forall. unfold u. each; destruct g; reflexivity.
Qed.
Lemma fwd_fixed g w x o : In (w, o) lits1 -> fwd g (w ++ x) o g x.
Proof.
  intros I. apply fwd_step.
  - revert I. unfold lits1. cbn [map]. intros I. repeat (destruct I as [[= <- _]|I]; [discriminate|]). destruct I.
  - intros cl. pose proof (pre_lits cl g) as F. rewrite Forall_forall in F. apply (F _ I).
Qed.

(* an opening brace *)
Lemma inits123 : inits 123%N = map lit (map fst ligatures) ++ [lit (u "{"%string); [One any]].
Proof. reflexivity. Qed.
Lemma ligs_ok : map fst ligatures = map fst ligs.
Proof. reflexivity. Qed.
Lemma fwd_open g x : ~ (exists l, In l (map fst ligs) /\ starts_with l (u "{"%string ++ x)) -> fwd g (123%N :: x) (u "<CONTENTS>"%string) g x.
Proof.
  intros H. apply (fwd_step g [123%N] x (u "<CONTENTS>"%string) g); [discriminate|]. intros cl.
  eapply (step_at pre (P cl g) 123%N x 9); [reflexivity | reflexivity | | | reflexivity].
  - rewrite <- firstn_map. change (map r_pat (filter _ _)) with (inits 123%N). rewrite inits123, ligs_ok. apply Forall_forall. intros ps I k E. exfalso. apply H. change (In ps (map lit (map fst ligs))) in I. apply in_map_iff in I as (l & <- & I). exists l. split; [exact I|].
    rewrite <- (app_nil_r (lit l)) in E. destruct (mt_lit_inv l [] _ _ E) as (r & j & Q & _). exists r. exact Q.
  - rewrite <- skipn_map. change (map r_pat (filter _ _)) with (inits 123%N). rewrite inits123. each. apply below_ones; [reflexivity | cbn; lia].
Qed.
Lemma fwd_ligature g l o x : In (l, o) ligs -> fwd g (l ++ x) o g x.
Proof.
  intros I. apply fwd_step; [intros ->; revert I; cbn; intuition discriminate|]. intros cl. revert I. unfold ligs. cbn [map fst snd]. intros I.
  repeat (destruct I as [[= <- <-]|I]; [destruct g; reflexivity|]). destruct I.
Qed.
(* a backslash that no rule takes *)
Lemma second_out p0 p1 more x n : match x with d :: _ => p1 d = false | [] => True end -> forall m, mt (One p0 :: One p1 :: more) (92%N :: x) = Some m -> m < n.
Proof. intros H m E. cbn [mt] in E. destruct (p0 92%N); [|discriminate]. destruct x as [|d x]; [discriminate|]. rewrite H in E. discriminate. Qed.
Lemma plus_out p0 p1 more x n : match x with d :: _ => p1 d = false | [] => True end -> forall m, mt (One p0 :: Plus p1 :: more) (92%N :: x) = Some m -> m < n.
Proof. intros H m E. cbn [mt] in E. destruct (p0 92%N); [|discriminate]. destruct x as [|d x]; cbn [span] in E; [discriminate|]. rewrite H in E. discriminate. Qed.
Lemma backslash_out x : next_not taken_after_backslash x -> match x with d :: _ => letter d = false /\ accs d = false /\ Forall (fun k => (d =?c k) = false) (34%N :: u "#`'^~=.\%{()[]&"%string) | [] => True end.
Proof.
  destruct x as [|d x]; [auto|]. cbn [next_not]. unfold taken_after_backslash. intros H.
  assert (L : letter d = false) by (destruct (letter d) eqn:E; [exfalso; apply H; left; apply is_letter_b, E | reflexivity]).
  assert (F : Forall (fun k => (d =?c k) = false) (34%N :: u "#`'^~=.\%{()[]&"%string)).
  { apply Forall_forall. intros k [<-|I]; apply ceq_neq; intros E; apply H; [right; right; exact E | right; left; rewrite E; exact I]. }
  split; [exact L|]. split; [|exact F]. unfold accs. rewrite Bool.orb_false_iff. split; [|apply (proj1 (Forall_forall _ _) F); left; reflexivity].
  destruct (mem d _) eqn:E; [|reflexivity]. apply mem_In in E. exfalso. rewrite Forall_forall in F.
  assert (A : forallb (fun k => letter k || mem k (u "#`'^~=.\%{()[]&"%string)) (u "`'^H~ck=b.druv"%string) = true) by reflexivity.
  rewrite forallb_forall in A. apply A in E. rewrite L in E. cbn [orb] in E. apply mem_In in E. specialize (F d (or_intror E)). rewrite ceq_refl in F. discriminate.
Qed.
Lemma fwd_backslash g x : next_not taken_after_backslash x -> fwd g (92%N :: x) [92%N] g x.
Proof.
  intros H. apply backslash_out in H. apply (fwd_step g [92%N] x [92%N] g); [discriminate|]. intros cl.
  eapply (step_at pre (P cl g) 92%N x 28); [reflexivity | reflexivity | | | reflexivity].
  - rewrite <- firstn_map. change (map r_pat (filter _ _)) with (map r_pat (filter (live INITIAL 92%N) pre)). rewrite all92_ok.
    change (firstn 28 _) with (head92 ++ [BS ++ [One accs; One dot]] ++ mid92 ++ [BS ++ [Plus letter]] ++ removelast tail92).
    assert (S : forall k, letter k = true \/ In k (34%N :: u "#`'^~=.\%{()[]&"%string) -> match x with d :: _ => (d =?c k) = false | [] => True end).
    { destruct x as [|d x]; [auto|]. destruct H as (L & A & F). intros k [K|K]; [apply ceq_neq; intros ->; congruence | exact (proj1 (Forall_forall _ _) F k K)]. }
    assert (SA : match x with d :: _ => accs d = false | [] => True end) by (destruct x; tauto).
    assert (SL : match x with d :: _ => letter d = false | [] => True end) by (destruct x; tauto).
    assert (SQ : match x with d :: _ => is "^'`"%string d || eqc 34 d = false | [] => True end).
    { destruct x as [|d x]; [auto|]. apply Bool.orb_false_iff. split; [|apply (S 34%N); cbn; tauto]. unfold is. destruct (mem d _) eqn:E; [|reflexivity]. apply mem_In in E.
      assert (A : forallb (fun k => mem k (u "#`'^~=.\%{()[]&"%string)) (u "^'`"%string) = true) by reflexivity. rewrite forallb_forall in A. apply A, mem_In in E. specialize (S d (or_intror (or_intror E))). cbn in S. rewrite ceq_refl in S. discriminate. }
    repeat (apply Forall_app; split).
    all: each; first [apply plus_out; exact SL | apply second_out; first [exact SA | exact SQ | cbv beta; eapply S; first [left; reflexivity | right; cbn; tauto]]].
  - rewrite <- skipn_map. change (map r_pat (filter _ _)) with (map r_pat (filter (live INITIAL 92%N) pre)). rewrite all92_ok. apply Forall_nil.
Qed.

(** ** There: parameters, mathematics, comments, verbatim text, environments *)
Lemma eq_not (b : str) k : ~ In k b -> Forall (fun c => negb (c =?c k) = true) b.
Proof. intros H. apply Forall_forall. intros c I. destruct (ceq_spec c k) as [->|]; [contradiction | reflexivity]. Qed.
Lemma fwd_param g b x : ~ In 93%N b -> fwd g (u "["%string ++ b ++ u "]"%string ++ x) (u "<PARAM>"%string ++ b ++ u "</PARAM>"%string) g x.
Proof.
  intros H. rewrite (app_assoc b), (app_assoc (u "["%string)). apply fwd_step; [discriminate|]. intros cl. apply eq_not in H.
  eapply (step_at pre (P cl g) 91%N _ 0).
  - reflexivity.
  - change (mt (lit (u "["%string) ++ [Star (fun c => negb (c =?c 93%N)); One (eqc 93)]) ((u "["%string ++ b ++ u "]"%string) ++ x) = Some (length (u "["%string ++ b ++ u "]"%string))).
    rewrite <- !app_assoc, mt_lit. refine (eq_trans (f_equal (option_map (Nat.add _)) (mt_star _ b [One (eqc 93)] (u "]"%string ++ x) H eq_refl)) _). cbn. rewrite app_length. cbn. f_equal; lia.
  - apply Forall_nil.
  - rewrite <- skipn_map. change (map r_pat (filter _ _)) with (inits 91%N). change (inits 91%N) with [lit (u "["%string) ++ [Star (fun c => negb (c =?c 93%N)); One (eqc 93)]; [One any]]. each.
    apply below_ones; [reflexivity | cbn; rewrite app_length; cbn; lia].
  - refine (eq_trans (act_whole _ _ (u "["%string ++ b ++ u "]"%string) x) _). exact (f_equal (fun z => Some (u "<PARAM>"%string ++ z ++ u "</PARAM>"%string, P cl g)) (cut_mid (u "["%string) [] b (u "]"%string) eq_refl)).
Qed.
Lemma contains_spec w s : contains w s = true <-> has_part w s.
Proof.
  assert (B : forall s, str_eqb (firstn (length w) s) w = true <-> starts_with w s).
  { intros t. rewrite str_eqb_eq. split; [intros E; exists (skipn (length w) t); rewrite <- E at 1; symmetry; apply firstn_skipn | intros (r & ->); rewrite firstn_app, firstn_all, Nat.sub_diag; cbn; apply app_nil_r]. }
  induction s as [|c s IH]; cbn [contains]; rewrite Bool.orb_true_iff, B.
  - split; [intros [(r & E)|E]; [exists [], r; exact E | discriminate] | intros (p & r & E)]. destruct p; [left; exists r; exact E | discriminate].
  - rewrite IH. split.
    + intros [(r & E)|(p & r & E)]; [exists [], r; exact E | exists (c :: p), r; cbn; rewrite E; reflexivity].
    + intros ([|d p] & r & E); [left; exists r; exact E | right; injection E as -> E; exists p, r; exact E].
Qed.
Lemma fwd_package g b x g' : ~ In 93%N b -> Forall (fun c => (c < 128)%N) b -> g' = (g || contains (u "ngerman"%string) b) ->
  fwd g (u "\usepackage["%string ++ b ++ u "]"%string ++ x) (u "<usepackage/><PARAM>"%string ++ b ++ u "</PARAM>"%string) g' x.
Proof.
  intros H Fa ->. rewrite (app_assoc b), (app_assoc (u "\usepackage["%string)). apply fwd_step; [discriminate|]. intros cl. apply eq_not in H.
  assert (A : forallb (fun c => (c <? 128)%N) (u "\usepackage["%string ++ b ++ u "]"%string) = true).
  { rewrite !forallb_app. apply Bool.andb_true_iff. split; [reflexivity|]. apply Bool.andb_true_iff. split; [|reflexivity]. apply forallb_forall. intros c I. apply N.ltb_lt. rewrite Forall_forall in Fa. exact (Fa c I). }
  eapply (step_at pre (P cl g) 92%N _ 9).
  - reflexivity.
  - change (mt (lit (u "\usepackage["%string) ++ [Star (fun c => negb (c =?c 93%N)); One (eqc 93)]) ((u "\usepackage["%string ++ b ++ u "]"%string) ++ x) = Some (length (u "\usepackage["%string ++ b ++ u "]"%string))).
    rewrite <- !app_assoc, mt_lit. refine (eq_trans (f_equal (option_map (Nat.add _)) (mt_star _ b [One (eqc 93)] (u "]"%string ++ x) H eq_refl)) _). cbn. rewrite app_length. cbn. f_equal; lia.
  - rewrite <- firstn_map. change (map r_pat (filter _ _)) with (inits 92%N). rewrite all92_ok. change (firstn 9 _) with (head92 ++ [BS ++ [One accs; One dot]] ++ firstn 1 mid92). each; intros k E; upto E.
  - rewrite <- skipn_map. change (map r_pat (filter _ _)) with (inits 92%N). rewrite all92_ok. change (skipn 10 _) with (skipn 2 mid92 ++ [BS ++ [Plus letter]] ++ tail92). each; intros k E; upto E.
  - change (r_act _ _ _) with (package_act (P cl g) (firstn (length (u "\usepackage["%string ++ b ++ u "]"%string)) ((u "\usepackage["%string ++ b ++ u "]"%string) ++ x))).
    rewrite firstn_app, firstn_all, Nat.sub_diag. cbn [firstn]. rewrite app_nil_r. unfold package_act. rewrite A.
    assert (C : cut 12 1 (u "\usepackage["%string ++ b ++ u "]"%string) = b) by exact (cut_mid (u "\usepackage["%string) [] b (u "]"%string) eq_refl). rewrite C. reflexivity.
Qed.
(* mathematics *)
Lemma math_there cl g b s r : Forall (fun c => c <> 36%N /\ c <> 0%N) b -> lexes pre (mkst mathenv cl g) s r -> lexes pre (mkst mathenv cl g) (b ++ s) (b ++ r).
Proof.
  induction 1 as [|c b (H1 & H2) _ IH]; intros L; [exact L|]. cbn [app]. change (c :: b ++ r) with ([c] ++ b ++ r).
  apply (lexes_step pre _ (c :: b ++ s) 1 [c] (mkst mathenv cl g) (b ++ r)); [discriminate | | exact (IH L)].
  apply (step_pick pre (mkst mathenv cl g) c (b ++ s) 1 (R mathenv [One any] (act until_nul))).
  - cbn [s_cond]. change pre with (removelast pre ++ [R mathenv [One any] (act until_nul)]). rewrite filter_app. rewrite (filter_out (live mathenv c) (removelast pre)); [reflexivity|].
    cbv [pre removelast app map]. each; first [reflexivity | exact (proj2 (ceq_neq c 36%N) H1)].
  - change (Some (until_nul [c], mkst mathenv cl g) = Some ([c], mkst mathenv cl g)). cbn [until_nul]. rewrite (proj2 (ceq_neq c cNUL) H2). reflexivity.
Qed.
Lemma fwd_math g b x : b <> [] -> Forall (fun c => c <> 36%N /\ c <> 0%N) b -> next_not (among "$"%string) x ->
  fwd g (u "$"%string ++ b ++ u "$"%string ++ x) (u "<MATH_DOLLAR>"%string ++ b ++ u "</MATH_DOLLAR>"%string) g x.
Proof.
  intros Hb F Hx cl. exists cl. intros r L. rewrite <- !app_assoc.
  refine (step_over pre _ (u "$"%string) _ (u "<MATH_DOLLAR>"%string) (mkst mathenv cl g) _ ltac:(discriminate) _ _).
  - destruct b as [|c b]; [contradiction|]. inversion F as [|? ? (H1 & _) _]; subst.
    eapply (step_at pre (P cl g) 36%N _ 1); [reflexivity | reflexivity | | | reflexivity].
    + rewrite <- firstn_map. change (map r_pat (filter _ _)) with (inits 36%N). change (inits 36%N) with [lit (u "$$"%string); lit (u "$"%string); [One any]]. each. intros k E. cbn in E. rewrite (proj2 (ceq_neq c 36%N) H1) in E. discriminate.
    + rewrite <- skipn_map. change (map r_pat (filter _ _)) with (inits 36%N). change (inits 36%N) with [lit (u "$$"%string); lit (u "$"%string); [One any]]. each. intros k E. upto E.
  - apply (math_there cl g b _ _ F). refine (step_over pre _ (u "$"%string) _ (u "</MATH_DOLLAR>"%string) (P cl g) _ ltac:(discriminate) _ L).
    assert (N : match x with d :: _ => (d =?c 36%N) = false | [] => True end) by (destruct x as [|d x]; [exact I|]; apply ceq_neq; intros ->; apply Hx; cbn; tauto).
    eapply (step_at pre (mkst mathenv cl g) 36%N x 1); [reflexivity | reflexivity | | | reflexivity].
    + rewrite <- firstn_map. change (map r_pat (filter _ _)) with (map r_pat (filter (live mathenv 36%N) pre)). change (map r_pat (filter (live mathenv 36%N) pre)) with [lit (u "$$"%string); lit (u "$"%string); [One any]].
      each. intros k E. cbn in E. destruct x as [|d x]; [discriminate|]. rewrite N in E. discriminate.
    + rewrite <- skipn_map. change (map r_pat (filter _ _)) with (map r_pat (filter (live mathenv 36%N) pre)). change (map r_pat (filter (live mathenv 36%N) pre)) with [lit (u "$$"%string); lit (u "$"%string); [One any]]. each. intros k E. upto E.
Qed.
Lemma fwd_display g b x : Forall (fun c => c <> 36%N /\ c <> 0%N) b -> fwd g (u "$$"%string ++ b ++ u "$$"%string ++ x) (u "<MATH_DOLLARS>"%string ++ b ++ u "</MATH_DOLLARS>"%string) g x.
Proof.
  intros F cl. exists cl. intros r L. rewrite <- !app_assoc.
  refine (step_over pre (P cl g) (u "$$"%string) (b ++ u "$$"%string ++ x) (u "<MATH_DOLLARS>"%string) (mkst mathenv cl g) _ ltac:(discriminate) eq_refl _).
  apply (math_there cl g b _ _ F). refine (step_over pre (mkst mathenv cl g) (u "$$"%string) x (u "</MATH_DOLLARS>"%string) (P cl g) _ ltac:(discriminate) eq_refl L).
Qed.
(* comments *)
Lemma fwd_comment g b x : Forall (fun c => c <> 10%N) b -> x = [] \/ starts_with [10%N] x -> fwd g (u "%"%string ++ b ++ x) (comment_act (u "%"%string ++ b)) g x.
Proof.
  intros F Hx. rewrite app_assoc. apply fwd_step; [discriminate|]. intros cl.
  assert (F' : Forall (fun c => dot c = true) b) by (eapply Forall_impl; [|exact F]; intros c Hc; unfold dot; rewrite (proj2 (ceq_neq c cNL) Hc); reflexivity).
  eapply (step_at pre (P cl g) 37%N _ 0).
  - reflexivity.
  - change (mt (lit (u "%"%string) ++ [Star dot]) ((u "%"%string ++ b) ++ x) = Some (length (u "%"%string ++ b))). rewrite <- app_assoc, mt_lit. refine (eq_trans (f_equal (option_map (Nat.add _)) (mt_star dot b [] x F' _)) _); [|cbn; f_equal; lia].
    destruct Hx as [->|(z & ->)]; [exact I | reflexivity].
  - apply Forall_nil.
  - rewrite <- skipn_map. change (map r_pat (filter _ _)) with (inits 37%N). change (inits 37%N) with [lit (u "%"%string) ++ [Star dot]; [One any]]. each. apply below_ones; [reflexivity | cbn; lia].
  - exact (act_whole comment_act _ (u "%"%string ++ b) x).
Qed.
Lemma comment_back b : Forall (fun c => c <> 60%N) b -> gives (comment_act (u "%"%string ++ b)) (u "%"%string ++ b).
Proof.
  intros F. unfold comment_act, is_cr. destruct (rev (u "%"%string ++ b)) as [|c q] eqn:E; [apply (gives_comment b F)|]. destruct (N.eqb_spec c 13) as [->|]; [|apply (gives_comment b F)].
  apply (f_equal (@rev _)) in E. rewrite rev_involutive in E. cbn [rev] in E. destruct (rev q) as [|d z] eqn:Z; [discriminate|]. injection E as <- ->.
  change (u "%"%string ++ z ++ [13%N]) with ([37%N] ++ z ++ [13%N]). assert (C : cut 1 1 ([37%N] ++ z ++ [13%N]) = z) by exact (cut_mid [37%N] [] z [13%N] eq_refl). rewrite C. rewrite (app_assoc [37%N]), (app_assoc z), (app_assoc (u "<COMMENT>"%string)).
  apply gives_app; [apply gives_comment; apply Forall_app in F; apply F | apply gives_free; reflexivity].
Qed.
(* verbatim *)
Lemma fwd_verb g d b x : among "|!?/+"%string d -> b <> [] -> Forall (verbatim d) b ->
  fwd g (u "\verb"%string ++ [d] ++ b ++ [d] ++ x) (u "<VERB>"%string ++ ([d] ++ b ++ [d]) ++ u "</VERB>"%string) g x.
Proof.
  intros Hd Hb F. replace (u "\verb"%string ++ [d] ++ b ++ [d] ++ x) with ((u "\verb"%string ++ [d] ++ b ++ [d]) ++ x) by (rewrite <- !app_assoc; reflexivity).
  apply fwd_step; [discriminate|]. intros cl.
  assert (F' : Forall (fun c => negb (c =?c d) = true) b) by (eapply Forall_impl; [|exact F]; intros c (Hc & _); cbn beta; rewrite (proj2 (ceq_neq c d) Hc); reflexivity).
  assert (M : mt (r_pat (verb_rule d)) ((u "\verb"%string ++ [d] ++ b ++ [d]) ++ x) = Some (length (u "\verb"%string ++ [d] ++ b ++ [d]))).
  { unfold verb_rule. cbn [r_pat]. rewrite <- !app_assoc, mt_lit. cbn [app mt]. unfold eqc at 1. rewrite ceq_refl.
    change (span (fun c => negb (c =?c d)) (b ++ d :: x)) with (span (fun c => negb (c =?c d)) (b ++ d :: x)). rewrite (span_app _ b (d :: x) F') by (cbn; rewrite ceq_refl; reflexivity).
    rewrite skipn_len. unfold eqc. rewrite ceq_refl. destruct b; [contradiction|]. cbn. rewrite app_length. cbn. f_equal; lia. }
  assert (A : r_act (verb_rule d) (P cl g) (firstn (length (u "\verb"%string ++ [d] ++ b ++ [d])) ((u "\verb"%string ++ [d] ++ b ++ [d]) ++ x)) = Some (u "<VERB>"%string ++ ([d] ++ b ++ [d]) ++ u "</VERB>"%string, P cl g)).
  { exact (act_whole _ _ (u "\verb"%string ++ [d] ++ b ++ [d]) x). }
  assert (Lb : length (u "\verb"%string ++ [d] ++ b ++ [d]) > 6) by (destruct b; [contradiction|]; cbn; rewrite app_length; cbn; lia). revert M A Lb. generalize (length (u "\verb"%string ++ [d] ++ b ++ [d])). intros n M A Lb.
  cbn in Hd.
  destruct Hd as [<-|[<-|[<-|[<-|[<-|[]]]]]]; [eapply (step_at pre (P cl g) 92%N _ 17) | eapply (step_at pre (P cl g) 92%N _ 18) | eapply (step_at pre (P cl g) 92%N _ 19) | eapply (step_at pre (P cl g) 92%N _ 20) | eapply (step_at pre (P cl g) 92%N _ 22)];
    try reflexivity; try exact M; try exact A; rewrite <- ?firstn_map, <- ?skipn_map; change (map r_pat (filter _ _)) with (inits 92%N); rewrite all92_ok.
  all: match goal with |- Forall _ (firstn ?k _) => change (firstn k _) with (head92 ++ [BS ++ [One accs; One dot]] ++ mid92 ++ [BS ++ [Plus letter]] ++ firstn (k - 14) tail92) | |- Forall _ (skipn ?k _) => change (skipn k _) with (skipn (k - 14) tail92) end.
  all: each; intros k E; cbn in E; first [discriminate E | injection E as <-; lia].
Qed.

(** ** Environments *)
Definition RB (cl : str) (g : bool) : st := mkst readbrackets cl g.
Definition in_rb (r : rule) : bool := cond_eqb (r_cond r) readbrackets.
Lemma pick_cond rs k s : pick rs k s = pick (filter (fun r => cond_eqb (r_cond r) k) rs) k s.
Proof.
  induction rs as [|r rs IH]; [reflexivity|]. cbn [pick filter]. destruct (cond_eqb (r_cond r) k) eqn:C; [cbn [pick]; rewrite C, IH; reflexivity|]. rewrite IH. destruct (pick _ _ _) as [(m, r')|]; reflexivity.
Qed.
Definition rb1 : rule := R readbrackets [Star wsp; Opt (eqc 123); Star wsp] (act (drop_first 123%N)).
Definition rb2 : rule := R readbrackets [Plus alnum; One (eqc 42)] (fun s t => Some (u "<"%string ++ s_close s ++ cut 0 1 t ++ u "_STAR>"%string, s)).
Definition rb3 : rule := R readbrackets [Plus alnum] (fun s t => Some (u "<"%string ++ s_close s ++ t ++ u ">"%string, s)).
Definition rb4 : rule := R readbrackets [Star wsp; One (eqc 125); Star wsp] (fun s t => Some (drop_first 125%N t, begin_ INITIAL s)).
Lemma rb_ok : filter (fun r => cond_eqb (r_cond r) readbrackets) pre = [rb1; rb2; rb3; rb4].
Proof. reflexivity. Qed.
Lemma span0 p s : match s with c :: _ => p c = false | [] => True end -> span p s = 0.
Proof. destruct s as [|c s]; [reflexivity|]. cbn [span]. intros ->. reflexivity. Qed.
Lemma alnum_wsp c : alnum c = true -> wsp c = false.
Proof.
  intros H. unfold wsp. destruct (mem c _) eqn:E; [|reflexivity]. apply mem_In in E. assert (A : forallb (fun k => negb (alnum k)) [32; 10; 13; 9]%N = true) by reflexivity.
  rewrite forallb_forall in A. apply A in E. rewrite H in E. discriminate.
Qed.
(* nothing for the first rule before a name *)
Lemma rb1_name c s : wsp c = false -> (c =?c 123%N) = false -> mt (r_pat rb1) (c :: s) = Some 0.
Proof. intros H1 H2. unfold rb1. cbn [r_pat]. cbn [mt span]. rewrite H1. cbn [skipn]. unfold eqc. rewrite H2. cbn [span]. rewrite H1. reflexivity. Qed.
Lemma rb4_name c s : wsp c = false -> (c =?c 125%N) = false -> mt (r_pat rb4) (c :: s) = None.
Proof. intros H1 H2. unfold rb4. cbn [r_pat]. cbn [mt span]. rewrite H1. cbn [skipn]. unfold eqc. rewrite H2. reflexivity. Qed.
Section Environment.
  Variables (cl : str) (g : bool) (n : str).
  Hypothesis Hn : n <> [].
  Hypothesis Fn : Forall (fun c => alnum c = true) n.
  Lemma env_name s : step pre (RB cl g) (n ++ 125%N :: s) = Some (length n, u "<"%string ++ cl ++ n ++ u ">"%string, RB cl g).
  Proof.
    destruct n as [|c q] eqn:E; [contradiction|]. inversion Fn as [|? ? Hc _]; subst. unfold step.
    assert (K : pick pre (s_cond (RB cl g)) ((c :: q) ++ 125%N :: s) = Some (length (c :: q), rb3)).
    { change (s_cond (RB cl g)) with readbrackets. rewrite pick_cond, rb_ok. refine (pick_best [rb1; rb2] rb3 [rb4] readbrackets _ _ eq_refl _ _ _).
      - unfold rb3. cbn [r_pat]. rewrite (mt_plus alnum (c :: q) [] (125%N :: s) ltac:(discriminate) Fn eq_refl). cbn [mt option_map]. rewrite Nat.add_0_r. reflexivity.
      - apply below_cons; [|apply below_cons; [|apply below_nil]].
        + intros m M. cbn [app] in M. rewrite (rb1_name c _ (alnum_wsp c Hc) (alnum_ne c 123%N Hc eq_refl)) in M. injection M as <-. cbn. lia.
        + intros m M. unfold rb2 in M. cbn [r_pat] in M. rewrite (mt_plus alnum (c :: q) [One (eqc 42)] (125%N :: s) ltac:(discriminate) Fn eq_refl) in M. discriminate.
      - apply below_cons; [|apply below_nil]. intros m M. cbn [app] in M. rewrite (rb4_name c _ (alnum_wsp c Hc) (alnum_ne c 125%N Hc eq_refl)) in M. discriminate. }
    rewrite K. unfold rb3. cbn [r_act]. rewrite firstn_app, firstn_all, Nat.sub_diag. cbn [firstn]. rewrite app_nil_r. reflexivity.
  Qed.
  Lemma env_star s : step pre (RB cl g) ((n ++ [42%N]) ++ s) = Some (length (n ++ [42%N]), u "<"%string ++ cl ++ n ++ u "_STAR>"%string, RB cl g).
  Proof.
    destruct n as [|c q] eqn:E; [contradiction|]. inversion Fn as [|? ? Hc _]; subst. unfold step.
    assert (K : pick pre (s_cond (RB cl g)) (((c :: q) ++ [42%N]) ++ s) = Some (length ((c :: q) ++ [42%N]), rb2)).
    { change (s_cond (RB cl g)) with readbrackets. rewrite pick_cond, rb_ok. rewrite <- app_assoc. refine (pick_best [rb1] rb2 [rb3; rb4] readbrackets _ _ eq_refl _ _ _).
      - unfold rb2. cbn [r_pat]. refine (eq_trans (mt_plus alnum (c :: q) [One (eqc 42)] ([42%N] ++ s) ltac:(discriminate) Fn eq_refl) _). rewrite app_length. reflexivity.
      - apply below_cons; [|apply below_nil]. intros m M. cbn [app] in M. rewrite (rb1_name c _ (alnum_wsp c Hc) (alnum_ne c 123%N Hc eq_refl)) in M. injection M as <-. cbn. lia.
      - apply below_cons; [|apply below_cons; [|apply below_nil]].
        + intros m M. unfold rb3 in M. cbn [r_pat] in M. pose proof (eq_trans (eq_sym (mt_plus alnum (c :: q) [] ([42%N] ++ s) ltac:(discriminate) Fn eq_refl)) M) as Q. cbn [mt option_map] in Q. injection Q as <-. rewrite app_length. cbn. lia.
        + intros m M. cbn [app] in M. rewrite (rb4_name c _ (alnum_wsp c Hc) (alnum_ne c 125%N Hc eq_refl)) in M. discriminate. }
    rewrite K. unfold rb2. cbn [r_act]. rewrite firstn_app, firstn_all, Nat.sub_diag. cbn [firstn]. rewrite app_nil_r.
    assert (C : cut 0 1 ((c :: q) ++ [42%N]) = c :: q) by exact (cut_mid [] [] (c :: q) [42%N] eq_refl). rewrite C. reflexivity.
  Qed.
  Lemma env_close w s : Forall (fun c => wsp c = true) w -> match s with c :: _ => wsp c = false | [] => True end ->
    step pre (RB cl g) ((125%N :: w) ++ s) = Some (length (125%N :: w), w, P cl g).
  Proof.
    intros F Hs. unfold step.
    assert (K : pick pre (s_cond (RB cl g)) ((125%N :: w) ++ s) = Some (length (125%N :: w), rb4)).
    { change (s_cond (RB cl g)) with readbrackets. rewrite pick_cond, rb_ok. refine (pick_best [rb1; rb2; rb3] rb4 [] readbrackets _ _ eq_refl _ _ _).
      - change (option_map (Nat.add 0) (option_map S (mt [Star wsp] (w ++ s))) = Some (S (length w))). rewrite (mt_star wsp w [] s F Hs). cbn. f_equal. lia.
      - apply below_cons; [|apply below_cons; [|apply below_cons; [|apply below_nil]]]; intros m M; cbn [app] in M.
        + rewrite (rb1_name 125%N _ eq_refl eq_refl) in M. injection M as <-. cbn. lia.
        + discriminate.
        + discriminate.
      - apply below_nil. }
    rewrite K. unfold rb4. cbn [r_act]. rewrite firstn_app, firstn_all, Nat.sub_diag. cbn [firstn]. rewrite app_nil_r. reflexivity.
  Qed.
End Environment.
Lemma white_b c : white c <-> wsp c = true.
Proof. unfold white, wsp. rewrite mem_In. cbn. intuition. Qed.
Lemma fwd_environment g kw c n w x : kw = u "\begin{"%string /\ c = [] \/ kw = u "\end{"%string /\ c = u "/"%string -> n <> [] -> Forall is_alnum n -> Forall white w -> next_not white x ->
  fwd g (kw ++ n ++ u "}"%string ++ w ++ x) ((u "<"%string ++ c ++ n ++ u ">"%string) ++ w) g x.
Proof.
  intros Hk Hn Fn Fw Hx cl. exists c. intros r L.
  assert (Fn' : Forall (fun c => alnum c = true) n) by (eapply Forall_impl; [|exact Fn]; intros d; apply is_alnum_b).
  assert (Fw' : Forall (fun c => wsp c = true) w) by (eapply Forall_impl; [|exact Fw]; intros d; apply white_b).
  assert (Hx' : match x with d :: _ => wsp d = false | [] => True end).
  { destruct x as [|d x]; [exact I|]. destruct (wsp d) eqn:E; [|reflexivity]. apply white_b in E. contradiction. }
  rewrite <- app_assoc. change (u "<"%string ++ c ++ n ++ u ">"%string) with (u "<"%string ++ c ++ n ++ u ">"%string).
  assert (K : lexes pre (RB c g) (n ++ u "}"%string ++ w ++ x) ((u "<"%string ++ c ++ n ++ u ">"%string) ++ w ++ r)).
  { refine (step_over pre (RB c g) n (u "}"%string ++ w ++ x) _ (RB c g) (w ++ r) Hn (env_name c g n Hn Fn' (w ++ x)) _).
    exact (step_over pre (RB c g) (125%N :: w) x w (P c g) r ltac:(discriminate) (env_close c g w x Fw' Hx') L). }
  destruct Hk as [(-> & ->)|(-> & ->)].
  - exact (step_over pre (P cl g) (u "\begin{"%string) _ [] (RB [] g) _ ltac:(discriminate) eq_refl K).
  - exact (step_over pre (P cl g) (u "\end{"%string) _ [] (RB (u "/"%string) g) _ ltac:(discriminate) eq_refl K).
Qed.
Lemma fwd_environment_star g kw c n w x : kw = u "\begin{"%string /\ c = [] \/ kw = u "\end{"%string /\ c = u "/"%string -> n <> [] -> Forall is_alnum n -> Forall white w -> next_not white x ->
  fwd g (kw ++ n ++ u "*}"%string ++ w ++ x) ((u "<"%string ++ c ++ n ++ u "_STAR>"%string) ++ w) g x.
Proof.
  intros Hk Hn Fn Fw Hx cl. exists c. intros r L.
  assert (Fn' : Forall (fun c => alnum c = true) n) by (eapply Forall_impl; [|exact Fn]; intros d; apply is_alnum_b).
  assert (Fw' : Forall (fun c => wsp c = true) w) by (eapply Forall_impl; [|exact Fw]; intros d; apply white_b).
  assert (Hx' : match x with d :: _ => wsp d = false | [] => True end).
  { destruct x as [|d x]; [exact I|]. destruct (wsp d) eqn:E; [|reflexivity]. apply white_b in E. contradiction. }
  rewrite <- app_assoc.
  assert (K : lexes pre (RB c g) (n ++ u "*}"%string ++ w ++ x) ((u "<"%string ++ c ++ n ++ u "_STAR>"%string) ++ w ++ r)).
  { change (u "*}"%string ++ w ++ x) with ([42%N] ++ 125%N :: w ++ x). rewrite (app_assoc n [42%N]).
    refine (step_over pre (RB c g) (n ++ [42%N]) (125%N :: w ++ x) _ (RB c g) (w ++ r) _ (env_star c g n Hn Fn' (125%N :: w ++ x)) _); [destruct n; discriminate|].
    exact (step_over pre (RB c g) (125%N :: w) x w (P c g) r ltac:(discriminate) (env_close c g w x Fw' Hx') L). }
  destruct Hk as [(-> & ->)|(-> & ->)].
  - exact (step_over pre (P cl g) (u "\begin{"%string) _ [] (RB [] g) _ ltac:(discriminate) eq_refl K).
  - exact (step_over pre (P cl g) (u "\end{"%string) _ [] (RB (u "/"%string) g) _ ltac:(discriminate) eq_refl K).
Qed.

(** ** Accents *)
Lemma fwd_acc2 g l o x : In (l, o) acc2 -> fwd g (l ++ x) o g x.
Proof.
  intros I. apply fwd_step; [intros ->; revert I; cbn; intuition discriminate|]. intros cl. revert I. unfold acc2. cbn [map fst snd]. intros I.
  repeat (destruct I as [[= <- <-]|I]; [destruct g; vm_compute; reflexivity|]). destruct I.
Qed.
Lemma fwd_accent_braces g a l o x : In (a, l, o) acc1 -> fwd g ((u "\"%string ++ a ++ u "{"%string ++ l ++ u "}"%string) ++ x) o g x.
Proof.
  intros I. apply fwd_step; [discriminate|]. intros cl. revert I. unfold acc1. cbn [map fst snd]. intros I.
  repeat (destruct I as [[= <- <- <-]|I]; [destruct g; vm_compute; reflexivity|]). destruct I.
Qed.
Lemma fwd_accent g a l o x : In (a, l, o) acc1 -> fwd g ((u "\"%string ++ a ++ l) ++ x) o g x.
Proof.
  intros I. apply fwd_step; [discriminate|]. intros cl. revert I. unfold acc1. cbn [map fst snd]. intros I.
  repeat (destruct I as [[= <- <- <-]|I]; [destruct g; vm_compute; reflexivity|]). destruct I.
Qed.

(** ** Both ways *)
Lemma gives_bytes o : forallb (fun c => negb (mem c [38; 60; 35; 194]%N)) o = true -> gives o o.
Proof.
  intros H. apply gives_word. apply Forall_forall. intros c I. rewrite forallb_forall in H. apply H in I. apply Bool.negb_true_iff in I. apply mem_nIn in I.
  apply gives_free; apply ceq_neq; intros ->; apply I; cbn; tauto.
Qed.
Definition back (g : bool) (x y : str) : Prop := forall cl, exists m, lexes pre (P cl g) x m /\ lexes post init m y.
Lemma back_token g x o g' x' y1 y : fwd g x o g' x' -> gives o y1 -> back g' x' y -> back g x (y1 ++ y).
Proof. intros F G B cl. destruct (F cl) as (cl' & F'). destruct (B cl') as (m & B1 & B2). exists (o ++ m). split; [apply F', B1 | apply G, B2]. Qed.
Lemma gives_lit w o : In (w, o) lits1 -> gives o w.
Proof.
  intros I. apply gives_step.
  - intros ->. revert I. unfold lits1. cbn. intuition discriminate.
  - intros m. pose proof post_lits as F. rewrite Forall_forall in F. apply (F _ I).
Qed.
Lemma lits1_ok : map fst lits1 = literals.
Proof. reflexivity. Qed.
Lemma letters_alnum n : Forall is_letter n -> Forall (fun c => alnum c = true) n.
Proof. intros F. eapply Forall_impl; [|exact F]. intros c H. apply is_letter_b in H. unfold alnum. rewrite H. reflexivity. Qed.
Lemma fwd_command g n x : n <> [] -> Forall is_letter n -> ~ In n odd_names -> next_not is_letter x -> next_not (among "*"%string) x -> (n = u "usepackage"%string -> next_not (among "["%string) x) ->
  fwd g (u "\"%string ++ n ++ x) (u "<"%string ++ n ++ u "/>"%string) g x.
Proof.
  intros Hn F Ho H1 H2 H3. rewrite app_assoc. apply fwd_step; [discriminate|]. intros cl. rewrite <- app_assoc. apply (step_command cl g n x Hn).
  - eapply Forall_impl; [|exact F]. intros c. apply is_letter_b.
  - exact Ho.
  - destruct x as [|c x]; [exact I|]. cbn. destruct (letter c) eqn:E; [|reflexivity]. apply is_letter_b in E. contradiction.
  - destruct x as [|c x]; [exact I|]. cbn. apply ceq_neq. intros ->. apply H2. left. reflexivity.
  - intros E. specialize (H3 E). destruct x as [|c x]; [exact I|]. cbn. apply ceq_neq. intros ->. apply H3. left. reflexivity.
Qed.
Lemma fwd_command_star g n x : n <> [] -> Forall is_letter n -> ~ In n odd_names -> fwd g (u "\"%string ++ n ++ u "*"%string ++ x) (u "<"%string ++ n ++ u "_STAR/>"%string) g x.
Proof.
  intros Hn F Ho. rewrite (app_assoc n), (app_assoc (u "\"%string)). apply fwd_step; [discriminate|]. intros cl. rewrite <- !app_assoc.
  replace (length (u "\"%string ++ n ++ u "*"%string)) with (S (S (length n))) by (cbn; rewrite app_length; cbn; lia). apply (step_star cl g n x Hn).
  - eapply Forall_impl; [|exact F]. intros c. apply is_letter_b.
  - exact Ho.
Qed.
Lemma fwd_l g x : next_not is_letter x -> next_not (among "*"%string) x -> fwd g (u "\l"%string ++ x) [197; 130]%N g x.
Proof.
  intros H1 H2. apply fwd_step; [discriminate|]. intros cl.
  assert (N1 : match x with c :: _ => letter c = false | [] => True end) by (destruct x as [|c x]; [exact I|]; destruct (letter c) eqn:E; [apply is_letter_b in E; contradiction | reflexivity]).
  assert (N2 : match x with c :: _ => (c =?c 42%N) = false | [] => True end) by (destruct x as [|c x]; [exact I|]; apply ceq_neq; intros ->; apply H2; left; reflexivity).
  eapply (step_at pre (P cl g) 92%N _ 1); [reflexivity | reflexivity | | | reflexivity].
  - rewrite <- firstn_map. change (map r_pat (filter _ _)) with (inits 92%N). rewrite all92_ok. change (firstn 1 _) with (firstn 1 head92). each; intros k E; upto E.
  - rewrite <- skipn_map. change (map r_pat (filter _ _)) with (inits 92%N). rewrite all92_ok. change (skipn 2 _) with (skipn 2 head92 ++ [BS ++ [One accs; One dot]] ++ firstn 4 mid92 ++ [BS ++ [Plus letter; One (eqc 42)]; BS ++ [Plus letter]] ++ tail92).
    apply Forall_app; split; [each; intros k E; upto E|]. apply Forall_app; split; [each; intros k E; upto E|]. apply Forall_app; split; [each; intros k E; upto E|].
    apply Forall_app; split; [|each; intros k E; upto E].
    assert (M : forall ps, mt (One (eqc 92) :: Plus letter :: ps) (u "\l"%string ++ x) = option_map S (option_map S (mt ps x))).
    { intros ps. change (u "\l"%string ++ x) with (92%N :: [108%N] ++ x). change (mt (One (eqc 92) :: Plus letter :: ps) (92%N :: [108%N] ++ x)) with (option_map S (mt (Plus letter :: ps) ([108%N] ++ x))).
      apply f_equal. refine (eq_trans (mt_plus letter [108%N] ps x _ _ N1) eq_refl); [discriminate | constructor; [reflexivity | constructor]]. }
    each.
    + intros k E. pose proof (eq_trans (eq_sym (M [One (eqc 42)])) E) as Q. cbn [mt] in Q. destruct x as [|c x]; [discriminate|]. unfold eqc in Q. rewrite N2 in Q. discriminate.
    + intros k E. pose proof (eq_trans (eq_sym (M [])) E) as Q. cbn in Q. injection Q as <-. cbn. lia.
Qed.
Lemma fwd_tie g a b x : a <> 10%N -> b <> 10%N -> fwd g ((u "\t{"%string ++ a :: b :: u "}"%string) ++ x) [a; b] g x.
Proof.
  intros Ha Hb. apply fwd_step; [discriminate|]. intros cl.
  assert (Da : dot a = true) by (unfold dot; rewrite (proj2 (ceq_neq a cNL) Ha); reflexivity). assert (Db : dot b = true) by (unfold dot; rewrite (proj2 (ceq_neq b cNL) Hb); reflexivity).
  eapply (step_at pre (P cl g) 92%N _ 0); [reflexivity | | apply Forall_nil | | reflexivity].
  - change (mt (lit (u "\t{"%string) ++ [One dot; One dot; One (eqc 125)]) (u "\t{"%string ++ (a :: b :: 125%N :: x)) = Some 6). rewrite mt_lit. cbn [mt]. rewrite Da, Db. reflexivity.
  - rewrite <- skipn_map. change (map r_pat (filter _ _)) with (inits 92%N). rewrite all92_ok. change (skipn 1 _) with (skipn 1 head92 ++ [BS ++ [One accs; One dot]] ++ mid92 ++ [BS ++ [Plus letter]] ++ tail92).
    each; intros k E; upto E.
Qed.
Lemma german_ok : Forall (fun p => lookc (fst p) umlauts = Some (snd p) /\ In (fst p) (u "oOaAuUsS"%string)) german.
Proof. unfold german. each; (split; [reflexivity | cbn; tauto]). Qed.

(** ** apertium-postlatex: rules that make no difference *)
Definition agree (n : nat) (p q : option (nat * rule)) : Prop :=
  p = q \/ (match p with Some (m, _) => m < n | None => True end) /\ (match q with Some (m, _) => m < n | None => True end).
Lemma pick_agree a q b c s n : (forall m, mt (r_pat q) s = Some m -> m < n) -> agree n (pick (a ++ b) c s) (pick (a ++ q :: b) c s).
Proof.
  intros H. induction a as [|x a IH]; cbn [app pick].
  - destruct (cond_eqb (r_cond q) c); [|left; reflexivity]. destruct (mt (r_pat q) s) as [k|] eqn:M; [|left; reflexivity]. specialize (H k eq_refl).
    destruct (pick b c s) as [(m, r)|]; [|right; auto]. destruct (Nat.leb_spec m k); [right; split; lia | left; reflexivity].
  - destruct (cond_eqb (r_cond x) c); [|exact IH]. destruct (mt (r_pat x) s) as [k|]; [|exact IH]. destruct IH as [->|(H1 & H2)]; [left; reflexivity|].
    destruct (pick (a ++ b) c s) as [(m1, r1)|], (pick (a ++ q :: b) c s) as [(m2, r2)|];
      repeat match goal with |- context[?u <=? ?v] => destruct (Nat.leb_spec u v) end; try (left; reflexivity); try (right; split; lia).
Qed.
Lemma pick_without a q b c s n r : (forall m, mt (r_pat q) s = Some m -> m < n) -> pick (a ++ b) c s = Some (n, r) <-> pick (a ++ q :: b) c s = Some (n, r).
Proof.
  intros H. destruct (pick_agree a q b c s n H) as [->|(H1 & H2)]; [tauto|]. split; intros E; rewrite E in *; lia.
Qed.
Definition hash_digits : list pat := lit (u "<HASH_"%string) ++ [Plus digit] ++ lit (u "/>"%string).
Definition hash_plain : list pat := lit (u "<HASH/>"%string).
Definition sym_rule : rule := R INITIAL [One (fun c => negb (letter c || (c =?c cNL)))] symbol_act.
Definition any_rule : rule := R INITIAL [One any] (act until_nul).
Definition any_math : rule := R mathenv [One any] (act until_nul).
Definition h1 : rule := R INITIAL hash_digits (act (fun t => u "\#"%string ++ cut 6 2 t)).
Definition h2 : rule := R INITIAL hash_plain (put (u "\#"%string)).
Definition A60 : list rule := filter (live INITIAL 60%N) post_common.
Lemma post60 : filter (live INITIAL 60%N) post = A60 ++ (post_begin :: post_tags) ++ [R INITIAL [One any] (act (fun t => t))].
Proof. reflexivity. Qed.
Lemma post2_60 : filter (live INITIAL 60%N) post2 = (A60 ++ [post_begin]) ++ h1 :: (h2 :: post_tags ++ [sym_rule; any_rule]).
Proof. reflexivity. Qed.
Lemma lift_pick A b T p f s n r : pick (A ++ (b :: T) ++ [R INITIAL [One p] f]) INITIAL s = Some (n, r) -> 2 <= n -> mt hash_digits s = None -> mt hash_plain s = None ->
  pick ((A ++ [b]) ++ h1 :: (h2 :: T ++ [sym_rule; any_rule])) INITIAL s = Some (n, r).
Proof.
  intros E L N1 N2.
  assert (One1 : forall p f m, mt (r_pat (R INITIAL [One p] f)) s = Some m -> m < n) by (intros p0 f0 m M; apply (mt_ones [One p0] eq_refl) in M; cbn in M; lia).
  rewrite app_assoc in E. apply pick_without in E; [|apply One1]. rewrite app_nil_r in E.
  apply pick_without; [intros m M; pose proof (eq_trans (eq_sym N1) M); discriminate|].
  apply pick_without; [intros m M; pose proof (eq_trans (eq_sym N2) M); discriminate|].
  rewrite app_assoc. apply pick_without; [apply One1|]. apply pick_without; [apply One1|].
  rewrite app_nil_r, <- app_assoc. exact E.
Qed.
Definition stepf (F : list rule) (s : str) : option (nat * str * st) :=
  match pick F INITIAL s with Some (n, r) => match r_act r init (firstn n s) with Some (o, y) => Some (n, o, y) | None => None end | None => None end.
Lemma step_init rs c s : step rs init (c :: s) = stepf (filter (live INITIAL c) rs) (c :: s).
Proof. unfold step, stepf. rewrite pick_filter. reflexivity. Qed.
Lemma stepf_some F s n o y : stepf F s = Some (n, o, y) <-> exists r, pick F INITIAL s = Some (n, r) /\ r_act r init (firstn n s) = Some (o, y).
Proof.
  unfold stepf. split.
  - destruct (pick F INITIAL s) as [(k, r)|]; [|discriminate]. destruct (r_act r init (firstn k s)) as [(o', y')|] eqn:A; [|discriminate]. intros [= <- <- <-]. exists r. auto.
  - intros (r & -> & ->). reflexivity.
Qed.
Lemma lift s n o y : step post init (60%N :: s) = Some (n, o, y) -> 2 <= n -> mt hash_digits (60%N :: s) = None -> mt hash_plain (60%N :: s) = None ->
  step post2 init (60%N :: s) = Some (n, o, y).
Proof.
  rewrite !step_init, post60, post2_60. intros S L N1 N2. apply stepf_some in S as (r & E & A). apply stepf_some. exists r. split; [exact (lift_pick _ _ _ _ _ _ _ _ E L N1 N2) | exact A].
Qed.
Definition gives2 (o y : str) : Prop := forall m r, lexes post2 init m r -> lexes post2 init (o ++ m) (y ++ r).
Lemma gives2_app o1 y1 o2 y2 : gives2 o1 y1 -> gives2 o2 y2 -> gives2 (o1 ++ o2) (y1 ++ y2).
Proof. intros H1 H2 m r H. rewrite <- !app_assoc. apply H1, H2, H. Qed.
Lemma gives2_nil : gives2 [] [].
Proof. intros m r H. exact H. Qed.
Lemma gives2_step o y : o <> [] -> (forall m, step post2 init (o ++ m) = Some (length o, y, init)) -> gives2 o y.
Proof. intros Ho S m r H. apply (step_over post2 init o m y init r Ho (S m) H). Qed.
Lemma gives2_word w : Forall (fun c => gives2 [c] [c]) w -> gives2 w w.
Proof. induction 1 as [|c w H _ IH]; [apply gives2_nil|]. apply (gives2_app [c] [c] w w); assumption. Qed.
Lemma gives1_lift t y : gives1 (60%N :: t) y -> t <> [] -> (forall m, mt hash_digits (60%N :: t ++ m) = None /\ mt hash_plain (60%N :: t ++ m) = None) -> gives2 (60%N :: t) y.
Proof.
  intros (_ & S) Ht H. apply gives2_step; [discriminate|]. intros m. destruct (H m) as (H1 & H2). apply lift; [exact (S m) | destruct t; [contradiction | cbn; lia] | exact H1 | exact H2].
Qed.
Lemma no_hash n T m : Forall (fun c => alnum c = true) n -> n <> [] -> outside alnum (T ++ m) -> (n = u "HASH"%string -> mt (lit (u "_"%string) ++ Plus digit :: lit (u "/>"%string)) (T ++ m) = None /\ mt (lit (u "/>"%string)) (T ++ m) = None) ->
  mt hash_digits (60%N :: n ++ T ++ m) = None /\ mt hash_plain (60%N :: n ++ T ++ m) = None.
Proof.
  intros F Hn HT H.
  assert (A : forall p0 more, (forall c, alnum c = true -> p0 c = false) -> (n = u "HASH"%string -> mt (One p0 :: more) (T ++ m) = None) -> mt (One (fun d => d =?c 60%N) :: lit (u "HASH"%string) ++ One p0 :: more) (60%N :: n ++ T ++ m) = None).
  { intros p0 more H0 Hq. match goal with |- ?p = None => destruct p as [k|] eqn:E end; [|reflexivity]. exfalso. pose proof (tag_word n T m F HT (u "HASH"%string) p0 more 0 eq_refl H0 Hq k E). lia. }
  split.
  - apply (A (fun d => d =?c 95%N) (Plus digit :: lit (u "/>"%string))); [intros c Hc; apply alnum_ne; [exact Hc | reflexivity] | intros Q; apply H, Q].
  - apply (A (fun d => d =?c 47%N) (lit (u ">"%string))); [intros c Hc; apply alnum_ne; [exact Hc | reflexivity] | intros Q; apply H, Q].
Qed.
Section Tags2.
  Variable n : str.
  Hypothesis Hn : n <> [].
  Hypothesis Fn : Forall (fun c => alnum c = true) n.
  Ltac lft T G Q := change (60%N :: n ++ T) with (60%N :: (n ++ T)); apply gives1_lift; [exact G | destruct n; [contradiction | discriminate] |]; intros m; rewrite <- app_assoc; apply no_hash; [exact Fn | exact Hn | reflexivity | Q].
  Lemma tag_gt2 : ~ In n env_names -> gives2 (60%N :: n ++ u ">"%string) (u "\begin{"%string ++ n ++ u "}"%string).
  Proof. intros H. lft (u ">"%string) (tag_gt n Hn Fn H) ltac:(intros _; split; reflexivity). Qed.
  Lemma tag_star_gt2 : gives2 (60%N :: n ++ u "_STAR>"%string) (u "\begin{"%string ++ n ++ u "*}"%string).
  Proof. lft (u "_STAR>"%string) (tag_star_gt n Hn Fn) ltac:(intros _; split; reflexivity). Qed.
  Lemma tag_slash2 : ~ In n tag_names -> gives2 (60%N :: n ++ u "/>"%string) (u "\"%string ++ n).
  Proof. intros H. lft (u "/>"%string) (tag_slash n Hn Fn H) ltac:(intros Q; exfalso; apply H; rewrite Q; cbn; tauto). Qed.
  Lemma tag_star_slash2 : gives2 (60%N :: n ++ u "_STAR/>"%string) (u "\"%string ++ n ++ u "*"%string).
  Proof. lft (u "_STAR/>"%string) (tag_star_slash n Hn Fn) ltac:(intros _; split; reflexivity). Qed.
  Lemma tag_close2 : ~ In n env_names -> gives2 (60%N :: 47%N :: n ++ u ">"%string) (u "\end{"%string ++ n ++ u "}"%string).
  Proof. intros H. apply (gives1_lift (47%N :: n ++ u ">"%string)); [exact (tag_close n Hn Fn H) | discriminate|]. intros m. split; reflexivity. Qed.
  Lemma tag_star_close2 : gives2 (60%N :: 47%N :: n ++ u "_STAR>"%string) (u "\end{"%string ++ n ++ u "*}"%string).
  Proof. apply (gives1_lift (47%N :: n ++ u "_STAR>"%string)); [exact (tag_star_close n Hn Fn) | discriminate|]. intros m. split; reflexivity. Qed.
End Tags2.
Lemma star_tag2 tag b o m r : Forall (fun c => c <> 60%N) b -> (tag = u "<COMMENT>"%string /\ o = u "%"%string \/ tag = u "<PARAM>"%string /\ o = u "["%string) ->
  lexes post2 init (60%N :: m) r -> lexes post2 init (tag ++ b ++ 60%N :: m) ((o ++ b) ++ r).
Proof.
  intros F H L. rewrite app_assoc. pose proof (star_step tag b o m F H) as S.
  apply (step_over post2 init (tag ++ b) (60%N :: m) (o ++ b) init r); [destruct H as [(-> & _)|(-> & _)]; discriminate | | exact L].
  destruct H as [(-> & ->)|(-> & ->)]; (apply lift; [exact S | cbn; lia | reflexivity | reflexivity]).
Qed.
Lemma gives2_comment b : Forall (fun c => c <> 60%N) b -> gives2 (u "<COMMENT>"%string ++ b ++ u "</COMMENT>"%string) (u "%"%string ++ b).
Proof.
  intros F m r L. rewrite <- (app_assoc (u "<COMMENT>"%string)), <- (app_assoc b). apply (star_tag2 (u "<COMMENT>"%string) b (u "%"%string) (u "/COMMENT>"%string ++ m) r F); [left; split; reflexivity|].
  exact (step_over post2 init (u "</COMMENT>"%string) m [] init r ltac:(discriminate) eq_refl L).
Qed.
Lemma gives2_param b : Forall (fun c => c <> 60%N) b -> gives2 (u "<PARAM>"%string ++ b ++ u "</PARAM>"%string) (u "["%string ++ b ++ u "]"%string).
Proof.
  intros F m r L. rewrite <- (app_assoc (u "<PARAM>"%string)), <- (app_assoc b), (app_assoc (u "["%string)), <- (app_assoc (u "["%string ++ b)).
  apply (star_tag2 (u "<PARAM>"%string) b (u "["%string) (u "/PARAM>"%string ++ m) (u "]"%string ++ r) F); [right; split; reflexivity|].
  exact (step_over post2 init (u "</PARAM>"%string) m (u "]"%string) init r ltac:(discriminate) eq_refl L).
Qed.
Lemma math_body2 b : Forall (fun c => c <> 0%N) b -> ~ has_part (u "</"%string) b -> forall m r, (exists q, m = 60%N :: q) -> lexes post2 M0 m r -> lexes post2 M0 (b ++ m) (b ++ r).
Proof.
  induction b as [|c b IH]; intros Fb Hb m r Hm L; [exact L|]. cbn [app]. change (c :: b ++ r) with ([c] ++ (b ++ r)). inversion Fb as [|? ? Hc Fb']; subst.
  assert (Hb' : ~ has_part (u "</"%string) b) by (intros (p & q & ->); apply Hb; exists (c :: p), q; reflexivity).
  apply (lexes_step post2 M0 (c :: b ++ m) 1 [c] M0 (b ++ r)); [discriminate | | apply (IH Fb' Hb' m r Hm L)].
  assert (Hn : forall d q, b ++ m = d :: q -> c = 60%N -> (d =?c 47%N) = false).
  { intros d q E ->. apply ceq_neq. intros ->. destruct b as [|e b]; [cbn in E; destruct Hm as (z & ->); discriminate|]. injection E as -> E. apply Hb. exists [], b. reflexivity. }
  unfold step. assert (P1 : pick post2 (s_cond M0) (c :: b ++ m) = Some (1, any_math)).
  { change post2 with (removelast post2 ++ any_math :: []). apply pick_best; [reflexivity | reflexivity | | apply below_nil].
    assert (A : Forall (fun q => cond_eqb (r_cond q) mathenv = true -> forall k, mt (r_pat q) (c :: b ++ m) = Some k -> False) (removelast post2)).
    { revert Hn. generalize (b ++ m). intros z Hn. cbv [post2 post_common post_begin post_tags removelast app map ligatures]. each; try discriminate; intros _ k E;
      (cbn in E; destruct (ceq_spec c 60%N) as [Ec|]; [|discriminate]; destruct z as [|d q]; [discriminate|]; rewrite (Hn d q eq_refl Ec) in E; discriminate). }
    intros q k I C E. exfalso. rewrite Forall_forall in A. exact (A q I C k E). }
  rewrite P1. change (match Some (until_nul [c], M0) with Some (o, y) => Some (1, o, y) | None => None end = Some (1, [c], M0)). cbn [until_nul]. rewrite (proj2 (ceq_neq c cNUL) Hc). reflexivity.
Qed.
Lemma gives2_math b : Forall (fun c => c <> 0%N) b -> ~ has_part (u "</"%string) b -> gives2 (u "<MATH_DOLLAR>"%string ++ b ++ u "</MATH_DOLLAR>"%string) (u "$"%string ++ b ++ u "$"%string).
Proof.
  intros F Hb m r L. rewrite <- !app_assoc. refine (step_over post2 init (u "<MATH_DOLLAR>"%string) _ (u "$"%string) M0 _ ltac:(discriminate) eq_refl _).
  apply (math_body2 b F Hb); [eexists; reflexivity|]. exact (step_over post2 M0 (u "</MATH_DOLLAR>"%string) m (u "$"%string) init r ltac:(discriminate) eq_refl L).
Qed.
Lemma gives2_display b : Forall (fun c => c <> 0%N) b -> ~ has_part (u "</"%string) b -> gives2 (u "<MATH_DOLLARS>"%string ++ b ++ u "</MATH_DOLLARS>"%string) (u "$$"%string ++ b ++ u "$$"%string).
Proof.
  intros F Hb m r L. rewrite <- !app_assoc. refine (step_over post2 init (u "<MATH_DOLLARS>"%string) _ (u "$$"%string) M0 _ ltac:(discriminate) eq_refl _).
  apply (math_body2 b F Hb); [eexists; reflexivity|]. exact (step_over post2 M0 (u "</MATH_DOLLARS>"%string) m (u "$$"%string) init r ltac:(discriminate) eq_refl L).
Qed.
Lemma post2_lits : Forall (fun p => keeps post2 init (snd p) (fst p)) lits1.
Proof. unfold keeps. repeat (apply Forall_cons; [intros s; reflexivity|]). apply Forall_nil. Qed.

(** ** apertium-postlatex: characters *)
Lemma look_not k m : Forall (fun p : str * str => fst p <> k) m -> look k m = None.
Proof. induction 1 as [|(a, b) m H _ IH]; [reflexivity|]. cbn [look]. rewrite (proj2 (str_eqb_neq a k) H). exact IH. Qed.
Lemma look_one c : look [c] camap = None.
Proof. apply look_not. unfold camap. each; discriminate. Qed.
Definition sign_heads : list str := map fst signs.
Definition post2_before : list rule := removelast (removelast (removelast post2)).
Lemma post2_split : post2 = post2_before ++ sym_rule :: [any_rule; any_math].
Proof. reflexivity. Qed.
Lemma before_heads c : c <> 38%N -> c <> 60%N -> Forall (fun q => cond_eqb (r_cond q) INITIAL = false \/ can c (r_pat q) = false \/ In (r_pat q) (map lit sign_heads)) post2_before.
Proof.
  intros H1 H2. assert (E1 : (c =?c 38%N) = false) by (apply ceq_neq, H1). assert (E2 : (c =?c 60%N) = false) by (apply ceq_neq, H2).
  cbv [post2_before post2 post_common post_begin post_tags removelast app map ligatures]. each; first [left; reflexivity | right; left; first [exact E1 | exact E2] | right; right; cbn; tauto].
Qed.
Definition no_head (s : str) : Prop := forall w, In w sign_heads -> mt (lit w) s = None.
Lemma before_none c s : c <> 38%N -> c <> 60%N -> no_head (c :: s) -> forall n, below post2_before INITIAL (c :: s) n.
Proof.
  intros H1 H2 H n q m I C M. exfalso. pose proof (before_heads c H1 H2) as F. rewrite Forall_forall in F. destruct (F q I) as [Q|[Q|Q]].
  - congruence.
  - rewrite (can_none _ _ _ Q) in M. discriminate.
  - apply in_map_iff in Q as (w & E & Iw). pose proof (H w Iw) as N. rewrite E in N. pose proof (eq_trans (eq_sym N) M). discriminate.
Qed.
Lemma sym_step buf c s : letter c = false -> c <> 10%N -> c <> 38%N -> c <> 60%N -> c <> 0%N -> no_head (c :: s) ->
  step post2 (mkst INITIAL buf false) (c :: s) = match symbol_act (mkst INITIAL buf false) [c] with Some (o, y) => Some (1, o, y) | None => None end.
Proof.
  intros Hl H1 H2 H3 _ H. unfold step. replace (pick post2 (s_cond (mkst INITIAL buf false)) (c :: s)) with (Some (1, sym_rule)); [reflexivity|]. symmetry.
  rewrite post2_split. apply pick_best; [reflexivity | | exact (before_none c s H2 H3 H 1) |].
  - cbn [sym_rule r_pat mt]. rewrite Hl. change cNL with 10%N. rewrite (proj2 (ceq_neq c 10%N) H1). reflexivity.
  - apply below_cons; [intros m M; cbn in M; injection M as <-; lia|]. apply below_cons; [intros m M; cbn in M; injection M as <-; lia | apply below_nil].
Qed.
Lemma any_step c s : letter c = true \/ c = 10%N -> step post2 init (c :: s) = Some (1, [c], init).
Proof.
  intros H. assert (H0 : c <> 38%N /\ c <> 60%N /\ c <> 0%N /\ negb (letter c || (c =?c cNL)) = false /\ c <> 194%N /\ c <> 195%N /\ c <> 197%N).
  { destruct H as [H| ->]; [|repeat split; discriminate]. repeat split; try (intros ->; discriminate H). rewrite H. reflexivity. }
  destruct H0 as (H1 & H2 & H3 & H4 & H5 & H6 & H7). unfold step. replace (pick post2 (s_cond init) (c :: s)) with (Some (1, any_rule)).
  { cbn [any_rule r_act act firstn until_nul]. rewrite (proj2 (ceq_neq c cNUL) H3). reflexivity. }
  symmetry. change post2 with ((post2_before ++ [sym_rule]) ++ any_rule :: [any_math]). apply pick_best; [reflexivity | reflexivity | | apply below_cons; [intros m M; cbn in M; injection M as <-; lia | apply below_nil]].
  intros q m I C M. apply in_app_iff in I as [I|[<-|[]]].
  - refine (before_none c s H1 H2 _ 1 q m I C M). intros w Iw. assert (A : Forall (fun w => match w with a :: _ => (c =?c a) = false | [] => False end) sign_heads).
    { unfold sign_heads, signs. cbn [map fst]. each; apply ceq_neq; assumption. }
    rewrite Forall_forall in A. specialize (A w Iw). destruct w as [|a w]; [destruct A|]. cbn [lit map mt]. rewrite A. reflexivity.
  - cbn [sym_rule r_pat mt] in M. rewrite H4 in M. discriminate.
Qed.
Lemma no_head_ascii c s : (c < 194)%N -> no_head (c :: s).
Proof.
  intros H w Iw. assert (A : Forall (fun w => match w with a :: _ => (194 <= a)%N | [] => False end) sign_heads).
  { unfold sign_heads, signs. cbn [map fst]. each; cbn; lia. }
  rewrite Forall_forall in A. specialize (A w Iw). destruct w as [|a w]; [destruct A|]. cbn [lit map mt]. rewrite (proj2 (ceq_neq c a)); [reflexivity|]. lia.
Qed.
Lemma gives2_ascii c : (c < 128)%N -> c <> 38%N -> c <> 60%N -> c <> 0%N -> gives2 [c] [c].
Proof.
  intros H H1 H2 H3. apply gives2_step; [discriminate|]. intros m. cbn [app length].
  destruct (letter c) eqn:L; [apply any_step; left; exact L|]. destruct (N.eq_dec c 10) as [->|N]; [apply any_step; right; reflexivity|].
  change init with (mkst INITIAL [] false). rewrite (sym_step [] c m L N H1 H2 H3) by (apply no_head_ascii; lia).
  unfold symbol_act. cbn [until_nul]. rewrite (proj2 (ceq_neq c cNUL) H3). cbn [s_close app utf8_valid]. replace (c <? 128)%N with true by (symmetry; apply N.ltb_lt, H). cbn [bmp].
  rewrite look_one. reflexivity.
Qed.
Lemma gives2_ascii_word w : Forall (fun c => (c < 128)%N /\ c <> 38%N /\ c <> 60%N /\ c <> 0%N) w -> gives2 w w.
Proof. intros F. apply gives2_word. eapply Forall_impl; [|exact F]. intros c (A & B & C & D). apply gives2_ascii; assumption. Qed.
(* characters there is LaTeX for *)
Lemma gives2_sign c o : In (c, o) signs -> gives2 c o.
Proof.
  intros I. apply gives2_step.
  - revert I. unfold signs. cbn [map fst snd]. intros I. repeat (destruct I as [[= <- _]|I]; [discriminate|]). destruct I.
  - intros m. revert I. unfold signs. cbn [map fst snd]. intros I. repeat (destruct I as [[= <- <-]|I]; [reflexivity|]). destruct I.
Qed.
Lemma gives2_collect a b o : (forall m, step post2 init (a :: b :: m) = Some (1, [], mkst INITIAL [a] false)) -> (forall m, step post2 (mkst INITIAL [a] false) (b :: m) = Some (1, o, init)) -> gives2 [a; b] o.
Proof.
  intros S1 S2 m r L. change (o ++ r) with ([] ++ (o ++ r)). apply (lexes_step post2 init ([a; b] ++ m) 1 [] (mkst INITIAL [a] false) (o ++ r)); [discriminate | apply S1|].
  apply (lexes_step post2 (mkst INITIAL [a] false) (b :: m) 1 o init r); [discriminate | apply S2 | exact L].
Qed.
Lemma gives2_collect3 a b c o : (forall m, step post2 init (a :: b :: c :: m) = Some (1, [], mkst INITIAL [a] false)) ->
  (forall m, step post2 (mkst INITIAL [a] false) (b :: c :: m) = Some (1, [], mkst INITIAL [a; b] false)) -> (forall m, step post2 (mkst INITIAL [a; b] false) (c :: m) = Some (1, o, init)) -> gives2 [a; b; c] o.
Proof.
  intros S1 S2 S3 m r L. change (o ++ r) with ([] ++ (o ++ r)). apply (lexes_step post2 init ([a; b; c] ++ m) 1 [] (mkst INITIAL [a] false) (o ++ r)); [discriminate | apply S1|].
  change (o ++ r) with ([] ++ (o ++ r)). apply (lexes_step post2 (mkst INITIAL [a] false) (b :: c :: m) 1 [] (mkst INITIAL [a; b] false) (o ++ r)); [discriminate | apply S2|].
  apply (lexes_step post2 (mkst INITIAL [a; b] false) (c :: m) 1 o init r); [discriminate | apply S3 | exact L].
Qed.
Lemma gives2_accented c o : In (c, o) accented -> gives2 c o.
Proof.
  unfold accented. cbn [map fst snd]. intros I. repeat (destruct I as [[= <- <-]|I]; [first [apply gives2_collect; intros m; reflexivity | apply gives2_collect3; intros m; reflexivity]|]). destruct I.
Qed.
Lemma gives2_written c o : In (c, o) (accented ++ signs) -> gives2 c o.
Proof. intros I. apply in_app_iff in I as [I|I]; [apply gives2_accented, I | apply gives2_sign, I]. Qed.
(* other characters *)
Lemma camap_keys : map fst camap = map fst accented.
Proof. reflexivity. Qed.
Lemma letter_ascii c : (128 <= c)%N -> letter c = false.
Proof. intros H. unfold letter. destruct (N.leb_spec 65 c), (N.leb_spec c 90), (N.leb_spec 97 c), (N.leb_spec c 122); cbn; try reflexivity; lia. Qed.
Lemma sym_high buf c s : (128 <= c)%N -> no_head (c :: s) ->
  step post2 (mkst INITIAL buf false) (c :: s) = match symbol_act (mkst INITIAL buf false) [c] with Some (o, y) => Some (1, o, y) | None => None end.
Proof. intros H N. apply sym_step; [apply letter_ascii, H | lia | lia | lia | lia | exact N]. Qed.
Lemma is_cont_b c : cont c -> is_cont c = true.
Proof. intros (A & B). unfold is_cont. apply Bool.andb_true_iff. split; apply N.leb_le; assumption. Qed.
Lemma heads_two : Forall (fun w => exists a b, w = [a; b] /\ (194 <= a <= 197)%N) sign_heads.
Proof. unfold sign_heads, signs. cbn [map fst]. each; (eexists _, _; split; [reflexivity | split; intros Q; discriminate Q]). Qed.
Lemma gives2_other c : utf8 c -> ~ In c (map fst (accented ++ signs)) -> gives2 c c.
Proof.
  intros U N. rewrite map_app in N. rewrite in_app_iff in N.
  assert (LK : look c camap = None).
  { apply look_not. apply Forall_forall. intros p I E. apply N. left. rewrite <- camap_keys, <- E. apply in_map, I. }
  destruct U as [a b (A1 & A2) B|a b c (A1 & A2) B C S1 S2].
  - pose proof (is_cont_b b B) as Kb. destruct B as (B1 & B2). apply gives2_collect; intros m.
    + change init with (mkst INITIAL [] false). rewrite sym_high; [|lia|].
      * unfold symbol_act. cbn [until_nul]. rewrite (proj2 (ceq_neq a cNUL)) by (unfold cNUL; lia). cbn [s_close app utf8_valid].
        replace (a <? 128)%N with false by (symmetry; apply N.ltb_ge; lia). replace (194 <=? a)%N with true by (symmetry; apply N.leb_le; lia). replace (a <=? 223)%N with true by (symmetry; apply N.leb_le; lia). reflexivity.
      * intros w I. destruct (mt (lit w) (a :: b :: m)) as [k|] eqn:E; [|reflexivity]. exfalso. pose proof heads_two as F. rewrite Forall_forall in F. destruct (F w I) as (a' & b' & -> & _).
        cbn [lit map mt] in E. destruct (ceq_spec a a') as [<-|]; [|discriminate]. destruct (ceq_spec b b') as [<-|]; [|discriminate]. apply N. right. exact I.
    + rewrite sym_high; [|lia | apply no_head_ascii; lia]. unfold symbol_act. cbn [until_nul]. rewrite (proj2 (ceq_neq b cNUL)) by (unfold cNUL; lia). cbn [s_close app utf8_valid].
      replace (a <? 128)%N with false by (symmetry; apply N.ltb_ge; lia). replace (194 <=? a)%N with true by (symmetry; apply N.leb_le; lia). replace (a <=? 223)%N with true by (symmetry; apply N.leb_le; lia).
      rewrite Kb. cbn [andb bmp]. match goal with |- context[look ?k camap] => replace (look k camap) with (@None str) by (symmetry; exact LK) end. reflexivity.
  - pose proof (is_cont_b b B) as Kb. pose proof (is_cont_b c C) as Kc. destruct B as (B1 & B2), C as (C1 & C2).
    assert (E1 : (a <? 128)%N = false) by (apply N.ltb_ge; lia). assert (E2 : ((194 <=? a) && (a <=? 223))%N = false) by (replace (a <=? 223)%N with false by (symmetry; apply N.leb_gt; lia); apply Bool.andb_false_r).
    assert (E3 : ((224 <=? a) && (a <=? 239))%N = true) by (apply Bool.andb_true_iff; split; apply N.leb_le; lia).
    assert (E4 : (negb (a =? 224) || (160 <=? b))%N = true) by (destruct (N.eqb_spec a 224); [cbn; apply N.leb_le; auto | reflexivity]).
    assert (E5 : (negb (a =? 237) || (b <=? 159))%N = true) by (destruct (N.eqb_spec a 237); [cbn; apply N.leb_le; auto | reflexivity]).
    apply gives2_collect3; intros m.
    + change init with (mkst INITIAL [] false). rewrite sym_high; [|lia|].
      * unfold symbol_act. cbn [until_nul]. rewrite (proj2 (ceq_neq a cNUL)) by (unfold cNUL; lia). cbn [s_close app utf8_valid]. rewrite E1, E2, E3. reflexivity.
      * intros w I. pose proof heads_two as F. rewrite Forall_forall in F. destruct (F w I) as (a' & b' & -> & Ha). cbn [lit map mt]. rewrite (proj2 (ceq_neq a a')) by lia. reflexivity.
    + rewrite sym_high; [|lia | apply no_head_ascii; lia]. unfold symbol_act. cbn [until_nul]. rewrite (proj2 (ceq_neq b cNUL)) by (unfold cNUL; lia). cbn [s_close app utf8_valid]. rewrite E1, E2, E3. reflexivity.
    + rewrite sym_high; [|lia | apply no_head_ascii; lia]. unfold symbol_act. cbn [until_nul]. rewrite (proj2 (ceq_neq c cNUL)) by (unfold cNUL; lia). cbn [s_close app utf8_valid]. rewrite E1, E2, E3, Kb, Kc, E4, E5.
      cbn [andb bmp]. match goal with |- context[look ?k camap] => replace (look k camap) with (@None str) by (symmetry; exact LK) end. reflexivity.
Qed.
(* numbers *)
Lemma digit_b c : (48 <= c <= 57)%N -> digit c = true.
Proof. intros (A & B). unfold digit. apply Bool.andb_true_iff. split; apply N.leb_le; assumption. Qed.
Lemma not_digit x : next_not (fun c => 48 <= c <= 57)%N x -> outside digit x.
Proof. destruct x as [|c x]; [auto|]. cbn [next_not outside]. intros H. destruct (digit c) eqn:E; [|reflexivity]. exfalso. apply H. unfold digit in E. apply Bool.andb_true_iff in E as (A & B). apply N.leb_le in A, B. auto. Qed.
Lemma fwd_number g x : next_not (fun c => 48 <= c <= 57)%N x -> fwd g (u "\#"%string ++ x) (u "<HASH/>"%string) g x.
Proof.
  intros H. apply not_digit in H. apply fwd_step; [discriminate|]. intros cl. eapply (step_at pre (P cl g) 92%N _ 5); [reflexivity | reflexivity | | | reflexivity].
  - rewrite <- firstn_map. change (map r_pat (filter _ _)) with (inits 92%N). rewrite all92_ok. change (firstn 5 _) with (firstn 5 head92). each; intros k E; try upto E.
    cbn -[digit] in E. destruct x as [|c x]; [discriminate|]. cbn [span] in E. rewrite H in E. discriminate.
  - rewrite <- skipn_map. change (map r_pat (filter _ _)) with (inits 92%N). rewrite all92_ok. change (skipn 6 _) with (skipn 6 head92 ++ [BS ++ [One accs; One dot]] ++ mid92 ++ [BS ++ [Plus letter]] ++ tail92).
    each; intros k E; upto E.
Qed.
Lemma fwd_digits g (d x : str) : d <> [] -> Forall (fun c => 48 <= c <= 57)%N d -> next_not (fun c => 48 <= c <= 57)%N x -> fwd g ((u "\#"%string ++ d) ++ x) (u "<HASH_"%string ++ d ++ u "/>"%string) g x.
Proof.
  intros Hd F H. apply not_digit in H. assert (Fd : Forall (fun c => digit c = true) d) by (eapply Forall_impl; [|exact F]; exact digit_b).
  apply fwd_step; [discriminate|]. intros cl. rewrite <- app_assoc.
  assert (M : mt (lit (u "\#"%string) ++ [Plus digit]) (u "\#"%string ++ d ++ x) = Some (length (u "\#"%string ++ d))).
  { rewrite mt_lit. pose proof (mt_plus digit d [] x Hd Fd H) as Q. match goal with |- option_map _ ?p = _ => replace p with (Some (length d)) by (symmetry; refine (eq_trans Q _); cbn [mt option_map]; rewrite Nat.add_0_r; reflexivity) end. rewrite app_length. reflexivity. }
  eapply (step_at pre (P cl g) 92%N _ 4); [reflexivity | exact M | | |].
  - rewrite <- firstn_map. change (map r_pat (filter _ _)) with (inits 92%N). rewrite all92_ok. change (firstn 4 _) with (firstn 4 head92). each; intros k E; upto E.
  - rewrite <- skipn_map. change (map r_pat (filter _ _)) with (inits 92%N). rewrite all92_ok. change (skipn 5 _) with (skipn 5 head92 ++ [BS ++ [One accs; One dot]] ++ mid92 ++ [BS ++ [Plus letter]] ++ tail92).
    each; intros k E; upto E.
  - change (92%N :: [35%N] ++ d ++ x) with (u "\#"%string ++ d ++ x). rewrite app_assoc. refine (eq_trans (act_whole _ (P cl g) (u "\#"%string ++ d) x) _). reflexivity.
Qed.
Lemma hash_rule (d m : str) : d <> [] -> Forall (fun c => digit c = true) d -> mt hash_digits (u "<HASH_"%string ++ d ++ u "/>"%string ++ m) = Some (length (u "<HASH_"%string ++ d ++ u "/>"%string)).
Proof.
  intros Hd F. unfold hash_digits. rewrite mt_lit. cbn [app]. rewrite (mt_plus digit d (lit (u "/>"%string)) (u "/>"%string ++ m) Hd F eq_refl).
  rewrite <- (app_nil_r (lit (u "/>"%string))), mt_lit. cbn [mt option_map]. rewrite !app_length. reflexivity.
Qed.
Lemma digits_back (d : str) : d <> [] -> Forall (fun c => 48 <= c <= 57)%N d -> gives2 (u "<HASH_"%string ++ d ++ u "/>"%string) (u "\#"%string ++ d).
Proof.
  intros Hd F. assert (Fd : Forall (fun c => digit c = true) d) by (eapply Forall_impl; [|exact F]; exact digit_b).
  apply gives2_step; [discriminate|]. intros m. rewrite <- !app_assoc. change (u "<HASH_"%string ++ d ++ u "/>"%string ++ m) with (60%N :: u "HASH_"%string ++ d ++ u "/>"%string ++ m).
  rewrite step_init, post2_60. apply stepf_some. exists h1. split.
  - apply pick_best; [reflexivity | exact (hash_rule d m Hd Fd) | |].
    + apply below_pats. change (map r_pat (A60 ++ [post_begin])) with (head60 ++ [lit (u "<"%string) ++ [Plus alnum] ++ lit (u ">"%string)]). each; intros k E; cbn in E; discriminate.
    + apply below_pats. change (map r_pat (h2 :: post_tags ++ [sym_rule; any_rule])) with (hash_plain :: map r_pat post_tags ++ [r_pat sym_rule; r_pat any_rule]).
      destruct d as [|c d]; [contradiction|]. inversion F as [|? ? Hc _]; subst. each; intros k E; cbn in E; try discriminate; try (injection E as <-; cbn; lia).
      all: rewrite (proj2 (ceq_neq c 83%N)) in E by lia; discriminate E.
  - set (w := u "<HASH_"%string ++ d ++ u "/>"%string). set (f := fun t : str => u "\#"%string ++ cut 6 2 t).
    transitivity (act f init (firstn (length w) (w ++ m))).
    + apply (f_equal (fun z => act f init (firstn (length w) z))). unfold w. rewrite <- !app_assoc. reflexivity.
    + rewrite act_whole. unfold f, w. change 6 with (length (u "<HASH_"%string)). change 2 with (length (u "/>"%string)). rewrite (cut_mid (u "<HASH_"%string) [] d (u "/>"%string) eq_refl). reflexivity.
Qed.

(** ** Pieces *)
Lemma gives2_fixed o y : o <> [] -> (forall m, step post2 init (o ++ m) = Some (length o, y, init)) -> (forall m, step post init (o ++ m) = Some (length o, y, init)) -> gives o y /\ gives2 o y.
Proof. intros H A B. split; [apply gives_step; assumption | apply gives2_step; assumption]. Qed.
Lemma both_ascii w : Forall (fun c => (c < 128)%N /\ c <> 38%N /\ c <> 60%N /\ c <> 0%N /\ c <> 35%N) w -> gives w w /\ gives2 w w.
Proof.
  intros F. split.
  - apply gives_word. eapply Forall_impl; [|exact F]. intros c (A & B & C & D & E). apply gives_free; apply ceq_neq; try assumption. lia.
  - apply gives2_ascii_word. eapply Forall_impl; [|exact F]. intros c (A & B & C & D & E). auto.
Qed.
Lemma ord_both c : ordinary c -> (c < 128)%N -> gives [c] [c] /\ gives2 [c] [c].
Proof.
  intros H L. split; [apply gives_ord, H|]. ord H. apply gives2_ascii; [exact L | | |]; apply ceq_neq; assumption.
Qed.
Lemma white_both w : Forall white w -> gives w w /\ gives2 w w.
Proof. intros F. apply both_ascii. eapply Forall_impl; [|exact F]. intros c [->|[->|[->| ->]]]; repeat split; try discriminate. Qed.
Lemma both_app o1 y1 o2 y2 : gives o1 y1 /\ gives2 o1 y1 -> gives o2 y2 /\ gives2 o2 y2 -> gives (o1 ++ o2) (y1 ++ y2) /\ gives2 (o1 ++ o2) (y1 ++ y2).
Proof. intros (A & B) (C & D). split; [apply gives_app | apply gives2_app]; assumption. Qed.
Lemma comment_both b : Forall (fun c => c <> 60%N) b -> gives (comment_act (u "%"%string ++ b)) (u "%"%string ++ b) /\ gives2 (comment_act (u "%"%string ++ b)) (u "%"%string ++ b).
Proof.
  intros F. split; [apply comment_back, F|]. unfold comment_act, is_cr. destruct (rev (u "%"%string ++ b)) as [|c q] eqn:E; [apply (gives2_comment b F)|]. destruct (N.eqb_spec c 13) as [->|]; [|apply (gives2_comment b F)].
  apply (f_equal (@rev _)) in E. rewrite rev_involutive in E. cbn [rev] in E. destruct (rev q) as [|d z] eqn:Z; [discriminate|]. injection E as <- ->.
  change (u "%"%string ++ z ++ [13%N]) with ([37%N] ++ z ++ [13%N]). assert (C : cut 1 1 ([37%N] ++ z ++ [13%N]) = z) by exact (cut_mid [37%N] [] z [13%N] eq_refl). rewrite C. rewrite (app_assoc [37%N]), (app_assoc z), (app_assoc (u "<COMMENT>"%string)).
  apply gives2_app; [apply gives2_comment; apply Forall_app in F; apply F | apply gives2_ascii; [lia | discriminate..]].
Qed.
Lemma verb_both d b : among "|!?/+"%string d -> Forall (fun c => verbatim d c /\ c <> 0%N /\ (c < 128)%N) b ->
  gives (u "<VERB>"%string ++ ([d] ++ b ++ [d]) ++ u "</VERB>"%string) (u "\verb"%string ++ [d] ++ b ++ [d]) /\
  gives2 (u "<VERB>"%string ++ ([d] ++ b ++ [d]) ++ u "</VERB>"%string) (u "\verb"%string ++ [d] ++ b ++ [d]).
Proof.
  intros Hd F. split; [apply (gives_verb d b Hd); eapply Forall_impl; [|exact F]; intros c H; apply H|].
  rewrite <- (app_nil_r (u "\verb"%string ++ _)), <- (app_assoc (u "\verb"%string)). apply gives2_app; [apply gives2_step; [discriminate | reflexivity]|].
  apply gives2_app; [|apply gives2_step; [discriminate | reflexivity]]. apply gives2_word. assert (D : gives2 [d] [d]) by (cbn in Hd; destruct Hd as [<-|[<-|[<-|[<-|[<-|[]]]]]]; (apply gives2_ascii; [lia | discriminate..])).
  apply Forall_app; split; [constructor; [exact D | constructor]|]. apply Forall_app; split; [|constructor; [exact D | constructor]].
  eapply Forall_impl; [|exact F]. intros c ((_ & A & _) & B & C). apply gives2_ascii; first [assumption | intros ->; apply A; cbn; tauto].
Qed.
Definition comes (w : str) (g : bool) (x : str) (g' : bool) : Prop := exists m, fwd g (w ++ x) m g' x /\ gives m w /\ gives2 m w.
Theorem piece_comes g w g' x : piece g w g' x -> comes w g x g'.
Proof.
  intros H. destruct H; unfold comes.
  - exists [c]. split; [exact (fwd_ord g c x H) | apply ord_both; assumption].
  - exists [c]. split; [exact (fwd_mark g c x H H0)|]. apply both_ascii. constructor; [|constructor]. cbn in H. destruct H as [<-|[<-|[]]]; repeat split; try discriminate.
  - exists (u "&quot;"%string). split; [exact (fwd_quote g x H)|]. apply gives2_fixed; [discriminate | reflexivity..].
  - exists [34%N; c]. split; [exact (fwd_umlaut false c x _ H eq_refl)|]. apply both_ascii. revert c H. apply Forall_forall. unfold u. each; repeat split; try discriminate.
  - rewrite <- lits1_ok in H. apply in_map_iff in H as ((w', o) & <- & I). exists o. split; [exact (fwd_fixed g w' x o I)|]. split; [exact (gives_lit w' o I)|]. apply gives2_step.
    + intros ->. revert I. unfold lits1. cbn. intuition discriminate.
    + intros m. pose proof post2_lits as F. rewrite Forall_forall in F. apply (F _ I).
  - exists (u "<CONTENTS>"%string). split; [exact (fwd_open g x H)|]. apply gives2_fixed; [discriminate | reflexivity..].
  - exists [92%N]. split; [exact (fwd_backslash g x H)|]. apply both_ascii. constructor; [repeat split; discriminate | constructor].
  - exists (u "<"%string ++ n ++ u "/>"%string). split; [rewrite <- app_assoc; exact (fwd_command g n x H H0 H1 H3 H4 H5)|].
    split; [exact (gives1_gives _ _ (tag_slash n H (letters_alnum n H0) H2)) | exact (tag_slash2 n H (letters_alnum n H0) H2)].
  - exists (u "<"%string ++ n ++ u "_STAR/>"%string). split; [rewrite <- !app_assoc; exact (fwd_command_star g n x H H0 H1)|].
    split; [exact (gives1_gives _ _ (tag_star_slash n H (letters_alnum n H0))) | exact (tag_star_slash2 n H (letters_alnum n H0))].
  - assert (Fa : Forall (fun c => alnum c = true) n) by (eapply Forall_impl; [|exact H1]; intros d; apply is_alnum_b). pose proof (white_both w H3) as Gw.
    destruct H as [->| ->].
    + eexists. split; [rewrite <- !app_assoc; exact (fwd_environment g _ [] n w x (or_introl (conj eq_refl eq_refl)) H0 H1 H3 H4)|].
      replace (u "\begin{"%string ++ n ++ u "}"%string ++ w) with ((u "\begin{"%string ++ n ++ u "}"%string) ++ w) by (rewrite <- !app_assoc; reflexivity).
      apply both_app; [split; [exact (gives1_gives _ _ (tag_gt n H0 Fa H2)) | exact (tag_gt2 n H0 Fa H2)] | exact Gw].
    + eexists. split; [rewrite <- !app_assoc; exact (fwd_environment g _ (u "/"%string) n w x (or_intror (conj eq_refl eq_refl)) H0 H1 H3 H4)|].
      replace (u "\end{"%string ++ n ++ u "}"%string ++ w) with ((u "\end{"%string ++ n ++ u "}"%string) ++ w) by (rewrite <- !app_assoc; reflexivity).
      apply both_app; [split; [exact (gives1_gives _ _ (tag_close n H0 Fa H2)) | exact (tag_close2 n H0 Fa H2)] | exact Gw].
  - assert (Fa : Forall (fun c => alnum c = true) n) by (eapply Forall_impl; [|exact H1]; intros d; apply is_alnum_b). pose proof (white_both w H2) as Gw.
    destruct H as [->| ->].
    + eexists. split; [rewrite <- !app_assoc; exact (fwd_environment_star g _ [] n w x (or_introl (conj eq_refl eq_refl)) H0 H1 H2 H3)|].
      replace (u "\begin{"%string ++ n ++ u "*}"%string ++ w) with ((u "\begin{"%string ++ n ++ u "*}"%string) ++ w) by (rewrite <- !app_assoc; reflexivity).
      apply both_app; [split; [exact (gives1_gives _ _ (tag_star_gt n H0 Fa)) | exact (tag_star_gt2 n H0 Fa)] | exact Gw].
    + eexists. split; [rewrite <- !app_assoc; exact (fwd_environment_star g _ (u "/"%string) n w x (or_intror (conj eq_refl eq_refl)) H0 H1 H2 H3)|].
      replace (u "\end{"%string ++ n ++ u "*}"%string ++ w) with ((u "\end{"%string ++ n ++ u "*}"%string) ++ w) by (rewrite <- !app_assoc; reflexivity).
      apply both_app; [split; [exact (gives1_gives _ _ (tag_star_close n H0 Fa)) | exact (tag_star_close2 n H0 Fa)] | exact Gw].
  - eexists. split; [rewrite <- !app_assoc; exact (fwd_param g b x H) | split; [exact (gives_param b H0) | exact (gives2_param b H0)]].
  - assert (Fb : Forall (fun c => c <> 60%N) b) by (eapply Forall_impl; [|exact H0]; intros c (A & _); exact A).
    exists (u "<usepackage/><PARAM>"%string ++ b ++ u "</PARAM>"%string). split.
    + rewrite <- !app_assoc. apply (fwd_package g b x g H); [eapply Forall_impl; [|exact H0]; intros c (_ & A); exact A|].
      destruct (contains (u "ngerman"%string) b) eqn:E; [apply contains_spec in E; contradiction | destruct g; reflexivity].
    + change (u "<usepackage/><PARAM>"%string ++ b ++ u "</PARAM>"%string) with (u "<usepackage/>"%string ++ u "<PARAM>"%string ++ b ++ u "</PARAM>"%string).
      change (u "\usepackage["%string ++ b ++ u "]"%string) with (u "\usepackage"%string ++ u "["%string ++ b ++ u "]"%string).
      apply both_app; [apply gives2_fixed; [discriminate | reflexivity..] | split; [apply gives_param, Fb | apply gives2_param, Fb]].
  - assert (Fb : Forall (fun c => c <> 60%N) b) by (eapply Forall_impl; [|exact H0]; intros c (A & _); exact A).
    exists (u "<usepackage/><PARAM>"%string ++ b ++ u "</PARAM>"%string). split.
    + rewrite <- !app_assoc. apply (fwd_package g b x true H); [eapply Forall_impl; [|exact H0]; intros c (_ & A); exact A|].
      apply contains_spec in H1. rewrite H1, Bool.orb_true_r. reflexivity.
    + change (u "<usepackage/><PARAM>"%string ++ b ++ u "</PARAM>"%string) with (u "<usepackage/>"%string ++ u "<PARAM>"%string ++ b ++ u "</PARAM>"%string).
      change (u "\usepackage["%string ++ b ++ u "]"%string) with (u "\usepackage"%string ++ u "["%string ++ b ++ u "]"%string).
      apply both_app; [apply gives2_fixed; [discriminate | reflexivity..] | split; [apply gives_param, Fb | apply gives2_param, Fb]].
  - assert (Fb : Forall (fun c => c <> 0%N) b) by (eapply Forall_impl; [|exact H0]; intros c (_ & A); exact A).
    eexists. split; [rewrite <- !app_assoc; exact (fwd_math g b x H H0 H2) | split; [exact (gives_math b H1) | exact (gives2_math b Fb H1)]].
  - assert (Fb : Forall (fun c => c <> 0%N) b) by (eapply Forall_impl; [|exact H]; intros c (_ & A); exact A).
    eexists. split; [rewrite <- !app_assoc; exact (fwd_display g b x H) | split; [exact (gives_display b H0) | exact (gives2_display b Fb H0)]].
  - eexists. split; [rewrite <- app_assoc; apply (fwd_comment g b x); [eapply Forall_impl; [|exact H]; intros c (A & B); exact A | exact H0]|].
    apply comment_both. eapply Forall_impl; [|exact H]. intros c (A & B). exact B.
  - eexists. split; [rewrite <- !app_assoc; apply (fwd_verb g d b x H H0); eapply Forall_impl; [|exact H1]; intros c A; apply A|]. apply verb_both; assumption.
Qed.

(** ** Both ways *)
Theorem tex_back e g x y : tex e g x y -> back g x y.
Proof.
  induction 1.
  - intros cl. exists []. split; constructor.
  - destruct (piece_comes g w g' x H) as (m & F & G & _). exact (back_token g _ m g' x w y F G IHtex).
  - exact (back_token g (c :: x) [c] g x [c] y (fwd_ord g c x H) (gives_ord c H) IHtex).
  - exact (back_token g (194%N :: c :: x) [194%N; c] g x [194%N; c] y (fwd_latin g c x H) (gives_latin c H H0 H1) IHtex).
  - replace (u "\verb"%string ++ [d] ++ b ++ [d] ++ y) with ((u "\verb"%string ++ [d] ++ b ++ [d]) ++ y) by (rewrite <- !app_assoc; reflexivity).
    exact (back_token g _ _ g x _ y (fwd_verb g d b x H H0 H1) (gives_verb d b H H1) IHtex).
  - refine (back_token g _ _ g x o y (fwd_ligature g l o x H0) _ IHtex). revert H0. unfold ligs. cbn [map fst snd]. intros J. repeat (destruct J as [[= <- <-]|J]; [apply gives_bytes; reflexivity|]). destruct J.
  - rewrite (app_assoc a), (app_assoc (u "\"%string)). refine (back_token g _ _ g x o y (fwd_accent g a l o x H0) _ IHtex). revert H0. unfold acc1. cbn [map fst snd]. intros J. repeat (destruct J as [[= <- <- <-]|J]; [apply gives_bytes; reflexivity|]). destruct J.
  - replace (u "\"%string ++ a ++ u "{"%string ++ l ++ u "}"%string ++ x) with ((u "\"%string ++ a ++ u "{"%string ++ l ++ u "}"%string) ++ x) by (rewrite <- !app_assoc; reflexivity).
    refine (back_token g _ _ g x o y (fwd_accent_braces g a l o x H0) _ IHtex). revert H0. unfold acc1. cbn [map fst snd]. intros J. repeat (destruct J as [[= <- <- <-]|J]; [apply gives_bytes; reflexivity|]). destruct J.
  - refine (back_token g _ _ g x o y (fwd_acc2 g l o x H0) _ IHtex). revert H0. unfold acc2. cbn [map fst snd]. intros J. repeat (destruct J as [[= <- <-]|J]; [apply gives_bytes; reflexivity|]). destruct J.
  - exact (back_token g _ _ g x [197; 130]%N y (fwd_l g x H0 H1) (gives_bytes [197; 130]%N eq_refl) IHtex).
  - refine (back_token g _ _ g x [a; b] y (fwd_tie g a b x H2 H3) _ IHtex). exact (gives_app [a] [a] [b] [b] (gives_ord a H0) (gives_ord b H1)).
  - pose proof german_ok as G. rewrite Forall_forall in G. destruct (G _ H0) as (G1 & G2). cbn [fst snd] in G1, G2.
    refine (back_token true (34%N :: c :: x) o true x o y (fwd_umlaut true c x o G2 _) _ IHtex); [rewrite G1; reflexivity|].
    revert H0. unfold german. cbn [map fst snd]. intros J. repeat (destruct J as [[= <- <-]|J]; [apply gives_bytes; reflexivity|]). destruct J.
  - refine (back_token g _ [194; 191]%N g x (u "?`"%string) y _ _ IHtex).
    + apply (fwd_app g _ [194%N] g (191%N :: x) [191%N]); apply fwd_plain; try discriminate; unfold pre_heads; each; reflexivity.
    + apply gives_step; [discriminate | reflexivity].
  - refine (back_token g _ [194; 161]%N g x (u "!`"%string) y _ _ IHtex).
    + apply (fwd_app g _ [194%N] g (161%N :: x) [161%N]); apply fwd_plain; try discriminate; unfold pre_heads; each; reflexivity.
    + apply gives_step; [discriminate | reflexivity].
  - refine (back_token g _ [35%N] g x (u "\#"%string) y _ _ IHtex); [apply fwd_plain; [unfold pre_heads; each; reflexivity | discriminate] | apply gives_step; [discriminate | reflexivity]].
Qed.
Theorem tex_trip e x y : tex e false x y ->
  exists m, (exists f0, forall f, f0 <= f -> lex f pre init x = Some m) /\ (exists f0, forall f, f0 <= f -> lex f post init m = Some y).
Proof. intros H. destruct (tex_back e false x y H []) as (m & H1 & H2). exists m. split; [exact (lexes_lex _ _ _ _ H1) | exact (lexes_lex _ _ _ _ H2)]. Qed.
Theorem tex_same g x y : tex true g x y -> y = x.
Proof. induction 1; try discriminate; try (rewrite IHtex; reflexivity); subst; reflexivity. Qed.
Definition back2 (g : bool) (x y : str) : Prop := forall cl, exists m, lexes pre (P cl g) x m /\ lexes post2 init m y.
Lemma back2_token g x o g' x' y1 y : fwd g x o g' x' -> gives2 o y1 -> back2 g' x' y -> back2 g x (y1 ++ y).
Proof. intros F G B cl. destruct (F cl) as (cl' & F'). destruct (B cl') as (m & B1 & B2). exists (o ++ m). split; [apply F', B1 | apply G, B2]. Qed.
Lemma fwd_high g c x : (128 <= c)%N -> fwd g (c :: x) [c] g x.
Proof. intros H. apply fwd_plain; [unfold pre_heads; each; apply ceq_neq; lia | lia]. Qed.
Lemma fwd_word g w x : Forall (fun c => 128 <= c)%N w -> fwd g (w ++ x) w g x.
Proof.
  induction 1 as [|c w H _ IH]; [intros cl; exists cl; intros r L; exact L|]. exact (fwd_app g _ [c] g (w ++ x) w g x (fwd_high g c (w ++ x) H) IH).
Qed.
Lemma written_high : Forall (fun p => Forall (fun c => 128 <= c)%N (fst p)) (accented ++ signs).
Proof. unfold accented, signs. cbn [map fst snd app]. each; intros Q; discriminate Q. Qed.
Lemma utf8_high c : utf8 c -> Forall (fun c => 128 <= c)%N c.
Proof. unfold cont. intros [a b (A & _) (B & _)|a b d (A & _) (B & _) (C & _) _ _]; each; lia. Qed.
Definition strs_eqb (p q : str * str) : bool := str_eqb (fst p) (fst q) && str_eqb (snd p) (snd q).
Lemma in_strs p l : existsb (strs_eqb p) l = true -> In p l.
Proof.
  intros H. apply existsb_exists in H as ((a, b) & I & E). destruct p as (c, d). unfold strs_eqb in E. cbn [fst snd] in E. apply Bool.andb_true_iff in E as (E1 & E2).
  apply str_eqb_eq in E1, E2. subst. exact I.
Qed.
Lemma acc1_accented a l o : In (a, l, o) acc1 -> In (o, u "\"%string ++ a ++ u "{"%string ++ l ++ u "}"%string) accented.
Proof.
  assert (A : forallb (fun p => existsb (strs_eqb (snd p, u "\"%string ++ fst (fst p) ++ u "{"%string ++ snd (fst p) ++ u "}"%string)) accented) acc1 = true) by (vm_compute; reflexivity).
  intros I. rewrite forallb_forall in A. apply in_strs. exact (A _ I).
Qed.
Lemma ligs_signs l o : In (l, o) ligs -> In (o, l) (accented ++ signs).
Proof.
  assert (A : forallb (fun p => existsb (strs_eqb (snd p, fst p)) (accented ++ signs)) ligs = true) by (vm_compute; reflexivity).
  intros I. rewrite forallb_forall in A. apply in_strs. exact (A _ I).
Qed.
Lemma fwd_braces g c o x : In (c, o) accented -> fwd g (o ++ x) c g x.
Proof.
  intros I. apply fwd_step.
  - revert I. unfold accented. cbn [map fst snd]. intros I. repeat (destruct I as [[= _ <-]|I]; [discriminate|]). destruct I.
  - intros cl. revert I. unfold accented. cbn [map fst snd]. intros I. repeat (destruct I as [[= <- <-]|I]; [destruct g; vm_compute; reflexivity|]). destruct I.
Qed.
Theorem canon_back g x y : canon g x y -> back2 g x y.
Proof.
  induction 1.
  - intros cl. exists []. split; constructor.
  - destruct (piece_comes g w g' x H) as (m & F & _ & G). exact (back2_token g _ m g' x w y F G IHcanon).
  - refine (back2_token g _ c g x o y (fwd_word g c x _) (gives2_written c o H) IHcanon). pose proof written_high as A. rewrite Forall_forall in A. exact (A _ H).
  - exact (back2_token g _ c g x c y (fwd_word g c x (utf8_high c H)) (gives2_other c H H0) IHcanon).
  - apply in_map_iff in H as (((a', l'), o) & [= -> ->] & I). replace (u "\"%string ++ a ++ u "{"%string ++ l ++ u "}"%string ++ y) with ((u "\"%string ++ a ++ u "{"%string ++ l ++ u "}"%string) ++ y) by (rewrite <- !app_assoc; reflexivity).
    rewrite (app_assoc a), (app_assoc (u "\"%string)). exact (back2_token g _ _ g x _ y (fwd_accent g a l o x I) (gives2_accented _ _ (acc1_accented a l o I)) IHcanon).
  - exact (back2_token g _ _ g x _ y (fwd_braces g c o x H) (gives2_accented c o H) IHcanon).
  - apply in_map_iff in H as ((l', o) & <- & I). exact (back2_token g _ _ g x _ y (fwd_ligature g l' o x I) (gives2_written o l' (ligs_signs l' o I)) IHcanon).
  - refine (back2_token g _ _ g x (u "ĵ"%string) y (fwd_acc2 g (u "\^{\j}"%string) (u "ĵ"%string) x _) (gives2_other (u "ĵ"%string) _ _) IHcanon).
    + cbn. tauto.
    + change (utf8 [196; 181]%N). apply U_two; [lia | unfold cont; lia].
    + intros I. assert (A : existsb (str_eqb (u "ĵ"%string)) (map fst (accented ++ signs)) = false) by (vm_compute; reflexivity).
      rewrite <- Bool.not_true_iff_false in A. apply A. apply existsb_exists. eexists. split; [exact I | apply str_eqb_refl].
  - refine (back2_token g _ _ g x (u "\l"%string) y (fwd_l g x H H0) (gives2_sign (u "ł"%string) (u "\l"%string) _) IHcanon). left. reflexivity.
  - refine (back2_token g _ _ g x [a; b] y (fwd_tie g a b x H3 H4) _ IHcanon). exact (gives2_app [a] [a] [b] [b] (proj2 (ord_both a H H1)) (proj2 (ord_both b H0 H2))).
  - pose proof german_ok as G. rewrite Forall_forall in G. destruct (G _ H) as (G1 & G2). cbn [fst snd] in G1, G2.
    refine (back2_token true (34%N :: c :: x) l true x o y (fwd_umlaut true c x l G2 _) (gives2_written l o H0) IHcanon). rewrite G1. reflexivity.
  - refine (back2_token g _ [35%N] g x (u "#"%string) y _ (gives2_ascii 35%N _ _ _ _) IHcanon); [apply fwd_plain; [unfold pre_heads; each; reflexivity | discriminate] | lia | discriminate..].
  - refine (back2_token g _ _ g x (u "\#"%string) y (fwd_number g x H) _ IHcanon). apply gives2_step; [discriminate | reflexivity].
  - rewrite (app_assoc _ d y), (app_assoc _ d x). exact (back2_token g _ _ g x _ y (fwd_digits g d x H H0 H1) (digits_back d H H0) IHcanon).
Qed.
Theorem canon_trip x y : canon false x y ->
  exists m, (exists f0, forall f, f0 <= f -> lex f pre init x = Some m) /\ (exists f0, forall f, f0 <= f -> lex f post2 init m = Some y).
Proof. intros H. destruct (canon_back false x y H []) as (m & H1 & H2). exists m. split; [exact (lexes_lex _ _ _ _ H1) | exact (lexes_lex _ _ _ _ H2)]. Qed.

(** ** Bytes that are not UTF-8 *)
Lemma invalid_255 t : utf8_valid (255%N :: t) = false.
Proof. reflexivity. Qed.
Theorem invalid_lost w : Forall (fun c => (c < 128)%N /\ ~ is_letter c /\ c <> 10%N /\ c <> 38%N /\ c <> 60%N /\ c <> 0%N) w -> exists f0, forall f, f0 <= f -> lex f post2 init (255%N :: w) = Some [].
Proof.
  intros F. apply lexes_lex. assert (A : forall t, lexes post2 (mkst INITIAL (255%N :: t) false) w []).
  { induction F as [|c w (H1 & H2 & H3 & H4 & H5 & H6) _ IH]; intros t; [constructor|].
    assert (L : letter c = false) by (destruct (letter c) eqn:E; [apply is_letter_b in E; contradiction | reflexivity]).
    apply (lexes_step post2 _ (c :: w) 1 [] (mkst INITIAL (255%N :: t ++ [c]) false) []); [discriminate | | apply IH].
    rewrite (sym_step _ c w L H3 H4 H5 H6) by (apply no_head_ascii; lia). unfold symbol_act. cbn [until_nul]. rewrite (proj2 (ceq_neq c cNUL) H6). cbn [s_close app]. rewrite invalid_255. reflexivity. }
  apply (lexes_step post2 init (255%N :: w) 1 [] (mkst INITIAL [255%N] false) []); [discriminate | | apply (A [])].
  change init with (mkst INITIAL [] false). rewrite sym_high; [reflexivity | lia|].
  intros v I. pose proof heads_two as G. rewrite Forall_forall in G. destruct (G v I) as (a & b & -> & Ha). cbn [lit map mt]. rewrite (proj2 (ceq_neq 255%N a)) by lia. reflexivity.
Qed.

(** ** The name of an environment that never ends *)
Lemma rb_stuck cl g c s f : alnum c = false -> wsp c = false -> c <> 123%N -> c <> 125%N -> lex f pre (RB cl g) (c :: s) = None.
Proof.
  intros H1 H2 H3 H4. induction f as [|f IH]; [reflexivity|]. cbn [lex]. unfold step.
  assert (K : pick pre (s_cond (RB cl g)) (c :: s) = Some (0, rb1)).
  { change (s_cond (RB cl g)) with readbrackets. rewrite pick_cond, rb_ok. refine (pick_best [] rb1 [rb2; rb3; rb4] readbrackets _ _ eq_refl _ _ _).
    - apply rb1_name; [exact H2 | apply ceq_neq, H3].
    - apply below_nil.
    - apply below_cons; [|apply below_cons; [|apply below_cons; [|apply below_nil]]]; intros m M; exfalso.
      + rewrite (can_none c (r_pat rb2) s H1) in M. discriminate.
      + rewrite (can_none c (r_pat rb3) s H1) in M. discriminate.
      + rewrite (rb4_name c s H2 (proj2 (ceq_neq c 125%N) H4)) in M. discriminate. }
  rewrite K. change (option_map (app []) (lex f pre (RB cl g) (c :: s)) = None). rewrite IH. reflexivity.
Qed.
Lemma env_name_any cl g n c s : n <> [] -> Forall (fun d => alnum d = true) n -> alnum c = false -> wsp c = false -> c <> 42%N -> c <> 123%N -> c <> 125%N ->
  step pre (RB cl g) (n ++ c :: s) = Some (length n, u "<"%string ++ cl ++ n ++ u ">"%string, RB cl g).
Proof.
  intros Hn F H1 H2 H3 H4 H5. destruct n as [|a q] eqn:E; [contradiction|]. inversion F as [|? ? Ha _]; subst. unfold step.
  assert (Hs : match c :: s with d :: _ => alnum d = false | [] => True end) by exact H1.
  assert (K : pick pre (s_cond (RB cl g)) ((a :: q) ++ c :: s) = Some (length (a :: q), rb3)).
  { change (s_cond (RB cl g)) with readbrackets. rewrite pick_cond, rb_ok. refine (pick_best [rb1; rb2] rb3 [rb4] readbrackets _ _ eq_refl _ _ _).
    - refine (eq_trans (mt_plus alnum (a :: q) [] (c :: s) ltac:(discriminate) F Hs) _). cbn [mt option_map]. rewrite Nat.add_0_r. reflexivity.
    - apply below_cons; [|apply below_cons; [|apply below_nil]].
      + intros m M. cbn [app] in M. rewrite (rb1_name a _ (alnum_wsp a Ha) (alnum_ne a 123%N Ha eq_refl)) in M. injection M as <-. cbn. lia.
      + intros m M. pose proof (eq_trans (eq_sym (mt_plus alnum (a :: q) [One (eqc 42)] (c :: s) ltac:(discriminate) F Hs)) M) as Q. cbn [mt] in Q. unfold eqc in Q. rewrite (proj2 (ceq_neq c 42%N) H3) in Q. discriminate.
    - apply below_cons; [|apply below_nil]. intros m M. cbn [app] in M. rewrite (rb4_name a _ (alnum_wsp a Ha) (alnum_ne a 125%N Ha eq_refl)) in M. discriminate. }
  rewrite K. unfold rb3. cbn [r_act]. rewrite firstn_app, firstn_all, Nat.sub_diag. cbn [firstn]. rewrite app_nil_r. reflexivity.
Qed.
Theorem hang kw n c s f : kw = u "\begin{"%string \/ kw = u "\end{"%string -> Forall is_alnum n -> ~ is_alnum c -> ~ white c -> ~ among "*{}"%string c ->
  lex f pre init (kw ++ n ++ c :: s) = None.
Proof.
  intros Hk F H1 H2 H3.
  assert (F' : Forall (fun d => alnum d = true) n) by (eapply Forall_impl; [|exact F]; intros d; apply is_alnum_b).
  assert (A1 : alnum c = false) by (destruct (alnum c) eqn:E; [apply is_alnum_b in E; contradiction | reflexivity]).
  assert (A2 : wsp c = false) by (destruct (wsp c) eqn:E; [apply white_b in E; contradiction | reflexivity]).
  assert (A3 : c <> 42%N /\ c <> 123%N /\ c <> 125%N) by (repeat split; intros ->; apply H3; cbn; tauto). destruct A3 as (A3 & A4 & A5).
  assert (N : forall cl g f, lex f pre (RB cl g) (n ++ c :: s) = None).
  { intros cl g k. destruct n as [|a q]; [apply rb_stuck; assumption|]. destruct k as [|k]; [reflexivity|]. cbn [lex].
    change ((a :: q) ++ c :: s) with (a :: q ++ c :: s). cbv iota. change (a :: q ++ c :: s) with ((a :: q) ++ c :: s).
    rewrite (env_name_any cl g (a :: q) c s ltac:(discriminate) F' A1 A2 A3 A4 A5), skipn_len, (rb_stuck cl g c s k A1 A2 A4 A5). reflexivity. }
  destruct f as [|f]; [reflexivity|]. destruct Hk as [->| ->].
  - change (lex (S f) pre init (u "\begin{"%string ++ n ++ c :: s)) with (option_map (app []) (lex f pre (RB [] false) (n ++ c :: s))). rewrite N. reflexivity.
  - change (lex (S f) pre init (u "\end{"%string ++ n ++ c :: s)) with (option_map (app []) (lex f pre (RB (u "/"%string) false) (n ++ c :: s))). rewrite N. reflexivity.
Qed.
