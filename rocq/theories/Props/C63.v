(** C63: the rules of a capitalisation file (apertium-compile-caps) and the case apertium-restore-caps writes. *)
From Coq Require Import String ZArith.
From Verif Require Import Model.Base Model.Codec Model.FeatureVec Model.Caps Model.CapsRules Spec.MorphoStream Spec.Caps Spec.CapsRules.
From Verif Require Import Proofs.Base Proofs.FeatureVec Proofs.Caps Proofs.CapsCompile Proofs.CapsValid Proofs.CapsRun Proofs.CapsDocs Props.C36.
Open Scope nat_scope.

(** The restorer with the machine a rule file is compiled to *)
Definition restore {W : Type} (w0 : W) wadd wge (weights : list W) tolower totitle toupper (isupper : char -> bool) (t : trans) (delete_wblanks late : bool) : str -> option str :=
  process W w0 wadd wge (weight_of w0 (load_weights weights)) tolower totitle toupper (list conf) (st_init t) (st_step_optional t null_boundary) (st_step_optional t word_boundary)
    (st_word isupper t) (st_finals t) st_dead (st_merge t) delete_wblanks late.
(** For every rule file that compiles, weights, notion of upper case, and well-formed documents: the restorer answers, and writes every word
    with the case that has most evidence, where the votes are those of the rules whose pattern (alternatives, repetitions, beginning of the
    document, source case, lemma, tags, surface) matches words ending at the word read, one vote per rule, counted once for every word it ends at.
    There is no other hypothesis about the machine: that no vote reaches outside the words read is proved.
    Partial: no ? or + directly after + or * in tags (refuted below), no / in lemmas and surfaces of rules and words (refuted below), and what
    C36 is partial about. *)
Theorem C63_restore_partial : forall (W : Type) (w0 : W) wadd wge weights tolower totitle toupper isupper rules t delete_wblanks late d ds,
  (forall a b, wge a b = true \/ wge b a = true) -> (forall a b c, wge a b = true -> wge b c = true -> wge a c = true) ->
  compile isupper rules = Some t -> Forall (Forall plain_node) rules -> Forall wf_cdoc (d :: ds) -> Forall good_doc (d :: ds) ->
  exists s, restore w0 wadd wge weights tolower totitle toupper isupper t delete_wblanks late (cdocs_text d ds) = Some s /\
    rdocs_out isupper W w0 weights rules wadd wge tolower totitle toupper delete_wblanks late d ds s.
Proof.
  intros W w0 wadd wge weights tolower totitle toupper isupper rules t del late d ds T1 T2 C PL WF GD. unfold restore.
  destruct (process_docs W w0 wadd wge (weight_of w0 (load_weights weights)) tolower totitle toupper (list conf) (st_init t) (st_step_optional t null_boundary) (st_step_optional t word_boundary)
    (st_word isupper t) (st_finals t) st_dead (st_merge t) del late T1 T2 ds d (S (List.length (cdocs_text d ds))) WF) as (s & H1 & H2).
  - eapply docs_fit_compiled; eauto.
  - lia.
  - exists s. split; [exact H1|]. eapply docs_out_compiled; eauto.
Qed.
Print Assumptions C63_restore_partial.

(** What is written is determined by that specification. *)
Lemma note_fun l s1 k1 s2 k2 : caps_note l s1 k1 -> caps_note l s2 k2 -> s1 = s2 /\ k1 = k2.
Proof.
  assert (G : forall l1 (p : str) r1 l2 q r2, l1 ++ p :: r1 = l2 ++ q :: r2 -> Forall (fun x => ~ is_caps x) l1 -> Forall (fun x => ~ is_caps x) l2 -> is_caps p -> is_caps q -> l1 = l2 /\ p = q).
  { induction l1 as [|x l1 IH]; intros p r1 [|y l2] q r2 E F1 F2 C1 C2; cbn [app] in E; injection E as E1 E2; subst.
    - auto.
    - inversion F2; contradiction.
    - inversion F1; contradiction.
    - inversion F1; inversion F2; subst. destruct (IH _ _ _ _ _ E2) as [-> ->]; auto. }
  intros [l1 F1|l1 q1 r1 F1] H2; inversion H2 as [l2 F2|l2 q2 r2 F2 E]; subst; auto.
  - exfalso. apply Forall_app in F1. destruct F1 as [_ F1]. inversion F1 as [|? ? K _]; subst. apply K. eexists; reflexivity.
  - exfalso. apply Forall_app in F2. destruct F2 as [_ F2]. inversion F2 as [|? ? K _]; subst. apply K. eexists; reflexivity.
  - apply G in E; auto; [|eexists; reflexivity|eexists; reflexivity]. destruct E as [-> E]. split; [|reflexivity]. congruence.
Qed.
Lemma sorted_same {A K} (lt : K -> K -> bool) (key : A -> K) (irr : forall k, lt k k = false) (asy : forall a b, lt a b = true -> lt b a = false) : forall l1 l2,
  sorted lt (map key l1) = true -> sorted lt (map key l2) = true -> (forall x, In x l1 <-> In x l2) -> l1 = l2.
Proof.
  induction l1 as [|x l1 IH]; intros [|y l2] S1 S2 E; [reflexivity|destruct (proj2 (E y)); left; reflexivity|destruct (proj1 (E x)); left; reflexivity|].
  cbn [map] in S1, S2. apply sorted_cons in S1. apply sorted_cons in S2. destruct S1 as [A1 S1], S2 as [A2 S2].
  assert (x = y). { destruct (proj1 (E x) (or_introl eq_refl)) as [Q|Q]; [congruence|]. destruct (proj2 (E y) (or_introl eq_refl)) as [K2|K2]; [congruence|].
    assert (L1 : lt (key x) (key y) = true) by (apply A1, in_map, K2). assert (L2 : lt (key y) (key x) = true) by (apply A2, in_map, Q). apply asy in L1. congruence. }
  subst y. f_equal. apply IH; auto. intros z. split; intros Hz.
  - destruct (proj1 (E z) (or_intror Hz)) as [<-|Q]; [|exact Q]. exfalso. assert (L : lt (key x) (key x) = true) by (apply A1, in_map, Hz). rewrite irr in L. discriminate.
  - destruct (proj2 (E z) (or_intror Hz)) as [<-|Q]; [|exact Q]. exfalso. assert (L : lt (key x) (key x) = true) by (apply A2, in_map, Hz). rewrite irr in L. discriminate.
Qed.
Lemma counted_fun isupper W (w0 : W) weights rules what v1 v2 : counted isupper W w0 weights rules what v1 -> counted isupper W w0 weights rules what v2 -> v1 = v2.
Proof.
  intros (p1 & -> & S1 & H1) (p2 & -> & S2 & H2). f_equal. apply (sorted_same str_lt (fun x => rule_id (fst x)) Proofs.ConstantManager.str_lt_irrefl Proofs.Codec.str_lt_asym); auto.
  intros [i p]. rewrite H1, H2. reflexivity.
Qed.
Theorem C63_unique : forall (W : Type) (w0 : W) wadd wge weights tolower totitle toupper isupper rules delete_wblanks late d ds s s',
  rdocs_out isupper W w0 weights rules wadd wge tolower totitle toupper delete_wblanks late d ds s ->
  rdocs_out isupper W w0 weights rules wadd wge tolower totitle toupper delete_wblanks late d ds s' -> s = s'.
Proof.
  intros W w0 wadd wge weights tolower totitle toupper isupper rules del late.
  assert (WF : forall l a b, words_of l a -> words_of l b -> a = b).
  { intros l a b H. revert b. induction H as [|w l src kept r K H IH]; intros b Hb; inversion Hb; subst; [reflexivity|]. f_equal; [|auto]. f_equal. f_equal. eapply note_fun; eauto. }
  assert (VF : forall l done bl a b, doc_votes isupper W w0 weights rules done l bl a -> doc_votes isupper W w0 weights rules done l bl b -> a = b).
  { induction l as [|w l IH]; intros done bl a b; cbn [doc_votes].
    - destruct bl; [|congruence]. intros (v & -> & H1) (v' & -> & H2). f_equal. eapply counted_fun; eauto.
    - intros (v & vs & -> & H1 & H2) (v' & vs' & -> & H3 & H4). f_equal; [eapply counted_fun; eauto|eauto]. }
  assert (OF : forall l vs a b, words_out W w0 wadd wge tolower totitle toupper del l vs a -> words_out W w0 wadd wge tolower totitle toupper del l vs b -> a = b).
  { intros l vs a b H. revert b. induction H as [|w l v vs src kept c s K Hc H IH]; intros b Hb; inversion Hb as [|? ? ? ? src' kept' c' s2 K' Hc' Hb']; subst; [reflexivity|].
    destruct (note_fun _ _ _ _ _ K K') as [_ <-]. rewrite (C36_chosen_unique _ _ _ _ _ Hc Hc'). rewrite (IH _ Hb'). reflexivity. }
  assert (DF : forall last d a b, rdoc_out isupper W w0 weights rules wadd wge tolower totitle toupper del late last d a -> rdoc_out isupper W w0 weights rules wadd wge tolower totitle toupper del late last d b -> a = b).
  { intros last d a b [ws vs s H1 H2 H3] [ws' vs' s' H4 H5 H6]. rewrite (WF _ _ _ H4 H1) in H5. rewrite (VF _ _ _ _ _ H5 H2) in H6. rewrite (OF _ _ _ _ H6 H3). reflexivity. }
  intros d ds. revert d. induction ds as [|d' ds IH]; intros d s s' H1 H2; inversion H1; inversion H2; subst; [eauto|]. f_equal; [eauto|]. f_equal. eauto.
Qed.
Print Assumptions C63_unique.

(** A rule file is compiled exactly if no match has both a lemma and a case for the lemma (or both for the surface), every select is one of
    AA, Aa, aa, dix, and every repetition has 0 <= from <= upto. *)
Theorem C63_compiles : forall isupper rules, (exists t, compile isupper rules = Some t) <-> Forall (Forall valid) rules.
Proof. intros. apply compile_valid. Qed.
Print Assumptions C63_compiles.

(** ** the rule files of the repository's tests *)
Definition isup (c : char) : bool := ((65 <=? c) && (c <=? 90))%N.
Definition sel s := mkcm None None None None None None None (Some (u s)).
Definition basic : list (list cnode) := [[NMatch (sel "aa")]; [NOr [NMatch (mkcm (Some (u "iPhone")) None None None None None None (Some (u "dix"))); NMatch (mkcm (Some (u "iPod")) None None None None None None (Some (u "dix")))]];
  [NMatch (mkcm None (Some [u "np"; u "*"]) None None None None None (Some (u "Aa")))]]%string.
Definition br : list (list cnode) := [[NRepeat 3 5 [NMatch (mkcm None None None (Some (u "AA")) None None None (Some (u "AA")))]];
  [NOr [NBegin; NMatch (mkcm None (Some [u "sent"; u "*"]) None None None None None None)]; NMatch (sel "Aa")];
  [NMatch (mkcm None None None None None None (Some (u "*aA")) (Some (u "dix")))]]%string.
Definition go rules (ws : list nat) (inp : string) := match compile isup rules with None => None | Some t => restore 0 Nat.add (fun a b => b <=? a) ws low title (map up1) isup t false false (u inp) end.
Example ex_basic : map (go basic [1; 10; 9]) ["[[c:AA/AA]]^xyz<vblex>/XyZ$ ^qry<adj>/Qry$"; "^iPhone<np><top>/iPhone$"; "^daniel<np><top>/daniel$"]%string =
  map (fun s => Some (u s)) ["[[c:AA/AA]]xyz[[/]] qry"; "iPhone"; "Daniel"]%string.
Proof. vm_compute. reflexivity. Qed.
Example ex_repeat : map (go br [12; 5; 10]) ["[1] [[c:AA/aa]]^the<det><def>/the$ [[c:AA/aa]]^big<adj><sint>/big$ [[c:AA/aa]]^dog<n><sg>/dog$"; "[3] ^something<n>/something$^.<sent>/.$ [[c:AA/aa]]^the<det><def>/the$"]%string =
  map (fun s => Some (u s)) ["[1] [[c:AA/aa]]THE[[/]] [[c:AA/aa]]BIG[[/]] [[c:AA/aa]]DOG[[/]]"; "[3] Something. [[c:AA/aa]]The[[/]]"]%string.
Proof. vm_compute. reflexivity. Qed.
Ltac plain_rules := repeat match goal with
  | |- Forall _ [] => constructor
  | |- Forall _ (_ :: _) => constructor
  | |- plain_node _ => constructor
  | |- plain_match _ => split; [cbn; repeat split; vm_compute; intuition discriminate|split; vm_compute; intuition discriminate]
  end.
Example ex_plain : Forall (Forall plain_node) basic /\ Forall (Forall plain_node) br.
Proof. unfold basic, br. split; plain_rules. Qed.
Definition exc := mkcd [w "[1] " ["c:AA/aa"] "the<n>" "the"; w " " ["c:AA/aa"] "big<n>" "big"; w " " ["c:AA/aa"] "dog<n>" "dog"]%string (u "!"%string).
Ltac good := first [eexists; split; [repeat first [apply T_nil | apply (T_tag (u "n"%string)); [vm_compute; intuition discriminate|] | apply T_char; [discriminate|discriminate|]]|
  repeat first [apply Forall_nil | apply Forall_cons; [vm_compute; intuition discriminate|]]]].
Example ex_good : Forall good_doc [exc].
Proof. repeat constructor; cbn [c_form c_surf w]; try (intros f E; injection E as <-); good. Qed.
Example ex_wfc : Forall wf_cdoc [exc].
Proof.
  repeat first [apply Forall_cons|apply Forall_nil|split]; wf.
  all: try (apply (W_super (u "1"%string) [cSP]); [|intros r K; vm_compute in K; discriminate|]; wf).
Qed.
Example ex_restored : match compile isup br with None => None | Some t => restore 0 Nat.add (fun a b => b <=? a) [12; 5; 10] low title (map up1) isup t true false (cdocs_text exc []) end = Some (u "[1] THE BIG DOG!"%string).
Proof. vm_compute. reflexivity. Qed.

(** FINDING: a ? (or +) after * or + in tags asks for nothing: insertSingleTransduction takes the loop that is there. *)
Definition starq := [[NMatch (mkcm None (Some [u "*"; u "?"]) None None None None None (Some (u "AA")))]]%string.
Theorem C63_tags_refuted : go starq [1] "^x/foo$"%string = Some (u "FOO"%string) /\ ~ tag_text [u "*"; u "?"]%string [].
Proof.
  split; [vm_compute; reflexivity|]. intros H. inversion H as [| | | |l1 s l F T E1 E2|t' s l N1 N2 T E1 E2]; subst.
  apply app_eq_nil in E2. destruct E2 as [-> ->]. inversion T.
Qed.
Print Assumptions C63_tags_refuted.
(** FINDING: a / in a lemma is taken for the bar between lemma and surface: the rule for lemma "a/b", surface "x" matches the word with lemma "a" and surface "b/x". *)
Definition slashr := [[NMatch (mkcm (Some (u "a/b")) None (Some (u "x")) None None None None (Some (u "AA")))]]%string.
Theorem C63_slash_refuted : go slashr [1] "^a/b\/x$"%string = Some (u "B\/X"%string) /\ ~ literal_text isup (u "a/b"%string) [IChar 97%N].
Proof.
  split; [vm_compute; reflexivity|]. intros H. inversion H as [|c s l N T E1 E2|]; subst. inversion T.
Qed.
Print Assumptions C63_slash_refuted.
(** FINDING: a rule without conditions does not match a word without a form, since * stands for one or more characters. *)
Example ex_no_form : go [[NMatch (sel "AA")]] [1] "^foo$ ^a/foo$"%string = Some (u "foo FOO"%string).
Proof. vm_compute. reflexivity. Qed.
