(** C25: attribute definitions.  [item tags] is the attr-item text t1.t2..., [tag_text tags] is <t1><t2>...
    [ms r s]: what is left of s after each match of r at the beginning of s. *)
From Coq Require Import String Sorted.
From Verif Require Import Model.Base Model.Regex Spec.Regex Proofs.Regex.

(** the regular expression built is one the engine accepts, it matches exactly the listed tags, longest first *)
Theorem C25_language : forall options, options <> [] -> Forall good_tags options ->
  exists r, parse_re (optimize_regex (map item options)) = Some r /\
    (forall s rest, In rest (ms r s) <-> exists tags, In tags options /\ s = tag_text tags ++ rest) /\
    (forall s, StronglySorted (fun a b => length a < length b) (ms r s)).
Proof.
  intros options Hne H. destruct (regex_spec (map item options)) as [r [R1 [R2 R3]]].
  - apply Forall_forall. intros o Ho. apply in_map_iff in Ho as [tags [<- Ht]]. rewrite Forall_forall in H. apply good_okword, H, Ht.
  - destruct options; [congruence|discriminate].
  - exists r. split; [exact R1|]. split; [|exact R3]. intros s rest. rewrite R2. rewrite Forall_forall in H. split.
    + intros [o [Ho ->]]. apply in_map_iff in Ho as [tags [<- Ht]]. exists tags. split; [exact Ht|].
      rewrite <- (expand_item tags (H tags Ht)). cbn [app]. rewrite <- app_assoc. reflexivity.
    + intros [tags [Ht ->]]. exists (item tags). split; [apply in_map, Ht|].
      rewrite <- (expand_item tags (H tags Ht)). cbn [app]. rewrite <- app_assoc. reflexivity.
Qed.
Print Assumptions C25_language.

(** reading an attribute of a word gives the leftmost, longest listed tags, or nothing when none occurs;
    writing it replaces exactly that occurrence *)
Theorem C25_match : forall options, options <> [] -> Forall good_tags options ->
  exists r, parse_re (optimize_regex (map item options)) = Some r /\
    forall s,
      (exists a m b, leftmost_longest (map tag_text options) s a m b /\ re_match r s = m /\
         forall v, re_replace r s v = Some (a ++ v ++ b)) \/
      ((forall a m b, In m (map tag_text options) -> s <> a ++ m ++ b) /\ re_match r s = [] /\ forall v, re_replace r s v = None).
Proof.
  intros options Hne H. destruct (C25_language options Hne H) as [r [R1 [R2 R3]]]. exists r. split; [exact R1|]. intros s.
  assert (F := find_leftmost_longest r (map tag_text options)).
  assert (F1 : forall s rest, In rest (ms r s) <-> exists t, In t (map tag_text options) /\ s = t ++ rest).
  { intros s0 rest. rewrite R2. split; [intros [tags [K1 K2]]; exists (tag_text tags); split; [apply in_map, K1|exact K2]|].
    intros [t [K1 K2]]. apply in_map_iff in K1 as [tags [<- K1]]. eauto. }
  specialize (F F1 R3 s). unfold re_match, re_replace. destruct (find r [] s) as [[[a m] b]|]; [left|right]; eauto 10.
Qed.
Print Assumptions C25_match.

(** Outside the quoted characters the claim is false: the items a, - and c give a range that matches <b>. *)
Theorem C25_dash_refuted : exists r, parse_re (optimize_regex [u "a"; u "-"; u "c"]) = Some r /\
  re_match r (u "x<b>") = u "<b>".
Proof. eexists. split; vm_compute; reflexivity. Qed.
Print Assumptions C25_dash_refuted.
(** Unquoted metacharacters: an item with an opening parenthesis makes the expression malformed. *)
Theorem C25_paren_refuted : parse_re (optimize_regex [u "a(b"]) = None.
Proof. vm_compute. reflexivity. Qed.
Print Assumptions C25_paren_refuted.
(** An attribute without items matches the empty tag <>. *)
Theorem C25_no_items : exists r, parse_re (optimize_regex []) = Some r /\ re_match r (u "<>") = u "<>".
Proof. eexists. split; vm_compute; reflexivity. Qed.
Print Assumptions C25_no_items.

(** Case *)
Definition exopts := [[u "n"]; [u "n"; u "acr"]; [u "np"; u "loc"]; [u "np"]; [u "n+x"]; [u "vblex"]; [u "vbser"]].
Example C25_case_good : Forall good_tags exopts.
Proof.
  unfold exopts. repeat (apply Forall_cons; [split; [discriminate|]; repeat (apply Forall_cons; [split; [discriminate|split;
    [repeat constructor; unfold plain; cbn; intuition discriminate|cbn; intuition discriminate]]|]); constructor|]). constructor.
Qed.
Example C25_case_regex : optimize_regex (map item exopts) = u "(<(?:n(?:><acr|p(?:><loc)?|\+x)?|vb(?:lex|ser))>)".
Proof. vm_compute. reflexivity. Qed.
Example C25_case_match : exists r, parse_re (optimize_regex (map item exopts)) = Some r /\
  re_match r (u "dog<x><n><acr><sg>") = u "<n><acr>" /\ re_replace r (u "dog<n><sg>") (u "<np>") = Some (u "dog<np><sg>").
Proof. eexists. split; [vm_compute; reflexivity|]. split; vm_compute; reflexivity. Qed.
