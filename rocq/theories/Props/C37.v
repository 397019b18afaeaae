(** C37: discard-on-ambiguity never removes the last analysis and removes only what its rules match. *)
From Coq Require Import String Sorted.
From Verif Require Import Model.Base Model.TaggerWord Spec.TaggerWord Proofs.TaggerWord.

(** One rule, exactly: see [left_by] in Spec/TaggerWord.v.  Undefined behaviour does not occur. *)
Theorem C37_one_rule : forall mt p w, proper w -> 2 <= length (tags w) ->
  exists w', discard1 mt p w = Some w' /\
    forms w' = fst (left_by (fun s => mt s p) (forms w)) /\
    tags w' = (if length p =? length (snd (left_by (fun s => mt s p) (forms w))) then tags w else snd (left_by (fun s => mt s p) (forms w)))
    /\ sf w' = sf w /\ ign w' = ign w /\ cut w' = cut w /\ pcut w' = pcut w.
Proof.
  intros mt p w [HS HT] H. apply sorted_iff in HS. unfold discard1, isAmbiguous.
  destruct (Nat.ltb_spec 1 (length (tags w))); [|lia].
  rewrite (dloop_exact mt p (forms w)); [|rewrite HT, map_length in H; exact H|exact HS].
  destruct (left_by _ (forms w)) as [fs ns]. cbn [fst snd]. eexists. split; [reflexivity|]. cbn.
  destruct (length p =? length ns); cbn; repeat split; reflexivity.
Qed.
Print Assumptions C37_one_rule.

(** If the rule does not match the first analysis, exactly the analyses it matches go. *)
Theorem C37_intended : forall mt p w t s r, proper w -> forms w = (t, s) :: r -> r <> [] -> mt s p = false -> length (forms w) < length p ->
  exists w', discard1 mt p w = Some w' /\ forms w' = filter (fun f => negb (mt (snd f) p)) (forms w) /\ proper w'.
Proof.
  intros mt p w t s r HP E Hr Hm Hl.
  assert (L2 : 2 <= length (forms w)) by (rewrite E; destruct r; [congruence|cbn; lia]).
  destruct HP as [HS HT]. pose proof HS as HS0. apply sorted_iff in HS. unfold discard1, isAmbiguous.
  destruct (Nat.ltb_spec 1 (length (tags w))) as [_|K]; [|rewrite HT, map_length in K; lia].
  rewrite (dloop_exact mt p (forms w)); [|exact L2|exact HS].
  pose proof (left_by_len (fun x => mt x p) (forms w)) as L5.
  assert (Q : left_by (fun x => mt x p) (forms w) = (filter (fun f => negb (mt (snd f) p)) (forms w), map fst (filter (fun f => negb (mt (snd f) p)) (forms w)))).
  { rewrite E. destruct r as [|b r]; [congruence|]. unfold left_by. cbn [snd]. rewrite Hm. reflexivity. }
  rewrite Q in L5 |- *. cbn [snd] in L5. eexists. split; [reflexivity|].
  destruct (Nat.eqb_spec (length p) (length (map fst (filter (fun f => negb (mt (snd f) p)) (forms w))))) as [K|_]; [lia|].
  cbn [negb forms]. split; [reflexivity|]. split; cbn [forms tags]; [|reflexivity].
  apply sorted_iff, SS_filter, HS.
Qed.
Print Assumptions C37_intended.

(** All rules: at least one analysis stays, the tags of the word are tags of the analyses that stay, those are
    unchanged, and an analysis goes only if some rule matches it.
    Partial: (1) an analysis that stays may lose its tag (so that it cannot be chosen) although no rule matches it,
    see below; (2) the rules are assumed to be longer texts than the number of analyses, see below. *)
Theorem C37_keeps_one_partial : forall mt rules w, proper w -> (forall p, In p rules -> length (forms w) < length p) ->
  exists w', discard mt rules w = Some w' /\
    (tags w <> [] -> tags w' <> []) /\
    (forall t, In t (tags w') -> In t (tags w) /\ form_of t w' = form_of t w) /\
    (forall f, In f (forms w) -> ~ In f (forms w') -> exists p, In p rules /\ mt (snd f) p = true).
Proof.
  intros mt rules w [HS HT] Hl. apply sorted_iff in HS.
  assert (O : okw w). { split; [exact HS|]. split; rewrite HT; [exact HS|apply incl_refl]. }
  unfold discard. destruct (isAmbiguous w).
  - destruct (discard_all_ok mt rules w O Hl) as (w' & E & O' & I & T & R). exists w'. split; [exact E|]. split; [exact T|]. split; [|exact R].
    intros t Ht. destruct O' as (S1 & _ & I3). apply I3 in Ht. apply in_map_iff in Ht as ([k v] & <- & Hf). cbn [fst].
    split.
    + rewrite HT. apply (in_map fst) in Hf. apply I in Hf || (apply in_map_iff in Hf as (g & Eg & Hg); apply in_map_iff; exists g; split; [exact Eg|apply I, Hg]).
    + unfold form_of. rewrite (mget_sorted k v (forms w') S1) by exact Hf. rewrite (mget_sorted k v (forms w) HS) by (apply I, Hf). reflexivity.
  - exists w. split; [reflexivity|]. split; [auto|]. split; [intros t Ht; split; [exact Ht|reflexivity]|]. intros f H K; contradiction.
Qed.
Print Assumptions C37_keeps_one_partial.

(** Case: the tags 1, 2, 3, 4 and a rule for the analyses of tags 2 and 4. *)
Definition m0 (form pattern : str) : bool := str_eqb form (firstn 1 pattern).     (* a pattern for one-letter forms *)
Definition w4 := mktw (u "x") [1; 2; 3; 4] [(1, u "a"); (2, u "b"); (3, u "c"); (4, u "b")] [] false false.
Example C37_case_proper : proper w4.
Proof. split; [|reflexivity]. apply sorted_iff. repeat (constructor; [|repeat (constructor; [cbn; lia|]); constructor]). constructor. Qed.
Example C37_case : discard m0 [u "b<adj>"; u "zzzzz"] w4 = Some (mktw (u "x") [1; 3] [(1, u "a"); (3, u "c")] [] false false).
Proof. vm_compute. reflexivity. Qed.
Example C37_case_all : discard (fun _ _ => true) [u "b<adj>"; u "zzzzz"] w4 = Some (mktw (u "x") [2] [(2, u "b")] [] false false).
Proof. vm_compute. reflexivity. Qed.

(** FINDING: a rule that matches the first analysis only also makes the second one unreachable: its tag is dropped
    although no rule matches it. *)
Theorem C37_second_analysis_refuted : exists (mt : str -> str -> bool) (p : str) (w w' : tword) (t : nat), proper w /\ length (forms w) < length p /\ discard mt [p] w = Some w' /\
  In t (tags w) /\ mt (form_of t w) p = false /\ ~ In t (tags w').
Proof.
  exists m0, (u "a<adj>"), w4, (mktw (u "x") [3; 4] [(2, u "b"); (3, u "c"); (4, u "b")] [] false false), 2.
  split; [exact C37_case_proper|]. split; [vm_compute; lia|]. split; [vm_compute; reflexivity|]. split; [cbn; auto|]. split; [vm_compute; reflexivity|].
  cbn. intuition discriminate.
Qed.
Print Assumptions C37_second_analysis_refuted.
(** FINDING: the number of remaining tags is compared with the length of the rule (the parameter hides the member);
    if they happen to be equal the removed analysis keeps its tag, and choosing it prints an empty lexical unit. *)
Theorem C37_rule_length_refuted : exists (mt : str -> str -> bool) (p : str) (w w' : tword) (t : nat), proper w /\ discard mt [p] w = Some w' /\
  In t (tags w') /\ mt (form_of t w) p = true /\ get_lexical_form false true false (Some t) w' = u "^$".
Proof.
  exists m0, (u "b.."), (mktw (u "x") [1; 2; 3; 4] [(1, u "a"); (2, u "b"); (3, u "c"); (4, u "d")] [] false false),
    (mktw (u "x") [1; 2; 3; 4] [(1, u "a"); (3, u "c"); (4, u "d")] [] false false), 2.
  split; [split; [|reflexivity]; apply sorted_iff; repeat (constructor; [|repeat (constructor; [cbn; lia|]); constructor]); constructor|].
  split; [vm_compute; reflexivity|]. split; [cbn; auto|]. split; vm_compute; reflexivity.
Qed.
Print Assumptions C37_rule_length_refuted.
