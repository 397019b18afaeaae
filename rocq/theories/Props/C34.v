(** C34: sentence-based taggers (SentenceTagger::tag) from text to text. *)
From Coq Require Import String.
From Verif Require Import Model.Base Model.Serialiser Model.Stream Spec.Stream Proofs.Base Proofs.Stream.

(** For every sequence of documents ended by NUL (the last by the end of the input), every tagger of sentences that
    gives each unit no reading or one of its own (C20 proves that of the perceptron tagger) and all options: every unit
    is written once, in order, with the reading its sentence gives it, the blanks are unchanged, and every NUL read is
    answered by one NUL after the text before it.
    Partial: a document must not end directly after a lexical unit (refuted below). *)
Theorem C34_tag_partial : forall ssf mark first sent_seg tagSentence d ds,
  (forall s, Forall2 (fun l a => forall x, a = Some x -> In x (lx_an l)) s (tagSentence s)) ->
  Forall wf_doc (d :: ds) ->
  (forall l1 d' d2 l2, d :: ds = l1 ++ d' :: d2 :: l2 -> sd_end d' <> [] \/ sd_lus d' = []) ->
  exists s, sentence_tag ssf mark first sent_seg tagSentence (sdocs_text d ds) = Ok s /\ sdocs_out ssf mark first sent_seg tagSentence d ds s.
Proof.
  intros ssf mark first sent_seg tagSentence d ds Ht Hw He.
  destruct (docs_loop ssf mark first sent_seg tagSentence Ht ds d (S (length (sdocs_text d ds))) Hw He (sfuel_ok ds d)) as (s & U & E). exists s. auto.
Qed.
Print Assumptions C34_tag_partial.

(** The sentences are a partition of the units. *)
Theorem C34_sentences : forall sent_seg l tail cur, concat (sentences sent_seg cur l tail) = cur ++ map snd l.
Proof.
  intros sent_seg l tail. induction l as [|[b x] l IH]; intros cur; cbn [sentences map snd].
  - cbn. rewrite ?app_nil_r. reflexivity.
  - destruct (ends sent_seg x _).
    + cbn [concat]. rewrite IH, <- app_assoc. reflexivity.
    + rewrite IH, <- app_assoc. reflexivity.
Qed.
Print Assumptions C34_sentences.

(** ** concrete case *)
Definition first_of (s : list lexunit) : list (option analysis) := map (fun l => match lx_an l with a :: _ => Some a | [] => None end) s.
Lemma first_of_ok : forall s, Forall2 (fun l a => forall x, a = Some x -> In x (lx_an l)) s (first_of s).
Proof. induction s as [|l s IH]; constructor; [|exact IH]. intros x E. destruct (lx_an l); inversion E; subst. left. reflexivity. Qed.
Definition an (l t : string) := mkan [mkm (u l) [u t]].
Definition ex1 := mksd [([], mklex (u "a"%string) [an "a" "n"; an "a" "v"]%string); (u " "%string, mklex (u "."%string) [an "." "sent"]%string);
                        (u " "%string, mklex (u "zz"%string) [])] (u "!"%string).
Definition ex2 := mksd [(u "[\^]"%string, mklex (u "b"%string) [an "b" "n"]%string)] [].
Example ex_wf : Forall wf_doc [ex1; ex2].
Proof.
  repeat match goal with
  | |- wf_doc _ => split; cbn
  | |- wf_lu _ => split
  | |- _ /\ _ => split; cbn
  | |- _ <> [] => discriminate
  | |- Forall _ [] => constructor
  | |- Forall _ (_ :: _) => constructor
  | |- Forall _ _ => progress cbn
  | |- wf_tag _ => split
  | |- wf_morpheme _ => split
  | |- wf_analysis _ => split
  | |- wf_blank [] => apply B_nil
  | |- wf_blank (91%N :: _) => apply (B_super [cBS; cCARET] [])
  | |- wf_blank (_ :: _) => apply B_char; [discriminate..|]
  | |- plain _ _ [] => apply P_nil
  | |- plain _ _ (_ :: _) => first [apply P_char; [discriminate|unfold lemma_stop; intros K; decompose [or] K; discriminate|]|apply P_esc; [intros K; (exact K || discriminate)|]]
  | |- plain _ _ _ => progress cbn
  end;
  intros a r E (m & q & s & K1 & K2); inversion E; subst; inversion K1; subst; discriminate.
Qed.
Example ex_tag : exists s, sentence_tag true false false false first_of (sdocs_text ex1 [ex2]) = Ok s /\ sdocs_out true false false false first_of ex1 [ex2] s.
Proof.
  apply C34_tag_partial; [exact first_of_ok|exact ex_wf|]. intros l1 d' d2 l2 E. destruct l1 as [|x l1]; [inversion E; subst; left; discriminate|].
  destruct l1 as [|y l1]; [inversion E|]. destruct l1; inversion E.
Qed.
Example ex_tag_computed : sentence_tag true false false false first_of (sdocs_text ex1 [ex2]) =
  Ok (u "^a/a<n>$ ^./.<sent>$ ^zz/*zz$!"%string ++ [cNUL] ++ u "[\^]^b/b<n>$"%string).
Proof. vm_compute. reflexivity. Qed.

(** FINDING: a NUL directly after a lexical unit is swallowed: nothing is written for the document until the next one
    is complete, and its NUL is never written. *)
Theorem C34_nul_refuted : sentence_tag false false false false first_of (u "^a/a<n>$"%string ++ [cNUL] ++ u "^b/b<n>$"%string ++ [cNUL]) =
  Ok (u "^a<n>$^b<n>$"%string).
Proof. vm_compute. reflexivity. Qed.
Print Assumptions C34_nul_refuted.
(** FINDING: the unigram tagger never writes a NUL. *)
Theorem C34_unigram_refuted : unigram_tag false false false (fun l => match lx_an l with a :: _ => Some a | [] => None end) 9
  (u "^a/a<n>$ "%string ++ [cNUL] ++ u "^b/b<n>$ "%string ++ [cNUL]) = Ok (u "^a<n>$ ^b<n>$ "%string).
Proof. vm_compute. reflexivity. Qed.
Print Assumptions C34_unigram_refuted.
