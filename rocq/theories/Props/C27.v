(** C27: printing a chunk that no postchunk rule matches.  Spec/Postchunk.v: chunks, [opened], [recase]. *)
From Coq Require Import String.
From Verif Require Import Model.Base Model.Postchunk Spec.Postchunk Proofs.Base Proofs.Postchunk.

Lemma blc_id c : ~ ends_in_char c -> but_last_char c = c.
Proof.
  induction c as [|e c IH]; intros H; [reflexivity|]. rewrite blc_cons.
  - f_equal. apply IH. intros (l & x & ->). apply H. exists (e :: l), x. reflexivity.
  - destruct c; [right; intros x ->; apply H; exists [], x; reflexivity|left; discriminate].
Qed.
Lemma blc_snoc l x : but_last_char (l ++ [CChar x]) = l.
Proof. induction l as [|e l IH]; [reflexivity|]. cbn [app]. rewrite blc_cons by (left; destruct l; discriminate). f_equal. exact IH. Qed.

Theorem C27_all : forall up alnum getcase dict lemma tags content,
  Header lemma -> Forall tag_ok tags -> Forall celem_ok content ->
  unchunk up alnum getcase dict (chunk_text lemma tags content) =
  Some (flat_map (opened tags) (recase up alnum (if dict then aa else getcase lemma) (but_last_char content))).
Proof.
  intros up alnum getcase dict lemma tags content Hl Ht Hc. destruct (header_parts lemma tags content Hl Ht) as [H1 [H2 H3]].
  unfold unchunk. rewrite H1, H2, H3.
  assert (G : forall k, (let '(ua, uf) := flags k in unchunk_loop up alnum (map tt tags) ua uf (flat_map ctext content ++ [cRC]) UTop) =
     Some (flat_map (opened tags) (recase up alnum k (but_last_char content)))).
  { intros k. rewrite <- csem_flags. destruct (flags k) as [ua uf]. cbn [fst snd]. apply ul_content, Hc. }
  destruct dict; [exact (G aa)|apply G].
Qed.
Print Assumptions C27_all.
(** The content is printed in full, every reference replaced, when it does not end in a bare character (missing: contents
    that do, for which the claim is false, next theorem) ... *)
Theorem C27_unchunk_partial : forall up alnum getcase dict lemma tags content,
  Header lemma -> Forall tag_ok tags -> Forall celem_ok content -> ~ ends_in_char content ->
  unchunk up alnum getcase dict (chunk_text lemma tags content) =
  Some (flat_map (opened tags) (recase up alnum (if dict then aa else getcase lemma) content)).
Proof. intros. rewrite C27_all by assumption. rewrite blc_id by assumption. reflexivity. Qed.
Print Assumptions C27_unchunk_partial.
(** ... and loses that character when it does (endChunk is size()-2 while the text ends in a single brace). *)
Theorem C27_last_char_refuted : forall up alnum getcase dict lemma tags content x,
  Header lemma -> Forall tag_ok tags -> Forall celem_ok (content ++ [CChar x]) ->
  unchunk up alnum getcase dict (chunk_text lemma tags (content ++ [CChar x])) =
  Some (flat_map (opened tags) (recase up alnum (if dict then aa else getcase lemma) content)).
Proof. intros. rewrite C27_all by assumption. rewrite blc_snoc. reflexivity. Qed.
Print Assumptions C27_last_char_refuted.
(** A reference to a tag the chunk has not got (in particular <0>) disappears. *)
Theorem C27_dangling_reference : forall tags d, value d = 0%N \/ (N.of_nat (length tags) < value d)%N -> resolved tags (LRef d) = [].
Proof.
  intros tags d H. unfold resolved. destruct (N.eqb_spec (value d) 0) as [|n]; [reflexivity|].
  destruct H as [H|H]; [contradiction|]. destruct (nth_error tags (N.to_nat (value d - 1))) eqn:E; [|reflexivity].
  exfalso. assert (Q : nth_error tags (N.to_nat (value d - 1)) <> None) by congruence. apply nth_error_Some in Q. lia.
Qed.
Print Assumptions C27_dangling_reference.
(** A lexical unit that is not a chunk (no brace) is printed as nothing. *)
Lemma begin_none s : ~ In cLC s -> ~ In cBS s -> beginChunk s = Some [].
Proof.
  induction s as [|c s IH]; intros H1 H2; [reflexivity|]. cbn [beginChunk]. destruct (ceq_spec c cBS) as [->|]; [exfalso; apply H2; left; reflexivity|].
  destruct (ceq_spec c cLC) as [->|]; [exfalso; apply H1; left; reflexivity|]. apply IH; intros K; [apply H1|apply H2]; right; exact K.
Qed.
Theorem C27_not_a_chunk : forall up alnum getcase dict lemma tags, Header lemma -> ~ In cBS lemma -> ~ In cLC lemma -> Forall tag_ok tags ->
  unchunk up alnum getcase dict (lemma ++ flat_map (fun t => cLT :: t ++ [cGT]) tags) = Some [].
Proof.
  intros up alnum getcase dict lemma tags Hl Hb Hc Ht. unfold unchunk.
  assert (P : Forall (fun c => c <> cBS /\ c <> cLC) (flat_map tt tags)) by (apply tags_plain, Ht).
  assert (V : getVecTags (lemma ++ flat_map (fun t => cLT :: t ++ [cGT]) tags) None = Some (map tt tags)).
  { rewrite vectags_header by exact Hl. change (fun t => cLT :: t ++ [cGT]) with tt. clear -Ht.
    induction Ht as [|t tags Ht HT IH]; [reflexivity|]. change (getVecTags (cLT :: (t ++ [cGT]) ++ flat_map tt tags) None = Some (tt t :: map tt tags)). cbn [getVecTags].
    change (cLT =?c cBS) with false. rewrite ceq_refl. cbv beta iota. rewrite <- !app_assoc. cbn [app].
    refine (eq_trans (vectags_tag t (flat_map tt tags) [cLT] _) _); [eapply Forall_impl; [|exact Ht]; cbn; tauto|].
    exact (f_equal (fun z => match z with Some l => Some (([cLT] ++ t ++ [cGT]) :: l) | None => None end) IH). }
  rewrite V.
  assert (B : beginChunk (lemma ++ flat_map (fun t => cLT :: t ++ [cGT]) tags) = Some []).
  { rewrite begin_header by exact Hl. assert (Q := begin_plain (flat_map tt tags) P []). rewrite app_nil_r in Q. exact Q. }
  rewrite B.
  assert (L : exists l, pseudolemma (lemma ++ flat_map (fun t => cLT :: t ++ [cGT]) tags) = Some l).
  { unfold pseudolemma. rewrite upto_header; [|intros c _ K1 K2; apply mem_nIn; cbn; intuition congruence|exact Hl].
    change (fun t => cLT :: t ++ [cGT]) with tt. destruct tags; [eexists; reflexivity|]. cbn [flat_map app]. unfold tt at 1. cbn [app upto].
    change (cLT =?c cBS) with false. eexists. reflexivity. }
  destruct L as [l L]. rewrite L. destruct dict; [reflexivity|]. destruct (flags (getcase l)). reflexivity.
Qed.
Print Assumptions C27_not_a_chunk.

(** Case: ^det_nom<SN><m><pl>{^el<det><2><3>$ ^\$gat<n><1>$[<i>]}$ with pseudo lemma "Det_nom" -> first letter raised *)
Definition exup (c : char) : char := if (97 <=? c)%N && (c <=? 122)%N then (c - 32)%N else c.
Definition exalnum (c : char) : bool := ((97 <=? c)%N && (c <=? 122)%N) || ((65 <=? c)%N && (c <=? 90)%N).
Definition excontent : list celem :=
  [CLu [LChar 45; LChar 101; LChar 108; LTag (u "det"); LRef (u "2"); LRef (u "3")]; CChar cSP;
   CWLu (u "t:b") [LEsc cDOL; LChar 103; LChar 97; LTag (u "n"); LRef (u "11"); LRef (u "1")]; CBlank (u "<i>")]%N.
Definition exchunk : str := chunk_text (u "Det") [u "SN"; u "m"; u "pl"] excontent.
Example C27_case_text : exchunk = u "Det<SN><m><pl>{^-el<det><2><3>$ [[t:b]]^\$ga<n><11><1>$[<i>]}".
Proof. reflexivity. Qed.
Example C27_case_hyps : Header (u "Det") /\ Forall tag_ok [u "SN"; u "m"; u "pl"] /\ Forall celem_ok excontent /\ ~ ends_in_char excontent.
Proof.
  split; [repeat constructor; discriminate|]. split; [repeat constructor; discriminate|].
  split.
  - repeat constructor; try discriminate; intros [K1 K2]; cbn in K1, K2; lia.
  - intros (l & x & E). change excontent with ([CLu [LChar 45; LChar 101; LChar 108; LTag (u "det"); LRef (u "2"); LRef (u "3")]; CChar cSP;
   CWLu (u "t:b") [LEsc cDOL; LChar 103; LChar 97; LTag (u "n"); LRef (u "11"); LRef (u "1")]] ++ [CBlank (u "<i>")])%N in E. apply app_inj_tail in E as [_ E]. discriminate.
Qed.
Example C27_case_open : unchunk exup exalnum (fun _ => Aa) false exchunk = Some (u "^-El<det><m><pl>$ [[t:b]]^\$ga<n><SN>$[<i>]").
Proof. reflexivity. Qed.
Example C27_case_upper : unchunk exup exalnum (fun _ => AA) false exchunk = Some (u "^-EL<det><m><pl>$ [[t:b]]^\$GA<n><SN>$[<i>]").
Proof. reflexivity. Qed.
Example C27_case_lost : unchunk exup exalnum (fun _ => aa) false (u "x<SN>{^a<1>$ }") = Some (u "^a<SN>$").
Proof. reflexivity. Qed.
