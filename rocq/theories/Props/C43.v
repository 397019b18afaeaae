(** C43: what a postchunk rule sees.  Spec/Postchunk.v: [cut] lists the words of a chunk with the text before each. *)
From Coq Require Import String.
From Verif Require Import Model.Base Model.Postchunk Spec.Postchunk Proofs.Base Proofs.Postchunk Props.C27.

Lemma cut_gap tags c : forall a g, cut tags (a ++ g) c =
  match cut tags g c with ([], t) => ([], a ++ t) | ((g0, w) :: x, t) => ((a ++ g0, w) :: x, t) end.
Proof.
  induction c as [|e c IH]; intros a g; [reflexivity|]. destruct e; cbn [cut]; try (rewrite <- app_assoc; apply IH); destruct (cut tags [] c); reflexivity.
Qed.
Lemma take_blanks_exact (l t : list str) : take_blanks (length l) (l ++ t) = Some l.
Proof. induction l as [|x l IH]; [destruct t; reflexivity|]. cbn [length app take_blanks]. rewrite IH. reflexivity. Qed.

(** [after]: the blank that follows the chunk in the input.  The rule gets the words of the content (case applied,
    references replaced) in order, and as blanks exactly the text between consecutive words; the text before the first word
    is appended to the blank that follows the chunk; the text after the last word is in neither. *)
Theorem C43_rule_view_partial : forall up alnum getcase lemma tags content after,
  Header lemma -> Forall tag_ok tags -> Forall celem_ok content ->
  rule_view up alnum getcase [after] (chunk_text lemma tags content) =
  match cut tags [] (recase up alnum (getcase lemma) (but_last_char content)) with
  | ([], trailing) => Some ([], [], after ++ trailing)
  | ((leading, w) :: more, trailing) => Some (w :: map snd more, map fst more, after ++ leading)
  end.
Proof.
  intros up alnum getcase lemma tags content after Hl Ht Hc. destruct (header_parts lemma tags content Hl Ht) as [H1 [H2 H3]].
  unfold rule_view, split_chunk. rewrite H1, H2, H3. rewrite <- csem_flags. destruct (flags (getcase lemma)) as [ua uf]. cbn [fst snd].
  change (mks [] [after] true) with (state [] [] after true).
  assert (K := sl_content up alnum tags ua content Hc uf [] [] after true (fun K => ltac:(discriminate K))).
  rewrite K. clear K.
  assert (E : cut tags after (csem up alnum ua uf (but_last_char content)) = cut tags (after ++ []) (csem up alnum ua uf (but_last_char content))) by (rewrite app_nil_r; reflexivity).
  rewrite E, cut_gap. clear E. destruct (cut tags [] (csem up alnum ua uf (but_last_char content))) as [[|[g w] x] tr].
  - replace (match but_last_char content with [] => true | _ => true end) with true by (destruct (but_last_char content); reflexivity). reflexivity.
  - unfold state. cbn [app map fst snd s_words s_blanks length].
    replace (S (length (map snd x)) - 1) with (length (map fst x)) by (rewrite !map_length; lia).
    destruct tr as [|t tr].
    + cbv beta iota. assert (T := take_blanks_exact (map fst x) []). rewrite app_nil_r in T. rewrite T. reflexivity.
    + cbv beta iota. cbn [app]. rewrite take_blanks_exact. reflexivity.
Qed.
Print Assumptions C43_rule_view_partial.
(** one word per lexical unit of the content, one blank between any two *)
Theorem C43_counts : forall up alnum getcase lemma tags content after ws q b,
  Header lemma -> Forall tag_ok tags -> Forall celem_ok content ->
  rule_view up alnum getcase [after] (chunk_text lemma tags content) = Some (ws, q, b) ->
  length q = length ws - 1 /\
  length ws = length (filter (fun e => match e with CLu _ | CWLu _ _ => true | _ => false end) content).
Proof.
  intros up alnum getcase lemma tags content after ws q b Hl Ht Hc H. rewrite C43_rule_view_partial in H by assumption.
  assert (G : forall c g, length (fst (cut tags g c)) = length (filter (fun e => match e with CLu _ | CWLu _ _ => true | _ => false end) c)).
  { induction c as [|e c IH]; intros g; [reflexivity|]. destruct e; cbn [cut filter]; try apply IH; specialize (IH []); destruct (cut tags [] c); cbn in *; f_equal; exact IH. }
  assert (R : forall k c, length (filter (fun e => match e with CLu _ | CWLu _ _ => true | _ => false end) (recase up alnum k c)) =
                          length (filter (fun e => match e with CLu _ | CWLu _ _ => true | _ => false end) c)).
  { intros k c. destruct k; cbn [recase]; [| |reflexivity].
    - induction c as [|e c IH]; [reflexivity|]. destruct e; cbn [map all_up filter]; cbn [length]; first [exact IH|exact (f_equal S IH)].
    - induction c as [|e c IH]; [reflexivity|]. destruct e; cbn [first_up filter]; cbn [length]; try exact IH; destruct (lfirst up alnum l); cbn [filter length]; first [reflexivity|exact (f_equal S IH)]. }
  assert (B : forall c, length (filter (fun e => match e with CLu _ | CWLu _ _ => true | _ => false end) (but_last_char c)) =
                          length (filter (fun e => match e with CLu _ | CWLu _ _ => true | _ => false end) c)).
  { induction c as [|e c IH]; [reflexivity|]. destruct c as [|e2 c]; [destruct e; reflexivity|]. rewrite blc_cons by (left; discriminate). remember (e2 :: c) as c2. cbn [filter]. destruct e; cbn [length]; first [exact IH|exact (f_equal S IH)]. }
  assert (G1 := G (recase up alnum (getcase lemma) (but_last_char content)) []). rewrite R, B in G1.
  destruct (cut tags [] (recase up alnum (getcase lemma) (but_last_char content))) as [[|[g w] x] tr]; injection H as <- <- <-; cbn [fst length] in *.
  - split; [reflexivity|exact G1].
  - rewrite !map_length. split; [lia|exact G1].
Qed.
Print Assumptions C43_counts.

(** Case *)
Example C43_case : rule_view exup exalnum (fun _ => aa) [u " "] exchunk =
  Some ([u "-el<det><m><pl>"; u "[[t:b]]\$ga<n><SN>"], [u " "], u " ").
Proof. reflexivity. Qed.
(** text before the first word of the chunk moves behind the chunk, text behind the last one is lost *)
Example C43_case_moved : rule_view exup exalnum (fun _ => aa) [u " "] (u "x<SN>{[<i>]^a<1>$ ^b$[</i>]}") =
  Some ([u "a<SN>"; u "b"], [u " "], u " [<i>]").
Proof. reflexivity. Qed.
(** dictionary case does not reach rules: the letters of a capitalised chunk are raised whatever the option *)
Example C43_case_caps : rule_view exup exalnum (fun _ => Aa) [[]] (u "X<SN>{^a<1>$}") = Some ([u "A<SN>"], [], []).
Proof. reflexivity. Qed.
