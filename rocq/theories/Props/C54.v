(** C54: what transfer does with a lexical unit [[wb]]^source/target/.../reference$ coming from the bilingual dictionary (-b).
    Spec/TransferUnit.v: the units.  [token x] (Proofs/TransferUnit.v) is the text of the unit as the tokeniser delivers it. *)
From Coq Require Import String ZArith.
From Verif Require Import Model.Base Proofs.Base Model.ChunkLoop Model.ChunkTokens Model.TransferUnit Spec.ChunkLoop Spec.ChunkTokens Spec.TransferUnit
  Proofs.TransferMult Proofs.ChunkLoop Proofs.ChunkTokens Proofs.Patterns Proofs.TransferUnit Props.C30 Props.C31.

(** the tokeniser delivers exactly the units and the text between them *)
Theorem C54_tokens : forall nf l final, Forall (fun bx => BText (fst bx) /\ lunit_ok (snd bx)) l -> BText final ->
  tlex nf TTop (units_text l final) [] = Some (flat_map (fun bx => [KBlank (fst bx); KWord (token (snd bx))]) l ++ [KEof final], None).
Proof.
  intros nf l final H HF. rewrite tlex_units by assumption. f_equal. f_equal. f_equal. clear. unfold stream_items. induction l as [|[b x] l IH]; [reflexivity|]. cbn. rewrite <- IH. reflexivity.
Qed.
Print Assumptions C54_tokens.
(** a rule sees the first reading as source, the second as target, the last (of three or more) as reference, and the blank *)
Theorem C54_rule_sides : forall x, lunit_ok x ->
  rule_parts (token x) = Some (mkp (reading_str (u_sl x)) (reading_str (u_tl x)) (reference x) (wblank x)).
Proof. exact rule_parts_unit. Qed.
Print Assumptions C54_rule_sides.
(** patterns see the source reading and nothing else: its characters (escaped or not) in lower case and its tags, between ^ and $ *)
Definition sym (lower : char -> char) (i : ritem) : msym :=
  match i with RChar c | REsc c => MChar (lower c) | RTag t => MTag (cLT :: t ++ [cGT]) end.
Theorem C54_matched_side : forall lower x, lunit_ok x ->
  apply_word lower (token x) = Some (MMark cCARET :: map (sym lower) (u_sl x) ++ [MMark cDOL]).
Proof. exact apply_word_unit. Qed.
Print Assumptions C54_matched_side.
(** without a rule, the target reading is passed on with the word-bound blank: as a unit, or as a chunk of one unit *)
Theorem C54_default_unit : forall x, lunit_ok x -> u_tl x <> [] -> default_out FromBilingual false (token x) = Some (translated x).
Proof.
  intros x H HN. unfold default_out, default_translation. destruct (default_parts_unit x H) as [c E]. rewrite E. cbn [p_tl p_wb]. unfold translated.
  destruct H as (_ & _ & H & _). destruct (u_tl x) as [|i r]; [contradiction|]. inversion_clear H as [|? ? Hi _].
  assert (G : exists d t, reading_str (i :: r) = d :: t /\ d <> cLB).
  { destruct i as [d|d|t]; cbn; do 2 eexists; (split; [reflexivity|]); [|discriminate..]. intros ->. apply Hi. cbn. tauto. }
  destruct G as (d & t & -> & Hd). unfold default_print. destruct (ceq_spec d cLB); [contradiction|]. cbn [andb]. f_equal. appeq.
Qed.
Print Assumptions C54_default_unit.
Definition chunk_name (x : lunit) : str := match u_tl x with RChar c :: _ => if c =?c cSTAR then u "unknown" else u "default" | _ => u "default" end.
Theorem C54_default_chunk : forall x, lunit_ok x -> u_tl x <> [] ->
  default_out FromBilingual true (token x) = Some (cCARET :: chunk_name x ++ cLT :: chunk_name x ++ [cGT; cLC] ++ translated x ++ [cRC; cDOL]).
Proof.
  intros x H HN. unfold default_out, default_translation. destruct (default_parts_unit x H) as [c E]. rewrite E. cbn [p_tl p_wb]. unfold translated, chunk_name.
  destruct H as (_ & _ & H & _). destruct (u_tl x) as [|i r]; [contradiction|].
  destruct i as [d|d|t]; cbn [reading_str flat_map item_str app]; unfold default_print; [destruct (ceq_spec d cSTAR) as [->|]|change (cBS =?c cSTAR) with false|change (cLT =?c cSTAR) with false];
    cbn [u list_ascii_of_string map app]; repeat (rewrite <- app_assoc; cbn [app]); reflexivity.
Qed.
Print Assumptions C54_default_chunk.
(** Text to text: where no rule matches, transfer replaces each unit by its translation and keeps everything between the units.
    [dflt] is any function that agrees with the modelled one where that is defined. *)
Fixpoint translated_text (one : lunit -> str) (l : list (str * lunit)) (final : str) : str :=
  match l with [] => final | (b, x) :: r => b ++ one x ++ translated_text one r final end.
Definition one_chunk (x : lunit) : str := cCARET :: chunk_name x ++ cLT :: chunk_name x ++ [cGT; cLC] ++ translated x ++ [cRC; cDOL].
Theorem C54_unmatched_text_translated : forall (chunk : bool) dflt MS i w b e rs plen nrules l final,
  (forall s o, default_out FromBilingual chunk s = Some o -> dflt s = o) ->
  good MS i w b e rs unit (fun _ _ _ _ => ([], [], (-1)%Z, tt)) plen nrules ->
  Forall (fun bx => BText (fst bx) /\ lunit_ok (snd bx) /\ u_tl (snd bx) <> []) l -> BText final ->
  unmatched (laccepts MS i w b rs) (stream_items (map (fun bx => (fst bx, token (snd bx))) l)) ->
  forall G (act : nat -> G -> list str -> list str -> str * list str * Z * G) g,
  exists toks fuel st, tlex false TTop (units_text l final) [] = Some (toks, None) /\
    lloop false MS i w b e rs G act dflt fuel toks (lstart MS i G [] g) =
      Some (translated_text (if chunk then one_chunk else translated) l final, st) /\ l_g MS G st = g.
Proof.
  intros chunk dflt MS i w b e rs plen nrules l final HD HG Hl HL HU G act g.
  assert (Hl' : Forall (fun bx : str * lunit => BText (fst bx) /\ lunit_ok (snd bx)) l) by (eapply Forall_impl; [|exact Hl]; cbn; tauto).
  eexists. assert (HR : Run (laccepts MS i w b rs) (G * bool) (act_flag G) dflt [] (g, false) (stream_items (map (fun bx => (fst bx, token (snd bx))) l)) final
     (translated_text (if chunk then one_chunk else translated) l final) (g, false)).
  { clear Hl'. induction Hl as [|[bl x] l (_ & Hx & Hn) _ IH]; [apply run_end|]. cbn [map stream_items flat_map app fst snd translated_text] in *.
    assert (D : dflt (token x) = (if chunk then one_chunk else translated) x).
    { apply HD. destruct chunk; [apply C54_default_chunk|apply C54_default_unit]; assumption. }
    rewrite <- D. apply run_blank. apply (run_default _ _ _ _ _ _ (token x)).
    - intros m rest r E A. destruct (HU [B bl] m rest r); [cbn; f_equal; exact E|exact A].
    - apply IH. intros pre m rest r E. apply (HU (B bl :: W (token x) :: pre) m rest r). cbn. f_equal. f_equal. exact E. }
  assert (HG' : good MS i w b e rs (G * bool) (act_flag G) plen nrules) by (destruct HG; constructor; auto).
  assert (HS : shifts_whole (act_flag G) plen) by (intros r g0 ws bs o lf z g' E Hz; injection E as <- <- <- <-; lia).
  assert (Hsep := sep_stream (map (fun bx => (fst bx, token (snd bx))) l)).
  apply (C31_longest_match_partial false MS i w b e rs (G * bool) (act_flag G) dflt plen nrules _ final (g, false) HG' HS Hsep) in HR as (fuel & st & E & Hg).
  apply (loop_unused false MS i w b e rs G act dflt) in E; [|unfold flagged; rewrite Hg; reflexivity].
  exists fuel, (unflag MS G st). split; [apply tlex_units; assumption|]. split; [exact E|]. cbn. rewrite Hg. reflexivity.
Qed.
Print Assumptions C54_unmatched_text_translated.

(** ** Findings *)
(** a unit without translation (no slash, or nothing after it) disappears, with its word-bound blank; so does one whose first
    translation is empty, although there are others *)
Theorem C54_no_translation_refuted :
  default_out FromBilingual false (u "foo<n>") = Some [] /\ default_out FromBilingual false (u "[[t:b:x]]^foo<n>/") = Some [] /\ default_out FromBilingual false (u "foo<n>//bar<n>") = Some [].
Proof. vm_compute. auto. Qed.
Print Assumptions C54_no_translation_refuted.
(** in general: nothing is printed for a unit exactly if its target reading is empty *)
Theorem C54_disappears_iff : forall chunk x, lunit_ok x -> (default_out FromBilingual chunk (token x) = Some [] <-> u_tl x = []).
Proof.
  intros chunk x H. split.
  - intros E. destruct (u_tl x) eqn:T; [reflexivity|]. exfalso. assert (N : u_tl x <> []) by (rewrite T; discriminate). destruct chunk.
    + rewrite C54_default_chunk in E by assumption. discriminate.
    + rewrite C54_default_unit in E by assumption. injection E as E. unfold translated in E. apply app_eq_nil in E as [_ E]. discriminate.
  - intros T. unfold default_out, default_translation. destruct (default_parts_unit x H) as [c ->]. cbn [p_tl p_wb]. rewrite T. reflexivity.
Qed.
Print Assumptions C54_disappears_iff.
(** without dictionary (-n) and with default="chunk", the word-bound blank ends up inside the unit *)
Theorem C54_chunk_wblank_refuted : default_out NoBilingual true (u "[[t:b:x]]^foo<n>") = Some (u "^default<default>{^[[t:b:x]]^foo<n>$}$").
Proof. vm_compute. reflexivity. Qed.
Print Assumptions C54_chunk_wblank_refuted.
(** an unclosed tag: rules see the unit, but the default translation reads beyond its end *)
Theorem C54_unclosed_tag_refuted : rule_parts (u "a<b/c<n>") <> None /\ rule_parts (u "a<b/c") = Some (mkp (u "a<b/c") [] [] []) /\ default_parts (u "a<b/c") = None.
Proof. repeat split; vm_compute; congruence. Qed.
Print Assumptions C54_unclosed_tag_refuted.
(** an escaped > inside a tag: rules and the default translation continue the tag, patterns end it *)
Theorem C54_escaped_gt_refuted :
  option_map p_sl (rule_parts (u "a<b\>/c>/d")) = Some (u "a<b\>/c>") /\ option_map p_tl (default_parts (u "a<b\>/c>/d")) = Some (u "d") /\ apply_word (fun c => c) (u "a<b\>/c>/d") = Some [MMark cCARET; MChar 97%N; MTag (u "<b\>"); MMark cDOL].
Proof. repeat split. Qed.
Print Assumptions C54_escaped_gt_refuted.
(** a word-bound blank beginning with a backslash: the next character is taken as unescaped *)
Theorem C54_wblank_escape_refuted : tlex false TTop (u "[[\$]]^a/b$") [] = Some ([KBlank []; KWord (u "[[\"); KBlank (u "]]"); KWord (u "a/b"); KEof []], None).
Proof. vm_compute. reflexivity. Qed.
Print Assumptions C54_wblank_escape_refuted.

(** Case: word-bound blank, slash in a tag, escaped slash, three readings, unknown word *)
Definition ch (s : string) : reading := map RChar (u s).
Definition exunit : lunit := mku (Some (map WChar (u "t:b:x"))) (ch "Foo" ++ [REsc cSLASH; RTag (u "n/x")]) (ch "bar" ++ [RTag (u "n")]) [ch "baz"; ch "ref" ++ [RTag (u "np")]].
Definition exunk : lunit := mku None (ch "*qux") (ch "*qux") [].
Example C54_case_text : units_text [(u " [<p>]", exunit); (u ", ", exunk)] (u ".") = u " [<p>][[t:b:x]]^Foo\/<n/x>/bar<n>/baz/ref<np>$, ^*qux/*qux$.".
Proof. vm_compute. reflexivity. Qed.
Example C54_case_ok : Forall (fun bx => BText (fst bx) /\ lunit_ok (snd bx) /\ u_tl (snd bx) <> []) [(u " [<p>]", exunit); (u ", ", exunk)] /\ BText (u ".").
Proof.
  split; [|repeat constructor; discriminate]. constructor; [|constructor; [|constructor]]; (split; [|split; [|discriminate]]); cbn [fst snd].
  - apply bt_char; [discriminate..|]. apply (bt_sup (u "<p>") []); repeat constructor; discriminate.
  - unfold lunit_ok, wb_ok, item_ok. cbn. repeat split; repeat constructor; cbn; intuition discriminate.
  - repeat constructor; discriminate.
  - unfold lunit_ok, item_ok. cbn. repeat split; repeat constructor; cbn; intuition discriminate.
Qed.
Example C54_case : rule_parts (token exunit) = Some (mkp (u "Foo\/<n/x>") (u "bar<n>") (u "ref<np>") (u "[[t:b:x]]")) /\ option_map (fun t => match lloop false PM (pm_init exps) pm_word pm_blank pm_empty pm_rules unit exact2 (fun w => match default_out FromBilingual true w with Some o => o | None => [] end) 50 (fst t) (lstart PM (pm_init exps) unit [] tt) with Some (o, _) => o | None => [] end)
    (tlex false TTop (units_text [(u " [<p>]", exunit); (u ", ", exunk)] (u ".")) []) =
  Some (u " [<p>]^default<default>{[[t:b:x]]^bar<n>$}$, ^unknown<unknown>{^*qux$}$.").
Proof. vm_compute. auto. Qed.
(** a caret after a single closing bracket does not end a word-bound blank *)
Example C54_case_bracket_caret : option_map p_wb (rule_parts (u "[[x]^y]]^a/b")) = Some (u "[[x]^y]]") /\ option_map p_tl (default_parts (u "[[x]^y]]^a/b")) = Some (u "b").
Proof. vm_compute. auto. Qed.
