(** C60: apertium-interchunk, text to text.  Spec/Interchunk.v: chunks, what rules mean; Spec/TransferRun.v: [Transferred].
    Model: Model/Interchunk.v (chunks, interpreter), Model/ChunkTokens.v (tokens), Model/TrxPatterns.v, Model/TrxMachine.v
    (compiled patterns), Model/ChunkLoop.v (the loop). *)
From Coq Require Import String ZArith.
From Verif Require Import Model.Base Proofs.Base Model.ChunkLoop Model.ChunkTokens Model.TransferRules Model.TransferUnit Model.TrxPatterns Model.TrxMachine Model.Interchunk
  Spec.ChunkLoop Spec.ChunkTokens Spec.TransferUnit Spec.TrxPatterns Spec.TransferRun Spec.Interchunk
  Proofs.ChunkLoop Proofs.ChunkTokens Proofs.TrxMachine Proofs.TransferRun Proofs.Interchunk Proofs.InterchunkRun Props.C31 Props.C54 Props.C55 Props.C56.

Section Prog.
Variable attr_match : str -> str -> str.
Variable attr_replace : str -> str -> str -> str.
Variable copy_case case_from : str -> str -> str.
Variable get_case lower_str : str -> str.
Variable lists : str -> list str.
Variable dict_case : bool.
Variable macros : str -> nat.
Variable macro_map : list (nat * list iinstr).
Variable bodies : list (list iinstr).
Variable lower : char -> char.
(** interchunk on a text: tokens, then the loop with the compiled patterns and the interpreter.  [fuel]: how deep macros may be nested *)
Definition interchunk_text (fuel : nat) (t : trans) (vars : str -> str) (text out : str) (vars' : str -> str) : Prop :=
  exists toks, klex false false KTop text [] = Some (toks, None) /\
  exists f0 st c, l_g _ _ st = Some (vars', c) /\ forall f, f0 <= f ->
    lloop true (list (list nat)) (em_init t) (em_chunk lower t) (em_blank t) em_empty (em_rules t) (option iglob)
      (iact attr_match attr_replace copy_case case_from get_case lower_str lists dict_case macros macro_map fuel bodies) (fun w => cCARET :: w ++ [cDOL])
      f toks (lstart _ (em_init t) _ [] (Some (vars, fun _ => None))) = Some (out, st).
End Prog.

(** A text of chunks is answered by exactly one text, the one the rules describe: the longest match, the first rule, its meaning. *)
Theorem C60_interchunk : forall attr_match attr_replace copy_case case_from get_case lower_str lists dict_case macros macro_map lower
    defs ps t bodies rank depth fuel l final vars,
  compile defs ps = Some t -> well_formed defs -> Forall (fun cs => cs <> []) ps ->
  wf_macros macros macro_map rank -> wf_rules macros macro_map rank depth ps bodies -> depth <= fuel -> one_instr (file_nodes macro_map bodies) ->
  (uses_content (file_nodes macro_map bodies) -> (forall s, attr_match (u "content") s = from_brace s) /\ Forall (fun bx => c_content (snd bx) <> None) l) ->
  Forall (fun bx => BText (fst bx) /\ chunk_ok (snd bx) /\ dollar_free lower (c_head (snd bx))) l -> BText final ->
  exists out vars',
    (forall o v, interchunk_text attr_match attr_replace copy_case case_from get_case lower_str lists dict_case macros macro_map bodies lower fuel t vars (chunks_text l final) o v
       <-> o = out /\ v = vars') /\
    (forall o v, Transferred chunk (fun n us => rule_matches lower defs ps n (map c_head us)) (str -> str)
       (rule_means attr_match attr_replace copy_case case_from get_case lower_str lists dict_case macros macro_map bodies)
       (fun x => cCARET :: chunk_str x ++ [cDOL]) vars l final o v <-> o = out /\ v = vars').
Proof.
  intros am ar cc cf gc ls lists dc macros mm lower defs ps t bodies rank depth fuel l final vars HC HW HN WM WR DF N1 UC HL HF.
  assert (HL' : Forall (fun bx : str * str => BText (fst bx) /\ ChunkText (snd bx)) (tokl chunk chunk_str l)).
  { unfold tokl. apply Forall_map. eapply Forall_impl; [|exact HL]. intros bx (A & B & _). split; [exact A|]. apply chunk_text, B. }
  assert (TL := proj1 (C31_interchunk_tokens false _ _ HL' HF)). rewrite <- text_stream in TL. change (map ktok (stream_items (tokl chunk chunk_str l)) ++ [KEof final]) with (utoks chunk chunk_str l final) in TL.
  assert (CR : uses_content (file_nodes mm bodies) -> forall s, am (u "content") s = from_brace s) by (intros K; exact (proj1 (UC K))).
  destruct (run_text chunk chunk_str lower defs ps t HW HC HN c_head (fun x => chunk_ok x /\ content_there mm bodies x) (em_chunk lower t)) with
    (clear := true) (G1 := option iglob) (G2 := option (str -> str)) (R := RG mm bodies)
    (act1 := iact am ar cc cf gc ls lists dc macros mm fuel bodies) (act2 := act2 am ar cc cf gc ls lists dc macros mm ps bodies fuel)
    (apply := opt_apply chunk (str -> str) (rule_means am ar cc cf gc ls lists dc macros mm bodies)) (dflt := fun w : str => cCARET :: w ++ [cDOL]) (default := fun x => cCARET :: chunk_str x ++ [cDOL])
    (l := l) (final := final) (g1 := Some (vars, fun _ : nat => None) : option iglob) (g2 := Some vars) as (out & g' & (f0 & st & RS & R) & T).
  - intros x M [H _]. apply em_chunk_unit, H.
  - apply em_chunk_dead.
  - intros r g1 g2 ws bs HR HA. apply (act_R am ar cc cf gc ls lists dc macros mm ps bodies rank depth fuel N1 WM WR DF); [exact HR|]. eapply Forall_impl; [|exact HA]. intros w (x & [Hx _] & E). eauto.
  - intros. apply act_local.
  - intros. apply act_neg.
  - intros r g us bs H. apply (act_apply am ar cc cf gc ls lists dc macros mm ps bodies rank depth fuel WM WR DF CR). exact H.
  - apply opt_fun. intros. eapply means_fun; eassumption.
  - reflexivity.
  - assert (CT : Forall (fun bx => content_there mm bodies (snd bx)) l).
    { apply Forall_forall. intros bx HI K. exact (proj1 (Forall_forall _ _) (proj2 (UC K)) bx HI). }
    rewrite Forall_forall in HL, CT |- *. intros bx HI. destruct (HL bx HI) as (_ & A & B). split; [split; [exact A|exact (CT bx HI)]|exact B].
  - split; [reflexivity|]. intros id x E. discriminate E.
  - destruct (proj1 (opt_transferred _ _ _ _ _ vars l final out g') (proj2 (T out g') (conj eq_refl eq_refl))) as (v' & -> & T').
    exists out, v'. destruct (l_g _ _ st) as [[v1 c1]|] eqn:EG; [|contradiction RS]. destruct RS as [-> RS]. split.
    + intros o v. split.
      * intros (toks & E & f1 & st1 & c & E1 & R1). rewrite TL in E. injection E as <-. specialize (R1 (Nat.max f0 f1) (Nat.le_max_r _ _)). specialize (R (Nat.max f0 f1) (Nat.le_max_l _ _)).
        assert (R' := eq_trans (eq_sym R) R1). injection R' as EO ES. subst st1. assert (E2 := eq_trans (eq_sym EG) E1). injection E2 as <- _. auto.
      * intros [-> ->]. exists (utoks chunk chunk_str l final). split; [exact TL|]. exists f0, st, c1. split; [exact EG|exact R].
    + intros o v. split.
      * intros TR. destruct (proj1 (T o (Some v)) (proj2 (opt_transferred _ _ _ _ _ vars l final o (Some v)) (ex_intro _ v (conj eq_refl TR)))) as [-> E]. injection E as <-. auto.
      * intros [-> ->]. exact T'.
Qed.
Print Assumptions C60_interchunk.

(** ** A case.  Categories: subject chunks, verb chunks.  Rule 1: subject verb, turned round, the verb's lemma replaced, after the macro "count";
    rule 2: subject, its content printed in another chunk.  The macro counts plural subjects. *)
Fixpoint lem_of (s : str) : str := match s with [] => [] | c :: r => if c =?c cLT then [] else c :: lem_of r end.
Fixpoint tags_of (s : str) : str := match s with [] => [] | c :: r => if c =?c cLT then s else tags_of r end.
Definition exm (part s : str) : str :=
  if str_eqb part (u "lem") then lem_of s else if str_eqb part (u "content") then from_brace s else if str_eqb part (u "tags") then tags_of s else s.
Definition exr (part s v : str) : str := if str_eqb part (u "lem") then v ++ tags_of s else s.
Definition exd : list (str * list cat_item) := [(u "sn", [mkci [] [u "SN"; u "*"] []]); (u "sv", [mkci [] [u "SV"] []])].
Definition exps : list (list str) := [[u "sn"; u "sv"]; [u "sn"]].
Definition exbodies : list (list iinstr) :=
  [[KCall (u "count") [0%Z]; KLet (MClip 1 (u "lem") 1) (JLit 2 (u "see")); KOut [JChunk [JClip 3 (u "whole") 1]; JB 4; JChunk [JClip 5 (u "whole") 0]]];
   [KChoose [(Some (DEqual false (JVar 6 (u "n")) (JLit 7 (u "x"))), [KOut [JLit 8 (u "!")]]); (None, [KOut [JChunk [JLit 9 (u "np"); JLitTag 10 (u "SN.a"); JLit 11 (u "{"); JClip 12 (u "content") 0; JLit 13 (u "}")]]])]]].
Definition exmac : list (nat * list iinstr) :=
  [(1, [KChoose [(Some (DEqual true (JClip 14 (u "tags") 0) (JLitTag 15 (u "sn.pl"))), [KAppend (u "n") [JLit 16 (u "x")]])]])].
Definition exlow (s : str) : str := map exlower s.
Definition exrun (bodies : list (list iinstr)) (ps : list (list str)) (l : list (str * chunk)) (final : str) : option (str * option str) :=
  match compile exd ps, klex false false KTop (chunks_text l final) [] with
  | Some t, Some (toks, None) =>
      option_map (fun r => (fst r, option_map (fun g : iglob => fst g (u "n")) (l_g _ _ (snd r))))
        (lloop true (list (list nat)) (em_init t) (em_chunk exlower t) (em_blank t) em_empty (em_rules t) (option iglob)
          (iact exm exr (fun _ d => d) (fun _ d => d) (fun s => s) exlow (fun _ => []) false (fun _ => 0) exmac 2 bodies) (fun w => cCARET :: w ++ [cDOL])
          80 toks (lstart _ (em_init t) _ [] (Some (fun _ => [], fun _ => None))))
  | _, _ => None
  end.
Definition exl : list (str * chunk) :=
  [(u " ", mkch (ch "Cats" ++ [RTag (u "SN"); RTag (u "pl")]) (Some (u "^cat<n>$}")));
   (u " [<b>] ", mkch (ch "look" ++ [RTag (u "SV")]) (Some (u "^look<v>$}")));
   (u ", ", mkch (ch "dogs" ++ [RTag (u "SN"); RTag (u "pl")]) (Some (u "^dog<n>$}")));
   (u " ", mkch (ch "of" ++ [RTag (u "PR")]) (Some (u "^of<pr>$}")))].
Example C60_case_text : chunks_text exl (u ".") = u " ^Cats<SN><pl>{^cat<n>$}$ [<b>] ^look<SV>{^look<v>$}$, ^dogs<SN><pl>{^dog<n>$}$ ^of<PR>{^of<pr>$}$.".
Proof. vm_compute. reflexivity. Qed.
Example C60_case_run : exrun exbodies exps exl (u ".") =
  Some (u " ^see<SV>{^look<v>$}$ [<b>] ^Cats<SN><pl>{^cat<n>$}$, ! ^of<PR>{^of<pr>$}$.", Some (u "x")).
Proof. vm_compute. reflexivity. Qed.
Example C60_case_run2 : exrun exbodies exps (skipn 2 exl) (u ".") = Some (u ", ^np<SN><a>{^dog<n>$}$ ^of<PR>{^of<pr>$}$.", Some []).
Proof. vm_compute. reflexivity. Qed.
Lemma one_instr_dec (l : list (nat * jinstr)) : NoDup (map fst l) -> one_instr l.
Proof.
  induction l as [|[i t] l IH]; intros H id a b; [intros []|]. cbn in H. inversion_clear H as [|? ? H1 H2]. intros [E|A] [E'|B].
  - congruence.
  - injection E as -> ->. exfalso. apply H1. apply in_map_iff. exists (id, b). auto.
  - injection E' as -> ->. exfalso. apply H1. apply in_map_iff. exists (id, a). auto.
  - exact (IH H2 id a b A B).
Qed.
Example C60_case_hyps : (exists t, compile exd exps = Some t) /\ well_formed exd /\ Forall (fun cs => cs <> []) exps /\
  wf_macros (fun _ => 0) exmac (fun _ => 0) /\ wf_rules (fun _ => 0) exmac (fun _ => 0) 1 exps exbodies /\ one_instr (file_nodes exmac exbodies) /\
  (forall s, exm (u "content") s = from_brace s) /\ Forall (fun bx => c_content (snd bx) <> None) exl /\
  Forall (fun bx => BText (fst bx) /\ chunk_ok (snd bx) /\ dollar_free exlower (c_head (snd bx))) exl /\ BText (u ".").
Proof.
  split; [eexists; vm_compute; reflexivity|]. split; [|split; [|split; [|split; [|split; [|split; [|split; [|split]]]]]]].
  - intros c items. unfold exd. cbn [lookup_cat]. assert (W : Forall item_wf [mkci [] [u "SN"; u "*"] []; mkci [] [u "SV"] []]).
    { repeat (apply Forall_cons || apply Forall_nil); unfold item_wf; cbn [ci_lemma ci_name ci_tags]; repeat split;
        try (apply no_two; intros [|[|[|[|i]]]]; cbn; congruence); cbn; intuition discriminate. }
    inversion_clear W as [|? ? W1 Wa]. inversion_clear Wa as [|? ? W2 _].
    destruct (str_eqb (u "sv") c); [intros [= <-]; auto|]. destruct (str_eqb (u "sn") c); [intros [= <-]; auto|discriminate].
  - repeat (apply Forall_cons || apply Forall_nil); discriminate.
  - intros [|k] npar body; [intros [= <- <-]|destruct k; discriminate]. repeat (apply Forall_cons || apply Forall_nil). cbn. unfold in_range. repeat split; try lia. repeat constructor.
  - split; [reflexivity|]. intros [|[|k]] p body; [intros [= <-] [= <-]|intros [= <-] [= <-]|destruct k; discriminate].
    + repeat (apply Forall_cons || apply Forall_nil); cbn; unfold in_range; repeat split; try lia; repeat constructor; cbn; unfold in_range; try lia. eexists. reflexivity.
    + repeat (apply Forall_cons || apply Forall_nil); cbn; unfold in_range; repeat split; try lia; repeat constructor; cbn; unfold in_range; try lia.
  - apply one_instr_dec. vm_compute. repeat constructor; cbn; intuition discriminate.
  - reflexivity.
  - repeat constructor; discriminate.
  - repeat (apply Forall_cons || apply Forall_nil); (split; [|split]); cbn [fst snd];
      try (unfold dollar_free; vm_compute; intuition discriminate).
    all: try (split; [repeat constructor; cbn; intuition discriminate|]; cbn [c_content]; repeat (apply in_char; [discriminate|discriminate|]); apply in_end).
    all: try (repeat constructor; discriminate).
    apply bt_char; [discriminate..|]. apply (bt_sup (u "<b>") (u " ")); repeat constructor; discriminate.
  - repeat constructor; discriminate.
Qed.

(** ** What the hypotheses exclude *)
(** the content of a chunk without content: the program aborts *)
Theorem C60_no_content_refuted :
  exrun exbodies exps [(u "", mkch (ch "dogs" ++ [RTag (u "SN"); RTag (u "pl")]) None)] (u ".") = Some (u ".", None).
Proof. vm_compute. reflexivity. Qed.
(** a rule that names a chunk beyond its pattern sees the text after it, as far as longer patterns made the program read *)
Theorem C60_beyond_pattern_refuted :
  let body := [[KOut [JClip 1 (u "lem") 1]]; []] in let ps := [[u "sn"]; [u "sn"; u "sv"; u "sv"]] in
  let sn := (u "", mkch (ch "a" ++ [RTag (u "SN"); RTag (u "pl")]) None) in
  exrun body ps [sn; (u " ", mkch (ch "b" ++ [RTag (u "SV")]) None)] [] = Some (u "b ^b<SV>$", Some []) /\
  exrun body ps [sn; (u " ", mkch (ch "c" ++ [RTag (u "SV")]) None)] [] = Some (u "c ^c<SV>$", Some []) /\
  exrun body ps [sn] [] = Some ([], Some []).
Proof. vm_compute. repeat split. Qed.
(** a call of a macro that is not defined calls the first macro of the file (here "count") *)
Theorem C60_undefined_macro_refuted :
  let sn := (u "", mkch (ch "a" ++ [RTag (u "SN"); RTag (u "pl")]) None) in
  exrun [[KCall (u "nosuch") [0%Z]]] [[u "sn"]] [sn] [] = Some ([], Some (u "x")).
Proof. vm_compute. reflexivity. Qed.

(** ** What rules see of a chunk *)
(** an attribute found in the head has the value found there, one that covers the head also covers the content, one not found in the head
    has the content as value if it covers all of it; assignments change the head only *)
Theorem C60_chunk_parts : forall attr_match attr_replace x part v, let w := as_word x in let h := reading_str (c_head x) in
  (attr_match part h <> [] -> List.length (attr_match part h) <> List.length h -> chunk_part attr_match w part = attr_match part h) /\
  (attr_match part h <> [] -> List.length (attr_match part h) = List.length h -> chunk_part attr_match w part = attr_match part (chunk_str x)) /\
  (attr_match part h = [] -> List.length (attr_match part (content_str x)) = List.length (content_str x) -> chunk_part attr_match w part = attr_match part (content_str x)) /\
  (attr_match part h = [] -> List.length (attr_match part (content_str x)) <> List.length (content_str x) -> chunk_part attr_match w part = []) /\
  iw_chunk (set_part attr_replace w part v) = attr_replace part h v /\ iw_queue (set_part attr_replace w part v) = content_str x.
Proof.
  intros am ar x part v w h. unfold chunk_part, set_part, w, chunk_str, as_word. cbn [iw_chunk iw_queue]. fold h.
  repeat split; intros; destruct (am part h) as [|c m] eqn:E; try congruence.
  - rewrite (proj2 (Nat.eqb_neq _ _)) by congruence. reflexivity.
  - rewrite (proj2 (Nat.eqb_eq _ _)) by congruence. reflexivity.
  - rewrite (proj2 (Nat.eqb_eq _ _)) by congruence. reflexivity.
  - rewrite (proj2 (Nat.eqb_neq _ _)) by congruence. reflexivity.
Qed.
Lemma no_brace a : ~ In cLC a -> from_brace a = [].
Proof. induction a as [|c a IH]; intros H; [reflexivity|]. cbn [from_brace]. rewrite (proj2 (ceq_neq _ _)) by (intros ->; apply H; left; reflexivity). apply IH. intros K. apply H. right. exact K. Qed.
(** clip part="content" is what stands between the braces *)
Theorem C60_content : forall attr_match x i, (forall s, attr_match (u "content") s = from_brace s) -> ~ In cLC (reading_str (c_head x)) -> c_content x = Some (i ++ [cRC]) ->
  trim_braces (chunk_part attr_match (as_word x) (u "content")) = Some i.
Proof.
  intros am x i H HB HC. unfold chunk_part, as_word. cbn [iw_chunk iw_queue]. rewrite !H, (no_brace _ HB). unfold content_str. rewrite HC.
  rewrite (from_brace_all (i ++ [cRC])) by (destruct i; discriminate). rewrite Nat.eqb_refl. cbn [trim_braces]. rewrite removelast_last. reflexivity.
Qed.
(** lit-tag v="a.b" is <a><b> *)
Fixpoint dotted (l : list str) : str := match l with [] => [] | [x] => x | x :: r => x ++ cDOT :: dotted r end.
Lemma no_dot a : ~ In cDOT a -> flat_map (fun c => if c =?c cDOT then [cGT; cLT] else [c]) a = a.
Proof. induction a as [|c a IH]; intros H; [reflexivity|]. cbn. rewrite (proj2 (ceq_neq _ _)) by (intros ->; apply H; left; reflexivity). cbn. f_equal. apply IH. intros K. apply H. right. exact K. Qed.
Theorem C60_lit_tag : forall l, l <> [] -> Forall (fun t => ~ In cDOT t) l -> lit_tags (dotted l) = flat_map (fun t => cLT :: t ++ [cGT]) l.
Proof.
  intros l HN H. unfold lit_tags. induction H as [|a l Ha Hl IH]; [contradiction|]. destruct l as [|b l].
  - cbn. rewrite (no_dot a Ha), app_nil_r. reflexivity.
  - cbn [dotted flat_map] in *. rewrite flat_map_app, (no_dot a Ha). cbn [flat_map]. rewrite ceq_refl. cbn [app]. specialize (IH ltac:(discriminate)).
    injection IH as IH. rewrite <- ?app_assoc in *. cbn [app] in *. rewrite <- ?app_assoc in *. cbn [app] in *. do 3 f_equal. f_equal. exact IH.
Qed.
Example C60_parts_ex : let x := mkch (ch "Cats" ++ [RTag (u "SN")]) (Some (u "^cat<n>$}")) in
  chunk_part exm (as_word x) (u "lem") = u "Cats" /\ chunk_part exm (as_word x) (u "whole") = u "Cats<SN>{^cat<n>$}" /\
  trim_braces (chunk_part exm (as_word x) (u "content")) = Some (u "^cat<n>$") /\ lit_tags (dotted [u "n"; u "pl"]) = u "<n><pl>".
Proof. vm_compute. repeat split. Qed.
(** a head with an (escaped) brace: the content begins there *)
Theorem C60_brace_in_head_refuted : let x := mkch ([REsc cLC] ++ ch "x" ++ [RTag (u "SN")]) (Some (u "^cat<n>$}")) in
  chunk_ok x /\ trim_braces (chunk_part exm (as_word x) (u "content")) = Some (u "x<SN").
Proof. split; [|vm_compute; reflexivity]. split; [repeat constructor; cbn; intuition discriminate|]. cbn [c_content]. repeat (apply in_char; [discriminate|discriminate|]); apply in_end. Qed.
