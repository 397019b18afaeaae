(** C61: apertium-postchunk, text to text.  Spec/PostchunkRun.v: chunks, what a rule works on, [Postchunked]; Spec/PostchunkRules.v: what
    rules mean.  Model: Model/PostchunkRun.v (the loop), Model/PostchunkRules.v (interpreter), Model/Postchunk.v (chunks),
    Model/ChunkTokens.v (tokens), Model/TrxPatterns.v, Model/TrxMachine.v (compiled patterns). *)
From Coq Require Import String ZArith.
From Verif Require Import Model.Base Proofs.Base Model.ChunkLoop Model.ChunkTokens Model.TransferRules Model.TrxPatterns Model.TrxMachine Model.Postchunk Model.PostchunkRules Model.PostchunkRun
  Spec.ChunkTokens Spec.TransferUnit Spec.TrxPatterns Spec.Postchunk Spec.PostchunkRules Spec.PostchunkRun Proofs.TransferRules Proofs.PostchunkRun Props.C54 Props.C55 Props.C56.

Section Prog.
Variable attr_match : str -> str -> str.
Variable attr_replace : str -> str -> str -> str.
Variable copy_case case_from : str -> str -> str.
Variable get_case lower_str : str -> str.
Variable itoa : nat -> str.
Variable lists : str -> list str.
Variable dict_case : bool.
Variable macros : str -> nat.
Variable macro_map : list (nat * list pinstr).
Variable bodies : list (list pinstr).
Variable up : char -> char.
Variable alnum : char -> bool.
Variable getcase : str -> ckind.
Variable lower : char -> char.
Definition pfresh (vars : str -> str) : pglob := mkpg vars (fun _ => []) [] [] (fun _ => None).
(** postchunk on a text: tokens, then the loop.  k: how deep macros may be nested, f: number of steps *)
Definition postchunk_text (t : trans) (vars : str -> str) (text out : str) (vars' : str -> str) : Prop :=
  exists toks, klex false false KTop text [] = Some (toks, None) /\
  exists k0 f0 g, g_vars g = vars' /\ forall k f, k0 <= k -> f0 <= f ->
    o_loop attr_match attr_replace copy_case case_from get_case lower_str itoa lists dict_case macros macro_map bodies up alnum getcase lower t k f (o_start t toks (pfresh vars)) = Some (out, g).
(** rule n *)
Definition prule_means (n : nat) (s s' : qst) : Prop :=
  exists body, nth_error bodies (n - 1) = Some body /\
    PRule attr_match attr_replace copy_case case_from get_case lower_str itoa lists dict_case macros macro_map body s (-1) s'.
End Prog.

(** A text of chunks is turned into [out] exactly if [Postchunked] says so: every chunk is replaced by what the first rule whose category has
    its name means, or opened if there is none.  Missing: rules that reject themselves, <lu> inside <lu>, unescaped braces and closing brackets in words. *)
Theorem C61_postchunk_partial : forall attr_match attr_replace copy_case case_from get_case lower_str itoa lists dict_case macros macro_map bodies up alnum getcase lower
    defs ps t l final vars out vars',
  compile defs ps = Some t -> well_formed defs -> Forall (fun cs => exists c, cs = [c]) ps ->
  pfile_ok macro_map bodies -> (forall c, in_word c -> in_word (up c)) ->
  Forall (fun bx => BText (fst bx) /\ pchunk_ok (snd bx) /\ dollar_free lower (h_lemma (snd bx))) l -> BText final ->
  (postchunk_text attr_match attr_replace copy_case case_from get_case lower_str itoa lists dict_case macros macro_map bodies up alnum getcase lower t vars (pchunks_text l final) out vars' <->
   exists vwb', Postchunked up alnum getcase dict_case (fun n x => rule_matches lower defs ps n [h_lemma x])
     (prule_means attr_match attr_replace copy_case case_from get_case lower_str itoa lists dict_case macros macro_map bodies)
     vars (fun _ => []) [] l final out vars' vwb').
Proof.
  intros am ar cc cf gc ls it lists dc macros mm bodies up alnum getcase lower defs ps t l final vars out vars' HC HW H1 FO UP HL HF.
  assert (TK : klex false false KTop (pchunks_text l final) [] = Some (toks_from [] l final, None)).
  { apply pchunks_toks; [|exact HF]. eapply Forall_impl; [|exact HL]. cbn. tauto. }
  assert (CF : Forall (chunk_fine lower) l) by (eapply Forall_impl; [|exact HL]; intros bx (_ & A & B); split; assumption).
  assert (G0 : GOK (pfile_nodes mm bodies) (pfresh vars)) by (split; [discriminate|split; [intros; apply good_nil|apply good_nil]]).
  split.
  - intros (toks & E & k0 & f0 & g & <- & R). rewrite TK in E. injection E as <-. specialize (R k0 f0 (le_n _) (le_n _)). exists (g_vwb g).
    refine (loop_sound am ar cc cf gc ls it lists dc macros mm bodies up alnum getcase lower defs ps t UP FO HW HC H1 k0 l final CF [] 0 0 0 0 [] (pfresh vars) [] f0 out g G0 eq_refl (or_introl eq_refl) R).
  - intros (vwb' & P).
    destruct (loop_complete am ar cc cf gc ls it lists dc macros mm bodies up alnum getcase lower defs ps t UP FO HW HC H1 final l _ _ _ _ _ _ P CF (pfresh vars) G0 eq_refl eq_refl) as (k0 & f0 & g & E1 & E2 & R).
    exists (toks_from [] l final). split; [exact TK|]. exists k0, f0, g. split; [exact E1|]. intros k f Hk Hf. exact (R k f [] 0 0 0 0 [] Hk Hf eq_refl (or_introl eq_refl)).
Qed.
Print Assumptions C61_postchunk_partial.
(** at most one text *)
Theorem C61_function : forall attr_match attr_replace copy_case case_from get_case lower_str itoa lists dict_case macros macro_map bodies up alnum getcase lower t vars text o1 v1 o2 v2,
  postchunk_text attr_match attr_replace copy_case case_from get_case lower_str itoa lists dict_case macros macro_map bodies up alnum getcase lower t vars text o1 v1 ->
  postchunk_text attr_match attr_replace copy_case case_from get_case lower_str itoa lists dict_case macros macro_map bodies up alnum getcase lower t vars text o2 v2 -> o1 = o2 /\ v1 = v2.
Proof.
  intros until v2. intros (toks & E & k1 & f1 & g1 & <- & R1) (toks' & E' & k2 & f2 & g2 & <- & R2). assert (T := eq_trans (eq_sym E) E'). injection T as <-.
  assert (X := eq_trans (eq_sym (R1 (Nat.max k1 k2) (Nat.max f1 f2) (Nat.le_max_l _ _) (Nat.le_max_l _ _))) (R2 (Nat.max k1 k2) (Nat.max f1 f2) (Nat.le_max_r _ _) (Nat.le_max_r _ _))). injection X as -> ->. auto.
Qed.
Print Assumptions C61_function.

(** ** A case.  Rule 1: chunks np; a macro counts words with tag pl in n, the second word is printed before the first.  Rule 2: chunks v: the number of words. *)
From Verif Require Props.C60.
Definition exd : list (str * list cat_item) := [(u "np", [mkci [] [] (u "np")]); (u "v", [mkci [] [] (u "v*")])].
Definition exps : list (list str) := [[u "np"]; [u "v"]].
Definition exmac : list (nat * list pinstr) :=
  [(1, [PChoose [(Some (EEnds true (QClip 1 (u "tags") 1) (QLitTag 2 (u "pl"))), [PAppend (u "n") [QLit 3 (u "x")]])]])].
Definition exbodies : list (list pinstr) :=
  [[PCall (u "count") [1%Z]; PCall (u "count") [2%Z]; PLet (NClip 4 (u "lem") 2) (QConcat [QClip 5 (u "lem") 2; QLit 6 (u "s")]);
    POut [QLu [QClip 7 (u "whole") 2]; QB 8; QMlu [[QClip 9 (u "lem") 1; QClip 10 (u "tags") 0]; [QClip 11 (u "lem") 2]]]];
   [POut [QLu [QLit 12 (u "v"); QCount 13; QClip 14 (u "tags") 0]; QVar 15 (u "n")]]].
Definition exitoa (n : nat) : str := [(48 + N.of_nat n)%N].
Definition exup (c : char) : char := if (97 <=? c)%N && (c <=? 122)%N then (c - 32)%N else c.
Definition exalnum (c : char) : bool := (97 <=? c)%N && (c <=? 122)%N || (65 <=? c)%N && (c <=? 90)%N.
Definition excase (s : str) : ckind := match s with c :: _ => if (65 <=? c)%N && (c <=? 90)%N then Aa else aa | [] => aa end.
Definition exloop (mac : list (nat * list pinstr)) (bodies : list (list pinstr)) (t : trans) (k f : nat) (toks : list tkn) :=
  o_loop C60.exm C60.exr (fun _ d => d) (fun _ d => d) (fun s => s) C60.exlow exitoa (fun _ => []) false (fun _ => 0) mac bodies exup exalnum excase exlower t k f (o_start t toks (pfresh (fun _ => []))).
Definition exrun (mac : list (nat * list pinstr)) (bodies : list (list pinstr)) (l : list (str * pchunk)) (final : str) : option (str * str) :=
  match compile exd exps, klex false false KTop (pchunks_text l final) [] with
  | Some t, Some (toks, None) => option_map (fun r => (fst r, g_vars (snd r) (u "n"))) (exloop mac bodies t 3 80 toks)
  | _, _ => None
  end.
Definition lc (s : string) : list lelem := map LChar (u s).
Definition exl : list (str * pchunk) :=
  [(u " ", mkpc (ch "Np") [u "SN"; u "pl"] [CBlank (u "<i>"); CLu (lc "cat" ++ [LTag (u "n"); LRef (u "2")]); CBlank (u "</i>"); CWLu (u "t:b") (lc "do" ++ [LEsc cLC; LTag (u "n")])]);
   (u "; ", mkpc (ch "verb") [u "SV"; u "p3"] [CLu (lc "see" ++ [LTag (u "vb")])]);
   (u ", ", mkpc (ch "pr") [u "PP"; u "sg"] [CLu (lc "of" ++ [LTag (u "pr")]); CChar cSP; CLu (lc "me" ++ [LRef (u "2")])])].
Example C61_case_text : pchunks_text exl (u ".") = u " ^Np<SN><pl>{[<i>]^cat<n><2>$[</i>][[t:b]]^do\{<n>$}$; ^verb<SV><p3>{^see<vb>$}$, ^pr<PP><sg>{^of<pr>$ ^me<2>$}$.".
Proof. vm_compute. reflexivity. Qed.
Example C61_case_run : exrun exmac exbodies exl (u ".") =
  Some (u " [[t:b]]^do\{s<n>$[</i>][[t:b]]^Cat<SN><pl>+do\{s$; [<i>]^v1<SV><p3>$x, ^of<pr>$ ^me<sg>$.", u "x").
Proof. vm_compute. reflexivity. Qed.
Lemma pfunctional_dec (l : list (nat * qinstr)) : NoDup (map fst l) -> pfunctional l.
Proof.
  induction l as [|[i t] l IH]; intros H id a b; [intros []|]. cbn in H. inversion_clear H as [|? ? H1 H2]. intros [E|A] [E'|B].
  - congruence.
  - injection E as -> ->. exfalso. apply H1. apply in_map_iff. exists (id, b). auto.
  - injection E' as -> ->. exfalso. apply H1. apply in_map_iff. exists (id, a). auto.
  - exact (IH H2 id a b A B).
Qed.
Example C61_case_hyps : (exists t, compile exd exps = Some t) /\ well_formed exd /\ Forall (fun cs => exists c, cs = [c]) exps /\ pfile_ok exmac exbodies /\
  (forall c, in_word c -> in_word (exup c)) /\
  Forall (fun bx => BText (fst bx) /\ pchunk_ok (snd bx) /\ dollar_free exlower (h_lemma (snd bx))) exl /\ BText (u ".").
Proof.
  split; [eexists; vm_compute; reflexivity|]. split; [|split; [|split; [|split; [|split]]]].
  - intros c items. unfold exd. cbn [lookup_cat]. assert (W : Forall item_wf [mkci [] [] (u "np"); mkci [] [] (u "v*")]).
    { repeat (apply Forall_cons || apply Forall_nil); unfold item_wf; cbn [ci_lemma ci_name ci_tags]; repeat split;
        try (apply no_two; intros [|[|[|[|i]]]]; cbn; congruence); cbn; intuition discriminate. }
    inversion_clear W as [|? ? W1 Wa]. inversion_clear Wa as [|? ? W2 _].
    destruct (str_eqb (u "v") c); [intros [= <-]; auto|]. destruct (str_eqb (u "np") c); [intros [= <-]; auto|discriminate].
  - repeat constructor; eexists; reflexivity.
  - split; [apply pfunctional_dec; vm_compute; repeat constructor; cbn; intuition discriminate|]. repeat constructor.
  - intros c H. unfold exup. destruct ((97 <=? c)%N && (c <=? 122)%N) eqn:E; [|exact H]. apply andb_prop in E as [E1 E2]. apply N.leb_le in E1, E2.
    intros [K|[K|[K|[]]]]; unfold cBS, cRB, cLC in K; try lia. (* up to Z, below [ *)
  - repeat (apply Forall_cons || apply Forall_nil); (split; [|split]); cbn [fst snd];
      try (unfold dollar_free; vm_compute; intuition discriminate).
    all: try (repeat constructor; discriminate).
    all: unfold pchunk_ok; cbn [h_lemma h_tags h_content]; (split; [|split; [|split; [|split]]]).
    all: try (repeat (apply in_char; [discriminate|discriminate|]); try apply in_esc; repeat (apply in_char; [discriminate|discriminate|]); apply in_end).
    all: repeat constructor; cbn; try discriminate; unfold digit, in_word, special; cbn; try lia; intuition discriminate.
  - repeat constructor; discriminate.
Qed.

(** ** What goes wrong *)
Definition exundef (mac : list (nat * list pinstr)) (bodies : list (list pinstr)) (l : list (str * pchunk)) (final : str) : Prop :=
  forall t out v, compile exd exps = Some t ->
  ~ postchunk_text C60.exm C60.exr (fun _ d => d) (fun _ d => d) (fun s => s) C60.exlow exitoa (fun _ => []) false (fun _ => 0) mac bodies exup exalnum excase exlower t (fun _ => []) (pchunks_text l final) out v.
Ltac undef :=
  let c := eval vm_compute in (compile exd exps) in
  match c with Some ?T =>
    assert (EC : compile exd exps = Some T) by (vm_compute; reflexivity);
    intros t out v HT (toks & E & k0 & f0 & g & _ & R); rewrite EC in HT; injection HT as <-; vm_compute in E; injection E as <-;
    specialize (R (2 + k0) (8 + f0) (Nat.le_add_l _ _) (Nat.le_add_l _ _)); lazy in R; discriminate R
  end.
(** a macro called with a word the chunk has not got: with an empty chunk the program reads beyond an array *)
Theorem C61_empty_chunk_macro_refuted : exundef exmac [[PCall (u "count") [1%Z]]; []] [(u "", mkpc (ch "np") [] [])] (u ".").
Proof. undef. Qed.
Print Assumptions C61_empty_chunk_macro_refuted.
(** ... an assignment to a word the chunk has not got always *)
Theorem C61_let_beyond_refuted : exundef [] [[PLet (NClip 1 (u "lem") 2) (QLit 2 (u "s"))]; []] [(u "", mkpc (ch "np") [] [CLu (lc "a")])] (u ".").
Proof. undef. Qed.
Print Assumptions C61_let_beyond_refuted.
(** text before the first word of a chunk comes out behind the next blank, text after the last word is lost; both stay if no rule matches *)
Theorem C61_moved_refuted : let c := [CBlank (u "<b>"); CLu (lc "a"); CBlank (u "</b>")] in let bodies := [[POut [QLu [QClip 1 (u "whole") 1]]]; []] in
  exrun [] bodies [(u "", mkpc (ch "np") [] c)] (u " z") = Some (u "^a$ z[<b>]", []) /\
  exrun [] bodies [(u "", mkpc (ch "pr") [] c)] (u " z") = Some (u "[<b>]^a$[</b>] z", []).
Proof. vm_compute. repeat split. Qed.
Print Assumptions C61_moved_refuted.
(** a brace in a word-bound blank: the blank becomes part of the lemma *)
Theorem C61_brace_refuted : let w := CWLu (u "t:{x}:b") (lc "a" ++ [LTag (u "n")]) in let bodies := [[POut [QLu [QClip 1 (u "lem") 1]]]; []] in
  exrun [] bodies [(u "", mkpc (ch "np") [] [w])] [] = Some (u "^[[t:{x}:b]]a$", []) /\
  exrun [] bodies [(u "", mkpc (ch "np") [] [CWLu (u "t:(x):b") (lc "a" ++ [LTag (u "n")])])] [] = Some (u "[[t:(x):b]]^a$", []).
Proof. vm_compute. repeat split. Qed.
Print Assumptions C61_brace_refuted.
(** when a rule rejects itself the leading text of the chunk is printed twice *)
Theorem C61_reject_refuted : let c := [CBlank (u "<b>"); CLu (lc "a")] in
  exrun [] [[PReject 0]; [PReject 0]] [(u "", mkpc (ch "np") [] c)] (u " z") = Some (u "[<b>]^a$ z[<b>]", []).
Proof. vm_compute. repeat split. Qed.
Print Assumptions C61_reject_refuted.
