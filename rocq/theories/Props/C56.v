(** C56: structural transfer, text to text.  Spec/TransferRun.v: [Transferred].  The text is cut into tokens (C54), the rule file is
    compiled (C55) and the compiled machine drives the loop of transfer.cc (C31). *)
From Coq Require Import String ZArith.
From Verif Require Import Model.Base Proofs.Base Model.ChunkLoop Model.ChunkTokens Model.TransferUnit Model.TrxPatterns Model.TrxMachine Spec.ChunkLoop Spec.ChunkTokens Spec.TransferUnit Spec.TrxPatterns Spec.TransferRun
  Proofs.TransferMult Proofs.ChunkLoop Proofs.ChunkTokens Proofs.Patterns Proofs.TransferUnit Proofs.TrxPatterns Proofs.TrxRules Proofs.TrxMatch Proofs.TrxMachine Proofs.TransferRun Props.C31 Props.C54 Props.C55.

(** transfer on a text: tokens, then the loop with the compiled rules *)
Definition transfer_loop (lower : char -> char) (t : trans) {G} (act : nat -> G -> list str -> list str -> str * list str * Z * G) (dflt : str -> str) :=
  lloop false (list (list nat)) (em_init t) (em_word lower t) (em_blank t) em_empty (em_rules t) G act dflt.
Definition transfer_text (lower : char -> char) (t : trans) {G} (act : nat -> G -> list str -> list str -> str * list str * Z * G) (dflt : str -> str) (g : G) (text out : str) (g' : G) : Prop :=
  exists toks, tlex false TTop text [] = Some (toks, None) /\
  exists f0 st, l_g _ _ st = g' /\ forall fuel, f0 <= fuel -> transfer_loop lower t act dflt fuel toks (lstart _ (em_init t) G [] g) = Some (out, st).
(** a rule looks at the words its pattern matched, does not reject itself, and what it does with the words is [apply] *)
Definition acts_as {G} (ps : list (list str)) (act : nat -> G -> list str -> list str -> str * list str * Z * G) (apply : nat -> G -> list lunit -> list str -> str * list str * G) : Prop :=
  (forall r g ws bs, act r g ws bs = act r g (firstn (List.length (nth (r - 1) ps [])) ws) bs) /\
  (forall r g ws bs, (snd (fst (act r g ws bs)) < 0)%Z) /\
  (forall r g us bs, Forall lunit_ok us -> exists z, let '(o, lf, g1) := apply r g us bs in act r g (map token us) bs = (o, lf, z, g1)).

(** transfer answers a text with exactly one text, and that is the one the rules describe *)
Theorem C56_transfer : forall lower defs ps t G (act : nat -> G -> list str -> list str -> str * list str * Z * G) apply dflt default l final g,
  compile defs ps = Some t -> well_formed defs -> Forall (fun cs => cs <> []) ps ->
  acts_as ps act apply -> (forall x, lunit_ok x -> dflt (token x) = default x) ->
  Forall (fun bx => BText (fst bx) /\ lunit_ok (snd bx) /\ dollar_free lower (u_sl (snd bx))) l -> BText final ->
  exists out g',
    (forall o2 g2, transfer_text lower t act dflt g (units_text l final) o2 g2 <-> o2 = out /\ g2 = g') /\
    (forall o2 g2, Transferred lunit (fun n us => rule_matches lower defs ps n (map u_sl us)) G (fun n g us bs o lf g1 => apply n g us bs = (o, lf, g1)) default g l final o2 g2 <-> o2 = out /\ g2 = g').
Proof.
  intros lower defs ps t G act apply dflt default l final g HC HW HN (A1 & A2 & A3) HD HL HF.
  assert (HL' : Forall (fun bx : str * lunit => BText (fst bx) /\ lunit_ok (snd bx)) l) by (eapply Forall_impl; [|exact HL]; cbn; tauto).
  assert (TL := tlex_units false l final HL' HF).
  destruct (run_text lunit token lower defs ps t HW HC HN u_sl lunit_ok (em_word lower t) (em_word_unit lower t) (em_word_dead lower t) false G G eq act act
    (fun n g us bs o lf g1 => apply n g us bs = (o, lf, g1)) dflt default) with (l := l) (final := final) (g1 := g) (g2 := g) as (out & g' & (f0 & st & <- & R) & T); trivial.
  - intros r g1 g2 ws bs <- _. destruct (act r g1 ws bs) as [[[o lf] z] g1']. eauto.
  - intros r g0 us bs F _ _. destruct (A3 r g0 us bs F) as [z E]. destruct (apply r g0 us bs) as [[o lf] g1]. rewrite E. reflexivity.
  - intros n g0 us bs o1 l1 g1 o2 l2 g2 E1 E2. rewrite E1 in E2. injection E2 as <- <- <-. auto.
  - eapply Forall_impl; [|exact HL]. intros bx (_ & B & C). split; [exact B|exact C].
  - exists out, (l_g _ _ st). split; [|exact T]. intros o2 g2. split.
    + intros (toks & E & f1 & st1 & <- & R1). rewrite TL in E. injection E as <-. specialize (R1 (Nat.max f0 f1) (Nat.le_max_r _ _)). specialize (R (Nat.max f0 f1) (Nat.le_max_l _ _)). assert (R' := eq_trans (eq_sym R) R1). injection R' as <- <-. auto.
    + intros [-> ->]. exists (utoks lunit token l final). split; [exact TL|]. exists f0, st. split; [reflexivity|exact R].
Qed.
Print Assumptions C56_transfer.

(** Case: a category of adjectives and one of nouns; rule 1: noun adjective, rule 2: adjective noun (turned round), rule 3: noun.
    The variables count the rules applied. *)
Definition exdefs : list (str * list cat_item) :=
  [(u "n", [mkci [] [u "n"; u "*"] []; mkci [] [u "np"] []]); (u "a", [mkci (u "big") [u "adj"] []; mkci [] [u "adj"; u "sint"] []])].
Definition exrules : list (list str) := [[u "n"; u "a"]; [u "a"; u "n"]; [u "n"]; [u "a"; u "n"]].
Definition extl (w : str) : str := match rule_parts w with Some p => cCARET :: p_tl p ++ [cDOL] | None => [] end.
Definition exact (r g : nat) (ws bs : list str) : str * list str * Z * nat := (flat_map extl (rev (firstn (List.length (nth (r - 1) exrules [])) ws)), bs, (-1)%Z, S g).
Definition exapply (r g : nat) (us : list lunit) (bs : list str) : str * list str * nat :=
  (flat_map (fun x => cCARET :: reading_str (u_tl x) ++ [cDOL]) (rev (firstn (List.length (nth (r - 1) exrules [])) us)), bs, S g).
Definition exdflt (w : str) : str := match default_out FromBilingual false w with Some o => o | None => [] end.
Definition exunits : list (str * lunit) :=
  [(u " [<p>]", mku None (ch "Big" ++ [RTag (u "adj")]) (ch "grande" ++ [RTag (u "adj")]) []);
   (u " [<b>] ", mku (Some (map WChar (u "t:b:x"))) (ch "cat" ++ [RTag (u "n"); RTag (u "sg")]) (ch "gato" ++ [RTag (u "n"); RTag (u "sg")]) [ch "ref"]);
   (u " ", mku None (ch "*qux") (ch "*qux") []);
   (u ", ", mku None (ch "big" ++ [RTag (u "adj")]) (ch "grande" ++ [RTag (u "adj")]) []);
   (u "; ", mku None (ch "see" ++ [RTag (u "vblex")]) (ch "ver" ++ [RTag (u "vblex")]) []);
   (u "! ", mku None (ch "Ann" ++ [RTag (u "np")]) (ch "Ana" ++ [RTag (u "np")]) [])].
Definition exlower (c : char) : char := if (65 <=? c)%N && (c <=? 90)%N then (c + 32)%N else c.
Example C56_case_text : units_text exunits (u ".") = u " [<p>]^Big<adj>/grande<adj>$ [<b>] [[t:b:x]]^cat<n><sg>/gato<n><sg>/ref$ ^*qux/*qux$, ^big<adj>/grande<adj>$; ^see<vblex>/ver<vblex>$! ^Ann<np>/Ana<np>$.".
Proof. vm_compute. reflexivity. Qed.
Example C56_case_run : option_map (fun t => match tlex false TTop (units_text exunits (u ".")) [] with
    | Some (toks, None) => option_map (fun r => (fst r, l_g _ _ (snd r))) (transfer_loop exlower t exact exdflt 60 toks (lstart _ (em_init t) nat [] 0)) | _ => None end) (compile exdefs exrules) =
  Some (Some (u " [<p>]^gato<n><sg>$^grande<adj>$ [<b>]  ^*qux$, ^grande<adj>$; ^ver<vblex>$! ^Ana<np>$.", 2)).
Proof. vm_compute. reflexivity. Qed.
Lemma no_two {A} (x : A) l : (forall i, nth_error l i = Some x -> nth_error l (S i) <> Some x) -> forall a b, l <> a ++ x :: x :: b.
Proof.
  intros H a b ->. apply (H (List.length a)); rewrite nth_error_app2 by lia.
  - rewrite Nat.sub_diag. reflexivity.
  - replace (S (List.length a) - List.length a) with 1 by lia. reflexivity.
Qed.
Example C56_case_hyps : (exists t, compile exdefs exrules = Some t) /\ well_formed exdefs /\ Forall (fun cs => cs <> []) exrules /\ acts_as exrules exact exapply /\
  (forall x, lunit_ok x -> exdflt (token x) = match u_tl x with [] => [] | _ => translated x end) /\
  Forall (fun bx => BText (fst bx) /\ lunit_ok (snd bx) /\ dollar_free exlower (u_sl (snd bx))) exunits /\ BText (u ".").
Proof.
  split; [|split; [|split; [|split; [|split; [|split]]]]].
  - eexists. vm_compute. reflexivity.
  - intros c items. unfold exdefs. cbn [lookup_cat]. assert (W : Forall item_wf [mkci [] [u "n"; u "*"] []; mkci [] [u "np"] []; mkci (u "big") [u "adj"] []; mkci [] [u "adj"; u "sint"] []]).
    { repeat (apply Forall_cons || apply Forall_nil); unfold item_wf; cbn [ci_lemma ci_name ci_tags]; repeat split;
        try (apply no_two; intros [|[|[|[|i]]]]; cbn; congruence); cbn; intuition discriminate. }
    inversion_clear W as [|? ? W1 Wa]. inversion_clear Wa as [|? ? W2 Wb]. inversion_clear Wb as [|? ? W3 Wc]. inversion_clear Wc as [|? ? W4 _].
    destruct (str_eqb (u "a") c); [intros [= <-]; auto|]. destruct (str_eqb (u "n") c); [intros [= <-]; auto|discriminate].
  - repeat (apply Forall_cons || apply Forall_nil); discriminate.
  - split; [|split; [intros; cbn; lia|]].
    + intros r g ws bs. unfold exact. rewrite firstn_firstn, Nat.min_id. reflexivity.
    + intros r g us bs F. exists (-1)%Z. unfold exapply, exact. do 3 f_equal. rewrite firstn_map, <- map_rev.
      assert (F' : Forall lunit_ok (rev (firstn (List.length (nth (r - 1) exrules [])) us))).
      { apply Forall_forall. intros y Hy. apply in_rev in Hy. apply in_firstn in Hy. exact (proj1 (Forall_forall _ _) F y Hy). }
      induction F' as [|y l' Hy _ IH]; [reflexivity|]. cbn [map flat_map]. rewrite IH. f_equal. unfold extl. rewrite C54_rule_sides by exact Hy. reflexivity.
  - intros x Hx. unfold exdflt. destruct (u_tl x) eqn:E.
    + rewrite (proj2 (C54_disappears_iff false x Hx) E). reflexivity.
    + rewrite C54_default_unit; [reflexivity|exact Hx|rewrite E; discriminate].
  - assert (SPC : BText (u " ")) by (repeat constructor; discriminate).
    repeat (apply Forall_cons || apply Forall_nil); (split; [|split]); cbn [fst snd];
      try (unfold lunit_ok, wb_ok, item_ok; cbn; repeat split; repeat constructor; cbn; intuition discriminate);
      try (unfold dollar_free; vm_compute; intuition discriminate); try (repeat constructor; discriminate).
    + apply bt_char; [discriminate..|]. apply (bt_sup (u "<p>") []); repeat constructor; discriminate.
    + apply bt_char; [discriminate..|]. apply (bt_sup (u "<b>") (u " ")); repeat constructor; discriminate.
  - repeat constructor; discriminate.
Qed.
