(** C36: CapsRestorer::process (apertium-restore-caps) from text to text. *)
From Coq Require Import String.
From Verif Require Import Model.Base Model.Caps Spec.MorphoStream Spec.Caps Proofs.Base Proofs.Caps.

(** For every machine, weights, case functions and sequence of well-formed documents: every word is written once, in
    order, with the blanks before it and its word-bound blank without the note of the source case; its case is the one
    with most evidence (dix before aa before Aa before AA if equal), where the evidence for a case of a word is the sum
    of the weights of the rules whose match covers the word and gives it that case; every NUL is answered by a NUL.
    Assumed: weights are totally preordered; no match is longer than what was read (else the program indexes outside).
    Partial: a blank at the end of a document counts the votes of the last words a second time (refuted below), one
    reading per unit, and every word-bound blank directly before a unit (refuted below). *)
Theorem C36_restore_partial : forall (W : Type) w0 wadd wge weights tolower totitle toupper
    (State : Type) initial step_null step_wb step_word finals dead merge delete_wblanks late d ds,
  (forall a b, wge a b = true \/ wge b a = true) -> (forall a b c, wge a b = true -> wge b c = true -> wge a c = true) ->
  Forall wf_cdoc (d :: ds) ->
  docs_fit W weights State initial step_null step_wb step_word finals dead merge late d ds ->
  exists s, process W w0 wadd wge weights tolower totitle toupper State initial step_null step_wb step_word finals dead merge delete_wblanks late (cdocs_text d ds) = Some s /\
    cdocs_out W w0 wadd wge weights tolower totitle toupper State initial step_null step_wb step_word finals dead merge delete_wblanks late d ds s.
Proof. intros. apply process_docs; auto. Qed.
Print Assumptions C36_restore_partial.

(** The case chosen is unique. *)
Theorem C36_chosen_unique : forall (W : Type) (wge : W -> W -> bool) ev c c', chosen W wge ev c -> chosen W wge ev c' -> c = c'.
Proof.
  intros W wge ev c c' [l x r P M N] [l' x' r' P' M' N'].
  assert (A : forall l1 (y1 : str) r1 l2 y2 r2, l1 ++ y1 :: r1 = l2 ++ y2 :: r2 -> y1 = y2 \/ In y1 l2 \/ In y2 l1).
  { induction l1 as [|z l1 IH]; intros y1 r1 [|z2 l2] y2 r2 E; cbn in E; injection E as E1 E2; subst; cbn; auto.
    destruct (IH _ _ _ _ _ E2) as [K|[K|K]]; auto. }
  rewrite P in P'. destruct (A _ _ _ _ _ _ P') as [K|[K|K]]; [exact K| |].
  - rewrite Forall_forall in N'. destruct (N' _ K) as (d & Hd & Q). rewrite Forall_forall in M. rewrite (M d Hd) in Q. discriminate.
  - rewrite Forall_forall in N. destruct (N _ K) as (d & Hd & Q). rewrite Forall_forall in M'. rewrite (M' d Hd) in Q. discriminate.
Qed.
Print Assumptions C36_chosen_unique.

(** ** a concrete machine: the first two words of a text are matched by one rule, which makes them lower case and title case *)
Definition tw_step (s : nat) (_ _ _ : str) : nat := match s with 1 => 2 | 2 => 3 | _ => 4 end.
Definition tw_finals (s : nat) : list (str * list str) := if s =? 3 then [(u "<0>", [u "<aa>"; u "<Aa>"])]%string else [].
Definition up1 (c : char) : char := if ((97 <=? c) && (c <=? 122))%N then (c - 32)%N else c.
Definition low1 (c : char) : char := if ((65 <=? c) && (c <=? 90))%N then (c + 32)%N else c.
Definition low := map low1.
Definition title (s : str) := match s with [] => [] | c :: r => up1 c :: low r end.
Definition tw (late : bool) := process nat 0 Nat.add (fun a b => b <=? a) (fun _ => 5) low title (map up1) nat 0 (fun _ => 1) (fun s => s) tw_step tw_finals (fun s => s =? 4) (fun s => s) true late.
Definition w (b : string) (wb : list string) (f s : string) := mkcw (u b) (map u wb) (Some (u f)) (u s).
Definition exd := mkcd [w "" ["t:b"; "c:Aa/aa"] "x<n>" "FOO"; w " [<b>]" [] "y\/" "bar"; w " " ["c:aa"] "z" "Baz"]%string [].
Definition exd2 := mkcd [w " " [] "x" "Foo"; w " " [] "x" "foo"; w " " [] "x" "foo"]%string (u "!"%string).
Ltac wf := repeat match goal with
  | |- Forall _ [] => constructor
  | |- Forall _ (_ :: _) => constructor
  | |- Forall _ _ => progress cbn
  | |- wf_cdoc _ => split
  | |- wf_word _ => split
  | |- wf_piece _ => split
  | |- _ /\ _ => split
  | |- forall f, _ = Some f -> _ => let E := fresh in intros ? E; injection E as <-
  | |- wf_blankw _ => first [apply W_nil|apply (W_super (u "<b>"%string) []); [|intros r K; vm_compute in K; discriminate|]|apply W_char; [discriminate..|]]
  | |- wf_seg [] => apply G_nil
  | |- wf_seg (92%N :: _) => apply G_esc
  | |- wf_seg (60%N :: _) => apply (G_tag (u "n"%string))
  | |- wf_seg (_ :: _) => apply G_char; [discriminate..|]
  | |- wf_seg _ => progress cbn
  | |- no_sep [] => apply N_nil
  | |- no_sep [_] => apply N_one
  | |- no_sep (_ :: _ :: _) => apply N_cons; [intros [K1 K2]; discriminate|]
  | |- no_sep _ => progress cbn
  | |- plain _ _ [] => apply P_nil
  | |- plain _ _ (_ :: _) => apply P_char; [discriminate|discriminate|]
  | |- plain _ _ _ => progress cbn
  | |- _ <> [] => discriminate
  end.
Example ex_wf : Forall wf_cdoc [exd; exd2].
Proof. wf. Qed.
Example ex_fit : docs_fit nat (fun _ => 5) nat 0 (fun _ => 1) (fun s => s) tw_step tw_finals (fun s => s =? 4) (fun s => s) true exd [exd2].
Proof.
  split; intros is H; repeat match goal with H : items_of (_ :: _) _ |- _ => inversion H; clear H; subst | H : items_of [] _ |- _ => inversion H; clear H; subst | H : items_of _ _ |- _ => progress cbn in H end;
  cbn; repeat (first [split|constructor|lia]).
Qed.
Example ex_out : tw true (cdocs_text exd [exd2]) = Some (u "[[t:b]]foo[[/]] [<b>]Bar Baz"%string ++ cNUL :: u " foo Foo foo!"%string).
Proof. vm_compute. reflexivity. Qed.

(** FINDING: a blank at the end is treated as a word: votes of the last match are counted again, one word further on
    (the machine keeps its states when step_optional finds nothing).  The line break after the last word changes its
    case. *)
Theorem C36_last_blank_refuted :
  tw false (u "^x/Foo$ ^y/bar$"%string) = Some (u "foo Bar"%string) /\ tw false (u "^x/Foo$ ^y/bar$!"%string) = Some (u "foo bar!"%string).
Proof. vm_compute. split; reflexivity. Qed.
Print Assumptions C36_last_blank_refuted.
(** FINDING: the readings of a unit are glued together. *)
Theorem C36_alternatives_refuted : tw false (u "^a/b/c$"%string) = Some (u "bc"%string).
Proof. vm_compute. reflexivity. Qed.
Print Assumptions C36_alternatives_refuted.
(** FINDING: the pieces of a word-bound blank after the note are lost. *)
Theorem C36_pieces_refuted : tw false (u "[[t:i:1; c:aa/aa; t:b:2]]^x$"%string) = Some (u "[[t:i:1]]x[[/]]"%string).
Proof. vm_compute. reflexivity. Qed.
Print Assumptions C36_pieces_refuted.
(** FINDING: a word-bound blank that is not before a unit is lost. *)
Theorem C36_loose_wblank_refuted : tw false (u "[[t:i:1]]x[[/]]"%string) = Some (u "x"%string).
Proof. vm_compute. reflexivity. Qed.
Print Assumptions C36_loose_wblank_refuted.
