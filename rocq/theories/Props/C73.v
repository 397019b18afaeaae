(** C73: LaTeX through apertium-prelatex and apertium-postlatex-raw. *)
From Coq Require Import String.
From Verif Require Import Model.Base Model.Latex Spec.Latex Proofs.Base Proofs.Latex.
Open Scope nat_scope.

(** Text in the grammar comes back as the grammar says; both filters end. *)
Theorem C73_roundtrip_partial e x y : tex e false x y ->
  exists m, (exists f0, forall f, f0 <= f -> lex f pre init x = Some m) /\ (exists f0, forall f, f0 <= f -> lex f post init m = Some y).
Proof. apply tex_trip. Qed.
Print Assumptions C73_roundtrip_partial.
(** Without accents, ligatures, marks and #, it comes back unchanged. *)
Theorem C73_same e x y : e = true -> tex e false x y -> y = x.
Proof. intros ->. apply tex_same. Qed.
Print Assumptions C73_same.
(** The name of an environment must be letters and digits, perhaps with a star: anything else, except white space or a brace, and apertium-prelatex does not end. *)
Theorem C73_hang_refuted kw n c s f : kw = u "\begin{"%string \/ kw = u "\end{"%string -> Forall is_alnum n -> ~ is_alnum c -> ~ white c -> ~ among "*{}"%string c ->
  lex f pre init (kw ++ n ++ c :: s) = None.
Proof. apply hang. Qed.
Print Assumptions C73_hang_refuted.
Definition trip_ok (p : string * string) : bool :=
  match lex 100 pre init (u (fst p)) with Some m => match lex 100 post init m with Some r => str_eqb r (u (snd p)) | None => false end | None => false end.
Lemma trip_check l : forallb trip_ok l = true -> Forall (fun p => exists m, lex 100 pre init (u (fst p)) = Some m /\ lex 100 post init m = Some (u (snd p))) l.
Proof.
  intros H. apply Forall_forall. intros p I. rewrite forallb_forall in H. apply H in I. unfold trip_ok in I. destruct (lex 100 pre init (u (fst p))) as [m|]; [|discriminate]. exists m. split; [reflexivity|].
  destruct (lex 100 post init m) as [r|]; [|discriminate]. apply str_eqb_eq in I as ->. reflexivity.
Qed.
(** Usual LaTeX that comes back as something else: the source and what is left of it. *)
Theorem C73_lost_refuted : Forall (fun p => exists m, lex 100 pre init (u (fst p)) = Some m /\ lex 100 post init m = Some (u (snd p)))
  [("\#1", "<HASH_1/>"); ("\#", "\HASH"); ("a#b", "a\#b"); ("\c c", "<c />c"); ("\v{s}", "<v{s}/>"); ("\=e", "<=e/>"); ("\'i", "<'i/>"); ("\'{i}", "<'{i}/>"); ("\'\i", "j"); ("\^\i", "ĵ"); ("\""{\j}", "j"); ("\`{\j}", "k");
   ("\begin{CONTENTS}", "{"); ("\begin {x}", "\begin{x}"); ("\usepackage[é]{x}", "\usepackage[é]]{x}"); ("\BR", "\\"); ("\emph{\o}", "\emphø"); ("\verb#a#", "\verb\#a\#"); ("\verb|<b>|", "\verb|\begin{b}|"); ("%<b>", "%\begin{b}"); ("\label{a_b}\#1", "\label{a_b}<HASH_1/>")]%string.
Proof. apply trip_check. vm_compute. reflexivity. Qed.
Print Assumptions C73_lost_refuted.
(** A closing brace with a backslash is read as a backslash and a closing brace: the rule for it has the pattern of the opening one. *)
Theorem C73_brace_refuted : exists m, lex 100 pre init (u "\{a\}"%string) = Some m /\ m = u "<LEFTESCAPEDBRACE/>a\</CONTENTS>"%string.
Proof. exists (u "<LEFTESCAPEDBRACE/>a\</CONTENTS>"%string). split; [vm_compute; reflexivity | reflexivity]. Qed.
Print Assumptions C73_brace_refuted.

(** ** Instances *)
Ltac plain_char := repeat split; try discriminate; unfold among; cbn; intuition discriminate.
Ltac oc := match goal with |- tex _ ?g ?s _ => let s' := eval vm_compute in s in match s' with ?c :: ?x => apply (X_piece _ g [c] g x); [apply P_char; [plain_char | reflexivity]|] end end.
Lemma letters_ok w : forallb letter w = true -> Forall is_letter w.
Proof. intros H. apply Forall_forall. intros c I. rewrite forallb_forall in H. apply is_letter_b, (H c I). Qed.
Lemma alnums_ok w : forallb alnum w = true -> Forall is_alnum w.
Proof. intros H. apply Forall_forall. intros c I. rewrite forallb_forall in H. apply is_alnum_b, (H c I). Qed.
Ltac in_list := cbn; tauto.
Ltac not_in_list := cbn; intuition discriminate.
Ltac no_ligature := intros (l & I & (r & E)); cbn in I; repeat (destruct I as [<-|I]; [discriminate E|]); destruct I.
Example C73_grammar : tex true false (u "\section*{A} $x_1$ 5\% \emph{b}\\[2pt]\begin{quote} c?\end{quote}%d"%string) (u "\section*{A} $x_1$ 5\% \emph{b}\\[2pt]\begin{quote} c?\end{quote}%d"%string).
Proof.
  apply (X_piece true false (u "\section*"%string) false (u "{A} $x_1$ 5\% \emph{b}\\[2pt]\begin{quote} c?\end{quote}%d"%string)).
  { apply (P_command_star false (u "section"%string)); [discriminate | apply letters_ok; reflexivity | not_in_list]. }
  apply (X_piece true false (u "{"%string) false (u "A} $x_1$ 5\% \emph{b}\\[2pt]\begin{quote} c?\end{quote}%d"%string)).
  { apply P_open. no_ligature. }
  oc. apply (X_piece true false (u "}"%string) false); [apply P_literal; in_list|]. oc.
  apply (X_piece true false (u "$x_1$"%string) false (u " 5\% \emph{b}\\[2pt]\begin{quote} c?\end{quote}%d"%string)).
  { apply (P_math false (u "x_1"%string)); [discriminate | unfold u; repeat constructor; discriminate | | cbn; unfold among; not_in_list].
    intros H. apply contains_spec in H. vm_compute in H. discriminate. }
  oc. oc. apply (X_piece true false (u "\%"%string) false); [apply P_literal; in_list|]. oc.
  apply (X_piece true false (u "\emph"%string) false (u "{b}\\[2pt]\begin{quote} c?\end{quote}%d"%string)).
  { apply (P_command false (u "emph"%string)); try discriminate; try not_in_list.
    - apply letters_ok; reflexivity.
    - cbn. unfold is_letter. cbn. intros [(_ & H)|(_ & H)]; apply H; reflexivity. }
  apply (X_piece true false (u "{"%string) false (u "b}\\[2pt]\begin{quote} c?\end{quote}%d"%string)).
  { apply P_open. no_ligature. }
  oc. apply (X_piece true false (u "}"%string) false); [apply P_literal; in_list|]. apply (X_piece true false (u "\\"%string) false); [apply P_literal; in_list|].
  apply (X_piece true false (u "[2pt]"%string) false (u "\begin{quote} c?\end{quote}%d"%string)).
  { apply (P_param false (u "2pt"%string)); [not_in_list | unfold u; repeat constructor; discriminate]. }
  apply (X_piece true false (u "\begin{quote} "%string) false (u "c?\end{quote}%d"%string)).
  { apply (P_environment false (u "\begin{"%string) (u "quote"%string) (u " "%string)); try discriminate; try not_in_list.
    - apply alnums_ok; reflexivity.
    - unfold u. repeat constructor.
    - cbn. unfold white. intuition discriminate. }
  oc. apply (X_piece true false (u "?"%string) false (u "\end{quote}%d"%string)); [apply (P_mark false 63%N); [in_list | unfold among; not_in_list]|].
  apply (X_piece true false (u "\end{quote}"%string) false (u "%d"%string)).
  { apply (P_environment false (u "\end{"%string) (u "quote"%string) []); try discriminate; try not_in_list.
    - apply alnums_ok; reflexivity.
    - constructor.
    - cbn. unfold white. intuition discriminate. }
  apply (X_piece true false (u "%d"%string) false []); [|apply X_end].
  apply (P_comment false (u "d"%string)); [unfold u; repeat constructor; discriminate | left; reflexivity].
Qed.
Example C73_run : match lex 200 pre init (u "\'{e}t\'e {\oe}uvre"%string) with Some m => lex 200 post init m | None => None end = Some (u "été œuvre"%string).
Proof. vm_compute. reflexivity. Qed.
