(** C74: LaTeX through apertium-prelatex and apertium-postlatex. *)
From Coq Require Import String.
From Verif Require Import Model.Base Model.Latex Spec.Latex Proofs.Base Proofs.Latex.
Open Scope nat_scope.

(** Text in the grammar comes back as LaTeX, as the grammar says; both filters end. *)
Theorem C74_roundtrip_partial x y : canon false x y ->
  exists m, (exists f0, forall f, f0 <= f -> lex f pre init x = Some m) /\ (exists f0, forall f, f0 <= f -> lex f post2 init m = Some y).
Proof. apply canon_trip. Qed.
Print Assumptions C74_roundtrip_partial.
(** After a byte that is in no character, everything that is not a letter, a new line, an & or a tag is lost. *)
Theorem C74_invalid_refuted w : Forall (fun c => (c < 128)%N /\ ~ is_letter c /\ c <> 10%N /\ c <> 38%N /\ c <> 60%N /\ c <> 0%N) w -> exists f0, forall f, f0 <= f -> lex f post2 init (255%N :: w) = Some [].
Proof. apply invalid_lost. Qed.
Print Assumptions C74_invalid_refuted.
Definition trip2_ok (p : string * str) : bool :=
  match lex 100 pre init (u (fst p)) with Some m => match lex 100 post2 init m with Some r => str_eqb r (snd p) | None => false end | None => false end.
Lemma trip2_check l : forallb trip2_ok l = true -> Forall (fun p => exists m, lex 100 pre init (u (fst p)) = Some m /\ lex 100 post2 init m = Some (snd p)) l.
Proof.
  intros H. apply Forall_forall. intros p I. rewrite forallb_forall in H. apply H in I. unfold trip2_ok in I. destruct (lex 100 pre init (u (fst p))) as [m|]; [|discriminate]. exists m. split; [reflexivity|].
  destruct (lex 100 post2 init m) as [r|]; [|discriminate]. apply str_eqb_eq in I as ->. reflexivity.
Qed.
(** Usual LaTeX that comes back as something else: the source and what is left of it.  The last one is a character beyond U+FFFF, of which the low 16 bits are left. *)
Theorem C74_lost_refuted : Forall (fun p => exists m, lex 100 pre init (u (fst p)) = Some m /\ lex 100 post2 init m = Some (snd p))
  (map (fun p => (fst p, u (snd p)))
    [("ła", "\la"); ("\t{ab}", "ab"); ("\verb|é|", "\verb|\'{e}|"); ("\verb|<b>|", "\verb|\begin{b}|"); ("%<b>", "%\begin{b}"); 
     ("\c c", "<c />c"); ("\v{s}", "<v{s}/>"); ("\=e", "<=e/>"); ("\H o", "<H />o"); ("\'i", "<'i/>"); ("\'{i}", "<'{i}/>"); ("\'\i", "j"); ("\""{\j}", "j"); ("\`{\j}", "k"); ("\""s", "<""s/>");
     ("\begin{CONTENTS}", "{"); ("\begin {x}", "\begin{x}"); ("\BR", "\\"); ("\HASH", "\#"); ("\usepackage[é]{x}", "\usepackage[é]]{x}")]%string ++ [("😀"%string, [239; 152; 128]%N)]).
Proof. apply trip2_check. vm_compute. reflexivity. Qed.
Print Assumptions C74_lost_refuted.

(** ** Instances *)
Ltac plain_char := repeat split; try discriminate; unfold among; cbn; intuition discriminate.
Ltac oc := match goal with |- canon ?g ?s _ => let s' := eval vm_compute in s in match s' with ?c :: ?x => apply (C_piece g [c] g x); [apply P_char; [plain_char | reflexivity]|] end end.
Lemma in_dec l (p : str * str) : existsb (fun q => str_eqb (fst p) (fst q) && str_eqb (snd p) (snd q)) l = true -> In p l.
Proof. intros H. apply existsb_exists in H as ((a, b) & I & H). apply andb_prop in H as (H1 & H2). apply str_eqb_eq in H1, H2. destruct p; cbn in *; subst. exact I. Qed.
Lemma not_in_dec l (p : str) : existsb (str_eqb p) l = false -> ~ In p l.
Proof. intros H I. assert (existsb (str_eqb p) l = true) by (apply existsb_exists; exists p; split; [exact I | apply str_eqb_refl]). congruence. Qed.
Ltac written c o := apply (C_written _ (u c) (u o)); [apply in_dec; vm_compute; reflexivity|].
Example C74_canon : canon false (u "\'et{\oe}é ñ\#12 a€ß\%"%string) (u "\'{e}t{\oe}\'{e} \~{n}\#12 a€{\ss}\%"%string).
Proof.
  apply (C_accent false (u "'"%string) (u "e"%string)); [apply in_dec; vm_compute; reflexivity|]. oc.
  apply (C_ligature false (u "{\oe}"%string)); [cbn; tauto|].
  written "é"%string "\'{e}"%string. oc. written "ñ"%string "\~{n}"%string.
  apply (C_number_digits false (u "12"%string) (u " a€ß\%"%string)); [discriminate | unfold u; repeat constructor; discriminate | cbn; intros (H & _); apply H; reflexivity|].
  oc. oc.
  apply (C_other false (u "€"%string)); [apply U_three; unfold cont; try (split; discriminate); intros E; discriminate E | apply not_in_dec; vm_compute; reflexivity|].
  written "ß"%string "{\ss}"%string.
  apply (C_piece false (u "\%"%string) false []); [apply P_literal; cbn; tauto | apply C_end].
Qed.
Example C74_run : match lex 200 pre init (u "\'et{\oe}é ñ\#12 a€ß\%"%string) with Some m => lex 200 post2 init m | None => None end = Some (u "\'{e}t{\oe}\'{e} \~{n}\#12 a€{\ss}\%"%string).
Proof. vm_compute. reflexivity. Qed.
Example C74_invalid : Forall (fun c => (c < 128)%N /\ ~ is_letter c /\ c <> 10%N /\ c <> 38%N /\ c <> 60%N /\ c <> 0%N) (u " 12, 13."%string).
Proof. unfold u. repeat constructor; try discriminate; unfold is_letter; cbn; intros [(H & _)|(H & _)]; apply H; reflexivity. Qed.
