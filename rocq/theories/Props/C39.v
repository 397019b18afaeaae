(** C39: apertium-wblank-mode. *)
From Coq Require Import String.
From Verif Require Import Model.Base Model.WblankMode Spec.WblankMode Proofs.WblankMode.

(** For every mode file, with or without -z: the output is the one pipeline described by [Rewritten]: the stages of the
    file in their order, each trimmed, given -z after its program's name where asked and missing, attach inserted exactly
    behind analysers and detach exactly before generators (unless the mode has helpers already, or restores capitals),
    old-style transfer calls split into lt-proc -b and apertium-transfer -b. *)
Theorem C39_rewritten : forall (z : bool) (input out : str), out = wblank_mode z input <-> Rewritten z input out.
Proof.
  intros z input out. split.
  - intros ->. apply mode_ok.
  - intros H. eapply rewritten_unique; [exact H|apply mode_ok].
Qed.
Print Assumptions C39_rewritten.

(** "Don't change the mode twice": running it on its own output changes nothing (without -z, new-style modes). *)
Theorem C39_idempotent_partial : forall input,
  occurs (u "lt-proc -b") input -> wblank_mode false (wblank_mode false input) = wblank_mode false input.
Proof. exact mode_idempotent. Qed.
Print Assumptions C39_idempotent_partial.

(** FINDING: with -z a second run does change the mode: the first gives the helpers no -z. *)
Theorem C39_z_twice_refuted : exists input, occurs (u "lt-proc -b") input /\
  wblank_mode true (wblank_mode true input) <> wblank_mode true input /\
  wblank_mode true input = u "lt-proc -z 'x.automorf.bin' | apertium-wblank-attach | lt-proc -z -b 'x.autobil.bin'" ++ [cNL] /\
  wblank_mode true (wblank_mode true input) = u "lt-proc -z 'x.automorf.bin' | apertium-wblank-attach -z | lt-proc -z -b 'x.autobil.bin'" ++ [cNL].
Proof.
  exists (u "lt-proc 'x.automorf.bin' | lt-proc -b 'x.autobil.bin'"). split; [exists (u "lt-proc 'x.automorf.bin' | "), (u " 'x.autobil.bin'"); reflexivity|].
  split; [vm_compute; discriminate|]. split; vm_compute; reflexivity.
Qed.
Print Assumptions C39_z_twice_refuted.

(** FINDING: the output of a mode with -z is not recognised as new-style: "lt-proc -z -b" does not contain "lt-proc -b", so an
    old-style call elsewhere in the mode is converted by the second run only. *)
Theorem C39_z_newstyle_refuted : exists input,
  wblank_mode true input = u "lt-proc -z -b 'a.autobil.bin' | apertium-transfer -z 't1x' 'bin' 'b.autobil.bin'" ++ [cNL] /\
  wblank_mode false (u "lt-proc -z -b 'a.autobil.bin' | apertium-transfer 't1x' 'bin' 'b.autobil.bin'") =
    u "lt-proc -z -b 'a.autobil.bin' | lt-proc -b 'b.autobil.bin' | apertium-transfer -b 't1x' 'bin'" ++ [cNL].
Proof. exists (u "lt-proc -b 'a.autobil.bin' | apertium-transfer 't1x' 'bin' 'b.autobil.bin'"). split; vm_compute; reflexivity. Qed.
Print Assumptions C39_z_newstyle_refuted.

(** FINDING: a bar inside quotes is taken for the end of a stage, and lines are joined without a separator. *)
Theorem C39_quotes_lines_refuted :
  wblank_mode true (u "cg-proc 'a|b.bin'") = u "cg-proc -z 'a | b.bin' -z" ++ [cNL] /\
  wblank_mode false (u "cg-proc 'a'" ++ [cNL] ++ u "lt-proc 'b'") = u "cg-proc 'a'lt-proc 'b'" ++ [cNL].
Proof. split; vm_compute; reflexivity. Qed.
Print Assumptions C39_quotes_lines_refuted.

Example C39_example :
  wblank_mode true (u "lt-proc -w 'x.automorf.bin'|  cg-proc -z 'x.rlx.bin' |apertium-transfer  'a.t1x' 't1x.bin' 'ab.autobil.bin' |lt-proc $1 'x.autogen.bin'" ++ [cNL]) =
  u "lt-proc -z -w 'x.automorf.bin' | apertium-wblank-attach | cg-proc -z 'x.rlx.bin' | lt-proc -z -b 'ab.autobil.bin' | apertium-transfer -z -b 'a.t1x' 't1x.bin' | apertium-wblank-detach | lt-proc -z $1 'x.autogen.bin'" ++ [cNL].
Proof. vm_compute. reflexivity. Qed.
