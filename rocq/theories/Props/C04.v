(** C04: apertium-wblank-attach distributes word-bound blanks over the units inside them. *)
From Coq Require Import String.
From Verif Require Import Model.Base Model.WblankAttach Spec.WblankAttach Proofs.WblankAttach.

(** On every well-formed stream the output is the expected one: units carry all elements of all
    enclosing blanks without repetition, everything else is verbatim. *)
Theorem C04_attach_wellformed : forall l : list aitem, forallb awf l = true -> flush_closed 0 l = true ->
  attach (flat_map arender l) = Done (expected [] l).
Proof. exact attach_expected. Qed.
Print Assumptions C04_attach_wellformed.

(** Escapes inside a word-bound blank are dropped when it is re-emitted: [[a\]b]]^x$ becomes [[a]b]]^x$. *)
Theorem C04_escapes_kept_refuted :
  attach (u "[[a\]b]]^x$") = Done (u "[[a]b]]^x$").
Proof. exact attach_unescapes. Qed.
Print Assumptions C04_escapes_kept_refuted.

Example C04_example :
  let l := [AOpen (u "t:b; t:i"); AUnit (map Plain (u "a")); AOpen (u "t:i;t:u"); AText (Plain cSP);
            AUnit (map Plain (u "b")); AClose; AUnit (map Plain (u "c")); AClose; AUnit (map Plain (u "d")); AFlush] in
  forallb awf l = true /\ flush_closed 0 l = true /\
  expected [] l = (u "[[t:b; t:i]]^a$ [[t:b; t:i; t:u]]^b$[[t:b; t:i]]^c$^d$" ++ [cNUL])%list.
Proof. vm_compute. repeat split. Qed.
