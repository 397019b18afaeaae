(** Specification for C30, C31, C44: left-to-right longest match with rejected rules. *)
From Coq Require Import ZArith.
From Verif Require Import Model.Base.
From Verif Require Export Spec.TransferMult.

(** every word is directly preceded by a (possibly empty) blank; this is what the tokenisers deliver *)
Inductive Sep : list item -> Prop :=
| sep_nil : Sep []
| sep_b b l : Sep l -> Sep (B b :: l)
| sep_bw b w l : Sep l -> Sep (B b :: W w :: l).

Section S.
Variable accepts : nat -> list item -> Prop.          (* the pattern of the rule matches these items *)
Variable G : Type.
(** rule, variables, its words, the blanks between them -> output, blanks it did not print, code, variables.
    code < 0: applied; code = 0: rejected, the other rules are to be tried; code > 0: rejected, but that many words are used up *)
Variable act : nat -> G -> list str -> list str -> str * list str * Z * G.
Variable default : str -> str.

(** the longest sequence of items at the start of [l] matched by a rule not in [bn] is [m], and [r] is the first such rule *)
Definition Longest (bn : list nat) (l m rest : list item) (r : nat) : Prop :=
  l = m ++ rest /\ accepts r m /\ ~ In r bn /\
  (forall m' rest' r', l = m' ++ rest' -> accepts r' m' -> ~ In r' bn -> length m' <= length m) /\
  (forall r', accepts r' m -> ~ In r' bn -> r <= r').
Definition NoMatch (bn : list nat) (l : list item) : Prop :=
  forall m rest r, l = m ++ rest -> accepts r m -> In r bn.
(** what a rule prints: its output and the unused blanks that are not a single space *)
Definition printed (o : str) (lf : list str) : str := o ++ concat (filter (fun b => negb (str_eqb b [cSP])) lf).

(** [Run bn g l last out g']: from variables g, with the rules bn rejected at this word, the items l followed by the end of the
    document (with text [last]) give [out] and leave the variables as g' *)
Inductive Run : list nat -> G -> list item -> str -> str -> G -> Prop :=
| run_end bn g last : Run bn g [] last last g
| run_blank g b l last o g' : Run [] g l last o g' -> Run [] g (B b :: l) last (b ++ o) g'
| run_applied bn g l m rest r o lf z g1 last o2 g2 : Longest bn l m rest r ->
    act r g (words m) (blanks m) = (o, lf, z, g1) -> z <> 0%Z -> Run [] g1 rest last o2 g2 ->
    Run bn g l last (printed o lf ++ o2) g2
| run_rejected bn g l m rest r o lf g1 last o2 g2 : Longest bn l m rest r ->
    act r g (words m) (blanks m) = (o, lf, 0%Z, g1) -> Run (r :: bn) g1 l last o2 g2 ->
    Run bn g l last (printed o lf ++ o2) g2
| run_default bn g w l last o g' : NoMatch bn (W w :: l) -> Run [] g l last o g' -> Run bn g (W w :: l) last (default w ++ o) g'.
End S.
