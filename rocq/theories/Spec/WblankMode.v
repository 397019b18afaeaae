(** Specification for C39. *)
From Coq Require Import String.
From Verif Require Import Model.Base.

Definition occurs (p s : str) : Prop := exists a b, s = a ++ p ++ b.
Definition space (c : char) : Prop := In c [9; 10; 11; 12; 13; 32]%N.
Definition spaces (s : str) : Prop := Forall space s.
(** t is s without the white space around it *)
Definition Trimmed (s t : str) : Prop :=
  exists l r, s = l ++ t ++ r /\ spaces l /\ spaces r /\
    (forall c x, t = c :: x -> ~ space c) /\ (forall c x, t = x ++ [c] -> ~ space c).

(** an old-style call of apertium-transfer with its three files *)
Definition no_quote (s : str) : Prop := ~ In 39%N s /\ s <> [].
Definition OldCall (text a b c : str) : Prop :=
  exists w1 w2 w3, spaces w1 /\ spaces w2 /\ spaces w3 /\ w1 <> [] /\ w2 <> [] /\ w3 <> [] /\
    no_quote a /\ no_quote b /\ no_quote c /\ (exists x, x <> [] /\ c = x ++ u "autobil.bin") /\
    text = u "apertium-transfer" ++ w1 ++ u "'" ++ a ++ u "'" ++ w2 ++ u "'" ++ b ++ u "'" ++ w3 ++ u "'" ++ c ++ u "'".
(** the same step as the two programs it stands for *)
Definition NewCall (a b c : str) : str :=
  u "lt-proc -b '" ++ c ++ u "' | apertium-transfer -b '" ++ a ++ u "' '" ++ b ++ u "'".
Definition no_call (s : str) : Prop := forall x t y a b c, OldCall t a b c -> s <> x ++ t ++ y.
(** every old-style call, from the left, is converted; nothing else changes *)
Inductive Converted : str -> str -> Prop :=
| cv_none s : no_call s -> Converted s s
| cv_call pre t a b c s s' :
    OldCall t a b c -> Converted s s' ->
    (forall x t' y a' b' c', OldCall t' a' b' c' -> pre ++ t ++ s = x ++ t' ++ y -> length pre <= length x) ->
    Converted (pre ++ t ++ s) (pre ++ NewCall a b c ++ s').

(** text between the bars *)
Inductive Pipeline : str -> list str -> Prop :=
| pl_one s : ~ In cPIPE s -> Pipeline s [s]
| pl_more s r l : ~ In cPIPE s -> Pipeline r l -> Pipeline (s ++ u "|" ++ r) (s :: l).
Fixpoint join (l : list str) : str :=
  match l with [] => [] | [s] => s | s :: r => s ++ u " | " ++ join r end.

(** -z goes after the program's name, unless the stage already contains " -z" *)
Definition blank_char (c : char) : Prop := In c [32; 9; 13; 10]%N.
Inductive WithZ : bool -> str -> str -> Prop :=
| wz_off s : WithZ false s s
| wz_has s : occurs (u " -z") s -> WithZ true s s
| wz_add name args : ~ occurs (u " -z") (name ++ args) -> Forall (fun c => ~ blank_char c) name ->
    (args = [] \/ exists c r, args = c :: r /\ blank_char c) -> WithZ true (name ++ args) (name ++ u " -z" ++ args).

Definition analyser (s : str) : Prop := occurs (u "automorf.bin") s \/ occurs (u "automorf.hfst") s.
Definition generator (s : str) : Prop := occurs (u "autogen.bin") s \/ occurs (u "autogen.hfst") s.
(** the stages that one stage becomes, in mode m *)
Inductive Helped (m : str) : str -> list str -> Prop :=
| hp_done s : occurs (u "apertium-wblank-") m -> Helped m s [s]
| hp_attach s : ~ occurs (u "apertium-wblank-") m -> analyser s -> Helped m s [s; u "apertium-wblank-attach"]
| hp_detach s : ~ occurs (u "apertium-wblank-") m -> ~ analyser s -> generator s -> ~ occurs (u "apertium-restore-caps") m ->
    Helped m s [u "apertium-wblank-detach"; s]
| hp_caps s : ~ occurs (u "apertium-wblank-") m -> ~ analyser s -> generator s -> occurs (u "apertium-restore-caps") m -> Helped m s [s]
| hp_other s : ~ occurs (u "apertium-wblank-") m -> ~ analyser s -> ~ generator s -> Helped m s [s].
Definition StageOut (z : bool) (m : str) (s : str) (o : list str) : Prop :=
  exists t t', Trimmed s t /\ WithZ z t t' /\ Helped m t' o.

(** m: the lines of the file put together (FINDING: without a separator) *)
Definition without_nl (s m : str) : Prop := m = filter (fun c => negb (N.eqb c cNL)) s.
Definition Rewritten (z : bool) (input out : str) : Prop :=
  exists m0 m m1 l ls, without_nl input m0 /\ Trimmed m0 m /\
    ((occurs (u "lt-proc -b") m /\ m1 = m) \/ (~ occurs (u "lt-proc -b") m /\ Converted m m1)) /\
    Pipeline m1 l /\ Forall2 (StageOut z m) l ls /\ out = join (concat ls) ++ [cNL].
