(** Structural transfer of a text with rules that may reject themselves (C62).  As Spec/TransferRun.v, but a rule may answer "not me": then
    the rest of the rules is tried on the same units. *)
From Coq Require Import ZArith.
From Verif Require Import Model.Base Model.TransferRules Spec.TransferUnit Spec.TransferRules Spec.TransferRun Spec.TransferText.

Section S.
Variable U : Type.
Variable cand : nat -> list U -> Prop.                 (* rule n may be tried on these consecutive units *)
Variable G : Type.
(** rule, variables, its units, the blanks between them; whether it rejects itself, what it has written, the blanks it did not print, variables afterwards *)
Variable apply : nat -> G -> list U -> list str -> bool -> str -> list str -> G -> Prop.
Variable default : U -> str.
(** rule n is the first, among the rules not in bn, of those that can be tried on the first k of these units, and no such rule can be tried on more *)
Definition first_longest (bn : list nat) (us : list U) (n k : nat) : Prop :=
  k <= length us /\ cand n (firstn k us) /\ ~ In n bn /\
  (forall n' k', k' <= length us -> cand n' (firstn k' us) -> ~ In n' bn -> k' <= k) /\
  (forall n', cand n' (firstn k us) -> ~ In n' bn -> n <= n').
(** bn: the rules that have rejected themselves at the first unit *)
Inductive TransferredR : list nat -> G -> list (str * U) -> str -> str -> G -> Prop :=
| rj_end bn g final : TransferredR bn g [] final final g
| rj_rule bn g b x l final n k o bs g1 o2 g2 :
    first_longest bn (x :: map snd l) n k ->
    apply n g (firstn k (x :: map snd l)) (firstn (k - 1) (map fst l)) false o bs g1 ->
    TransferredR [] g1 (skipn k ((b, x) :: l)) final o2 g2 ->
    TransferredR bn g ((b, x) :: l) final (b ++ (o ++ leftover bs) ++ o2) g2
(** what it has written stays written, its changes of variables stay *)
| rj_reject bn g b x l final n k o bs g1 o2 g2 :
    first_longest bn (x :: map snd l) n k ->
    apply n g (firstn k (x :: map snd l)) (firstn (k - 1) (map fst l)) true o bs g1 ->
    TransferredR (n :: bn) g1 (([], x) :: l) final o2 g2 ->
    TransferredR bn g ((b, x) :: l) final (b ++ (o ++ leftover bs) ++ o2) g2
| rj_default bn g b x l final o g2 :
    (forall n k, k <= S (length l) -> cand n (firstn k (x :: map snd l)) -> In n bn) ->
    TransferredR [] g l final o g2 ->
    TransferredR bn g ((b, x) :: l) final (b ++ default x ++ o) g2.
End S.

Section R.
Variable attr_match : str -> str -> str.
Variable attr_replace : str -> str -> str -> str.
Variable copy_case case_from : str -> str -> str.
Variable get_case lower : str -> str.
Variable lists : str -> list str.
Variable dict_case : bool.
Variable macros : str -> nat.
Variable macro_map : list (nat * list instr).
Variable bodies : list (list instr).
(** rule n on these units; it rejects itself if it reaches <reject-current-rule shifting="no"> (outside macros) *)
Definition unit_rule_r (n : nat) (g : tglob) (us : list lunit) (bs : list str) (rejects : bool) (o : str) (lf : list str) (g1 : tglob) : Prop :=
  exists b z s, nth_error bodies (n - 1) = Some b /\
    Seq attr_match attr_replace copy_case case_from get_case lower lists dict_case macros macro_map b
      (mkst (map word_of us) (Some (map Some (seq 0 (length us)))) (length us) (g_vars g) (g_blanks g) bs [] (g_mlu g)) z s /\
    rejects = (z =? 0)%Z /\ o = s_out s /\ lf = s_bq s /\ g1 = mkg (s_vars s) (s_vwb s) (s_unit s).
End R.
(** shifting="no" (0), or as many words as the pattern has: shifting="yes" (1) with a pattern of one word (otherwise: C31_shift_refuted) *)
Fixpoint rej_i (n : Z) (i : instr) : bool :=
  match i with
  | IReject z => (z <=? 0)%Z || (z =? n)%Z
  | IChoose l => forallb (fun o => forallb (rej_i n) (snd o)) l
  | _ => true
  end.
(** the restrictions of [wf_file], with these rejections allowed *)
Definition wf_rejecting (ps : list (list str)) (macro_map : list (nat * list instr)) (bodies : list (list instr)) : Prop :=
  functional (file_nodes macro_map bodies) /\
  Forall (fun m => forallb simple_i (snd m) = true) macro_map /\
  Forall2 (fun p b => forallb simple_i b = true /\ forallb (pos_i (Z.of_nat (length p))) b = true /\ forallb (rej_i (Z.of_nat (length p))) b = true) ps bodies.
