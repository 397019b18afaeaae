(** Structural transfer of a text (C56, C60, C61, C62): left to right, the longest sequence of units that some rule matches, the
    first such rule of the file.  The units are lexical units (transfer) or chunks (interchunk, postchunk). *)
From Coq Require Import ZArith.
From Verif Require Import Model.Base.

Section S.
Variable U : Type.
Variable matches : nat -> list U -> Prop.              (* the pattern of rule n matches these consecutive units *)
Variable G : Type.                                      (* the variables of the rule file *)
(** rule, variables, its units, the blanks between them; output, the blanks it did not print, variables afterwards *)
Variable apply : nat -> G -> list U -> list str -> str -> list str -> G -> Prop.
Variable default : U -> str.
(** blanks a rule does not print are printed after its output, except single spaces *)
Definition leftover (bs : list str) : str := concat (filter (fun b => negb (str_eqb b [cSP])) bs).
Inductive Transferred : G -> list (str * U) -> str -> str -> G -> Prop :=
| tr_end g final : Transferred g [] final final g
| tr_rule g b x l final n k o bs g1 o2 g2 :
    let us := x :: map snd l in
    k <= length us ->
    matches n (firstn k us) ->
    (forall n' k', k' <= length us -> matches n' (firstn k' us) -> k' <= k) ->
    (forall n', matches n' (firstn k us) -> n <= n') ->
    apply n g (firstn k us) (firstn (k - 1) (map fst l)) o bs g1 ->
    Transferred g1 (skipn k ((b, x) :: l)) final o2 g2 ->
    Transferred g ((b, x) :: l) final (b ++ (o ++ leftover bs) ++ o2) g2
| tr_default g b x l final o g2 :
    (forall n k, k <= S (length l) -> ~ matches n (firstn k (x :: map snd l))) ->
    Transferred g l final o g2 ->
    Transferred g ((b, x) :: l) final (b ++ default x ++ o) g2.
End S.
