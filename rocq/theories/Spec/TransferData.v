(** What the declarations of a rule file mean. *)
From Coq Require Import String ZArith.
From Verif Require Import Model.Base Model.Regex Model.Codec Model.TransferData.
Open Scope nat_scope.

(** the last declaration of [k] in the file says [v] *)
Definition last_says {V} (l : list (str * V)) (k : str) (v : V) : Prop := exists a b, l = a ++ (k, v) :: b /\ forall v', ~ In (k, v') b.
(** the parts every word has *)
Definition built_in (n : str) (re : str) : Prop :=
  In (n, re) [ (u "content", u "(\{.+)"); (u "chcontent", u "(\{.+)"); (u "chname", u "(\{([^/]+)\/)"); (u "tags", u "((<[^>]+>)+)"); (u "whole", u "(.+)");
               (u "lemh", u "^(([^<#]|""\<""|""\#"")+)"); (u "lemq", u "\#[- _][^<]+"); (u "lem", u "^(([^<]|""\<"")+)") ].
(** the expression of the part [n]: that of its last definition, or the built-in one *)
Definition part_is (d : decls) (n re : str) : Prop :=
  (exists items, last_says (d_attrs d) n items /\ re = optimize_regex items) \/ ((forall items, ~ In (n, items) (d_attrs d)) /\ built_in n re).
(** all the definitions of a list together *)
Definition in_list (d : decls) (n v : str) : Prop := exists items, In (n, items) (d_lists d) /\ In v items.
(** how a table answers *)
Definition answers {V} (m : list (str * V)) (k : str) (v : V) : Prop := look str_eqb k m = Some v.
Definition lists_item (m : list (str * list str)) (n v : str) : Prop := exists l, look str_eqb n m = Some l /\ In v l.
(** which rule files are accepted *)
Definition acceptable (re_ok : str -> bool) (d : decls) : Prop :=
  Forall (fun a => re_ok (optimize_regex (snd a)) = true) (d_attrs d) /\ NoDup (d_macros d) /\
  Forall (fun p => p <> [] /\ exists re, part_is d p re) (d_clips d).

(** ** the machine before it is written: rule [n] ends in [src] *)
Definition ends (a : alphabet) (m : machine) (src n : nat) : Prop :=
  exists arcs trg, In (src, arcs) (m_arcs m) /\ In (code a (rule_symbol n), trg) arcs /\ In trg (m_finals m).
Definition first_rule (a : alphabet) (ns : list nat) (m : machine) (src n : nat) : Prop :=
  In n ns /\ ends a m src n /\ forall k, In k ns -> ends a m src k -> n <= k.
Definition ordered_arcs (m : machine) : Prop :=
  NoDup (map fst (m_arcs m)) /\ forall src arcs, In (src, arcs) (m_arcs m) -> forall x y l r, arcs = l ++ x :: y :: r -> (fst x <= fst y)%Z.
(** a final state has no arcs, nor has a state a rule number leads to *)
Definition dead_ends (a : alphabet) (ns : list nat) (m : machine) : Prop :=
  forall src arcs, In (src, arcs) (m_arcs m) ->
    ~ In src (m_finals m) /\ forall src' arcs' n, In (src', arcs') (m_arcs m) -> In n ns -> ~ In (code a (rule_symbol n), src) arcs'.

(** everything fits the number and string encoders *)
Definition vec_fits {A} (fits : N -> Prop) (ok : A -> Prop) (l : list A) : Prop := fits (N.of_nat (length l)) /\ Forall ok l.
Definition td_fits (fits : N -> Prop) (fitsS : str -> Prop) (t : td) : Prop :=
  vec_fits fits (fun e => fitsS (fst e) /\ fitsS (snd e)) (attr_items t) /\ vec_fits fits (fun e => fitsS (fst e) /\ fitsS (snd e)) (variables t) /\
  vec_fits fits (fun e => fitsS (fst e) /\ fits (N.of_nat (snd e))) (macros t) /\ vec_fits fits (fun e => fitsS (fst e) /\ vec_fits fits fitsS (snd e)) (lists t) /\
  fits 0%N /\ fitsS [].
Definition finals_fit (fits : N -> Prop) (l : list (nat * nat)) : Prop := vec_fits fits (fun e => fits (N.of_nat (fst e)) /\ fits (N.of_nat (snd e))) l.
