(** C46: a transfer rule loses no formatting between the words it has matched. *)
From Coq Require Import String ZArith.
From Verif Require Import Model.Base Proofs.Base Model.TransferRules Spec.TransferRules Spec.TransferBlanks Proofs.TransferRules Proofs.TransferBlanks.

(** whatever the rule outputs, reorders or rejects: every queued blank except single spaces occurs in what it writes, in the order of
    the input and without overlapping.  [N]: the nodes of the file; no <b/> inside <get-case-from> of an <out> *)
Theorem C46_blanks_kept_partial : forall attr_match attr_replace copy_case case_from get_case lower lists dict_case macros macro_map N,
  functional N -> (forall n npar body, nth_error macro_map n = Some (npar, body) -> incl (flat_map nodes_i body) N /\ forallb plain_i body = true) ->
  forall f body st z st', cache_ok N st -> r_in_out st = false -> incl (flat_map nodes_i body) N -> forallb plain_i body = true ->
  process_rule attr_match attr_replace copy_case case_from get_case lower lists dict_case macros macro_map f body st = Some (z, st') ->
  exists o, r_out st' = r_out st ++ o /\ InOrder (formatting (r_bq st)) o /\ r_bq st' = [].
Proof.
  intros a1 a2 a3 a4 a5 a6 a7 a8 a9 a10 N HN HM f body st z st' C Ho Hn Hp E.
  destruct (rule_blanks a1 a2 a3 a4 a5 a6 a7 a8 a9 a10 N HN HM f body st z st' C Ho Hn Hp E) as (o & A & B & D & _). exists o. split; [exact A|]. split; [exact B|exact D].
Qed.
Print Assumptions C46_blanks_kept_partial.

(** two words swapped, one <b/> printed; the other blank follows at the end *)
Definition ex_st (q : list str) : rst :=
  mkr [mkw (u "a<n>") (u "A<n>") [] [] 0; mkw (u "b<n>") (u "B<n>") [] [] 0; mkw (u "c<n>") (u "C<n>") [] [] 0] (Some [Some 0; Some 1; Some 2]) 3 (fun _ => []) (fun _ => []) [] false false false [] q [] (fun _ => None).
Definition ex_run (body : list instr) (st : rst) :=
  process_rule (fun _ s => s) (fun _ s _ => s) (fun _ s => s) (fun _ s => s) (fun s => s) (fun s => s) (fun _ => []) false (fun _ => 0) [] 5 body st.
Definition seen (o : option (Z * rst)) : option str := match o with Some (_, st) => Some (r_out st) | None => None end.
Example C46_example : seen (ex_run [IOut [XLu [XClip 0 TL (u "whole") 1 true []]; XB 1; XLu [XClip 2 TL (u "whole") 0 true []]]] (ex_st [u "[<i>]"; u "[</i>]"]))
  = Some (u "^B<n>$[<i>]^A<n>$[</i>]").
Proof. vm_compute. reflexivity. Qed.
(** FINDING: a <b/> outside <out> reads the first blank without taking it off the queue; printing the value shows it twice *)
Theorem C46_duplicated_refuted : seen (ex_run [ILet (LVar 0 (u "v")) (XB 1); IOut [XVar 2 (u "v"); XB 3]] (ex_st [u "[<i>]"])) = Some (u "[<i>][<i>]").
Proof. vm_compute. reflexivity. Qed.
(** FINDING: a <b/> inside <get-case-from> is used up, but its text goes through the case function *)
Theorem C46_case_from_refuted : 
  seen (process_rule (fun _ s => s) (fun _ s _ => s) (fun _ s => s) (fun _ s => map (fun c => if ((97 <=? c) && (c <=? 122))%N then (c - 32)%N else c) s) (fun s => s) (fun s => s) (fun _ => []) false (fun _ => 0) [] 5
    [IOut [XCaseFrom 0 0 (XB 1)]] (ex_st [u "[<i>]"])) = Some (u "[<I>]").
Proof. vm_compute. reflexivity. Qed.
