(** Specification for C46: blanks occur in a text, in order and without overlap. *)
From Verif Require Import Model.Base Model.TransferRules.
Inductive InOrder : list str -> str -> Prop :=
| io_nil s : InOrder [] s
| io_cons b bs p r : InOrder bs r -> InOrder (b :: bs) (p ++ b ++ r).
Definition formatting (l : list str) : list str := filter (fun b => negb (str_eqb b [cSP])) l.      (* all but single spaces *)
(** no <b/> inside <get-case-from> *)
Fixpoint has_b (e : expr) : bool :=
  match e with
  | XB _ => true
  | XConcat l | XLu l => existsb has_b l
  | XMlu l => existsb (existsb has_b) l
  | XChunk _ _ _ t b => existsb has_b t || existsb has_b b
  | XCaseFrom _ _ x => has_b x
  | _ => false
  end.
Fixpoint plain_b (e : expr) : bool :=
  match e with
  | XConcat l | XLu l => forallb plain_b l
  | XMlu l => forallb (forallb plain_b) l
  | XChunk _ _ _ t b => forallb plain_b t && forallb plain_b b
  | XCaseFrom _ _ x => negb (has_b x)
  | _ => true
  end.
Fixpoint plain_i (i : instr) : bool :=
  match i with
  | IOut l => forallb plain_b l
  | IChoose l => forallb (fun o => forallb plain_i (snd o)) l
  | _ => true
  end.
