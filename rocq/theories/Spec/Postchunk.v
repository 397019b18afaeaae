(** Specification for C27 and C43: chunks  lemma<t1><t2>...{content}  and what opening them means. *)
From Verif Require Import Model.Base Model.Postchunk.

Definition digit (c : char) : Prop := (48 <= c <= 57)%N.
(** decimal value *)
Fixpoint value_from (a : N) (d : str) : N := match d with [] => a | c :: r => value_from (10 * a + (c - 48)) r end%N.
Definition value (d : str) : N := value_from 0%N d.

(** elements of a lexical unit: literal character, escaped character, tag, reference to a tag of the chunk *)
Inductive lelem := LChar (c : char) | LEsc (c : char) | LTag (t : str) | LRef (d : str).
(** elements of the content: character, escaped character, superblank, lexical unit, the same with word-bound blank *)
Inductive celem := CChar (c : char) | CEsc (c : char) | CBlank (s : str) | CLu (l : list lelem) | CWLu (wb : str) (l : list lelem).

(** text inside brackets, without an unescaped closing one *)
Inductive InBrackets : str -> Prop :=
| ib_nil : InBrackets []
| ib_char c s : c <> cRB -> c <> cBS -> InBrackets s -> InBrackets (c :: s)
| ib_esc c s : InBrackets s -> InBrackets (cBS :: c :: s).
(** text of a word-bound blank: no closing bracket at all *)
Inductive WBlank : str -> Prop :=
| wb_nil : WBlank []
| wb_char c s : c <> cRB -> c <> cBS -> WBlank s -> WBlank (c :: s)
| wb_esc c s : c <> cRB -> WBlank s -> WBlank (cBS :: c :: s).
Inductive Header : str -> Prop :=          (* pseudo lemma *)
| h_nil : Header []
| h_char c s : c <> cBS -> c <> cLT -> c <> cLC -> Header s -> Header (c :: s)
| h_esc c s : Header s -> Header (cBS :: c :: s).
Definition tag_ok (t : str) : Prop := Forall (fun c => c <> cGT /\ c <> cBS /\ c <> cLC) t.

Definition lelem_ok (e : lelem) : Prop :=
  match e with
  | LChar c => c <> cDOL /\ c <> cBS /\ c <> cLT
  | LEsc _ => True
  | LTag t => Forall (fun c => c <> cGT) t /\ match t with c :: _ => ~ digit c | [] => True end
  | LRef d => d <> [] /\ Forall digit d
  end.
Definition celem_ok (e : celem) : Prop :=
  match e with
  | CChar c => c <> cBS /\ c <> cCARET /\ c <> cLB
  | CEsc _ => True
  | CBlank s => InBrackets s /\ match s with c :: _ => c <> cLB | [] => True end
  | CLu l => Forall lelem_ok l
  | CWLu wb l => WBlank wb /\ Forall lelem_ok l
  end.

(** source text *)
Definition ltext (e : lelem) : str :=
  match e with LChar c => [c] | LEsc c => [cBS; c] | LTag t => cLT :: t ++ [cGT] | LRef d => cLT :: d ++ [cGT] end.
Definition ctext (e : celem) : str :=
  match e with
  | CChar c => [c] | CEsc c => [cBS; c] | CBlank s => cLB :: s ++ [cRB]
  | CLu l => cCARET :: flat_map ltext l ++ [cDOL]
  | CWLu wb l => cLB :: cLB :: wb ++ [cRB; cRB] ++ cCARET :: flat_map ltext l ++ [cDOL]
  end.
Definition chunk_text (lemma : str) (tags : list str) (content : list celem) : str :=
  lemma ++ flat_map (fun t => cLT :: t ++ [cGT]) tags ++ cLC :: flat_map ctext content ++ [cRC].

Section Sem.
Variable tags : list str.
Variable up : char -> char.
Variable alnum : char -> bool.
(** a reference <n> stands for the n-th tag of the chunk, and for nothing if there is none *)
Definition resolved (e : lelem) : str :=
  match e with
  | LRef d => if (value d =? 0)%N then [] else
              match nth_error tags (N.to_nat (value d - 1)) with Some t => cLT :: t ++ [cGT] | None => [] end
  | _ => ltext e
  end.
Definition opened (e : celem) : str :=
  match e with
  | CLu l => cCARET :: flat_map resolved l ++ [cDOL]
  | CWLu wb l => cLB :: cLB :: wb ++ [cRB; cRB] ++ cCARET :: flat_map resolved l ++ [cDOL]
  | _ => ctext e
  end.
(** all letters of the lexical units in upper case *)
Definition lup (e : lelem) : lelem := match e with LChar c => LChar (up c) | _ => e end.
Definition all_up (e : celem) : celem := match e with CLu l => CLu (map lup l) | CWLu wb l => CWLu wb (map lup l) | _ => e end.
(** the first alphanumeric character of the first lexical unit that has one in upper case *)
Fixpoint lfirst (l : list lelem) : option (list lelem) :=
  match l with
  | [] => None
  | LChar c :: r => if alnum c then Some (LChar (up c) :: r) else option_map (cons (LChar c)) (lfirst r)
  | e :: r => option_map (cons e) (lfirst r)
  end.
Fixpoint first_up (c : list celem) : list celem :=
  match c with
  | [] => []
  | CLu l :: r => match lfirst l with Some l' => CLu l' :: r | None => CLu l :: first_up r end
  | CWLu wb l :: r => match lfirst l with Some l' => CWLu wb l' :: r | None => CWLu wb l :: first_up r end
  | e :: r => e :: first_up r
  end.
(** the case of the chunk (AA, Aa or aa) applied to its content *)
Definition recase (k : ckind) (c : list celem) : list celem :=
  match k with AA => map all_up c | Aa => first_up c | aa => c end.
(** the words of the content, each with the text between it and the word before; and what follows the last word *)
Fixpoint cut (gap : str) (c : list celem) : list (str * str) * str :=
  match c with
  | [] => ([], gap)
  | CLu l :: r => let '(x, g) := cut [] r in ((gap, flat_map resolved l) :: x, g)
  | CWLu wb l :: r => let '(x, g) := cut [] r in ((gap, cLB :: cLB :: wb ++ [cRB; cRB] ++ flat_map resolved l) :: x, g)
  | e :: r => cut (gap ++ ctext e) r
  end.
End Sem.
(** everything but a final unbracketed, unescaped character *)
Fixpoint but_last_char (c : list celem) : list celem :=
  match c with [] => [] | [CChar _] => [] | e :: r => e :: but_last_char r end.
Definition ends_in_char (c : list celem) : Prop := exists l x, c = l ++ [CChar x].
