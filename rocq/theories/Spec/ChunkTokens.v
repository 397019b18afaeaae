(** Streams of blanks and lexical units (for C30, C31, C44). *)
From Verif Require Import Model.Base Spec.TransferMult.

(** the inside of a superblank *)
Inductive SupInside : str -> Prop :=
| si_nil : SupInside []
| si_char c s : c <> cRB -> c <> cLB -> c <> cBS -> c <> cNUL -> SupInside s -> SupInside (c :: s)
| si_esc c s : SupInside s -> SupInside (cBS :: c :: s).
(** text between lexical units: ordinary characters, escaped characters, superblanks *)
Inductive BText : str -> Prop :=
| bt_nil : BText []
| bt_char c s : c <> cBS -> c <> cLB -> c <> cCARET -> c <> cDOL -> c <> cNUL -> BText s -> BText (c :: s)
| bt_esc c s : BText s -> BText (cBS :: c :: s)
| bt_sup b s : SupInside b -> BText s -> BText (cLB :: b ++ cRB :: s).
(** text of a lexical unit up to its chunk content *)
Inductive WText : str -> Prop :=
| wt_nil : WText []
| wt_char c s : c <> cBS -> c <> cLB -> c <> cCARET -> c <> cDOL -> c <> cLC -> c <> cNUL -> WText s -> WText (c :: s)
| wt_esc c s : WText s -> WText (cBS :: c :: s).
(** the content of a chunk and its closing brace: before the end no unescaped closing brace is followed by a dollar *)
Inductive Inner : str -> Prop :=
| in_end : Inner [cRC]
| in_esc c s : Inner s -> Inner (cBS :: c :: s)
| in_char c s : c <> cBS -> c <> cRC -> Inner s -> Inner (c :: s)
| in_brace s : Inner s -> (forall r, s <> cDOL :: r) -> Inner (cRC :: s).
Inductive ChunkText : str -> Prop :=
| ct_plain w : WText w -> ChunkText w
| ct_chunk w i : WText w -> Inner i -> ChunkText (w ++ cLC :: i).
(** blank, word, blank, word, ..., final text *)
Fixpoint stream (l : list (str * str)) (last : str) : str :=
  match l with [] => last | (b, w) :: r => b ++ cCARET :: w ++ cDOL :: stream r last end.
Definition stream_items (l : list (str * str)) : list item := flat_map (fun bw => [B (fst bw); W (snd bw)]) l.
(** documents separated by NUL *)
Definition doc := (list (str * str) * str)%type.
Definition doc_text (d : doc) : str := stream (fst d) (snd d).
Fixpoint docs_text (d : doc) (l : list doc) : str :=
  match l with [] => doc_text d | d' :: r => doc_text d ++ cNUL :: docs_text d' r end.
Definition doc_ok (word_ok : str -> Prop) (d : doc) : Prop := Forall (fun bw => BText (fst bw) /\ word_ok (snd bw)) (fst d) /\ BText (snd d).
