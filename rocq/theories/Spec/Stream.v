(** Specification for C34 and C35: texts of analysed lexical units. *)
From Coq Require Import String.
From Verif Require Import Model.Base Model.Serialiser Model.Stream.
From Verif Require Export Spec.MorphoStream.

(** ** well-formed analyses ([plain stop bad]: Spec/MorphoStream.v) *)
Definition wf_tag (t : str) : Prop := t <> [] /\ plain (fun c => c = cGT) (fun _ => False) t.
Definition lemma_stop (c : char) : Prop := c = cLT \/ c = cDOL \/ c = cSLASH \/ c = cNUL.
Definition wf_morpheme (m : morpheme) : Prop :=
  m_lemma m <> [] /\ plain lemma_stop (fun c => c = cNUL) (m_lemma m) /\ m_tags m <> [] /\ Forall wf_tag (m_tags m).
Definition wf_analysis (a : analysis) : Prop := an_morphemes a <> [] /\ Forall wf_morpheme (an_morphemes a).
Definition star_first (a : analysis) : Prop := exists m r s, an_morphemes a = m :: r /\ m_lemma m = cSTAR :: s.
Definition wf_lu (l : lexunit) : Prop :=
  lx_sf l <> [] /\ plain (fun c => c = cSLASH \/ c = cDOL) (fun _ => False) (lx_sf l) /\
  Forall wf_analysis (lx_an l) /\ (forall a r, lx_an l = a :: r -> ~ star_first a).

(** ** their texts *)
Definition morpheme_text (m : morpheme) : str := m_lemma m ++ flat_map (fun t => cLT :: t ++ [cGT]) (m_tags m).
Fixpoint sep (c : char) (l : list str) : str := match l with [] => [] | [x] => x | x :: r => x ++ c :: sep c r end.
Definition analysis_text (a : analysis) : str := sep cPLUS (map morpheme_text (an_morphemes a)).
Definition lex_text (l : lexunit) : str :=
  cCARET :: lx_sf l ++ cSLASH :: (match lx_an l with [] => cSTAR :: lx_sf l | an => sep cSLASH (map analysis_text an) end) ++ [cDOL].

(** ** blanks: text and superblanks *)
Inductive wf_blank : str -> Prop :=
  | B_nil : wf_blank []
  | B_char c s : c <> cBS -> c <> cCARET -> c <> cNUL -> c <> cLB -> wf_blank s -> wf_blank (c :: s)
  | B_esc d s : wf_blank s -> wf_blank (cBS :: d :: s)
  | B_super p s : plain (fun c => c = cRB) (fun _ => False) p -> wf_blank s -> wf_blank (cLB :: p ++ cRB :: s).

(** ** documents: lexical units with the blanks before them, and the blank at the end *)
Record sdoc := mksd { sd_lus : list (str * lexunit); sd_end : str }.
Definition wf_doc (d : sdoc) : Prop := Forall (fun x => wf_blank (fst x) /\ wf_lu (snd x)) (sd_lus d) /\ wf_blank (sd_end d).
Definition lus_text (l : list (str * lexunit)) : str := flat_map (fun x => fst x ++ lex_text (snd x)) l.
Definition sdoc_text (d : sdoc) : str := lus_text (sd_lus d) ++ sd_end d.
Fixpoint sdocs_text (d : sdoc) (ds : list sdoc) : str :=
  match ds with [] => sdoc_text d | d' :: r => sdoc_text d ++ cNUL :: sdocs_text d' r end.

(** ** what the sentence taggers write *)
Section S.
Variables (ssf mark first sent_seg : bool).
Variable tagSentence : list lexunit -> list (option analysis).
(** the sentences of a list of units followed by the text [tail]: cut after every unit that is a sentence end *)
Definition sentence_mark (l : lexunit) : bool :=
  match lx_an l with [mkan [mkm _ [t]]] => str_eqb t (u "sent"%string) | _ => false end.
Definition ends (l : lexunit) (after : str) : bool :=
  sentence_mark l && (negb sent_seg || match after with a :: b :: _ => (a =?c cNL) && (b =?c cNL) | _ => false end).
Fixpoint sentences (cur : list lexunit) (l : list (str * lexunit)) (tail : str) : list (list lexunit) :=
  match l with
  | [] => [cur]
  | (_, x) :: r => if ends x (lus_text r ++ tail) then (cur ++ [x]) :: sentences [] r tail else sentences (cur ++ [x]) r tail
  end.
(** each unit with the reading its sentence gives it *)
Definition readings (l : list (str * lexunit)) (tail : str) : list (option analysis) := flat_map tagSentence (sentences [] l tail).
(** how a unit is written: -f shows the surface form, -m marks ambiguous units, -d (first) adds the other readings *)
Definition shown (l : lexunit) : str := if ssf then lx_sf l ++ [cSLASH] else [].
Inductive unit_text (l : lexunit) : option analysis -> str -> Prop :=
  | UT_unknown a : lx_an l = [] \/ a = None -> unit_text l a (cCARET :: shown l ++ cSTAR :: lx_sf l ++ [cDOL])
  | UT_known x eq others : lx_an l <> [] ->
      eq = (if mark then match lx_an l with [_] => [] | _ => [cEQ] end else []) ->
      others = (if first then flat_map (fun y => cSLASH :: analysis_text y) (remove analysis_dec x (lx_an l)) else []) ->
      unit_text l (Some x) (cCARET :: eq ++ shown l ++ analysis_text x ++ others ++ [cDOL]).
Inductive units_out : list (str * lexunit) -> list (option analysis) -> str -> Prop :=
  | UO_nil : units_out [] [] []
  | UO_cons b l a r rs x s : unit_text l a x -> units_out r rs s -> units_out ((b, l) :: r) (a :: rs) (b ++ x ++ s).
(** every document, followed by NUL if it was ended by NUL *)
Inductive sdocs_out : sdoc -> list sdoc -> str -> Prop :=
  | SO_last d s : units_out (sd_lus d) (readings (sd_lus d) (sd_end d)) s -> sdocs_out d [] (s ++ sd_end d)
  | SO_more d d' r s s' : units_out (sd_lus d) (readings (sd_lus d) (sd_end d ++ cNUL :: sdocs_text d' r)) s ->
      sdocs_out d' r s' -> sdocs_out d (d' :: r) (s ++ sd_end d ++ cNUL :: s').
End S.
