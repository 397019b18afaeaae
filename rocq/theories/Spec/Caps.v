(** Specification for C36 and C50: texts of words with word-bound blanks, and the case the rules vote for. *)
From Coq Require Import String.
From Verif Require Import Model.Base Spec.MorphoStream.

(** ** texts *)
(** text and superblanks, but no word-bound blank *)
Inductive wf_blankw : str -> Prop :=
  | W_nil : wf_blankw []
  | W_char c s : c <> cBS -> c <> cCARET -> c <> cNUL -> c <> cLB -> wf_blankw s -> wf_blankw (c :: s)
  | W_esc d s : wf_blankw s -> wf_blankw (cBS :: d :: s)
  | W_super p s : plain (fun c => c = cRB) (fun _ => False) p -> (forall r, p <> cLB :: r) -> wf_blankw s -> wf_blankw (cLB :: p ++ cRB :: s).
(** characters, escapes and tags *)
Inductive wf_seg : str -> Prop :=
  | G_nil : wf_seg []
  | G_char c s : c <> cBS -> c <> cLT -> c <> cSLASH -> c <> cDOL -> wf_seg s -> wf_seg (c :: s)
  | G_esc d s : wf_seg s -> wf_seg (cBS :: d :: s)
  | G_tag t s : plain (fun c => c = cGT) (fun _ => False) t -> wf_seg s -> wf_seg (cLT :: t ++ cGT :: s).
(** the pieces of a word-bound blank: nonempty, without "; " and without ] *)
Inductive no_sep : str -> Prop :=
  | N_nil : no_sep []
  | N_one c : no_sep [c]
  | N_cons c d s : ~ (c = cSEMI /\ d = cSP) -> no_sep (d :: s) -> no_sep (c :: d :: s).
Definition wf_piece (p : str) : Prop := p <> [] /\ no_sep p /\ plain (fun c => c = cRB) (fun _ => False) p.
Fixpoint joined (l : list str) : str := match l with [] => [] | [x] => x | x :: r => x ++ u "; "%string ++ joined r end.
Definition wb_text (l : list str) : str := match l with [] => [] | _ => u "[["%string ++ joined l ++ u "]]"%string end.
(** a word: blank before it, pieces of its word-bound blank, form if any, surface *)
Record cword := mkcw { c_blank : str; c_wb : list str; c_form : option str; c_surf : str }.
Definition wf_word (w : cword) : Prop :=
  wf_blankw (c_blank w) /\ Forall wf_piece (c_wb w) /\ (forall f, c_form w = Some f -> wf_seg f) /\ wf_seg (c_surf w) /\ c_surf w <> [].
Definition word_text (w : cword) : str :=
  c_blank w ++ wb_text (c_wb w) ++ u "^"%string ++ (match c_form w with Some f => f ++ u "/"%string | None => [] end) ++ c_surf w ++ u "$"%string.
(** documents, with the blank at the end, separated by NUL *)
Record cdoc := mkcd { cd_words : list cword; cd_end : str }.
Definition wf_cdoc (d : cdoc) : Prop := Forall wf_word (cd_words d) /\ wf_blankw (cd_end d).
Definition cdoc_text (d : cdoc) : str := flat_map word_text (cd_words d) ++ cd_end d.
Fixpoint cdocs_text (d : cdoc) (ds : list cdoc) : str := match ds with [] => cdoc_text d | d' :: r => cdoc_text d ++ cNUL :: cdocs_text d' r end.

(** ** the source case noted in the word-bound blank, and the blank without it *)
Definition is_caps (p : str) : Prop := exists q, p = u "c:"%string ++ q.
Inductive caps_note : list str -> str -> list str -> Prop :=      (* pieces, noted case, pieces that are left *)
  | CN_none l : Forall (fun p => ~ is_caps p) l -> caps_note l (u "aa/aa"%string) l
  | CN_some l q r : Forall (fun p => ~ is_caps p) l -> caps_note (l ++ (u "c:"%string ++ q) :: r) q l.

Section S.
Variables (W : Type) (w0 : W) (wadd : W -> W -> W) (wge : W -> W -> bool).
Variable weights : str -> W.
Variables (tolower totitle toupper : str -> str).
Variables (State : Type) (initial : State) (step_null step_wb : State -> State) (step_word : State -> str -> str -> str -> State).
Variable finals : State -> list (str * list str).
Variable dead : State -> bool.
Variable merge : State -> State.

(** ** the votes: [item]: what one step of the machine reads; None: only a blank *)
Definition citem := option (str * str * str)%type.                 (* source case, form, surface *)
Definition after (st : State) (i : citem) : State := step_wb (match i with Some (c, f, s) => step_word st c f s | None => st end).
Definition next (st : State) : State := if dead st then initial else merge st.
(* the first path of every rule *)
Fixpoint firsts (l : list (str * list str)) (seen : list str) : list (W * list str) :=
  match l with
  | [] => []
  | (r, p) :: l => if existsb (str_eqb r) seen then firsts l seen else (weights r, p) :: firsts l (r :: seen)
  end.
Definition votes_at (st : State) : list (W * list str) := firsts (finals st) [].
(* one list of votes per item *)
Fixpoint all_votes (st : State) (l : list citem) : list (list (W * list str)) :=
  match l with [] => [] | i :: r => let st := after st i in votes_at st :: all_votes (next st) r end.
(* no path is longer than what was read since the machine was last dead *)
Fixpoint fits (st : State) (n : nat) (l : list citem) : Prop :=
  match l with
  | [] => True
  | i :: r => let st := after st i in Forall (fun v => length (snd v) <= S n) (votes_at st) /\ fits (next st) (if dead st then 0 else S n) r
  end.
(* the sum of the votes for case [c] of a word, given the votes from its own item on: the path of a vote ends at the
   item where the vote is *)
Fixpoint evidence_from (k : nat) (vs : list (list (W * list str))) (c : str) (acc : W) : W :=
  match vs with
  | [] => acc
  | v :: r => evidence_from (S k) r c (fold_left (fun a x => match nth_error (rev (snd x)) k with Some c' => if str_eqb c' c then wadd a (fst x) else a | None => a end) v acc)
  end.
Definition evidence (vs : list (list (W * list str))) (c : str) : W := evidence_from 0 vs c w0.

(** ** the case with most evidence; dix before aa before Aa before AA if equal *)
Definition DIX := u "<dix>"%string. Definition LOW := u "<aa>"%string. Definition TITLE := u "<Aa>"%string. Definition UP := u "<AA>"%string.
Definition priority : list str := [DIX; LOW; TITLE; UP].
Inductive chosen (ev : str -> W) : str -> Prop :=
  | CH l c r : priority = l ++ c :: r -> Forall (fun c' => wge (ev c) (ev c') = true) priority ->
               Forall (fun c' => exists d, In d priority /\ wge (ev c') (ev d) = false) l -> chosen ev c.
Definition apply_case (c s : str) : str :=
  if str_eqb c DIX then s else if str_eqb c LOW then tolower s else if str_eqb c TITLE then totitle s else toupper s.

(** ** the output *)
Variable delete_wblanks : bool.
Definition item_of (w : cword) (src : str) : citem := Some (src, match c_form w with Some f => f | None => [] end, c_surf w).
(* words, their items, and the text written for them, given the votes from the first of them on *)
Inductive words_out : list cword -> list (list (W * list str)) -> str -> Prop :=
  | O_nil vs : words_out [] vs []
  | O_word w l v vs src kept c s : caps_note (c_wb w) src kept -> chosen (evidence (v :: vs)) c -> words_out l vs s ->
      words_out (w :: l) (v :: vs)
        (c_blank w ++ (let t := apply_case c (c_surf w) in
                       match (if delete_wblanks then kept else c_wb w) with [] => t | ps => wb_text ps ++ t ++ u "[[/]]"%string end) ++ s).
Inductive items_of : list cword -> list citem -> Prop :=
  | I_nil : items_of [] []
  | I_cons w l src kept is : caps_note (c_wb w) src kept -> items_of l is -> items_of (w :: l) (item_of w src :: is).
Variable late : bool.
(* the blank at the end is one more item, if there is something to read *)
Definition tail_item (last : bool) (e : str) : list citem := match e with [] => if last && late then [None] else [] | _ => [None] end.
Inductive doc_out (last : bool) (d : cdoc) : str -> Prop :=
  | DO is s : items_of (cd_words d) is ->
      words_out (cd_words d) (all_votes (step_null initial) (is ++ tail_item last (cd_end d))) s -> doc_out last d (s ++ cd_end d).
Inductive cdocs_out : cdoc -> list cdoc -> str -> Prop :=
  | CO_last d s : doc_out true d s -> cdocs_out d [] s
  | CO_more d d' r s s' : doc_out false d s -> cdocs_out d' r s' -> cdocs_out d (d' :: r) (s ++ cNUL :: s').
(* no vote reaches outside the words read *)
Definition doc_fits (last : bool) (d : cdoc) : Prop :=
  forall is, items_of (cd_words d) is -> fits (step_null initial) 0 (is ++ tail_item last (cd_end d)).
End S.

(** ** apertium-extract-caps *)
Section E.
Variables (getcase : str -> str) (merge_wblanks : str -> str -> str) (keep_surf : bool).
(** a unit: surface and readings *)
Record eword := mkew { e_blank : str; e_wb : str; e_surf : str; e_reads : list str }.
Definition stopE (c : char) : Prop := c = cSLASH \/ c = cDOL \/ c = cNUL.
Definition wf_eword (w : eword) : Prop :=
  wf_blankw (e_blank w) /\ (e_wb w = [] \/ exists t, e_wb w = u "[["%string ++ t ++ u "]]"%string /\ plain (fun c => c = cRB) (fun _ => False) t) /\
  plain stopE (fun _ => False) (e_surf w) /\ e_reads w <> [] /\ Forall (plain stopE (fun _ => False)) (e_reads w).
Definition eword_text (w : eword) : str :=
  e_blank w ++ e_wb w ++ u "^"%string ++ e_surf w ++ flat_map (fun r => cSLASH :: r) (e_reads w) ++ u "$"%string.
(** the lemma of a reading: up to the tags of its last part *)
Inductive lemma_of : str -> str -> Prop :=
  | L_one l t : (forall a b, l ++ t <> a ++ u ">+"%string ++ b) -> ~ In cLT l -> (t = [] \/ exists t', t = cLT :: t') -> lemma_of (l ++ t) l
  | L_many a l t : (forall x y, cPLUS :: l ++ t <> x ++ u ">+"%string ++ y) -> ~ In cLT l -> (t = [] \/ exists t', t = cLT :: t') ->
      lemma_of (a ++ u ">+"%string ++ l ++ t) (a ++ u ">+"%string ++ l).
Inductive eword_out (w : eword) : str -> Prop :=
  | EO r rs l : e_reads w = r :: rs -> lemma_of r l ->
      eword_out w (e_blank w ++ merge_wblanks (e_wb w) (u "[[c:"%string ++ getcase (e_surf w) ++ u "/"%string ++ getcase l ++ u "]]"%string)
                   ++ u "^"%string ++ (if keep_surf then e_surf w ++ u "/"%string else []) ++ r ++ u "$"%string).
Record edoc := mked { ed_words : list eword; ed_end : str }.
Definition wf_edoc (d : edoc) : Prop := Forall wf_eword (ed_words d) /\ wf_blankw (ed_end d).
Definition edoc_text (d : edoc) : str := flat_map eword_text (ed_words d) ++ ed_end d.
Fixpoint edocs_text (d : edoc) (ds : list edoc) : str := match ds with [] => edoc_text d | d' :: r => edoc_text d ++ cNUL :: edocs_text d' r end.
Inductive ewords_out : list eword -> str -> Prop :=
  | EW_nil : ewords_out [] []
  | EW_cons w l s t : eword_out w s -> ewords_out l t -> ewords_out (w :: l) (s ++ t).
Inductive edocs_out : edoc -> list edoc -> str -> Prop :=
  | ED_last d s : ewords_out (ed_words d) s -> edocs_out d [] (s ++ ed_end d)
  | ED_more d d' r s s' : ewords_out (ed_words d) s -> edocs_out d' r s' -> edocs_out d (d' :: r) (s ++ ed_end d ++ cNUL :: s').
End E.
