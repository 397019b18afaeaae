(** Specification for C63: which words a capitalisation rule matches, and what it votes for. *)
From Coq Require Import String ZArith.
From Verif Require Import Model.Base Model.FeatureVec Model.Codec Model.CapsRules Spec.Caps.
Open Scope nat_scope.

(** ** words: noted source case, form, surface *)
Definition word := (str * str * str)%type.
(** characters, escaped characters and tags of a text *)
Inductive toks : str -> list isym -> Prop :=
  | T_nil : toks [] []
  | T_char c s l : c <> cBS -> c <> cLT -> toks s l -> toks (c :: s) (IChar c :: l)
  | T_esc d s l : toks s l -> toks (cBS :: d :: s) (IChar d :: l)
  | T_tag t s l : ~ In cGT t -> toks s l -> toks (cLT :: t ++ cGT :: s) (ITag (cLT :: t ++ [cGT]) :: l).
(** names the program uses for itself *)
Definition own_tags : list str := map u ["<ANY_TAG>"; "<ANY_CHAR>"; "<ANY_UPPER>"; "<ANY_LOWER>"; "<$>"; "<$$>"]%string.
Definition usual (x : isym) : Prop := match x with IChar c => c <> cSLASH | ITag t => ~ In t own_tags end.
Definition good_text (s : str) : Prop := exists l, toks s l /\ Forall usual l.
Definition good_word (w : word) : Prop := let '(src, form, surf) := w in good_text form /\ good_text surf.

Section S.
Variable isupper : char -> bool.
(** ** srcsurf, srclem, trglem, trgsurf: every character stands for a run of characters of its kind; equal kinds side by side are one *)
Inductive kind := Any | Space | Upper | Lower.
Definition kind_of (c : char) : kind := if c =?c cSTAR then Any else if c =?c cSP then Space else if isupper c then Upper else Lower.
Definition of_kind (k : kind) (x : isym) : Prop :=
  match x with
  | ITag _ => False
  | IChar d => match k with Any => True | Space => d = cSP | Upper => isupper d = true | Lower => isupper d = false end
  end.
Inductive case_text : str -> list isym -> Prop :=
  | CT_nil : case_text [] []
  | CT_run c r s l1 l2 : Forall (fun d => kind_of d = kind_of c) r -> l1 <> [] -> Forall (of_kind (kind_of c)) l1 ->
      (forall d s', s = d :: s' -> kind_of d <> kind_of c) -> case_text s l2 -> case_text (c :: r ++ s) (l1 ++ l2).
(** lemma, surface: * stands for one or more characters *)
Inductive literal_text : str -> list isym -> Prop :=
  | LT_nil : literal_text [] []
  | LT_char c s l : c <> cSTAR -> literal_text s l -> literal_text (c :: s) (IChar c :: l)
  | LT_stars r s l1 l2 : Forall (fun d => d = cSTAR) r -> l1 <> [] -> Forall (of_kind Any) l1 -> (forall s', s <> cSTAR :: s') -> literal_text s l2 ->
      literal_text (cSTAR :: r ++ s) (l1 ++ l2).
(** tags *)
Definition is_tag (x : isym) : Prop := match x with ITag _ => True | IChar _ => False end.
Inductive tag_text : list str -> list isym -> Prop :=
  | TT_nil : tag_text [] []
  | TT_empty s l : tag_text s l -> tag_text ([] :: s) l
  | TT_one x s l : is_tag x -> tag_text s l -> tag_text (u "?"%string :: s) (x :: l)
  | TT_some l1 s l : l1 <> [] -> Forall is_tag l1 -> tag_text s l -> tag_text (u "+"%string :: s) (l1 ++ l)
  | TT_any l1 s l : Forall is_tag l1 -> tag_text s l -> tag_text (u "*"%string :: s) (l1 ++ l)
  | TT_tag t s l : t <> [] -> ~ In t (map u ["?"; "+"; "*"]%string) -> tag_text s l -> tag_text (t :: s) (ITag (u "<"%string ++ t ++ u ">"%string) :: l).
(** an attribute that is not there is * *)
Definition given (a : option str) : str := match a with Some s => s | None => u "*"%string end.
Definition given_tags (a : option (list str)) : list str := match a with Some s => s | None => [u "*"]%string end.
Definition text_ok (lit case : option str) (l : list isym) : Prop :=
  if str_eqb (given lit) (u "*"%string) then case_text (given case) l else literal_text (given lit) l.
Inductive word_ok (m : cmatch) : word -> Prop :=
  | WO ss sl form lem tags surf lsurf : ~ In cSLASH ss -> ~ In cSLASH sl ->
      case_text (given (cm_srcsurf m)) (map IChar ss) -> case_text (given (cm_srclem m)) (map IChar sl) ->
      toks form (lem ++ tags) -> text_ok (cm_lemma m) (cm_trglem m) lem -> tag_text (given_tags (cm_tags m)) tags ->
      toks surf lsurf -> text_ok (cm_surface m) (cm_trgsurf m) lsurf ->
      word_ok m (ss ++ u "/"%string ++ sl, form, surf).
(** ** what a rule file may say *)
Definition vote (m : cmatch) : str := match cm_select m with None | Some [] => u "<skip>"%string | Some s => u "<"%string ++ s ++ u ">"%string end.
Definition valid_match (m : cmatch) : Prop :=
  (given (cm_lemma m) = u "*"%string \/ given (cm_trglem m) = u "*"%string) /\ (given (cm_surface m) = u "*"%string \/ given (cm_trgsurf m) = u "*"%string) /\
  (forall s, cm_select m = Some s -> In s (map u [""; "AA"; "Aa"; "aa"; "dix"]%string)).
Inductive valid : cnode -> Prop :=
  | V_match m : valid_match m -> valid (NMatch m)
  | V_begin : valid NBegin
  | V_or l : Forall valid l -> valid (NOr l)
  | V_repeat a b l : (0 <= a <= b)%Z -> Forall valid l -> valid (NRepeat a b l).
(** [after]: the tag before is + or *.  No ? or + directly after + or * (see C63_tags_refuted); no name of the program's own; no / in a text *)
Fixpoint plain_tags (after : bool) (l : list str) : Prop :=
  match l with
  | [] => True
  | t :: r => if str_eqb t (u "+"%string) then after = false /\ plain_tags true r
              else if str_eqb t (u "*"%string) then plain_tags true r
              else if str_eqb t (u "?"%string) then after = false /\ plain_tags false r
              else match t with [] => plain_tags after r | _ => ~ In (u "<"%string ++ t ++ u ">"%string) own_tags /\ plain_tags false r end
  end.
Definition plain_match (m : cmatch) : Prop := plain_tags false (given_tags (cm_tags m)) /\ ~ In cSLASH (given (cm_lemma m)) /\ ~ In cSLASH (given (cm_surface m)).
Inductive plain_node : cnode -> Prop :=
  | PN_match m : plain_match m -> plain_node (NMatch m)
  | PN_begin : plain_node NBegin
  | PN_or l : Forall plain_node l -> plain_node (NOr l)
  | PN_repeat a b l : Forall plain_node l -> plain_node (NRepeat a b l).
(** ** matching: the words matched, preceded by the mark of the beginning if it is asked for, and the vote for each word *)
Inductive tk := TBegin | TWord (w : word).
Inductive node_ok : cnode -> list tk -> list str -> Prop :=
  | NK_match m w : word_ok m w -> node_ok (NMatch m) [TWord w] [vote m]
  | NK_begin : node_ok NBegin [TBegin] []
  | NK_or n l ts p : In n l -> node_ok n ts p -> node_ok (NOr l) ts p
  | NK_none : node_ok (NOr []) [] []
  | NK_repeat a b l k ts p : (a <= Z.of_nat k <= b)%Z -> rep_ok k l ts p -> node_ok (NRepeat a b l) ts p
with rep_ok : nat -> list cnode -> list tk -> list str -> Prop :=
  | RK_0 l : rep_ok 0 l [] []
  | RK_S k l ts p ts' p' : seq_ok l ts p -> rep_ok k l ts' p' -> rep_ok (S k) l (ts ++ ts') (p ++ p')
with seq_ok : list cnode -> list tk -> list str -> Prop :=
  | SK_nil : seq_ok [] [] []
  | SK_cons n l ts p ts' p' : node_ok n ts p -> seq_ok l ts' p' -> seq_ok (n :: l) (ts ++ ts') (p ++ p').
(** what a rule may match after the words [ws] of a document were read *)
Inductive ends (ws : list word) : list tk -> Prop :=
  | E_part pre r : ws = pre ++ r -> ends ws (map TWord r)
  | E_all : ends ws (TBegin :: map TWord ws).
Definition has_word (ts : list tk) : Prop := exists w, In (TWord w) ts.

(** ** the votes counted after a word: of every rule that matches one or more words ending here, the first path in the order of
    vector<UString>; rules in the order of their names.  After the blank at the end: the same, but the words matched end before the blank *)
Variables (W : Type) (w0 : W) (weights : list W) (rules : list (list cnode)).
Definition hit (what : list tk -> Prop) (i : nat) (p : list str) : Prop := exists r ts, nth_error rules i = Some r /\ what ts /\ seq_ok r ts p.
Definition counted (what : list tk -> Prop) (vs : list (W * list str)) : Prop :=
  exists ps : list (nat * list str), vs = map (fun x => (nth (fst x) weights w0, snd x)) ps /\
    sorted str_lt (map (fun x => rule_id (fst x)) ps) = true /\
    forall i p, In (i, p) ps <-> hit what i p /\ forall p', hit what i p' -> p' = p \/ vec_lt p p' = true.
Definition after_words (ws : list word) (vs : list (W * list str)) : Prop := counted (fun ts => ends ws ts /\ has_word ts) vs.
Definition after_blank (ws : list word) (vs : list (W * list str)) : Prop := counted (ends ws) vs.
(* the votes after every word of [l], [done] having been read *)
Fixpoint doc_votes (done l : list word) (blank : bool) (vs : list (list (W * list str))) : Prop :=
  match l with
  | [] => if blank then exists v, vs = [v] /\ after_blank done v else vs = []
  | w :: l => exists v vs', vs = v :: vs' /\ after_words (done ++ [w]) v /\ doc_votes (done ++ [w]) l blank vs'
  end.
(** ** documents *)
Variables (wadd : W -> W -> W) (wge : W -> W -> bool) (tolower totitle toupper : str -> str) (delete_wblanks late : bool).
Definition doc_blank (last : bool) (e : str) : bool := match e with [] => last && late | _ => true end.
Inductive words_of : list cword -> list word -> Prop :=
  | WD_nil : words_of [] []
  | WD_cons w l src kept r : caps_note (c_wb w) src kept -> words_of l r -> words_of (w :: l) ((src, match c_form w with Some f => f | None => [] end, c_surf w) :: r).
Inductive rdoc_out (last : bool) (d : cdoc) : str -> Prop :=
  | RDO ws vs s : words_of (cd_words d) ws -> doc_votes [] ws (doc_blank last (cd_end d)) vs ->
      words_out W w0 wadd wge tolower totitle toupper delete_wblanks (cd_words d) vs s -> rdoc_out last d (s ++ cd_end d).
Inductive rdocs_out : cdoc -> list cdoc -> str -> Prop :=
  | RO_last d s : rdoc_out true d s -> rdocs_out d [] s
  | RO_more d d' r s s' : rdoc_out false d s -> rdocs_out d' r s' -> rdocs_out d (d' :: r) (s ++ cNUL :: s').
Definition good_doc (d : cdoc) : Prop := Forall (fun w => (forall f, c_form w = Some f -> good_text f) /\ good_text (c_surf w)) (cd_words d).
End S.
