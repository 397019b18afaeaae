(** C61: what apertium-postchunk does with a text of chunks. *)
From Coq Require Import String ZArith.
From Verif Require Import Model.Base Model.TransferRules Spec.TransferRules Model.PostchunkRules Spec.PostchunkRules Model.Postchunk Spec.Postchunk Spec.TransferUnit Spec.ChunkTokens.

(** ** chunks: ^lemma<t1><t2>...{content}$ *)
Record pchunk := mkpc { h_lemma : reading; h_tags : list str; h_content : list celem }.
Definition pchunk_str (x : pchunk) : str := chunk_text (reading_str (h_lemma x)) (h_tags x) (h_content x).
Definition special (c : char) : Prop := In c [cBS; cLB; cRB; cLC; cLT; cGT; cDOL; cCARET; cNUL].
Definition lemma_item_ok (i : ritem) : Prop := match i with RChar c => ~ special c | REsc c => True | RTag t => False end.
(** the words of a chunk: no bracket or brace that is not escaped *)
Definition in_word (c : char) : Prop := ~ In c [cBS; cRB; cLC].
Definition plain_elem (e : lelem) : Prop := match e with LChar c => in_word c | LTag t => Forall in_word t | _ => True end.
Definition plain_unit (e : celem) : Prop :=
  match e with CLu l => Forall plain_elem l | CWLu wb l => ~ In cLC wb /\ Forall plain_elem l | _ => True end.
Definition pchunk_ok (x : pchunk) : Prop :=
  Forall lemma_item_ok (h_lemma x) /\ Forall (Forall (fun c => ~ special c)) (h_tags x) /\
  Forall celem_ok (h_content x) /\ Forall plain_unit (h_content x) /\ Inner (flat_map ctext (h_content x) ++ [cRC]).
Fixpoint pchunks_text (l : list (str * pchunk)) (final : str) : str :=
  match l with [] => final | (b, x) :: r => b ++ cCARET :: pchunk_str x ++ cDOL :: pchunks_text r final end.
(** ** what a rule works on *)
(** the words of the content, each with the text before it, and the text after the last one *)
Fixpoint word_list (tags : list str) (gap : str) (c : list celem) : list (str * pword) * str :=
  match c with
  | [] => ([], gap)
  | CLu l :: r => let '(x, g) := word_list tags [] r in ((gap, mkpw (flat_map (resolved tags) l) [] []) :: x, g)
  | CWLu wb l :: r => let '(x, g) := word_list tags [] r in ((gap, mkpw (flat_map (resolved tags) l) [] ([cLB; cLB] ++ wb ++ [cRB; cRB])) :: x, g)
  | e :: r => word_list tags (gap ++ ctext e) r
  end.
Section S.
Variable up : char -> char.
Variable alnum : char -> bool.
Variable getcase : str -> ckind.
Definition chunk_words (x : pchunk) : list (str * pword) * str :=
  word_list (h_tags x) [] (recase up alnum (getcase (reading_str (h_lemma x))) (but_last_char (h_content x))).
(** position 0: the chunk itself, without content *)
Definition chunk_zero (x : pchunk) : pword := mkpw (reading_str (h_lemma x) ++ flat_map (fun t => cLT :: t ++ [cGT]) (h_tags x)) [] [].
(** the text before the first word *)
Definition chunk_lead (x : pchunk) : str := match fst (chunk_words x) with [] => snd (chunk_words x) | (g, _) :: _ => g end.
Definition rule_start (x : pchunk) (vars vwb : str -> str) : qst :=
  let ws := fst (chunk_words x) in
  mkq (chunk_zero x :: map snd ws) (map Some (seq 0 (S (List.length ws)))) (List.length ws) vars vwb (map fst (tl ws)) [].
(** what is printed for a chunk no rule matches *)
Variable dict_case : bool.
Definition chunk_open (x : pchunk) : str :=
  flat_map (opened (h_tags x)) (recase up alnum (if dict_case then aa else getcase (reading_str (h_lemma x))) (but_last_char (h_content x))).

(** ** the text.  [pend]: text that moves behind the chunk it stood in *)
Variable matches : nat -> pchunk -> Prop.
Variable means : nat -> qst -> qst -> Prop.          (* the rules *)
Inductive Postchunked : (str -> str) -> (str -> str) -> str -> list (str * pchunk) -> str -> str -> (str -> str) -> (str -> str) -> Prop :=
| po_end vars vwb pend final : Postchunked vars vwb pend [] final (final ++ pend) vars vwb
| po_rule vars vwb pend b x l final n s o vars' vwb' :
    matches n x -> (forall m, matches m x -> n <= m) ->
    means n (rule_start x vars vwb) s ->
    Postchunked (q_vars s) (q_vwb s) (chunk_lead x) l final o vars' vwb' ->
    Postchunked vars vwb pend ((b, x) :: l) final ((b ++ pend) ++ q_out s ++ o) vars' vwb'
| po_open vars vwb pend b x l final o vars' vwb' :
    (forall n, ~ matches n x) ->
    Postchunked vars vwb [] l final o vars' vwb' ->
    Postchunked vars vwb pend ((b, x) :: l) final ((b ++ pend) ++ chunk_open x ++ o) vars' vwb'.
End S.
(** a rule that does not reject itself (rejections in macros have no effect) *)
Fixpoint no_reject (i : pinstr) : bool :=
  match i with PReject _ => false | PChoose l => forallb (fun o => forallb no_reject (snd o)) l | _ => true end.
(** the nodes of a file; files whose instructions this specification covers *)
Definition pfile_nodes (macro_map : list (nat * list pinstr)) (bodies : list (list pinstr)) : list (nat * qinstr) :=
  flat_map (fun m => flat_map pnodes_i (snd m)) macro_map ++ flat_map (flat_map pnodes_i) bodies.
Definition pfile_ok (macro_map : list (nat * list pinstr)) (bodies : list (list pinstr)) : Prop :=
  pfunctional (pfile_nodes macro_map bodies) /\ Forall (fun m => forallb psimple_i (snd m) = true) macro_map /\
  Forall (fun b => forallb psimple_i b = true /\ forallb no_reject b = true) bodies.
