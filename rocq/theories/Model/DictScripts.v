(** The scripts that cut a dictionary or a rule file down to one variety of a language:
    scripts/filter-dix.xslt, apertium-genvdix / -genvldix / -genvrdix, translate-to-default-equivalent.xslt, apertium-filter-rules, apertium-filter-xml.
    XML trees are an inductive type; comments and processing instructions are [Mk].  Namespaces, entities and the document type are not modelled.
    xsltproc, the SAX reader and ElementTree are replaced by what they do to such trees: templates by name, events in document order,
    and the text after an element (its tail) goes when the element is removed.  The output is the tree the programs serialise, except for genvdix, which writes text itself. *)
From Coq Require Import String.
From Verif Require Import Model.Base.
Open Scope nat_scope.

Notation atts := (list (str * str)) (only parsing).
Inductive xml := El (n : str) (a : list (str * str)) (k : list xml) | Tx (s : str) | Mk (s : str).
Fixpoint att (x : str) (a : atts) : option str :=
  match a with [] => None | (y, v) :: r => if str_eqb y x then Some v else att x r end.
Definition att0 (x : str) (a : atts) : str := match att x a with Some v => v | None => [] end.       (* {./@x} *)
Definition del (x : str) (a : atts) : atts := filter (fun p => negb (str_eqb (fst p) x)) a.
Definition isin (x : str) (l : list str) : bool := existsb (str_eqb x) l.
Definition is_elt (x : xml) : bool := match x with El _ _ _ => true | _ => false end.

(** ** filter-dix.xslt *)
Section F.
Variables (lang : str) (left : bool).                    (* 22-23: side is 'left' *)
(* 51-98: None, the entry is dropped; Some r, it is copied with that attribute r *)
Definition fd_e (a : atts) : option (option str) :=
  let r := att (u "r"%string) a in
  match att (u "v"%string) a with
  | Some v =>
      if str_eqb v lang then Some r                                                     (* 53-66 *)
      else if left then Some (Some (u "LR"%string))                                     (* 67-73 *)
      else if match r with Some x => str_eqb x (u "LR"%string) | None => false end then None
      else Some (Some (u "RL"%string))                                                  (* 74-80 *)
  | None => Some r                                                                      (* 83-96 *)
  end.
Definition bare : list str := map u ["alphabet"; "sdefs"; "pardefs"; "p"; "l"; "r"; "re"; "i"; "g"; "dictionary"]%string.   (* 25-33, 39-43, 100-112, 130-132, 140-146, 152-156 *)
Definition named : list str := map u ["sdef"; "s"; "par"]%string.                         (* 35-37, 114-116, 148-150 *)
Definition empties : list str := map u ["b"; "j"; "a"]%string.                            (* 118-128 *)
Fixpoint fd (x : xml) : list xml :=
  match x with
  | Tx s => [Tx s]                                                                      (* the built-in templates *)
  | Mk _ => []
  | El n a k =>
      let ks := flat_map fd k in
      if str_eqb n (u "e"%string) then
        match fd_e a with
        | None => []
        | Some None => [El n [] ks]
        | Some (Some r) => [El n [(u "r"%string, r)] ks]
        end
      else if isin n bare then [El n [] ks]
      else if isin n named then [El n [(u "n"%string, att0 (u "n"%string) a)] []]
      else if isin n empties then [El n [] []]
      else if str_eqb n (u "pardef"%string) then [El n [(u "n"%string, att0 (u "n"%string) a)] ks]         (* 45-49 *)
      else if str_eqb n (u "section"%string) then [El n [(u "id"%string, att0 (u "id"%string) a); (u "type"%string, att0 (u "type"%string) a)] ks]   (* 134-138 *)
      else ks
  end.
End F.

(** ** apertium-genvdix, -genvldix, -genvrdix *)
Section G.
Variable ws : char -> bool.                              (* what Python's split and strip take for white space *)
Variable var : str.                                      (* the attribute: v, vl or vr *)
Variable alt : str.                                      (* 24: sys.argv[1] *)
Definition other : str := if str_eqb alt (u "other"%string) then rev (u "other"%string) else u "other"%string.    (* 22-28 *)
(* str.split() *)
Fixpoint words (s : str) (cur : str) : list str :=
  match s with
  | [] => match cur with [] => [] | _ => [rev cur] end
  | c :: r => if ws c then match cur with [] => words r [] | _ => rev cur :: words r [] end else words r (c :: cur)
  end.
(* 53-61 *)
Definition new_attrs (n : str) (a : atts) : atts :=
  match att var a with
  | Some v => if str_eqb n (u "e"%string) then del var a ++ [(var, if isin alt (words v []) then alt else other)] else a
  | None => a
  end.
(* saxutils.escape *)
Definition esc1 (c : char) : str :=
  if c =?c 38%N then u "&amp;"%string else if c =?c 62%N then u "&gt;"%string else if c =?c 60%N then u "&lt;"%string else [c].
Definition escape (s : str) : str := flat_map esc1 s.
Fixpoint lstrip (s : str) : str := match s with c :: r => if ws c then lstrip r else s | [] => [] end.
Definition strip (s : str) : str := rev (lstrip (rev (lstrip s))).
Definition print_attr (p : str * str) : str := fst p ++ u "="%string ++ [34%N] ++ escape (snd p) ++ [34%N] ++ u " "%string.
(* 30-40 *)
Definition printAttrs (a : atts) : str :=
  match a with [] => [] | _ => u " "%string ++ strip (flat_map print_attr a) end.
Inductive event := Start (n : str) (a : list (str * str)) | End (n : str) | Chars (s : str).
(* _buf, with the last string first, and what was written *)
Definition gst := (list str * str)%type.
Definition flush (s : gst) : gst := ([], snd s ++ concat (rev (fst s))).
(* the last string of the buffer is a start tag, 65 *)
Definition open_tag (b : str) : bool :=
  match b with c :: r => (c =?c 60%N) && (match rev b with d :: _ => d =?c 62%N | [] => false end) && (match r with d :: _ => negb (d =?c 47%N) | [] => true end) | [] => false end.
Definition step (s : gst) (e : event) : gst :=
  match e with
  | Start n a => ((u "<"%string ++ n ++ printAttrs (new_attrs n a) ++ u ">"%string) :: fst s, snd s)              (* 53-62 *)
  | End n =>                                                                                                  (* 64-72 *)
      match fst s with
      | b :: bs => if open_tag b then flush ((removelast b ++ u "/>"%string) :: bs, snd s)
                   else let s' := flush s in (fst s', snd s' ++ u "</"%string ++ n ++ u ">"%string)
      | [] => let s' := flush s in (fst s', snd s' ++ u "</"%string ++ n ++ u ">"%string)
      end
  | Chars t => let s' := flush s in (fst s', snd s' ++ escape t)                                                (* 74-76 *)
  end.
(* what the SAX reader reports; comments are not reported *)
Fixpoint events (x : xml) : list event :=
  match x with El n a k => Start n a :: flat_map events k ++ [End n] | Tx s => [Chars s] | Mk _ => [] end.
Definition genv (root : xml) : str := snd (fold_left step (events root) ([], [])).
End G.

(** ** translate-to-default-equivalent.xslt *)
Definition nl : xml := Tx [10%N].
Definition ends_D (s : str) : bool := match rev s with d :: sp :: _ => (d =?c 68%N) && (sp =?c cSP) | _ => false end.      (* substring(s, len-1, 2) = ' D' *)
Definition full (o : option str) : option str := match o with Some [] => None | _ => o end.                         (* @x != '' *)
(* 56-146, for an entry with slr or srl *)
Definition td_e (a : atts) (k : list xml) : list xml :=
  let out (r : list (str * str)) := [El (u "e"%string) r (nl :: filter is_elt k ++ [nl])] in
  let R (x : string) := [(u "r"%string, u x)] in
  let is_r (x : string) := match att (u "r"%string) a with Some y => str_eqb y (u x) | None => false end in
  match full (att (u "slr"%string) a), full (att (u "srl"%string) a) with
  | Some slr, Some srl =>
      if ends_D srl && ends_D slr then out []
      else if ends_D slr then out (R "LR"%string)
      else if ends_D srl then out (R "RL"%string)
      else []
  | None, Some srl =>
      if ends_D srl && is_r "RL"%string then out (R "RL"%string)
      else if ends_D srl then out []
      else if is_r "RL"%string then []
      else out (R "LR"%string)
  | Some slr, None =>
      if ends_D slr && is_r "LR"%string then out (R "LR"%string)
      else if ends_D slr then out []
      else if is_r "LR"%string then []
      else out (R "RL"%string)
  | None, None => []
  end.
(* the templates applied to what is inside a section *)
Fixpoint td (x : xml) : list xml :=
  match x with
  | Tx s => [Tx s]
  | Mk _ => []
  | El n a k =>
      if str_eqb n (u "e"%string) then
        match att (u "slr"%string) a, att (u "srl"%string) a with
        | None, None => [x]                                                                          (* 148-150 *)
        | _, _ => td_e a k
        end
      else if str_eqb n (u "section"%string)
      then [nl; El n [(u "id"%string, att0 (u "id"%string) a); (u "type"%string, att0 (u "type"%string) a)] (nl :: flat_map td k); nl]      (* 46-51 *)
      else flat_map td k
  end.
Definition is_el (n : str) (x : xml) : bool := match x with El m _ _ => str_eqb m n | _ => false end.
(* 32-44 *)
Definition translate (root : xml) : list xml :=
  match root with
  | El n _ k =>
      if str_eqb n (u "dictionary"%string) then
        [nl; El n [] (nl :: filter (is_el (u "alphabet"%string)) k ++ nl :: filter (is_el (u "sdefs"%string)) k ++ nl :: filter (is_el (u "pardefs"%string)) k ++ nl ::
                      flat_map td (filter (is_el (u "section"%string)) k)); nl]
      else [nl]
  | _ => [nl]
  end.

(** ** apertium-filter-rules and apertium-filter-xml *)
Inductive verdict := Same | Drop | Into (a : list (str * str)).
Section P.
Variable dec : str -> atts -> verdict.
(* the children of a node: those whose new form is None are removed, with the text after them *)
Section C.
Variable f : xml -> option xml.
Fixpoint chop (gone : bool) (ks : list xml) : list xml :=
  match ks with
  | [] => []
  | Tx s :: r => if gone then chop gone r else Tx s :: chop gone r
  | x :: r => match f x with Some y => y :: chop false r | None => chop true r end
  end.
End C.
Fixpoint prune (x : xml) : option xml :=
  match x with
  | El n a k => match dec n a with Same => Some x | Drop => None | Into a' => Some (El n a' (chop prune false k)) end
  | _ => Some x
  end.
Definition prune_root (x : xml) : xml := match x with El n a k => El n a (chop prune false k) | _ => x end.
End P.
(** apertium-filter-rules, 31-47 *)
Definition SKIP_TAGS : list str := map u ["with-param"; "param"; "list-item"; "lit"; "lit-tag"; "attr-item"; "def-var"]%string.
Definition rules_dec (ws : char -> bool) (langs : list str) (n : str) (a : atts) : verdict :=
  if isin n SKIP_TAGS then Same
  else match att (u "v"%string) a with
       | Some v => if forallb (fun l => isin l (words ws v [])) langs then Into (del (u "v"%string) a) else Drop
       | None => Into a
       end.
Definition filter_rules (ws : char -> bool) (langs : list str) : xml -> xml := prune_root (rules_dec ws langs).
(** apertium-filter-xml, 14-34; its reader leaves comments out *)
Fixpoint commas (s cur : str) : list str :=                              (* s.split(',') *)
  match s with
  | [] => [rev cur]
  | c :: r => if c =?c 44%N then rev cur :: commas r [] else commas r (c :: cur)
  end.
Definition xml_dec (attr : str) (keep : list str) (var : str) (n : str) (a : atts) : verdict :=
  if isin n keep then Same
  else match att attr a with
       | Some v => if existsb (fun l => isin l (commas var [])) (commas v []) then Into (del attr a) else Drop
       | None => Into a
       end.
Fixpoint no_comments (x : xml) : list xml :=
  match x with El n a k => [El n a (flat_map no_comments k)] | Tx s => [Tx s] | Mk _ => [] end.
Definition filter_xml (attr : str) (keep : list str) (var : str) (root : xml) : xml :=
  match no_comments root with x :: _ => prune_root (xml_dec attr keep var) x | [] => root end.
