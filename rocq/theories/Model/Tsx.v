(** apertium/tsx_reader.cc (with xml_reader.cc 34-48): reading a tagger definition (.tsx).

    The XML document is the list of nodes the libxml2 reader delivers.  Every [step()] of the reader
    takes one node, and what is done with it depends on the loop that called [step]: [mode] names
    that loop, [on_node] is one [step()] and the rest of the loop's body (and the loops that begin or
    end there).  [None]: message and exit.  Node types other than elements, text, comments and
    document types are elements of another name here. *)
From Coq Require Import String.
From Verif Require Import Model.Base.
Open Scope nat_scope.
Notation "'do' x <- a ; b" := (match a with Some x => b | None => None end)
  (at level 200, x name, a at level 100, b at level 200).

Inductive el := Xtagger | Xtagset | Xdef_label | Xtags_item | Xdef_mult | Xsequence | Xlabel_item
  | Xforbid | Xlabel_sequence | Xenforce_rules | Xenforce_after | Xlabel_set | Xpreferences | Xprefer
  | Xdiscard_on_ambiguity | Xdiscard | Xother.
Inductive at_name := Aname | Aclosed | Alemma | Atags | Alabel | Aother.
Definition el_dec : forall x y : el, {x = y} + {x <> y}. Proof. decide equality. Defined.
Definition at_dec : forall x y : at_name, {x = y} + {x <> y}. Proof. decide equality. Defined.
Definition attrs := list (at_name * str).
(** [Open]: also an element written with a slash at its end, which has no [Close].  A closing tag
    answers attribute queries as its opening tag does (libxml2).  [Junk]: text, comments, doctype. *)
Inductive node := Open (n : el) (a : attrs) | Close (n : el) (a : attrs) | Junk.

(** XMLParseUtil::attrib (lttoolbox): empty if absent *)
Fixpoint attrib (x : at_name) (a : attrs) : str :=
  match a with [] => [] | (y, v) :: a' => if at_dec x y then v else attrib x a' end.

(** The calls of the pattern list (lttoolbox PatternList), in order *)
Inductive pcall := PItem (id : nat) (lemma tags : str) | PLabel (id other : nat) | PBegin | PEnd.
Record tsx := mktsx {
  array_tags : list str;
  tag_index : list (str * nat);        (* std::map: the latest entry of a key first *)
  open_class : list nat;               (* std::set: latest first; only new tags are inserted *)
  forbid : list (nat * nat);
  enforce : list (nat * list nat);
  prefer : list str;
  discard : list str;
  plist : list pcall;
  constants : list (str * nat) }.

Fixpoint assoc {V} (x : str) (l : list (str * V)) : option V :=
  match l with [] => None | (y, v) :: r => if str_eqb x y then Some v else assoc x r end.
Definition TAG (s : str) : str := u "TAG_" ++ s.

(** tsx_reader.cc 83-93: newTagIndex; 95-105: newDefTag (does not prefix the name in array_tags) *)
Definition new_tag (shown : str) (tag : str) (d : tsx) : option tsx :=
  match assoc (TAG tag) (tag_index d) with
  | Some _ => None
  | None =>
      Some (mktsx (array_tags d ++ [shown]) ((TAG tag, length (array_tags d)) :: tag_index d) (open_class d) (forbid d)
                  (enforce d) (prefer d) (discard d) (plist d) (constants d))
  end.
Definition newTagIndex (tag : str) (d : tsx) : option tsx := new_tag (TAG tag) tag d.
Definition newDefTag (tag : str) (d : tsx) : option tsx := new_tag tag tag d.
(** 107-112: newConstant *)
Definition newConstant (c : str) (d : tsx) : tsx :=
  mktsx (array_tags d ++ [c]) (tag_index d) (open_class d) (forbid d) (enforce d) (prefer d) (discard d) (plist d)
        ((c, length (array_tags d)) :: constants d).
(** [( *tag_index)["TAG_" + label]]: std::map::operator[] makes a new entry 0 *)
Definition lookup (label : str) (d : tsx) : nat * tsx :=
  match assoc (TAG label) (tag_index d) with
  | Some i => (i, d)
  | None => (0, mktsx (array_tags d) ((TAG label, 0) :: tag_index d) (open_class d) (forbid d) (enforce d) (prefer d)
                      (discard d) (plist d) (constants d))
  end.
Definition add_plist (c : pcall) (d : tsx) : tsx :=
  mktsx (array_tags d) (tag_index d) (open_class d) (forbid d) (enforce d) (prefer d) (discard d) (plist d ++ [c]) (constants d).
Definition add_open (i : nat) (d : tsx) : tsx :=
  mktsx (array_tags d) (tag_index d) (i :: open_class d) (forbid d) (enforce d) (prefer d) (discard d) (plist d) (constants d).
Definition add_forbid (r : nat * nat) (d : tsx) : tsx :=
  mktsx (array_tags d) (tag_index d) (open_class d) (forbid d ++ [r]) (enforce d) (prefer d) (discard d) (plist d) (constants d).
Definition add_enforce (r : nat * list nat) (d : tsx) : tsx :=
  mktsx (array_tags d) (tag_index d) (open_class d) (forbid d) (enforce d ++ [r]) (prefer d) (discard d) (plist d) (constants d).
Definition add_prefer (r : str) (d : tsx) : tsx :=
  mktsx (array_tags d) (tag_index d) (open_class d) (forbid d) (enforce d) (prefer d ++ [r]) (discard d) (plist d) (constants d).
Definition add_discard (r : str) (d : tsx) : tsx :=
  mktsx (array_tags d) (tag_index d) (open_class d) (forbid d) (enforce d) (prefer d) (discard d ++ [r]) (plist d) (constants d).

(** 125, 455: "<" + substitute(tags, ".", "><") + ">" *)
Definition angled (tags : str) : str :=
  u "<" ++ flat_map (fun c => if (c =? cDOT)%N then u "><" else [c]) tags ++ u ">".

Inductive mode :=
| MStart                               (* 273-280: before the tagset *)
| MTagset                              (* 282-316 *)
| MLabel (id : nat)                    (* 165-194: in a def-label *)
| MMult (name : str)                   (* 208-267: in a def-mult *)
| MSeq (name : str)                    (* 216-246: in a sequence *)
| MAfter (k : nat)                     (* 495-535: between sections; k sections are past *)
| MForbid                              (* 353-386 *)
| MPair1 | MPair2 (i : nat)            (* 321-348: the two label-items of a label-sequence *)
| MEnforce (i : nat) (js : list nat)   (* 392-442: aux *)
| MPrefer                              (* 448-482 *)
| MDiscard                             (* 117-151 *)
| MDone.

(** 157-163, 200-206: the head of def-label and def-mult *)
Definition def_head (a : attrs) (d : tsx) : option tsx :=
  let name := attrib Aname a in
  do d1 <- newDefTag name d;
  if str_eqb (attrib Aclosed a) (u "true") then Some d1
  else let (i, d2) := lookup name d1 : nat * tsx in Some (add_open i d2).

Definition on_node (m : mode) (d : tsx) (x : node) : option (mode * tsx) :=
  match m with
  | MStart =>
      match x with
      | Junk => Some (MStart, d)
      | Open Xtagset _ => Some (MTagset, d)
      | Open Xtagger _ | Close Xtagger _ | Close Xtagset _ => Some (MStart, d)
      | _ => None
      end
  | MTagset =>
      match x with
      | Junk => Some (MTagset, d)
      | Open Xdef_label a =>
          do d1 <- def_head a d;
          let (i, d2) := lookup (attrib Aname a) d1 : nat * tsx in Some (MLabel i, d2)
      | Close Xdef_label _ => Some (MTagset, d)
      | Open Xdef_mult a => do d1 <- def_head a d; Some (MMult (attrib Aname a), d1)
      | Close Xdef_mult _ => Some (MTagset, d)
      | Open Xtagset _ => Some (MTagset, d)
      | Close Xtagset _ => Some (MAfter 0, d)
      | _ => None
      end
  | MLabel i =>
      match x with
      | Junk => Some (m, d)
      | Open Xtags_item a => Some (m, add_plist (PItem i (attrib Alemma a) (attrib Atags a)) d)
      | Close Xtags_item _ => Some (m, d)
      | Open Xdef_label _ | Close Xdef_label _ => Some (MTagset, d)
      | _ => None
      end
  | MMult name =>
      match x with
      | Junk => Some (m, d)
      | Open Xsequence _ => Some (MSeq name, add_plist PBegin d)
      | Close Xsequence _ => Some (m, d)
      | Open Xdef_mult _ => Some (m, d)
      | Close Xdef_mult _ => Some (MTagset, d)
      | _ => None
      end
  | MSeq name =>
      match x with
      | Open Xlabel_item a =>
          let (o, d1) := lookup (attrib Alabel a) d : nat * tsx in
          let (i, d2) := lookup name d1 : nat * tsx in
          Some (m, add_plist (PLabel i o) d2)
      | Open Xtags_item a =>
          let (i, d1) := lookup name d : nat * tsx in
          Some (m, add_plist (PItem i (attrib Alemma a) (attrib Atags a)) d1)
      | Open Xsequence _ | Close Xsequence _ => Some (MMult name, add_plist PEnd d)
      | _ => Some (m, d)
      end
  | MAfter k =>
      match x with
      | Junk => Some (m, d)
      | Open Xforbid _ => if k <=? 0 then Some (MForbid, d) else Some (MDone, d)
      | Open Xenforce_rules _ => if k <=? 1 then Some (MEnforce 0 [], d) else Some (MDone, d)
      | Open Xpreferences _ => if k <=? 2 then Some (MPrefer, d) else Some (MDone, d)
      | Open Xdiscard_on_ambiguity _ => Some (MDiscard, d)
      | _ => Some (MDone, d)
      end
  | MForbid =>
      match x with
      | Junk => Some (m, d)
      | Open Xlabel_sequence _ => Some (MPair1, d)
      | Close Xlabel_sequence _ => Some (m, d)
      | Close Xforbid _ => Some (MAfter 1, d)
      | _ => None
      end
  | MPair1 =>
      match x with
      | Junk => Some (m, d)
      | Open Xlabel_item a | Close Xlabel_item a =>
          let (i, d1) := lookup (attrib Alabel a) d : nat * tsx in Some (MPair2 i, d1)
      | _ => None
      end
  | MPair2 i =>
      match x with
      | Junk => Some (m, d)
      | Open Xlabel_item a | Close Xlabel_item a =>
          let (j, d1) := lookup (attrib Alabel a) d : nat * tsx in Some (MForbid, add_forbid (i, j) d1)
      | _ => None
      end
  | MEnforce i js =>
      match x with
      | Junk => Some (m, d)
      | Open Xenforce_after a =>
          let (i', d1) := lookup (attrib Alabel a) d : nat * tsx in Some (MEnforce i' js, d1)
      | Close Xenforce_after _ => Some (MEnforce i [], add_enforce (i, js) d)
      | Open Xlabel_set _ | Close Xlabel_set _ => Some (m, d)
      | Open Xlabel_item a =>
          let (j, d1) := lookup (attrib Alabel a) d : nat * tsx in Some (MEnforce i (js ++ [j]), d1)
      | Close Xlabel_item _ => Some (m, d)
      | Close Xenforce_rules _ => Some (MAfter 2, d)
      | _ => None
      end
  | MPrefer =>
      match x with
      | Junk => Some (m, d)
      | Open Xprefer a => Some (m, add_prefer (angled (attrib Atags a)) d)
      | Close Xprefer _ => Some (m, d)
      | Close Xpreferences _ => Some (MAfter 3, d)
      | _ => None
      end
  | MDiscard =>
      match x with
      | Junk => Some (m, d)
      | Open Xdiscard a => Some (m, add_discard (angled (attrib Atags a)) d)
      | Close Xdiscard _ => Some (m, d)
      | Close Xdiscard_on_ambiguity _ => Some (MDone, d)
      | _ => None
      end
  | MDone => Some (MDone, d)
  end.

Fixpoint run (m : mode) (d : tsx) (ns : list node) : option (mode * tsx) :=
  match ns with
  | [] => Some (m, d)
  | x :: r => do s <- on_node m d x; let (m', d') := s : mode * tsx in run m' d' r
  end.

Definition reserved : list str := map u ["LPAR"; "RPAR"; "LQUEST"; "CM"; "SENT"; "kEOF"; "kUNDEF"]%string.
(** 58-69 clearTagIndex; 488-491: parse on a new reader (open class, rules and tags are cleared;
    preferences, discards, patterns and constants are those of a new TaggerData) *)
Fixpoint new_tags (l : list str) (d : tsx) : option tsx :=
  match l with [] => Some d | t :: r => do d1 <- newTagIndex t d; new_tags r d1 end.
Definition empty : tsx := mktsx [] [] [] [] [] [] [] [] [].

(** 537-549: constants, patterns of the reserved tags *)
Definition add_reserved (label tags : string) (d : tsx) : tsx :=
  let (i, d1) := lookup (u label) d : nat * tsx in add_plist (PItem i [] (u tags)) d1.
Definition finish (d : tsx) : tsx :=
  let d := fold_left (fun d c => newConstant (u c) d)
             ["kMOT"; "kDOLLAR"; "kBARRA"; "kMAS"; "kIGNORAR"; "kBEGIN"; "kUNKNOWN"]%string d in
  let d := add_reserved "LPAR" "lpar" d in
  let d := add_reserved "RPAR" "rpar" d in
  let d := add_reserved "LQUEST" "lquest" d in
  let d := add_reserved "CM" "cm" d in
  add_reserved "SENT" "sent" d.

(** 485-550: parse.  The nodes after the end of the last section are not read; a document that ends
    earlier is an error. *)
Definition parse (ns : list node) : option tsx :=
  do d0 <- new_tags reserved empty;
  do s <- run MStart d0 ns;
  let (m, d) := s : mode * tsx in
  match m with MDone => Some (finish d) | _ => None end.
