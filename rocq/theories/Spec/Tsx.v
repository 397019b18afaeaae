(** Tagger definitions (.tsx): what a document says and how it is written. *)
From Coq Require Import String.
From Verif Require Import Model.Base Model.Tsx.
Open Scope nat_scope.

(** ** What a document says *)
Inductive seq_item := SItem (lemma tags : str) | SLabel (label : str).
Inductive def :=
| Label (name : str) (closed : bool) (items : list (str * str))
| Mult (name : str) (closed : bool) (seqs : list (list seq_item)).
Record doc := mkdoc {
  defs : list def;
  forbids : option (list (str * str));
  enforces : option (list (str * list str));
  prefers : option (list str);
  discards : option (list str) }.
Definition listed {A} (o : option (list A)) : list A := match o with Some l => l | None => [] end.

Definition def_name (x : def) : str := match x with Label n _ _ | Mult n _ _ => n end.
Definition def_closed (x : def) : bool := match x with Label _ c _ | Mult _ c _ => c end.
(** Coarse tags that always exist, then those of the document, in its order. *)
Definition names (d : doc) : list str := reserved ++ map def_name (defs d).
(** The number of a coarse tag; 0, the first of all (LPAR), if there is no such name. *)
Fixpoint position (x : str) (l : list str) : option nat :=
  match l with [] => None | y :: r => if str_eqb x y then Some 0 else option_map S (position x r) end.
Definition number (l : list str) (x : str) : nat := match position x l with Some i => i | None => 0 end.

(** Labels a definition refers to. *)
Definition refers (x : def) : list str :=
  match x with
  | Label _ _ _ => []
  | Mult _ _ seqs => flat_map (fun i => match i with SLabel l => [l] | SItem _ _ => [] end) (concat seqs)
  end.
(** All labels that are used. *)
Definition used (d : doc) : list str :=
  flat_map refers (defs d) ++ flat_map (fun p => [fst p; snd p]) (listed (forbids d)) ++ flat_map (fun p => fst p :: snd p) (listed (enforces d)).
(** A name may not be defined twice, nor be reserved, nor be referred to before its definition. *)
Fixpoint consistent (known : list str) (l : list def) : Prop :=
  match l with
  | [] => True
  | x :: r => ~ In (def_name x) known /\ consistent (known ++ [def_name x] ++ refers x) r
  end.

(** Patterns of a definition, in order; [l]: the names of the document. *)
Definition patterns (l : list str) (x : def) : list pcall :=
  match x with
  | Label n _ items => map (fun i => PItem (number l n) (fst i) (snd i)) items
  | Mult n _ seqs =>
      flat_map (fun s => [PBegin] ++ map (fun i => match i with
                                             | SItem lemma tags => PItem (number l n) lemma tags
                                             | SLabel o => PLabel (number l n) (number l o)
                                             end) s ++ [PEnd]) seqs
  end.
Definition constant_names : list str := map u ["kMOT"; "kDOLLAR"; "kBARRA"; "kMAS"; "kIGNORAR"; "kBEGIN"; "kUNKNOWN"]%string.

(** Tags with dots, as angle-bracketed tags: a.b -> <a><b> *)
Inductive dotted : list str -> str -> Prop :=
| dot_one t : ~ In cDOT t -> dotted [t] t
| dot_more t l s : ~ In cDOT t -> dotted l s -> dotted (t :: l) (t ++ [cDOT] ++ s).
Definition brackets (l : list str) : str := concat (map (fun t => u "<" ++ t ++ u ">") l).

(** ** How it is written *)
(** An element without contents: with a slash, or with a closing tag. *)
Inductive leaf (n : el) (a : attrs) : list node -> Prop :=
| leaf_short : leaf n a [Open n a]
| leaf_long : leaf n a [Open n a; Close n a].
Definition within (n : el) (a : attrs) (body : list node) : list node := [Open n a] ++ body ++ [Close n a].

(** [each R l ns]: the nodes of the elements of [l], one after the other. *)
Inductive each {A} (R : A -> list node -> Prop) : list A -> list node -> Prop :=
| each_nil : each R [] []
| each_cons x l ns ms : R x ns -> each R l ms -> each R (x :: l) (ns ++ ms).

Definition w_item (x : str * str) (ns : list node) : Prop :=
  exists a, attrib Alemma a = fst x /\ attrib Atags a = snd x /\ leaf Xtags_item a ns.
Definition w_label (l : str) (ns : list node) : Prop := exists a, attrib Alabel a = l /\ leaf Xlabel_item a ns.
Definition w_seq_item (x : seq_item) (ns : list node) : Prop :=
  match x with SItem lemma tags => w_item (lemma, tags) ns | SLabel l => w_label l ns end.
Definition w_sequence (x : list seq_item) (ns : list node) : Prop :=
  exists a body, each w_seq_item x body /\ ns = within Xsequence a body.
Definition w_def (x : def) (ns : list node) : Prop :=
  match x with
  | Label n c items =>
      exists a body, attrib Aname a = n /\ (c = true <-> attrib Aclosed a = u "true") /\
                     each w_item items body /\ ns = within Xdef_label a body
  | Mult n c seqs =>
      exists a body, attrib Aname a = n /\ (c = true <-> attrib Aclosed a = u "true") /\
                     each w_sequence seqs body /\ ns = within Xdef_mult a body
  end.
(** the two labels of a forbidden pair are written with slashes *)
Definition w_pair (x : str * str) (ns : list node) : Prop :=
  exists a b c, attrib Alabel b = fst x /\ attrib Alabel c = snd x /\
                ns = within Xlabel_sequence a [Open Xlabel_item b; Open Xlabel_item c].
Definition w_enforce (x : str * list str) (ns : list node) : Prop :=
  exists a b body, attrib Alabel a = fst x /\ each w_label (snd x) body /\
                   ns = within Xenforce_after a (within Xlabel_set b body).
Definition w_tags (n : el) (x : str) (ns : list node) : Prop := exists a, attrib Atags a = x /\ leaf n a ns.
Definition section {A} (n : el) (R : A -> list node -> Prop) (o : option (list A)) (ns : list node) : Prop :=
  match o with
  | None => ns = []
  | Some l => exists a body, each R l body /\ ns = within n a body
  end.
Definition w_doc (d : doc) (ns : list node) : Prop :=
  exists a b s1 s2 s3 s4 s5,
    each w_def (defs d) s1 /\ section Xforbid w_pair (forbids d) s2 /\ section Xenforce_rules w_enforce (enforces d) s3 /\
    section Xpreferences (w_tags Xprefer) (prefers d) s4 /\ section Xdiscard_on_ambiguity (w_tags Xdiscard) (discards d) s5 /\
    ns = within Xtagger a (within Xtagset b s1 ++ s2 ++ s3 ++ s4 ++ s5).
(** Text and comments may stand anywhere. *)
Definition written (d : doc) (ns : list node) : Prop :=
  w_doc d (List.filter (fun x => match x with Junk => false | _ => true end) ns).
