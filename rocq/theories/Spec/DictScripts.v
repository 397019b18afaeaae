(** Specification for the dictionary and rule filtering scripts, without reference to how they work. *)
From Coq Require Import String.
From Verif Require Import Model.Base Model.DictScripts.
Open Scope nat_scope.

(** ** Directions *)
Inductive dir := LR | RL.
Definition dir_eqb (a b : dir) : bool := match a, b with LR, LR | RL, RL => true | _, _ => false end.
(** An entry is used in a direction unless its attribute r names the other one. *)
Definition usable (d : dir) (a : list (str * str)) : bool :=
  match att (u "r"%string) a with
  | Some r => if str_eqb r (u "LR"%string) then dir_eqb d LR else if str_eqb r (u "RL"%string) then dir_eqb d RL else true
  | None => true
  end.
(** An entry belongs to the variety if it names none, or one that is accepted. *)
Definition of_variety (ours : str -> bool) (a : list (str * str)) : bool :=
  match att (u "v"%string) a with Some v => ours v | None => true end.
(** What a document says to someone who reads only certain entries: those entries, without r and v, and everything that is not an entry; comments left out. *)
Fixpoint view (keep : list (str * str) -> bool) (x : xml) : list xml :=
  match x with
  | Tx s => [Tx s]
  | Mk _ => []
  | El n a k =>
      if str_eqb n (u "e"%string)
      then if keep a then [El n (del (u "r"%string) (del (u "v"%string) a)) (flat_map (view keep) k)] else []
      else [El n a (flat_map (view keep) k)]
  end.

(** Documents made of the elements and attributes that filter-dix knows. *)
Inductive covered : xml -> Prop :=
| V_text s : covered (Tx s)
| V_comment s : covered (Mk s)
| V_entry a k : Forall (fun p => fst p = u "r"%string \/ fst p = u "v"%string) a -> Forall covered k -> covered (El (u "e"%string) a k)
| V_bare n k : In n (map u ["alphabet"; "sdefs"; "pardefs"; "p"; "l"; "r"; "re"; "i"; "g"; "dictionary"]%string) -> Forall covered k -> covered (El n [] k)
| V_named n v : In n (map u ["sdef"; "s"; "par"]%string) -> covered (El n [(u "n"%string, v)] [])
| V_empty n : In n (map u ["b"; "j"; "a"]%string) -> covered (El n [] [])
| V_pardef v k : Forall covered k -> covered (El (u "pardef"%string) [(u "n"%string, v)] k)
| V_section i t k : Forall covered k -> covered (El (u "section"%string) [(u "id"%string, i); (u "type"%string, t)] k).
(** Every entry with these attributes in the document. *)
Inductive entry_in (a : list (str * str)) : xml -> Prop :=
| E_here k : entry_in a (El (u "e"%string) a k)
| E_below n b k x : In x k -> entry_in a x -> entry_in a (El n b k).

(** ** Words *)
Definition word (ws : char -> bool) (w s : str) : Prop :=
  exists a b, s = a ++ w ++ b /\ w <> [] /\ Forall (fun c => ws c = false) w /\
    (a = [] \/ exists a' c, a = a' ++ [c] /\ ws c = true) /\ (b = [] \/ exists c b', b = c :: b' /\ ws c = true).

(** ** XML as text *)
Definition proper (ws : char -> bool) (n : str) : Prop := n <> [] /\ Forall (fun c => ws c = false /\ ~ In c [60; 62; 47; 61; 34; 38]%N) n.
(** A text and what it stands for; the characters of [bad] cannot stand for themselves. *)
Inductive chars (bad : list char) : str -> str -> Prop :=
| C_nil : chars bad [] []
| C_self c t s : ~ In c bad -> chars bad t s -> chars bad (c :: t) (c :: s)
| C_amp t s : chars bad t s -> chars bad (u "&amp;"%string ++ t) (38%N :: s)
| C_lt t s : chars bad t s -> chars bad (u "&lt;"%string ++ t) (60%N :: s)
| C_gt t s : chars bad t s -> chars bad (u "&gt;"%string ++ t) (62%N :: s).
Inductive attrs_text (ws : char -> bool) : str -> list (str * str) -> Prop :=
| AT_nil : attrs_text ws [] []
| AT_cons n v t a r : proper ws n -> chars [60; 38; 34]%N t v -> attrs_text ws r a ->
    attrs_text ws ([32%N] ++ n ++ u "="%string ++ [34%N] ++ t ++ [34%N] ++ r) ((n, v) :: a).
(** The text is XML for these nodes. *)
Inductive written (ws : char -> bool) : str -> list xml -> Prop :=
| W_nil : written ws [] []
| W_text t s r ks : chars [60; 38]%N t s -> written ws r ks -> written ws (t ++ r) (Tx s :: ks)
| W_element n at_ a body k r ks : proper ws n -> attrs_text ws at_ a -> written ws body k -> written ws r ks ->
    written ws (u "<"%string ++ n ++ at_ ++ u ">"%string ++ body ++ u "</"%string ++ n ++ u ">"%string ++ r) (El n a k :: ks)
| W_empty_element n at_ a r ks : proper ws n -> attrs_text ws at_ a -> written ws r ks ->
    written ws (u "<"%string ++ n ++ at_ ++ u "/>"%string ++ r) (El n a [] :: ks).
Inductive all_elements (P : str -> list (str * str) -> Prop) : xml -> Prop :=
| Q_el n a k : P n a -> Forall (all_elements P) k -> all_elements P (El n a k)
| Q_text s : all_elements P (Tx s)
| Q_comment s : all_elements P (Mk s).
Definition printable (ws : char -> bool) : xml -> Prop :=
  all_elements (fun n a => proper ws n /\ Forall (fun p => proper ws (fst p) /\ ~ In 34%N (snd p)) a).
(** The document with comments left out and the list of varieties of each entry replaced by one name. *)
Inductive relabelled (ws : char -> bool) (var alt : str) : list xml -> list xml -> Prop :=
| L_nil : relabelled ws var alt [] []
| L_comment s x y : relabelled ws var alt x y -> relabelled ws var alt (Mk s :: x) y
| L_text s x y : relabelled ws var alt x y -> relabelled ws var alt (Tx s :: x) (Tx s :: y)
| L_same n a k k' x y : n <> u "e"%string \/ att var a = None -> relabelled ws var alt k k' -> relabelled ws var alt x y ->
    relabelled ws var alt (El n a k :: x) (El n a k' :: y)
| L_entry a v v' k k' x y : att var a = Some v ->
    (word ws alt v /\ v' = alt \/ ~ word ws alt v /\ v' <> alt /\ (v' = u "other"%string \/ alt = u "other"%string /\ v' = u "rehto"%string)) ->
    relabelled ws var alt k k' -> relabelled ws var alt x y ->
    relabelled ws var alt (El (u "e"%string) a k :: x) (El (u "e"%string) (del var a ++ [(var, v')]) k' :: y).

(** ** Default translations *)
(** slr and srl number the translations of one side; " D" marks the default one. *)
Definition default_for (d : dir) (a : list (str * str)) : bool :=
  match att (match d with LR => u "slr"%string | RL => u "srl"%string end) a with
  | Some v => ends_D v
  | None => true
  end.
(** The answers of a dictionary: its entries, section by section, with what they contain. *)
Definition answers (keep : list (str * str) -> bool) (x : xml) : list (str * str * list xml) :=
  match x with
  | El _ _ secs =>
      flat_map (fun s => match s with
        | El n a k => if str_eqb n (u "section"%string)
            then flat_map (fun e => match e with
                   | El m b c => if str_eqb m (u "e"%string) && keep b then [(att0 (u "id"%string) a, att0 (u "type"%string) a, filter is_elt c)] else []
                   | _ => [] end) k
            else []
        | _ => [] end) secs
  | _ => []
  end.
(** An entry's marks: none is empty, and one that is for one direction only is not the default of the other. *)
Definition consistent (a : list (str * str)) : Prop :=
  (att (u "slr"%string) a <> None \/ att (u "srl"%string) a <> None ->
   att (u "slr"%string) a <> Some [] /\ att (u "srl"%string) a <> Some [] /\
   (att (u "r"%string) a = Some (u "LR"%string) -> att (u "srl"%string) a <> None -> default_for RL a = false) /\
   (att (u "r"%string) a = Some (u "RL"%string) -> att (u "slr"%string) a <> None -> default_for LR a = false)).
Definition well_made (root : xml) : Prop :=
  exists a k, root = El (u "dictionary"%string) a k /\
    forall b secs, In (El (u "section"%string) b secs) k -> forall n c es, In (El n c es) secs -> n = u "e"%string /\ consistent c.

(** ** Rule files *)
(** One of the items of a list with commas. *)
Definition item (w s : str) : Prop :=
  exists a b, s = a ++ w ++ b /\ ~ In 44%N w /\ (a = [] \/ exists a', a = a' ++ [44%N]) /\ (b = [] \/ exists b', b = 44%N :: b').
(** An element is described by the way to it from the root, with names and attributes, and by the text right after its start. *)
Definition lead (k : list xml) : str :=
  (fix go (ks : list xml) := match ks with Tx s :: r => s ++ go r | _ => [] end) k.
Fixpoint elements (way : list (str * list (str * str))) (x : xml) : list (list (str * list (str * str)) * str) :=
  match x with
  | El n a k => (way ++ [(n, a)], lead k) :: flat_map (elements (way ++ [(n, a)])) k
  | _ => []
  end.
(** What becomes of a way from below the root: nothing, if an element on it is not of the variety; the attribute that names varieties goes; below a spared element all stays. *)
Fixpoint selected (spared : str -> bool) (attr : str) (ours : str -> bool) (way : list (str * list (str * str))) : option (list (str * list (str * str))) :=
  match way with
  | [] => Some []
  | (n, a) :: r =>
      if spared n then Some way
      else if match att attr a with Some v => ours v | None => true end
      then option_map (cons (n, del attr a)) (selected spared attr ours r)
      else None
  end.
Definition after_selection (spared : str -> bool) (attr : str) (ours : str -> bool) (l : list (list (str * list (str * str)) * str)) : list (list (str * list (str * str)) * str) :=
  flat_map (fun p => match fst p with
    | root :: r => match selected spared attr ours r with Some r' => [(root :: r', snd p)] | None => [] end
    | [] => [] end) l.
