(** What a dictionary translates, for C75; nothing here refers to the style sheets. *)
From Coq Require Import String.
From Verif Require Import Model.Base Model.DictScripts Spec.DictScripts.
Open Scope nat_scope.

(** ** Words *)
Inductive sym := Ch (c : char) | Tag (n : str).
(* the content of l, r or i, as lt-comp reads it *)
Fixpoint spell1 (x : xml) : list sym :=
  match x with
  | Tx s => map Ch s
  | Mk _ => []
  | El n a k =>
      if str_eqb n (u "s"%string) then [Tag (att0 (u "n"%string) a)]
      else if str_eqb n (u "b"%string) then [Ch 32%N]
      else if str_eqb n (u "j"%string) then [Ch 43%N]
      else if str_eqb n (u "a"%string) then [Ch 126%N]
      else if str_eqb n (u "g"%string) then Ch 35%N :: flat_map spell1 k
      else []
  end.
Definition spell (k : list xml) : list sym := flat_map spell1 k.
Definition text (k : list xml) : str := flat_map (fun x => match x with Tx s => s | _ => [] end) k.

(** ** Translation: [regex r w] if the word w is of the regular expression r *)
Section Means.
Context (regex : str -> list sym -> Prop).
(* entries marked to be ignored are not used, nor entries for the other direction *)
Definition used (d : dir) (a : list (str * str)) : Prop := att (u "i"%string) a <> Some (u "yes"%string) /\ usable d a = true.
(* parts of an entry, in the direction d, in a dictionary with the content D *)
Inductive parts (d : dir) (D : list xml) : list xml -> list sym -> list sym -> Prop :=
| P_end : parts d D [] [] []
| P_text s r x y : parts d D r x y -> parts d D (Tx s :: r) x y
| P_comment s r x y : parts d D r x y -> parts d D (Mk s :: r) x y
| P_pair a k la lk ra rk r x y : filter is_elt k = [El (u "l"%string) la lk; El (u "r"%string) ra rk] -> parts d D r x y ->
    parts d D (El (u "p"%string) a k :: r) (spell (if dir_eqb d LR then lk else rk) ++ x) (spell (if dir_eqb d LR then rk else lk) ++ y)
| P_same a k r x y : parts d D r x y -> parts d D (El (u "i"%string) a k :: r) (spell k ++ x) (spell k ++ y)
| P_regex a k w r x y : regex (text k) w -> parts d D r x y -> parts d D (El (u "re"%string) a k :: r) (w ++ x) (w ++ y)
| P_paradigm a k n pa pk ba bk ea ek x1 y1 r x y : att (u "n"%string) a = Some n -> In (El (u "pardefs"%string) pa pk) D -> In (El (u "pardef"%string) ba bk) pk -> att (u "n"%string) ba = Some n ->
    In (El (u "e"%string) ea ek) bk -> used d ea -> parts d D ek x1 y1 -> parts d D r x y -> parts d D (El (u "par"%string) a k :: r) (x1 ++ x) (y1 ++ y).
(* the entry e is in the dictionary *)
Definition entry (D : list xml) (ea : list (str * str)) (ek : list xml) : Prop := exists sa sk, In (El (u "section"%string) sa sk) D /\ In (El (u "e"%string) ea ek) sk.
Definition translates (d : dir) (root : list xml) (x y : list sym) : Prop :=
  exists a D ea ek, root = [El (u "dictionary"%string) a D] /\ entry D ea ek /\ used d ea /\ parts d D ek x y.
End Means.

(** ** Dictionaries made of the elements of the document type *)
Inductive content : xml -> Prop :=
| T_text s : content (Tx s)
| T_comment s : content (Mk s)
| T_symbol n a k : In n (map u ["s"; "b"; "j"; "a"]%string) -> content (El n a k)
| T_group a k : Forall content k -> content (El (u "g"%string) a k).
Inductive part_ok : xml -> Prop :=
| O_text s : part_ok (Tx s)
| O_comment s : part_ok (Mk s)
| O_pair a k la lk ra rk : filter is_elt k = [El (u "l"%string) la lk; El (u "r"%string) ra rk] -> Forall content lk -> Forall content rk -> part_ok (El (u "p"%string) a k)
| O_same a k : Forall content k -> part_ok (El (u "i"%string) a k)
| O_paradigm a k n : att (u "n"%string) a = Some n -> part_ok (El (u "par"%string) a k)
| O_regex a k : Forall (fun x => is_elt x = false) k -> part_ok (El (u "re"%string) a k).
Inductive entry_ok : xml -> Prop :=
| N_text s : entry_ok (Tx s)
| N_comment s : entry_ok (Mk s)
| N_entry a k : Forall part_ok k -> entry_ok (El (u "e"%string) a k).
Definition dict_ok (D : list xml) : Prop :=
  (forall a k, In (El (u "section"%string) a k) D -> Forall entry_ok k) /\
  (forall a k b j, In (El (u "pardefs"%string) a k) D -> In (El (u "pardef"%string) b j) k -> Forall entry_ok j /\ exists n, att (u "n"%string) b = Some n).
Definition none_ignored (D : list xml) : Prop :=
  (forall a k ea ek, In (El (u "section"%string) a k) D -> In (El (u "e"%string) ea ek) k -> att (u "i"%string) ea <> Some (u "yes"%string)) /\
  (forall a k b j ea ek, In (El (u "pardefs"%string) a k) D -> In (El (u "pardef"%string) b j) k -> In (El (u "e"%string) ea ek) j -> att (u "i"%string) ea <> Some (u "yes"%string)).

(** ** Words with a sense: two underscores and the sense after the lemma *)
Fixpoint with_sense (v : str) (x : list sym) : list sym :=
  match x with Ch c :: r => Ch c :: with_sense v r | _ => map Ch (u "__"%string ++ v) ++ x end.
Definition marked (v : option str) (x : list sym) : list sym := match v with Some v => with_sense v x | None => x end.
Definition sense_of (d : dir) (a : list (str * str)) : option str := att (match d with LR => u "slr"%string | RL => u "srl"%string end) a.
(* a lemma and then tags *)
Definition tidy (k : list xml) : Prop :=
  exists a b w, k = a ++ b /\ Forall content a /\ Forall (fun x => is_el (u "s"%string) x = false) a /\ spell a = map Ch w /\ Forall (fun x => is_el (u "s"%string) x = true) b.
(* entries of one pair of words *)
Inductive plain_entry (d : dir) : list xml -> Prop :=
| L_pair ek a k la lk ra rk : filter is_elt ek = [El (u "p"%string) a k] -> filter is_elt k = [El (u "l"%string) la lk; El (u "r"%string) ra rk] -> tidy (if dir_eqb d LR then lk else rk) -> plain_entry d ek
| L_same ek a k : filter is_elt ek = [El (u "i"%string) a k] -> tidy k -> plain_entry d ek.
(* the dictionary translates x to y, in the sense v *)
Definition translates_as (regex : str -> list sym -> Prop) (d : dir) (D : list xml) (ignored_too : bool) (x : list sym) (v : option str) (y : list sym) : Prop :=
  exists ea ek, entry D ea ek /\ (ignored_too = true \/ att (u "i"%string) ea <> Some (u "yes"%string)) /\ usable d ea = true /\ sense_of d ea = v /\ parts regex d D ek x y.
(* a lemma in which the mark can be found again *)
Definition unmarked (x : list sym) : Prop :=
  exists w t, x = map Ch w ++ map Tag t /\ ~ (exists p q, w = p ++ u "__"%string ++ q) /\ ~ (exists p, w = p ++ u "_"%string).
