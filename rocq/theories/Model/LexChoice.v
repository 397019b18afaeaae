(** lexchoice.xsl and lexchoicebil.xsl: a dictionary with senses (srl, slr) is turned into one that adds the senses to its words and one that translates words with senses.
    Templates by element name on trees, as in DictScripts; the parameter r2l is true if it is given as yes.
    [pa] are the attributes of the element above, for ../@srl. *)
From Coq Require Import String.
From Verif Require Import Model.Base Model.DictScripts.
Open Scope nat_scope.

Section L.
(* bil: lexchoicebil.xsl *)
Context (bil r2l : bool).
Definition src : str := if r2l then u "l"%string else u "r"%string.
Definition dst : str := if r2l then u "r"%string else u "l"%string.
Definition sense : str := if r2l then u "slr"%string else u "srl"%string.
(* ../@srl *)
Definition mark_of (pa : list (str * str)) (whole lemma tags : list xml) : list xml :=
  match att sense pa with Some v => lemma ++ Tx (u "__"%string) :: Tx v :: tags | None => whole end.
(* the p of the output: lexchoice.xsl 43-72, 74-105, lexchoicebil.xsl 43-71, 74-102 *)
Definition pair_of (pa : list (str * str)) (whole lemma tags other : list xml) : xml :=
  if bil then El (u "p"%string) [] [El (u "l"%string) [] (mark_of pa whole lemma tags); El (u "r"%string) [] other]
  else El (u "p"%string) [] [El (u "l"%string) [] whole; El (u "r"%string) [] (mark_of pa whole lemma tags)].
(* lexchoice.xsl 111-122; lexchoicebil.xsl 106-119 has the test of i in addition *)
Definition left_out (a : list (str * str)) : bool :=
  (bil && match att (u "i"%string) a with Some v => str_eqb v (u "yes"%string) | None => false end) ||
  match att (u "r"%string) a with Some v => str_eqb v (if r2l then u "RL"%string else u "LR"%string) | None => false end.
Definition is_s (x : xml) : bool := is_el (u "s"%string) x.
(* the templates of both files; text is copied, comments are not, of other elements the content is taken (the built-in rules) *)
Fixpoint lc (pa : list (str * str)) (x : xml) : list xml :=
  match x with
  | Tx s => [Tx s]
  | Mk _ => []
  | El n a k =>
      if str_eqb n (u "s"%string) then [El n [(u "n"%string, att0 (u "n"%string) a)] []]                       (* 22-24 *)
      else if isin n (map u ["b"; "a"; "j"]%string) then [El n [] []]                                          (* 26-28, 34-40 *)
      else if isin n (map u ["g"; "re"]%string) then [El n [] (flat_map (lc a) k)]                             (* 30-32, 54-56 *)
      else if str_eqb n (u "par"%string) then [El n [(u "n"%string, att0 (u "n"%string) a)] []]                (* 50-52 *)
      else if str_eqb n (u "p"%string) then
        let side (w : str) := flat_map (fun y => match y with El m b j => if str_eqb m w then flat_map (lc b) j else [] | _ => [] end) k in
        let part (p : bool) := flat_map (fun y => match y with El m b j => if str_eqb m src then flat_map (fun z => if Bool.eqb (is_s z) p then lc b z else []) j else [] | _ => [] end) k in
        [pair_of pa (side src) (part false) (part true) (side dst)]
      else if str_eqb n (u "i"%string) then
        [pair_of pa (flat_map (lc a) k) (flat_map (fun z => if Bool.eqb (is_s z) false then lc a z else []) k) (flat_map (fun z => if Bool.eqb (is_s z) true then lc a z else []) k) (flat_map (lc a) k)]
      else if str_eqb n (u "e"%string) then
        if left_out a then [] else [El n [] (flat_map (fun z => if is_elt z then lc a z else []) k)]
      else flat_map (lc a) k                                                                                  (* 42-48: l and r; others *)
  end.
Definition kids (x : xml) : list xml := match x with El _ _ k => k | _ => [] end.
(* 125-165: the dictionary *)
Definition lex_dict (root : xml) : list xml :=
  match root with
  | El n a k =>
      if str_eqb n (u "dictionary"%string) then
        let pardefs := flat_map (fun p => filter (is_el (u "pardef"%string)) (kids p)) (filter (is_el (u "pardefs"%string)) k) in
        [El n [] (nl :: filter (is_el (u "alphabet"%string)) k ++ nl :: filter (is_el (u "sdefs"%string)) k ++ nl ::
          (match pardefs with [] => [] | _ =>
             [El (u "pardefs"%string) [] (nl :: flat_map (fun p => match p with El m b j => [nl; El m [(u "n"%string, att0 (u "n"%string) b)] (flat_map (lc b) j)] | _ => [] end) pardefs ++ [nl])] end) ++ nl ::
          flat_map (fun p => match p with El m b j => [El m [(u "id"%string, att0 (u "id"%string) b); (u "type"%string, att0 (u "type"%string) b)] (flat_map (lc b) j)] | _ => [] end) (filter (is_el (u "section"%string)) k))]
      else flat_map (lc a) k
  | _ => []
  end.
End L.
