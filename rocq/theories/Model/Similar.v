(** apertium/tagger_utils.cc:125-211: ambiguity classes of a tagger model. *)
From Verif Require Import Model.Base.
From Verif Require Model.Collection.
Import Verif.Model.Collection.

(* the part of TaggerData that is read or written here: open class, classes, number of tags *)
Record tmodel := mkm { m_open : iset; m_out : coll; m_ntags : nat }.

(* std::includes on two sets *)
Definition includes (a b : iset) : bool := forallb (fun t => existsb (N.eqb t) a) b.
(* 125-147 *)
Definition add_necessary (m : tmodel) : tmodel :=
  mkm (m_open m)
      (fold_left (fun o i => fst (add [N.of_nat i] o)) (seq 0 (m_ntags m)) (fst (add (m_open m) (m_out m))))
      (m_ntags m).
(* 149-164: [ret] is a reference to the open class of the model, so the assignment in 161 changes the model *)
Definition find_similar (m : tmodel) (c : iset) : tmodel * iset :=
  let r := fold_left (fun ret k => if length ret <=? length k then ret            (* 155-158 *)
                                   else if includes k c then k else ret)          (* 160-162 *)
                     (element (m_out m)) (m_open m) in
  (mkm r (m_out m) (m_ntags m), r).
(* 195-211 *)
Definition require_similar (m : tmodel) (c : iset) : tmodel * iset :=
  if has_not c (m_out m) then find_similar m c else (m, c).
(* hmm.cc:707-714 for one word with the tags [c]: tags of the word after 710, its class, its index *)
Definition lookup (m : tmodel) (c : iset) : tmodel * (iset * iset * nat) :=
  let tags := match c with [] => m_open m | _ => c end in                          (* 709-710 *)
  let '(m1, cls) := require_similar m tags in                                      (* 712 *)
  let '(o, k) := add cls (m_out m1) in                                             (* 714 *)
  (mkm (m_open m1) o (m_ntags m1), (tags, cls, k)).
Fixpoint lookups (m : tmodel) (l : list iset) : tmodel * list (iset * iset * nat) :=
  match l with
  | [] => (m, [])
  | c :: r => let '(m1, a) := lookup m c in let '(m2, b) := lookups m1 r in (m2, a :: b)
  end.
