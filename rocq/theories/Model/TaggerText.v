(** apertium/hmm.cc:672-784 from words to text: the Viterbi part is Model/HMM.v, the class of a word Model/Similar.v, the
    words come from Model/MorphoStream.v.  Tags are numbers of type nat here and N in Model/Similar.v. *)
From Coq Require Import QArith.
From Verif Require Import Model.Base Model.TaggerWord Model.Similar.
From Verif Require Model.HMM.
Open Scope nat_scope.

Section T.
Variable keof : nat.                                   (* tag_index["TAG_kEOF"] *)
Variables (gm si ssf : bool).                          (* generate_marks, show_ignored_string, TheFlags.getShowSuperficial() *)
Variable nf : bool.                                    (* TheFlags.getNullFlush() *)
Variable eos : nat.
Variables (A B : HMM.mat).

(* 707-714: the classes of the words, in order; the model may change (Model/Similar.v) *)
Definition hmm_words (m : tmodel) (ws : list (tword * bool)) : list HMM.vw :=
  map (fun x => HMM.mkw (map N.to_nat (fst (fst (snd x)))) (snd (snd x)) (snd (fst x)))
      (combine ws (snd (lookups m (map (fun w => map N.of_nat (tags (fst w))) ws)))).
(* 748-754 *)
Definition print (t : nat) (w : tword) : str := get_lexical_form gm si ssf (if t =? keof then None else Some t) w.
(* 745-755, 768: the events of Model/HMM.v are the words in order (proved there for the inputs considered), so each
   takes the next word *)
Fixpoint out_text (ws : list tword) (evs : list HMM.ev) : str :=
  match evs with
  | [] => []
  | HMM.ENul :: r => cNUL :: out_text ws r
  | HMM.EWord _ t :: r => match ws with [] => [] | w :: ws' => print t w ++ out_text ws' r end
  end.
Definition tagger_text (m : tmodel) (ws : list (tword * bool)) : str :=
  out_text (map fst ws) (HMM.tagger eos A B nf (hmm_words m ws)).
End T.
