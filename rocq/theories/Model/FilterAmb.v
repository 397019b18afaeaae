(** apertium-filter-ambiguity (apertium/apertium_filter_ambiguity.cc): HMM::filter_ambiguity_classes, hmm.cc:424-443, with
    TaggerWord::outputOriginal, tagger_word.cc:325-340.  The words are those of Model/MorphoStream.v, without null flush
    (file_morpho_stream.cc:33).  The rest of the main program opens files. *)
From Verif Require Import Model.Base Model.TaggerWord Model.MorphoStream.

(* u_fprintf of a C string *)
Fixpoint c_str (s : str) : str := match s with [] => [] | c :: r => if c =?c cNUL then [] else c :: c_str r end.
(* tagger_word.cc:325-340 *)
Definition orig (w : tword) : str :=
  match sf w ++ flat_map (fun x : nat * str => match snd x with [] => [] | f => cSLASH :: f end) (forms w) with
  | [] => []
  | s => cCARET :: c_str s ++ [cDOL; cNL]
  end.
Definition class_eqb (a b : list nat) : bool := if list_eq_dec Nat.eq_dec a b then true else false.
(* hmm.cc:431-442 *)
Fixpoint classes_loop (seen : list (list nat)) (ws : list tword) : str :=
  match ws with
  | [] => []
  | w :: r =>
      if (0 <? length (tags w)) && negb (existsb (class_eqb (tags w)) seen)
      then orig w ++ classes_loop (tags w :: seen) r
      else classes_loop seen r
  end.
Section FA.
Variable mt : str -> str -> bool.
Variables prefer discardr : list str.
Variables keof kundef : nat.
Variable M : Type.
Variables (minit : M) (mstep : M -> char -> M) (mtag : M -> str -> M) (mfin : M -> option nat) (mdead : M -> bool).
Definition filter_amb (inp : str) : option str :=
  match words mt prefer discardr keof kundef M minit mstep mtag mfin mdead false (S (length inp)) inp with
  | None => None
  | Some ws => Some (classes_loop [] (map fst ws))
  end.
End FA.
