(** C65: what a command line of apertium-tagger does.  Model: Model/TaggerMain.v (tagger.cc, tagger_flags.cc); Spec/TaggerMain.v: the usage
    lines of the help text. *)
From Coq Require Import String Permutation.
From Verif Require Import Model.Base Model.TaggerMain Spec.TaggerMain Proofs.Base Proofs.TaggerMain.
Open Scope nat_scope.

(** a tagger is run, and with exactly these files and flags, if and only if the options are well formed and a usage line fits; stated for
    the flags being unset at the start *)
Theorem C65_runs_partial : forall opts files a, main false false opts files = Run a <-> well_formed opts /\ asks opts files a.
Proof. intros opts files a. apply (proj1 (main_spec opts files)). Qed.
Print Assumptions C65_runs_partial.

(** there is only one thing that a command line asks for *)
Theorem C65_unique : forall opts files a b, well_formed opts -> asks opts files a -> asks opts files b -> a = b.
Proof. intros opts files a b W A B. assert (HA := proj2 (C65_runs_partial opts files a) (conj W A)). assert (HB := proj2 (C65_runs_partial opts files b) (conj W B)). congruence. Qed.
Print Assumptions C65_unique.

(** the help text: asked for with --help after options that are well formed, or no function is given *)
Theorem C65_help : forall opts files, main false false opts files = OutHelp <->
  (exists a b, opts = a ++ OHelp :: b /\ well_formed a) \/ (well_formed opts /\ forall f x, ~ In (OFun f x) opts).
Proof. intros opts files. apply (proj2 (main_spec opts files)). Qed.
Print Assumptions C65_help.

(** the program aborts exactly for --perceptron with --retrain or --train *)
Theorem C65_abort_refuted : forall opts files, main false false opts files = OutAbort <->
  well_formed opts /\ (exists x, In (OAlg Perceptron x) opts) /\ exists f x, In (OFun f x) opts /\ (f = Retrain \/ f = Train).
Proof. intros opts files. apply (proj2 (main_spec opts files)). Qed.
Print Assumptions C65_abort_refuted.

(** the order of the options has no effect *)
Theorem C65_order : forall a b files, Permutation a b -> ~ In OHelp a -> main false false a files = main false false b files.
Proof. exact main_order. Qed.
Print Assumptions C65_order.

(** ** What is not so *)
(** two flags are not initialised: with what memory may hold at the start, -b is rejected as given twice, and without -b the flag is set *)
Theorem C65_flags_refuted : main true false [OFlag FSentSeg; OFun Tagger []] [u "m"] = OutReject /\
  (exists fl, main true true [OFun Tagger []] [u "m"] = Run (DoTag TPerceptronOrHmm fl (u "m") None None) /\ get_flag FSentSeg fl = true /\ get_flag FSkip fl = true).
Proof. split; [reflexivity|]. eexists. repeat split. Qed.
Print Assumptions C65_flags_refuted.
(** -u 12 is model 1 *)
Theorem C65_model_refuted : exists fl, main false false [OAlg Unigram (u "12"); OFun Tagger []] [u "m"] = Run (DoTag (TUnigram 1) fl (u "m") None None).
Proof. eexists. reflexivity. Qed.
Print Assumptions C65_model_refuted.
(** -1 iterations are 2^64 - 1 *)
Theorem C65_negative_refuted : main false false [OFun Retrain (u "-1")] [u "c"; u "m"] = Run (DoRetrain THmm 18446744073709551615 (u "c") (u "m")).
Proof. reflexivity. Qed.
Print Assumptions C65_negative_refuted.

(** ** Examples: the hypotheses are met by command lines, and the results *)
Definition ex_opts := [OFlag FNull; OFlag FMark; OFun Tagger []; OAlg Window []].
Example ex_run : main false false ex_opts [u "en.prob"; u "in"] = Run (DoTag TWindow (mkfl false false false false true false true) (u "en.prob") (Some (u "in")) None).
Proof. reflexivity. Qed.
Example ex_wf : well_formed ex_opts /\ asks ex_opts [u "en.prob"; u "in"] (DoTag TWindow (mkfl false false false false true false true) (u "en.prob") (Some (u "in")) None).
Proof. apply C65_runs_partial. exact ex_run. Qed.
Example ex_sup : main false false [OFun Supervised (u "0")] [u "d"; u "s"; u "m"; u "t"; u "n"] = Run (DoSupervisedOnly THmm (u "d") (u "s") (u "m") (u "t") (u "n")) /\
  main false false [OFun Supervised (u "7")] [u "d"; u "s"; u "m"; u "t"; u "n"] = OutReject /\
  main false false [OFun Supervised (u "7")] [u "d"; u "c"; u "s"; u "m"; u "t"; u "n"] = Run (DoSupervised THmm 7 (u "d") (u "c") (u "s") (u "m") (u "t") (u "n")) /\
  main false false [OFun Supervised (u "0"); OAlg Unigram (u "3")] [u "m"; u "t"] = Run (DoTrainUnigram (TUnigram 3) (u "m") (u "t")) /\
  main false false [OFun Supervised (u " +10"); OAlg Perceptron []] [u "m"; u "t"; u "n"; u "s"] = Run (DoTrainPerceptron 10 (u "m") (u "t") (u "n") (u "s") (flags_init false false)).
Proof. repeat split. Qed.
Example ex_rejected : main false false [OFun Tagger []; OFun Tagger []] [u "m"] = OutReject /\ main false false [OFlag FMark; OFlag FMark; OFun Tagger []] [u "m"] = OutReject /\
  main false false [OAlg Window []; OAlg Perceptron []; OFun Tagger []] [u "m"] = OutReject /\ main false false [OFun Train (u "1x")] [u "d"; u "c"; u "s"; u "m"] = OutReject /\
  main false false [OFun Train []] [u "d"; u "c"; u "s"; u "m"] = OutReject /\ main false false [OFun Train (u "18446744073709551616")] [u "d"; u "c"; u "s"; u "m"] = OutReject /\
  main false false [OFun Tagger []] [] = OutReject /\ main false false [OAlg Window []; OFun Supervised (u "0")] [u "m"; u "t"] = OutReject /\ main false false [OBad; OFun Tagger []] [u "m"] = OutReject.
Proof. repeat split. Qed.
Example ex_abort : main false false [OAlg Perceptron []; OFun Train (u "1")] [u "d"; u "c"; u "s"; u "m"] = OutAbort.
Proof. reflexivity. Qed.
Example ex_help : main false false [OFlag FMark; OHelp; OBad] [] = OutHelp /\ main false false [] [u "m"] = OutHelp /\ main false false [OBad; OHelp] [] = OutReject.
Proof. repeat split. Qed.
Example ex_order : main false false [OAlg Window []; OFun Tagger []; OFlag FMark; OFlag FNull] [u "en.prob"; u "in"] = main false false ex_opts [u "en.prob"; u "in"].
Proof. apply C65_order; [|cbn; intuition discriminate]. apply Permutation_sym. unfold ex_opts. apply (Permutation_cons_app [_; _; _] []). apply (Permutation_cons_app [_; _] []). cbn [app]. apply perm_swap. Qed.
