(** What a command line of apertium-tagger asks for: the usage lines of its help text (tagger.cc:298-337). *)
From Verif Require Import Model.Base Model.TaggerMain.
Open Scope nat_scope.

Definition is_alg (o : opt) : bool := match o with OAlg _ _ => true | _ => false end.
Definition is_fun (o : opt) : bool := match o with OFun _ _ => true | _ => false end.
Definition flag_eqb (a b : flag) : bool := match a, b with FSentSeg, FSentSeg | FDebug, FDebug | FSkip, FSkip | FFirst, FFirst | FMark, FMark | FShow, FShow | FNull, FNull => true | _, _ => false end.
Definition is_flag (f : flag) (o : opt) : bool := match o with OFlag g => flag_eqb f g | _ => false end.
Definition at_most_one (P : opt -> bool) (opts : list opt) : Prop := length (filter P opts) <= 1.

(** the number written: spaces, a sign, decimal digits *)
Definition value (ds : str) : N := fold_left (fun a c => 10 * a + (c - 48))%N ds 0%N.
Definition number (s : str) (n : N) : Prop :=
  exists sp sg ds, s = sp ++ sg ++ ds /\ Forall (fun c => c = 32 \/ 9 <= c <= 13)%N sp /\ ds <> [] /\ Forall (fun c => 48 <= c <= 57)%N ds /\ (value ds < 2 ^ 64)%N /\
    ((sg = [] \/ sg = [cPLUS]) /\ n = value ds \/ sg = [cDASH] /\ n = ((2 ^ 64 - value ds) mod 2 ^ 64)%N).
(** the model: what begins with 1, 2 or 3 *)
Definition model_named (s : str) (k : nat) : Prop := exists r, s = (48 + N.of_nat k)%N :: r /\ 1 <= k <= 3.

Record well_formed (opts : list opt) : Prop := mkwf {
  wf_known : ~ In OBad opts; wf_help : ~ In OHelp opts;
  wf_flags : forall f, at_most_one (is_flag f) opts; wf_alg : at_most_one is_alg opts; wf_fun : at_most_one is_fun opts;
  wf_model : forall x, In (OAlg Unigram x) opts -> exists k, model_named x k;
  wf_iter : forall f x, In (OFun f x) opts -> f <> Tagger -> exists n, number x n }.

Definition no_alg (opts : list opt) : Prop := forall a x, ~ In (OAlg a x) opts.
(** the tagger the options pick for a function *)
Inductive picks (opts : list opt) : func -> tagger -> Prop :=
| picks_any : no_alg opts -> picks opts Tagger TPerceptronOrHmm
| picks_hmm f : no_alg opts -> f <> Tagger -> picks opts f THmm
| picks_w f x : In (OAlg Window x) opts -> f <> Supervised -> picks opts f TWindow
| picks_u f x k : In (OAlg Unigram x) opts -> model_named x k -> f = Tagger \/ f = Supervised -> picks opts f (TUnigram k)
| picks_x f x : In (OAlg Perceptron x) opts -> f = Tagger \/ f = Supervised -> picks opts f TPerceptron.
Definition flags_are (opts : list opt) (fl : flags) : Prop := forall f, get_flag f fl = true <-> In (OFlag f) opts.
(** the usage lines *)
Inductive asks (opts : list opt) : list str -> action -> Prop :=
| asks_tag x t fl m : In (OFun Tagger x) opts -> picks opts Tagger t -> flags_are opts fl -> asks opts [m] (DoTag t fl m None None)
| asks_tag_in x t fl m i : In (OFun Tagger x) opts -> picks opts Tagger t -> flags_are opts fl -> asks opts [m; i] (DoTag t fl m (Some i) None)
| asks_tag_out x t fl m i o : In (OFun Tagger x) opts -> picks opts Tagger t -> flags_are opts fl -> asks opts [m; i; o] (DoTag t fl m (Some i) (Some o))
| asks_retrain x n t c m : In (OFun Retrain x) opts -> number x n -> picks opts Retrain t -> asks opts [c; m] (DoRetrain t n c m)
| asks_sup x n d c s m tg un : In (OFun Supervised x) opts -> number x n -> picks opts Supervised THmm -> asks opts [d; c; s; m; tg; un] (DoSupervised THmm n d c s m tg un)
| asks_sup0 x d s m tg un : In (OFun Supervised x) opts -> number x 0%N -> picks opts Supervised THmm -> asks opts [d; s; m; tg; un] (DoSupervisedOnly THmm d s m tg un)
| asks_uni x k m tg : In (OFun Supervised x) opts -> number x 0%N -> picks opts Supervised (TUnigram k) -> asks opts [m; tg] (DoTrainUnigram (TUnigram k) m tg)
| asks_perc x n fl m tg un s : In (OFun Supervised x) opts -> number x n -> picks opts Supervised TPerceptron -> flags_are opts fl -> asks opts [m; tg; un; s] (DoTrainPerceptron n m tg un s fl)
| asks_train x n t d c s m : In (OFun Train x) opts -> number x n -> picks opts Train t -> asks opts [d; c; s; m] (DoTrain t n d c s m).
