(** C68: apertium-filter-ambiguity keeps one lexical unit for every ambiguity class.  Model: Model/FilterAmb.v over the reader of Model/MorphoStream.v. *)
From Coq Require Import String Sorted.
From Verif Require Import Model.Base Model.TaggerWord Model.MorphoStream Model.FilterAmb Spec.MorphoStream Spec.FilterAmb.
From Verif Require Import Proofs.Base Proofs.TaggerWord Proofs.MorphoStream Proofs.TaggerText Proofs.FilterAmb Props.C47.

(** For every input: what is printed are the lexical units of the words that are the first of their class, in the order of the text. *)
Theorem C68_printed : forall mt prefer discardr keof kundef M (minit : M) mstep mtag mfin mdead inp out,
  filter_amb mt prefer discardr keof kundef M minit mstep mtag mfin mdead inp = Some out ->
  exists ws idx, words mt prefer discardr keof kundef M minit mstep mtag mfin mdead false (S (length inp)) inp = Some ws /\
    StronglySorted lt idx /\ (forall i, In i idx <-> first_of_class (map fst ws) i) /\
    out = flat_map (fun i => match nth_error (map fst ws) i with Some w => orig w | None => [] end) idx.
Proof.
  intros mt prefer discardr keof kundef M minit mstep mtag mfin mdead inp out H. unfold filter_amb in H.
  destruct (words mt prefer discardr keof kundef M minit mstep mtag mfin mdead false (S (length inp)) inp) as [ws|]; [|discriminate].
  injection H as <-. destruct (printed (map fst ws)) as (idx & S1 & S2 & S3). exists ws, idx. auto.
Qed.
Print Assumptions C68_printed.
(** The lexical unit of a word with forms. *)
Theorem C68_unit : forall w, forms w <> [] -> Forall (fun x => snd x <> [] /\ ~ In cNUL (snd x)) (forms w) -> ~ In cNUL (sf w) -> orig w = unit_line w.
Proof. exact orig_line. Qed.
Print Assumptions C68_unit.

(** Without discard rules, for every corpus of lexical units: the output has the same classes as the input, each once, and filtering it again changes nothing. *)
Theorem C68_classes_partial : forall mt prefer keof kundef M (minit : M) mstep mtag mfin mdead parts d,
  mfin minit = None -> (forall x, mfin x <> Some keof) -> kundef <> keof -> doc_ok false d ->
  (forall l, In l (d_lus d) -> ~ In cNUL (l_sf l)) ->
  (forall l ans a, In l (d_lus d) -> l_read l = Known ans -> In a ans -> lrlm M minit mstep mtag mfin mdead kundef false a (parts a) /\ Forall alone (parts a)) ->
  exists out ws ws',
    words mt prefer [] keof kundef M minit mstep mtag mfin mdead false (S (length (doc_text d))) (doc_text d) = Some ws /\
    filter_amb mt prefer [] keof kundef M minit mstep mtag mfin mdead (doc_text d) = Some out /\
    words mt prefer [] keof kundef M minit mstep mtag mfin mdead false (S (length out)) out = Some ws' /\
    NoDup (classes ws') /\ (forall c, In c (classes ws') <-> In c (classes ws)) /\
    filter_amb mt prefer [] keof kundef M minit mstep mtag mfin mdead out = Some out.
Proof.
  intros mt prefer keof kundef M minit mstep mtag mfin mdead parts d I K1 K2 O N A.
  apply (reread mt prefer keof kundef M minit mstep mtag mfin mdead I parts d); [|exact K1|exact K2].
  split; [exact O|]. intros l Hl. split; [exact (N l Hl)|]. destruct (l_read l) as [ans|s] eqn:E; [|exact Logic.I]. intros a Ha. exact (A l ans a Hl E Ha).
Qed.
Print Assumptions C68_classes_partial.

(** *** What does not hold *)
Definition run_filter (discardr : list str) (s : str) := filter_amb str_eqb [] discardr 9 8 str [] dstep dtag dfin ddead s.
Definition run_classes (discardr : list str) (s : str) :=
  option_map classes (words str_eqb [] discardr 9 8 str [] dstep dtag dfin ddead false (S (length s)) s).
(** With discard rules a class can change: a form that was discarded is printed again (C37) ... *)
Theorem C68_discard_refuted :
  run_filter [u "a<n>"%string] (u "^x/a<n>/a<v>/b<pr>$"%string) = Some (u "^x/a<v>/b<pr>$"%string ++ [cNL]) /\
  run_classes [u "a<n>"%string] (u "^x/a<n>/a<v>/b<pr>$"%string) = Some [[3]; [9]] /\
  run_classes [u "a<n>"%string] (u "^x/a<v>/b<pr>$"%string ++ [cNL]) = Some [[2; 3]; [9]].
Proof. repeat split; vm_compute; reflexivity. Qed.
Print Assumptions C68_discard_refuted.
(** ... and a unit with an empty analysis is printed without any, which makes the next one part of it. *)
Theorem C68_empty_refuted :
  run_filter [] (u "^x/$^y/a<n>$"%string) = Some (u "^x$"%string ++ [cNL] ++ u "^y/a<n>$"%string ++ [cNL]) /\
  run_classes [] (u "^x/$^y/a<n>$"%string) = Some [[8]; [1]; [9]] /\
  run_classes [] (u "^x$"%string ++ [cNL] ++ u "^y/a<n>$"%string ++ [cNL]) = Some [[1; 8]; [9]].
Proof. repeat split; vm_compute; reflexivity. Qed.
Print Assumptions C68_empty_refuted.

(** *** A case that meets the hypotheses *)
Definition ex_corpus : doc := mkdoc
  [mklu [] (u "as"%string) (Known [a_n; a_v]); mklu (u " "%string) (u "ab"%string) (Known [a_n ++ plus ++ b_pr]); mklu (u " "%string) (u "at"%string) (Known [a_v; a_n]);
   mklu (u " "%string) (u "zz"%string) (Unknown (u "zz"%string)); mklu (u " "%string) (u "q"%string) (Known [C (u "q"%string) ++ T (u "v"%string)])] (u "."%string).
Example C68_ex_out : run_filter [] (doc_text ex_corpus) =
  Some (u "^as/a<n>/a<v>$"%string ++ [cNL] ++ u "^ab/a<n>$"%string ++ [cNL] ++ u "^/b<pr>$"%string ++ [cNL] ++ u "^q/q<v>$"%string ++ [cNL]).
Proof. vm_compute. reflexivity. Qed.
Lemma partb' s : plainb (fun c => (c =?c cSLASH) || (c =?c cDOL) || (c =?c cNUL)) (fun c => false) s = true -> part_ok false s.
Proof. apply (plainb_ok _ _ _ _) with (n := List.length s); [| |reflexivity]; [intros c [->|[->|[_ ->]]]; reflexivity|intros c []]. Qed.
Lemma blankb' s : plainb (fun c => (c =?c cCARET) || (c =?c cNUL)) (fun c => c =?c cNUL) s = true -> blank_ok false s.
Proof. apply (plainb_ok _ _ _ _) with (n := List.length s); [| |reflexivity]; [intros c [->|[_ ->]]; reflexivity|intros c [_ ->]; reflexivity]. Qed.
Ltac lu_tac' := split; [apply blankb'; vm_compute; reflexivity|split; [apply partb'; vm_compute; reflexivity|cbn [l_read]]].
Ltac an_tac' := split; [toks_ok|split; [apply partb'; vm_compute; reflexivity|vm_compute; reflexivity]].
Example C68_ex_ok : doc_ok false ex_corpus.
Proof.
  split; [cbn [d_lus ex_corpus]|apply blankb'; vm_compute; reflexivity].
  constructor; [lu_tac'; split; [discriminate|constructor; [an_tac'|constructor; [an_tac'|constructor]]]|].
  constructor; [lu_tac'; split; [discriminate|constructor; [an_tac'|constructor]]|].
  constructor; [lu_tac'; split; [discriminate|constructor; [an_tac'|constructor; [an_tac'|constructor]]]|].
  constructor; [lu_tac'; apply partb'; vm_compute; reflexivity|].
  constructor; [lu_tac'; split; [discriminate|constructor; [an_tac'|constructor]]|]. constructor.
Qed.
Lemma ex_alone : forall a, In a [a_n; a_v; a_n ++ plus ++ b_pr; C (u "q"%string) ++ T (u "v"%string)] -> lrlm str [] dstep dtag dfin ddead 8 false a (ex_parts a) /\ Forall alone (ex_parts a).
Proof.
  intros a Ha. split.
  - destruct Ha as [<-|[<-|[<-|[<-|[]]]]].
    + apply L_whole; vm_compute; reflexivity.
    + apply L_whole; vm_compute; reflexivity.
    + eapply (L_cut _ _ _ _ _ _ _ _ _ true a_n 1 b_pr); [vm_compute; reflexivity|discriminate|]. apply (L_whole _ _ _ _ _ _ _ true b_pr 3). vm_compute. reflexivity.
    + apply L_none. vm_compute. reflexivity.
  - destruct Ha as [<-|[<-|[<-|[<-|[]]]]]; vm_compute ex_parts; repeat (constructor; [split; [apply partb'; vm_compute; reflexivity|split; [discriminate|split; [reflexivity|cbn; intuition discriminate]]]|]); constructor.
Qed.
Example C68_ex_hypotheses :
  (forall l, In l (d_lus ex_corpus) -> ~ In cNUL (l_sf l)) /\
  (forall l ans a, In l (d_lus ex_corpus) -> l_read l = Known ans -> In a ans -> lrlm str [] dstep dtag dfin ddead 8 false a (ex_parts a) /\ Forall alone (ex_parts a)).
Proof.
  split.
  - intros l Hl K. cbn [d_lus ex_corpus] in Hl. repeat (destruct Hl as [<-|Hl]; [vm_compute in K; intuition discriminate|]). exact Hl.
  - intros l ans a Hl E Ha. apply ex_alone. cbn [d_lus ex_corpus] in Hl.
    repeat (destruct Hl as [<-|Hl]; [cbn [l_read] in E; (discriminate E || (injection E as <-; cbn [In] in *; tauto))|]). destruct Hl.
Qed.
