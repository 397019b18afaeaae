(** C48: the statistical tagger from text to text: it changes nothing but the choice of the analysis. *)
From Coq Require Import String QArith.
From Verif Require Import Model.Base Model.TaggerWord Model.Similar Model.MorphoStream Model.TaggerText.
From Verif Require Import Spec.MorphoStream Spec.TaggerText Spec.Collection Proofs.Collection Proofs.TaggerText.
From Verif Require Model.Collection Model.HMM Proofs.Similar Props.C47.
Import Verif.Model.Collection.
Open Scope nat_scope.

(** a model of the tagger: its classes were made by insertions, are sets, contain the open class and the class of the
    end mark, and the end mark is in no other class *)
Definition usable (keof : nat) (m : tmodel) : Prop :=
  (exists l, m_out m = ops_run l empty) /\ (forall x, In x (element (m_out m)) -> NoDup x) /\
  In (m_open m) (element (m_out m)) /\ In [N.of_nat keof] (element (m_out m)) /\
  (forall x, In x (element (m_out m)) -> In (N.of_nat keof) x -> x = [N.of_nat keof]) /\ m_open m <> [] /\ ~ In (N.of_nat keof) (m_open m).
Lemma usable_good keof m : usable keof m -> good keof m.
Proof.
  intros ((l & E) & H1 & H2 & H3 & H4 & H5 & H6). split; [split; [rewrite E; apply run_ops_Inv, Inv_empty|exact H2]|]. auto 6.
Qed.
(** what is assumed of the lexical units: [uniform] (all analyses are single parts, or there is one analysis),
    [starless], [long_rules] (see Spec/TaggerText.v), and the parts of the analyses are given by the longest match *)
Definition unit_ok (discardr : list str) M (minit : M) mstep mtag mfin mdead kundef (parts : list tok -> list (str * nat)) (nf : bool) (l : lu) : Prop :=
  lu_ok nf l /\ (forall ans a, l_read l = Known ans -> In a ans -> lrlm M minit mstep mtag mfin mdead kundef false a (parts a)) /\
  uniform parts l /\ starless parts l /\ long_rules discardr l.

(** For every text, every non-negative model, every set of patterns, prefer and discard rules: the words are defined
    and what is written is the text with every lexical unit reduced to one of its analyses (unknown words marked), all
    blanks unchanged; NUL after every document under null flush.
    Partial: lexical units whose analyses have several and different numbers of parts are excluded (see C47_mixed_refuted
    for what happens to them). *)
Theorem C48_text_partial : forall mt prefer discardr M (minit : M) mstep mtag mfin mdead keof kundef parts ssf nf m eos A B d ds,
  (forall x, mfin x <> Some keof) -> kundef <> keof -> mfin minit = None ->
  (forall i j, (0 <= A i j)%Q) -> (forall i k, (0 <= B i k)%Q) -> usable keof m -> (ds = [] \/ nf = true) ->
  (forall d', In d' (d :: ds) -> blank_ok nf (d_end d') /\
      forall l, In l (d_lus d') -> unit_ok discardr M minit mstep mtag mfin mdead kundef parts nf l) ->
  exists ws, words mt prefer discardr keof kundef M minit mstep mtag mfin mdead nf (S (length (docs_text d ds))) (docs_text d ds) = Some ws /\
    docs_out ssf nf (d :: ds) (tagger_text keof false true ssf nf eos A B m ws).
Proof.
  intros mt prefer discardr M minit mstep mtag mfin mdead keof kundef parts ssf nf m eos A B d ds H1 H2 H3 H4 H5 H6 H7 H8.
  apply (text_to_text mt prefer discardr M minit mstep mtag mfin mdead keof kundef H1 H2 parts ssf nf m eos A B d ds H3 H4 H5); [apply usable_good, H6|exact H7| |].
  - apply Forall_forall. intros d' Hd'. destruct (H8 d' Hd') as [K1 K2]. split; [|exact K1]. apply Forall_forall. intros l Hl. apply (K2 l Hl).
  - apply Forall_forall. intros d' Hd'. destruct (H8 d' Hd') as [_ K2]. unfold dcond. apply Forall_forall. intros l Hl. exact (K2 l Hl).
Qed.
Print Assumptions C48_text_partial.

(** ** a concrete case *)
Definition ex_ops : list op := map Add [[9%N]; [1%N; 2%N]; [1%N]; [2%N]; [3%N]; [8%N]].
Definition ex_model : tmodel := mkm [1%N; 2%N] (ops_run ex_ops empty) 10.
Lemma ex_usable : usable 9 ex_model.
Proof.
  split; [exists ex_ops; reflexivity|].
  split. { intros x H. vm_compute in H. decompose [or] H; subst; try contradiction; repeat constructor; intros K; cbn in K; decompose [or] K; (discriminate || contradiction). }
  split; [right; left; vm_compute; reflexivity|]. split; [left; vm_compute; reflexivity|].
  split. { intros x H K. vm_compute in H. decompose [or] H; subst; try contradiction; cbn in K |- *; decompose [or] K; (reflexivity || discriminate || contradiction). }
  split; [discriminate|]. intros K. cbn in K. decompose [or] K; (discriminate || contradiction).
Qed.
Definition exA : HMM.mat := fun i j => if (i =? 1) && (j =? 3) then 2%Q else 1%Q.
Definition exB : HMM.mat := fun i k => if i =? 2 then 3%Q else 1%Q.
Definition ex_run (ssf : bool) : option str := option_map (tagger_text 9 false true ssf true 0 exA exB ex_model)
  (C47.run_words true (docs_text C47.ex_doc1 [C47.ex_doc2])).
Lemma ex_units : forall d', In d' [C47.ex_doc1; C47.ex_doc2] -> blank_ok true (d_end d') /\
  forall l, In l (d_lus d') -> unit_ok [] str [] C47.dstep C47.dtag C47.dfin C47.ddead 8 C47.ex_parts true l.
Proof.
  intros d' Hd'. pose proof C47.ex_ok as O. rewrite Forall_forall in O. destruct (O d' Hd') as [O1 O2]. split; [exact O2|].
  intros l Hl. rewrite Forall_forall in O1. split; [exact (O1 l Hl)|]. split; [intros ans a; apply (C47.ex_lrlm d' Hd' l ans a Hl)|].
  destruct Hd' as [<-|[<-|[]]].
  - destruct Hl as [<-|[<-|[<-|[<-|[]]]]].
    + split; [left; repeat constructor|]. split; [repeat constructor|]. intros p [].
    + split; [right; reflexivity|]. split; [repeat constructor|]. intros p [].
    + repeat split.
    + split; [left; repeat constructor|]. split; [repeat constructor|]. intros p [].
  - destruct Hl as [<-|[]]. split; [right; reflexivity|]. split; [repeat constructor|]. intros p [].
Qed.
Example ex_text : exists s, ex_run true = Some s /\ docs_out true true [C47.ex_doc1; C47.ex_doc2] s.
Proof.
  destruct (C48_text_partial (fun _ _ => false) [] [] str [] C47.dstep C47.dtag C47.dfin C47.ddead 9 8 C47.ex_parts true true ex_model 0 exA exB C47.ex_doc1 [C47.ex_doc2])
    as (ws & E & D).
  - intros x. unfold C47.dfin. destruct (filter _ C47.dict) as [|[k v] r] eqn:Ef; [discriminate|].
    assert (In (k, v) C47.dict) as K by (apply (proj1 (filter_In (fun y => str_eqb (fst y) x) _ _)); rewrite Ef; left; reflexivity).
    cbn in K. intros Q. injection Q as ->. decompose [or] K; (discriminate || contradiction).
  - discriminate.
  - reflexivity.
  - intros i j. unfold exA. destruct (_ && _); discriminate.
  - intros i k. unfold exB. destruct (_ =? _); discriminate.
  - exact ex_usable.
  - right. reflexivity.
  - exact ex_units.
  - exists (tagger_text 9 false true true true 0 exA exB ex_model ws). split; [|exact D]. unfold ex_run, C47.run_words. rewrite E. reflexivity.
Qed.
Example ex_text_computed : ex_run true =
  Some (u "^as/a<v>$ [<i>\^]^ab/a<n>+b<pr>$ ^zz/*zz$ ^q/q<v>$." ++ [cNUL] ++ u "!^aab/a<v>+a<n>+b<pr>$ end " ++ [cNUL]).
Proof. vm_compute. reflexivity. Qed.
