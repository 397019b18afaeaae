(** C59: tagger definitions (.tsx) are read as written.  Spec/Tsx.v: what a document says ([doc]) and
    how it is written ([written]: as nodes of an XML reader).  Model: Model/Tsx.v ([parse]: nodes to
    the tagger's data; [None]: message and exit). *)
From Coq Require Import String Lia.
From Verif Require Import Model.Base Model.Tsx Spec.Tsx Proofs.Base Proofs.Tsx.
Open Scope nat_scope.

(** The data a document describes.  Coarse tags are numbered in the order of their definitions after
    the reserved ones; a label that is not defined anywhere counts as number 0. *)
Definition describes (d : doc) (t : tsx) : Prop :=
  let l := names d in
  array_tags t = map TAG reserved ++ map def_name (defs d) ++ constant_names /\
  (forall x, assoc (TAG x) (tag_index t)
             = match position x l with
               | Some i => Some i
               | None => if in_dec (list_eq_dec N.eq_dec) x (used d) then Some 0 else None
               end) /\
  (forall i, In i (open_class t) <-> exists x, In x (defs d) /\ def_closed x = false /\ i = number l (def_name x)) /\
  forbid t = map (fun p => (number l (fst p), number l (snd p))) (listed (forbids d)) /\
  enforce t = map (fun p => (number l (fst p), map (number l) (snd p))) (listed (enforces d)) /\
  prefer t = map angled (listed (prefers d)) /\
  discard t = map angled (listed (discards d)) /\
  plist t = flat_map (patterns l) (defs d)
            ++ [PItem 0 [] (u "lpar"); PItem 1 [] (u "rpar"); PItem 2 [] (u "lquest"); PItem 3 [] (u "cm"); PItem 4 [] (u "sent")] /\
  (forall i c, nth_error constant_names i = Some c -> assoc c (constants t) = Some (length l + i)).

(** Exactly the consistent documents are read, as what they describe. *)
Theorem C59_read_partial : forall d ns, written d ns ->
  (consistent reserved (defs d) -> exists t, parse ns = Some t /\ describes d t) /\
  (~ consistent reserved (defs d) -> parse ns = None).
Proof.
  intros d ns W. unfold written in W. fold visible in W. unfold parse. rewrite start_ok, run_junk. split.
  - intros C. destruct (run_doc d _ W C) as (t & R & I). rewrite R. eexists. split; [reflexivity|].
    rewrite (finish_ok (map def_name (defs d)) (used d) (result t d) I). unfold describes.
    cbn [array_tags tag_index open_class forbid enforce prefer discard plist constants result].
    split; [now rewrite <- app_assoc|]. split.
    { intros x. pose proof (I x) as Ix. cbn [tag_index result] in Ix. rewrite Ix. unfold entry.
      destruct (position x (names d)); [reflexivity|]. destruct (in_dec (list_eq_dec N.eq_dec) x (used d)) as [J|J].
      - apply inb_In in J. now rewrite J.
      - destruct (inb x (used d)) eqn:B; [apply inb_In in B; tauto|reflexivity]. }
    split.
    { intros i. rewrite open_all. split.
      - intros (a & x & b & E & Cl & ->). exists x. rewrite E. split; [apply in_or_app; right; now left|]. split; [exact Cl|].
        unfold names. rewrite E, map_app. cbn [map]. symmetry.
        replace (reserved ++ map def_name a ++ def_name x :: map def_name b)
          with ((reserved ++ map def_name a ++ [def_name x]) ++ map def_name b) by (rewrite <- !app_assoc; reflexivity).
        apply number_ext. rewrite !in_app_iff. right. right. now left.
      - intros (x & J & Cl & ->). apply in_split in J. destruct J as (a & b & E). exists a, x, b. split; [exact E|]. split; [exact Cl|].
        unfold names. rewrite E, map_app. cbn [map].
        replace (reserved ++ map def_name a ++ def_name x :: map def_name b)
          with ((reserved ++ map def_name a ++ [def_name x]) ++ map def_name b) by (rewrite <- !app_assoc; reflexivity).
        apply number_ext. rewrite !in_app_iff. right. right. now left. }
    split; [reflexivity|]. split; [reflexivity|]. split; [reflexivity|]. split; [reflexivity|]. split.
    { f_equal. apply (patterns_all (defs d) reserved reserved); auto. }
    intros i c E. rewrite app_nil_r. rewrite app_length, map_length.
    replace (length (names d) + i) with (length reserved + length (map def_name (defs d)) + i)
      by (unfold names; rewrite app_length; reflexivity).
    set (k := length reserved + length (map def_name (defs d))). clearbody k.
    do 7 (destruct i as [|i]; [injection E as <-; cbn [seq combine constant_names map rev app]; rewrite Nat.add_comm; vm_compute; reflexivity|]).
    exfalso. destruct i; discriminate.
  - intros C. now rewrite (run_doc_fail d _ W C).
Qed.
Print Assumptions C59_read_partial.

(** Text, comments and document types are ignored, in whatever document. *)
Theorem C59_comments : forall ns, parse ns = parse (List.filter (fun x => match x with Junk => false | _ => true end) ns).
Proof.
  intros ns. unfold parse. rewrite start_ok. fold visible. now rewrite run_junk, (run_junk (List.filter visible ns)).
Qed.
Print Assumptions C59_comments.

(** A document that ends before its tag set does is rejected. *)
Theorem C59_cut_short : forall ns, (forall a, ~ In (Close Xtagset a) ns) -> parse ns = None.
Proof.
  intros ns H. unfold parse. rewrite start_ok. match goal with |- context [run MStart ?d ns] => generalize d end.
  assert (K : forall ns m d, (forall a, ~ In (Close Xtagset a) ns) -> match m with MStart | MTagset | MLabel _ | MMult _ | MSeq _ => True | _ => False end ->
    match run m d ns with Some (MDone, _) => False | _ => True end).
  { clear ns H. induction ns as [|x ns IH]; intros m d H M; [destruct m; exact I || destruct M|].
    cbn [run]. assert (H' : forall a, ~ In (Close Xtagset a) ns) by (intros a J; apply (H a); right; exact J).
    assert (X : forall a, x <> Close Xtagset a) by (intros a ->; apply (H a); left; reflexivity).
    destruct (on_node m d x) as [[m' d']|] eqn:E; [|exact I]. apply IH; [exact H'|]. clear IH H H'.
    destruct m; try contradiction; destruct x as [[] ?a|[] ?a|]; cbn [on_node] in E; try discriminate E; try (exfalso; eapply X; reflexivity);
      try (destruct (def_head _ _) as [d1|]; [|discriminate E]); repeat (match type of E with context [lookup ?a ?b] => destruct (lookup a b) end); injection E as <- <-; exact I. }
  intros d. specialize (K ns MStart d H I). destruct (run MStart d ns) as [[[] d']|]; (reflexivity || contradiction).
Qed.
Print Assumptions C59_cut_short.

(** Tags separated by dots become tags in angle brackets. *)
Theorem C59_tags : forall l s, dotted l s -> angled s = brackets l.
Proof.
  intros l s D. set (f := fun c : N => if (c =? cDOT)%N then u "><" else [c]).
  change (angled s) with (u "<" ++ flat_map f s ++ u ">").
  assert (N : forall t : str, ~ In cDOT t -> flat_map f t = t).
  { induction t as [|c t IH]; intros N; [reflexivity|]. cbn [flat_map]. unfold f at 1. destruct (N.eqb_spec c cDOT); [exfalso; apply N; now left|].
    cbn [app]. f_equal. apply IH. intros H. apply N. now right. }
  assert (F : f cDOT = u "><") by reflexivity. clearbody f.
  induction D as [t H|t l s H D IH].
  - rewrite (N t H). unfold brackets. cbn [map concat]. now rewrite app_nil_r.
  - rewrite !flat_map_app. pose proof (N t H) as E. unfold str, char in *. rewrite E. cbn [flat_map]. rewrite F.
    change (brackets (t :: l)) with ((u "<" ++ t ++ u ">") ++ brackets l). rewrite <- IH.
    rewrite app_nil_r, <- !app_assoc. reflexivity.
Qed.
Print Assumptions C59_tags.

(** ** A concrete document *)
Definition el0 (n : el) (a : attrs) (body : list node) : list node := within n a body.
Definition named (s : string) : attrs := [(Aname, u s)].
Definition labelled (s : string) : attrs := [(Alabel, u s)].
Definition tagged (s : string) : attrs := [(Atags, u s)].
Definition noun : list node := el0 Xdef_label (named "NOUN") [Junk; Open Xtags_item (tagged "n.*"); Junk].
Definition verb : list node := el0 Xdef_label ((Aclosed, u "true") :: named "VERB") [Open Xtags_item (tagged "v"); Close Xtags_item (tagged "v")].
Definition mult : list node := el0 Xdef_mult (named "VN") (el0 Xsequence [] [Open Xlabel_item (labelled "VERB"); Open Xlabel_item (labelled "NOUN")]).
Definition pair (a b : string) : list node := el0 Xlabel_sequence [] [Open Xlabel_item (labelled a); Open Xlabel_item (labelled b)].
Definition file (defs sections : list node) : list node := el0 Xtagger [] (el0 Xtagset [] defs ++ sections).

Definition ex_doc : doc :=
  mkdoc [Label (u "NOUN") false [([], u "n.*")]; Label (u "VERB") true [([], u "v")];
         Mult (u "VN") false [[SLabel (u "VERB"); SLabel (u "NOUN")]]]
        (Some [(u "NOUN", u "VERB"); (u "VN", u "SENT")]) None None (Some [u "n.pl"]).
Definition ex_file : list node :=
  [Junk] ++ file (noun ++ verb ++ [Junk] ++ mult)
       (el0 Xforbid [] (pair "NOUN" "VERB" ++ pair "VN" "SENT") ++ el0 Xdiscard_on_ambiguity [] [Open Xdiscard (tagged "n.pl")]).
Definition short_leaf n a := leaf_short n a.

Example C59_witness : written ex_doc ex_file /\ consistent reserved (defs ex_doc) /\
  match parse ex_file with
  | Some t => forbid t = [(7, 8); (9, 4)] /\ discard t = [u "<n><pl>"] /\ open_class t = [9; 7] /\
              plist t = [PItem 7 [] (u "n.*"); PItem 8 [] (u "v"); PBegin; PLabel 9 8; PLabel 9 7; PEnd] ++ last_patterns
  | None => False
  end.
Proof.
  assert (C : consistent reserved (defs ex_doc)).
  { cbn [ex_doc defs consistent]. repeat split; intros I; apply inb_In in I; vm_compute in I; discriminate. }
  split; [|split; [exact C|vm_compute; repeat split]].
  unfold written. vm_compute List.filter.
  exists [], []. eexists _, _, _, _, _. cbn [defs ex_doc forbids enforces prefers discards].
  split.
  { eapply each_cons.
    - exists (named "NOUN"). eexists. split; [reflexivity|]. split; [split; discriminate|].
      split; [|reflexivity]. eapply each_cons; [|apply each_nil].
      exists (tagged "n.*"). split; [reflexivity|]. split; [reflexivity|]. apply leaf_short.
    - eapply each_cons.
      + exists ((Aclosed, u "true") :: named "VERB"). eexists. split; [reflexivity|]. split; [split; reflexivity|].
        split; [|reflexivity]. eapply each_cons; [|apply each_nil].
        exists (tagged "v"). split; [reflexivity|]. split; [reflexivity|]. apply leaf_long.
      + eapply each_cons; [|apply each_nil].
        exists (named "VN"). eexists. split; [reflexivity|]. split; [split; discriminate|].
        split; [|reflexivity]. eapply each_cons; [|apply each_nil]. exists []. eexists. split; [|reflexivity].
        eapply each_cons; [exists (labelled "VERB"); split; [reflexivity|apply leaf_short]|].
        eapply each_cons; [exists (labelled "NOUN"); split; [reflexivity|apply leaf_short]|]. apply each_nil. }
  split.
  { exists []. eexists. split; [|reflexivity].
    eapply each_cons; [exists [], (labelled "NOUN"), (labelled "VERB"); auto|].
    eapply each_cons; [exists [], (labelled "VN"), (labelled "SENT"); auto|]. apply each_nil. }
  split; [reflexivity|]. split; [reflexivity|]. split.
  { exists []. eexists. split; [|reflexivity]. eapply each_cons; [|apply each_nil]. exists (tagged "n.pl"). split; [reflexivity|apply leaf_short]. }
  vm_compute. reflexivity.
Qed.

(** ** What a user would not expect *)
(** A label that is not defined (a misprint) is taken for LPAR, without a message. *)
Theorem C59_undefined_refuted : ~ forall d ns t, written d ns -> parse ns = Some t ->
  forall a b, In (a, b) (listed (forbids d)) -> In a (names d) /\ In b (names d).
Proof.
  intros H. set (d := mkdoc [Label (u "NOUN") false []] (Some [(u "NUON", u "NOUN")]) None None None).
  set (ns := file (el0 Xdef_label (named "NOUN") []) (el0 Xforbid [] (pair "NUON" "NOUN"))).
  assert (W : written d ns).
  { unfold written. vm_compute List.filter. exists [], []. eexists _, _, _, _, _. cbn [d defs forbids enforces prefers discards].
    split. { eapply each_cons; [|apply each_nil]. exists (named "NOUN"). eexists. split; [reflexivity|]. split; [split; discriminate|].
             split; [apply each_nil|reflexivity]. }
    split. { exists []. eexists. split; [|reflexivity]. eapply each_cons; [exists [], (labelled "NUON"), (labelled "NOUN"); auto|]. apply each_nil. }
    split; [reflexivity|]. split; [reflexivity|]. split; [reflexivity|]. vm_compute. reflexivity. }
  destruct (parse ns) as [t|] eqn:E; [|vm_compute in E; discriminate].
  destruct (H d ns t W E (u "NUON") (u "NOUN") (or_introl eq_refl)) as (I & _).
  apply inb_In in I. vm_compute in I. discriminate.
Qed.
Print Assumptions C59_undefined_refuted.
Example C59_undefined_example :
  match parse (file (el0 Xdef_label (named "NOUN") []) (el0 Xforbid [] (pair "NUON" "NOUN"))) with
  | Some t => forbid t = [(0, 7)] /\ assoc (TAG (u "LPAR")) (tag_index t) = Some 0
  | None => False
  end.
Proof. vm_compute. split; reflexivity. Qed.

(** Sections in another order are silently ignored. *)
Theorem C59_order_refuted : ~ forall before after t,
  parse (file noun (before ++ el0 Xforbid [] (pair "NOUN" "NOUN") ++ after)) = Some t -> forbid t <> [].
Proof.
  intros H.
  refine (H (el0 Xpreferences [] [Open Xprefer (tagged "n.pl")]) [] _ _ _).
  - vm_compute. reflexivity.
  - reflexivity.
Qed.
Print Assumptions C59_order_refuted.

(** A label without items, written with a slash, hides the next label. *)
Theorem C59_slash_refuted : ~ forall a b t,
  parse (file [Open Xdef_label (named a); Open Xdef_label (named b)] []) = Some t -> In (u b) (array_tags t).
Proof.
  intros H. assert (I : In (u "B") [u "TAG_LPAR"; u "TAG_RPAR"; u "TAG_LQUEST"; u "TAG_CM"; u "TAG_SENT"; u "TAG_kEOF"; u "TAG_kUNDEF"; u "A"; u "kMOT"; u "kDOLLAR"; u "kBARRA"; u "kMAS"; u "kIGNORAR"; u "kBEGIN"; u "kUNKNOWN"]).
  { refine (eq_rect_r (fun x => In (u "B") x) (H "A" "B" _ _)%string _); [vm_compute; reflexivity|]. vm_compute. reflexivity. }
  apply inb_In in I. vm_compute in I. discriminate.
Qed.
Print Assumptions C59_slash_refuted.

(** An empty section written with a slash, and a label of a pair written with a closing tag, are
    rejected. *)
Example C59_rejected :
  parse (file noun ([Open Xforbid []] ++ el0 Xpreferences [] [])) = None /\
  parse (file noun (el0 Xforbid [] (el0 Xlabel_sequence []
           [Open Xlabel_item (labelled "NOUN"); Close Xlabel_item (labelled "NOUN"); Open Xlabel_item (labelled "NOUN")]))) = None.
Proof. vm_compute. split; reflexivity. Qed.
