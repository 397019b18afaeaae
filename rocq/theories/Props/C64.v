(** C64: the compiled rule file carries what the rule file declares.  Model: Model/TransferData.v (TRXReader's declarations,
    TransferData::write, TransferBase::read); Spec/TransferData.v: what the declarations mean. *)
From Coq Require Import String ZArith Sorted.
From Verif Require Import Model.Base Model.Codec Model.Regex Model.TrxPatterns Model.TrxMachine Model.TransferData Spec.TransferData Proofs.Base Proofs.Codec Proofs.TrxMachine Proofs.TransferData.
Open Scope nat_scope.

(** a rule file is accepted exactly if its attribute lists are expressions, no macro is defined twice and the clips of its rules name
    parts that exist *)
Theorem C64_accepted : forall re_ok d, declare re_ok d <> None <-> acceptable re_ok d.
Proof. intros re_ok d. pose proof (declare_spec re_ok d) as H. destruct (declare re_ok d) as [t|]; split; intros K; try congruence; tauto. Qed.
Print Assumptions C64_accepted.

(** what a transfer program reads from the file written for an accepted rule file: the parts, variables, lists and macros as declared,
    and for every state of the pattern machine the first of the rules that end there *)
Theorem C64_compiled_file_partial : forall re_ok tolower putN getN fits putS getS fitsS putA getA fitsA putT getT fitsT,
  RT putN getN fits -> RT putS getS fitsS -> RT putA getA fitsA -> RT putT getT fitsT -> (forall n re, built_in n re -> re_ok re = true) ->
  forall d t base ns m rest, declare re_ok d = Some t ->
  (forall n, In n ns -> ~ In (rule_symbol n) base) -> StronglySorted lt ns ->
  let (a, fs) := final_symbols base ns in
  ordered_arcs m -> dead_ends a ns m ->
  td_fits fits fitsS t -> fitsA a -> fitsT (fst (install a fs m)) -> finals_fit fits (snd (install a fs m)) ->
  exists b, read re_ok tolower getN getS getA getT (write putN putS putA putT a fs m t ++ rest) = Some (b, rest) /\
    (forall n re, answers (b_attrs b) n re <-> part_is d n re) /\
    (forall n v, answers (b_variables b) n v <-> last_says (d_vars d) n v) /\ (forall n v, answers (b_defaults b) n v <-> last_says (d_vars d) n v) /\
    (forall n i, nth_error (d_macros d) i = Some n -> called_macro b n = i) /\
    (forall n v, lists_item (b_lists b) n v <-> in_list d n v) /\ (forall n v, lists_item (b_listslow b) n v <-> exists w, in_list d n w /\ v = tolower w) /\
    b_alphabet b = base ++ map rule_symbol ns /\ m_arcs (b_machine b) = m_arcs m /\
    (forall q, In q (m_finals (b_machine b)) <-> exists n, In n ns /\ ends a m q n) /\
    (forall q n, look Nat.eqb q (b_finals b) = Some n <-> first_rule a ns m q n).
Proof.
  intros re_ok tolower putN getN fits putS getS fitsS putA getA fitsA putT getT fitsT HN HS HA HT HB d t base ns m rest HD HF HI. rewrite (final_symbols_spec base ns HF HI). intros HO HE FD FA FT FF.
  pose proof (declare_spec re_ok d) as D. rewrite HD in D. destruct D as (D1 & D2 & D3 & D4 & D5 & D6). pose proof (install_spec base ns HF HI m HO HE) as I.
  destruct (read_write re_ok tolower putN getN fits putS getS fitsS putA getA fitsA putT getT fitsT HN HS HA HT (base ++ map rule_symbol ns) (map (fun n => code (base ++ map rule_symbol ns) (rule_symbol n)) ns) m t rest D2 FD) as (b & E & B1 & B2 & B3 & B4 & B5 & B6 & B7 & B8 & B9); try assumption.
  - apply Forall_forall. intros [n re] H. cbn [snd]. apply (ssorted_look (attr_items t) (proj1 D2)) in H. apply D3 in H. destruct H as [(items & (x & y & H & _) & ->)|[_ H]]; [|exact (HB n re H)].
    destruct D1 as [D1 _]. rewrite H in D1. apply Forall_app in D1 as [_ D1]. inversion_clear D1 as [|? ? D1' _]. exact D1'.
  - destruct (install _ _ m). tauto.
  - exists b. split; [exact E|]. unfold answers. rewrite B1, B2, B3, B4, B5, B6. destruct (install _ _ m) as [m' fin]. cbn [fst snd]. destruct I as (I1 & I2 & I3 & I4).
    repeat (split; [solve [auto]|]). split; [intros n i H; unfold called_macro; apply D5 in H; rewrite B7, H; reflexivity|].
    split; [intros n v; rewrite B8; apply D6|]. split; [intros n v; rewrite B9; split; intros (w & H & ->); exists w; (split; [apply D6, H|reflexivity])|]. auto.
Qed.
Print Assumptions C64_compiled_file_partial.

(** the machine of C55: if the arcs with rule numbers of the state q are the rules of the set of states S, then the rule of q is the one
    the matcher of C55 finds for S *)
Theorem C64_rule_of_state : forall base ns m, (forall n, In n ns -> ~ In (rule_symbol n) base) -> StronglySorted lt ns ->
  let (a, fs) := final_symbols base ns in
  ordered_arcs m -> dead_ends a ns m ->
  forall (t : trans) (S : list nat) q, (forall n, In n ns /\ ends a m q n <-> In n (rules_of t S)) ->
  match look Nat.eqb q (snd (install a fs m)) with Some n => em_rules t [S] = [n] | None => em_rules t [S] = [] end.
Proof.
  intros base ns m HF HI. rewrite (final_symbols_spec base ns HF HI). intros HO HE t S q H. pose proof (install_spec base ns HF HI m HO HE) as I. destruct (install _ _ m) as [m' fin]. destruct I as (_ & _ & I3 & _). cbn [snd].
  unfold em_rules. cbn [flat_map]. rewrite app_nil_r. destruct (rules_of t S) as [|x r] eqn:R.
  - destruct (look Nat.eqb q fin) as [n|] eqn:L; [|reflexivity]. apply I3 in L as (L1 & L2 & _). destruct (proj1 (H n) (conj L1 L2)).
  - destruct (fold_min x r) as [M1 M2]. set (k := fold_right Nat.min x r) in *. assert (K : first_rule (base ++ map rule_symbol ns) ns m q k).
    { destruct (proj2 (H k) M2) as [K1 K2]. split; [exact K1|]. split; [exact K2|]. intros j J1 J2. apply M1. apply H. auto. }
    apply I3 in K. rewrite K. reflexivity.
Qed.
Print Assumptions C64_rule_of_state.

(** ** What is not so *)
(** a call of a macro the file does not define is not rejected: it calls the first macro of the file *)
Theorem C64_undefined_macro_refuted : forall b n, (forall i, ~ answers (b_macros b) n i) -> called_macro b n = 0.
Proof. intros b n H. unfold called_macro. destruct (look str_eqb n (b_macros b)) as [i|] eqn:E; [destruct (H i E)|reflexivity]. Qed.
Print Assumptions C64_undefined_macro_refuted.
(** if the patterns use a tag named like a rule number, a later rule goes before an earlier one *)
Definition two_rules (a : alphabet) : machine := mkm [(0, [(36%Z, 1)]); (1, [(Z.min (code a (rule_symbol 1)) (code a (rule_symbol 2)), 2); (Z.max (code a (rule_symbol 1)) (code a (rule_symbol 2)), 2)])] [2].
Theorem C64_reserved_tag_refuted :
  let (a, fs) := final_symbols [u "<ANY_CHAR>"; u "<ANY_TAG>"; u "<RULE_NUMBER:2>"] [1; 2] in
  look Nat.eqb 1 (snd (install a fs (two_rules a))) = Some 2 /\
  let (a, fs) := final_symbols [u "<ANY_CHAR>"; u "<ANY_TAG>"; u "<n>"] [1; 2] in
  look Nat.eqb 1 (snd (install a fs (two_rules a))) = Some 1.
Proof. vm_compute. split; reflexivity. Qed.
Print Assumptions C64_reserved_tag_refuted.

(** ** Case *)
Definition exd : decls :=
  mkd [(u "gen", [u "m"; u "f"; u "mf"]); (u "num", [u "sg"; u "pl"]); (u "gen", [u "m"; u "f"])] [(u "number", u "sg"); (u "gender", []); (u "number", u "pl")]
      [(u "month", [u "May"; u "June"]); (u "day", [u "Monday"]); (u "month", [u "July"; u "May"])] [u "agree"; u "first"] [u "lem"; u "gen"; u "whole"].
Definition exbase := [u "<ANY_CHAR>"; u "<ANY_TAG>"; u "<n>"].
Definition exm : machine := let a := fst (final_symbols exbase [1; 3; 12]) in
  mkm [(0, [(94%Z, 1)]); (1, [(36%Z, 2); (37%Z, 3)]); (2, [(code a (rule_symbol 12), 4); (code a (rule_symbol 3), 4)]); (3, [(code a (rule_symbol 3), 4); (32%Z, 0)])] [4].
Example C64_case_declared : exists t, declare (fun _ => true) exd = Some t /\
  answers (attr_items t) (u "gen") (u "(<[mf]>)") /\ answers (variables t) (u "number") (u "pl") /\ answers (macros t) (u "first") 1 /\ look str_eqb (u "month") (lists t) = Some [u "July"; u "June"; u "May"].
Proof. eexists. split; [vm_compute; reflexivity|]. repeat split; vm_compute; reflexivity. Qed.
Example C64_case_rejected : declare (fun _ => true) (mkd [] [] [] [u "a"; u "b"; u "a"] []) = None /\ declare (fun _ => true) (mkd [(u "gen", [u "m"])] [] [] [] [u "gne"]) = None.
Proof. split; reflexivity. Qed.
Example C64_case_file : let (a, fs) := final_symbols exbase [1; 3; 12] in
  ordered_arcs exm /\ dead_ends a [1; 3; 12] exm /\ (forall n, In n [1; 3; 12] -> ~ In (rule_symbol n) exbase) /\ StronglySorted lt [1; 3; 12] /\
  snd (install a fs exm) = [(2, 3); (3, 3)] /\ m_finals (fst (install a fs exm)) = [3; 2].
Proof.
  cbn zeta. split; [|split; [|split; [|split; [|vm_compute; auto]]]].
  - split; [repeat constructor; cbn; intuition congruence|]. intros src arcs H x y l r E. cbn [m_arcs exm] in H. destruct H as [[= <- <-]|[[= <- <-]|[[= <- <-]|[[= <- <-]|[]]]]]; destruct l as [|? [|? [|? l]]]; cbn in E; inversion E; subst; cbn; lia.
  - intros src arcs H. cbn [m_arcs m_finals exm In] in H |- *. destruct H as [[= <- <-]|[[= <- <-]|[[= <- <-]|[[= <- <-]|[]]]]]; (split; [intros [H|[]]; discriminate|]);
      intros s' a' n [[= <- <-]|[[= <- <-]|[[= <- <-]|[[= <- <-]|[]]]]] [<-|[<-|[<-|[]]]]; vm_compute; intuition discriminate.
  - intros n H. cbn in H. destruct H as [<-|[<-|[<-|[]]]]; vm_compute; intuition discriminate.
  - repeat constructor.
Qed.
(** the encoders of Proofs/Codec.v and simple ones for the alphabet and the machine *)
Example C64_case_read : exists t b, declare (fun _ => true) exd = Some t /\
  let (a, fs) := final_symbols exbase [1; 3; 12] in
  read (fun _ => true) (map (fun c => if (c <? 91)%N then (c + 32)%N else c)) mb_get mb_getS (fun r => Some (a, r)) (fun r => Some (fst (install a fs exm), r))
    (write mb_put mb_putS (fun _ => []) (fun _ => []) a fs exm t) = Some (b, []) /\
  lists_item (b_listslow b) (u "month") (u "july") /\ called_macro b (u "first") = 1 /\ called_macro b (u "frist") = 0 /\ look Nat.eqb 2 (b_finals b) = Some 3.
Proof. eexists. eexists. split; [vm_compute; reflexivity|]. split; [vm_compute; reflexivity|]. vm_compute. split; [eexists; split; [reflexivity|]; repeat (first [left; reflexivity|right])|]. repeat split; reflexivity. Qed.
