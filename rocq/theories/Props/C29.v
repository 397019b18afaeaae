(** C29: choose executes the first when whose test holds. *)
From Coq Require Import String ZArith.
From Verif Require Import Model.Base Proofs.Base Model.TransferRules Spec.TransferRules Proofs.TransferRules Proofs.TransferPure.

(** a <choose>: its <when>s (test, instructions) and possibly an <otherwise> *)
Definition choose (ws : list (cond * list instr)) (o : option (list instr)) : instr :=
  IChoose (map (fun w => (Some (fst w), snd w)) ws ++ match o with Some b => [(None, b)] | None => [] end).

Section C29.
Variable attr_match : str -> str -> str.
Variable attr_replace : str -> str -> str -> str.
Variable copy_case case_from : str -> str -> str.
Variable get_case lower : str -> str.
Variable lists : str -> list str.
Variable dict_case : bool.
Notation test := (test attr_match copy_case case_from get_case lower lists dict_case).
Notation holds := (holds attr_match copy_case case_from get_case lower lists dict_case).
Notation value := (value attr_match copy_case case_from get_case dict_case).
Notation run := (run attr_match attr_replace copy_case case_from get_case lower lists dict_case).
Notation run_list := (run_list attr_match attr_replace copy_case case_from get_case lower lists dict_case).
Variable call : str -> list Z -> rst -> option rst.          (* any way of executing macros *)

(** tests that come out false, one after the other *)
Inductive AllFalse : list (cond * list instr) -> rst -> rst -> Prop :=
| af_nil st : AllFalse [] st st
| af_cons c b l st st1 st2 : test c st = Some (false, st1) -> AllFalse l st1 st2 -> AllFalse ((c, b) :: l) st st2.
Lemma all_false_same l st st' : quiet st -> AllFalse l st st' -> same st st'.
Proof. intros Q H. induction H as [st|c b l st st1 st2 T H IH]; [apply same_refl, Q|]. assert (K := test_same _ _ _ _ _ _ _ _ _ _ _ Q T). apply (same_trans _ _ _ K), IH, K. Qed.
Lemma skip_false pre l st st1 : AllFalse pre st st1 ->
  run_opts attr_match attr_replace copy_case case_from get_case lower lists dict_case call (map (fun w => (Some (fst w), snd w)) pre ++ l) st
  = run_opts attr_match attr_replace copy_case case_from get_case lower lists dict_case call l st1.
Proof. induction 1 as [st|c b pre st st1 st2 T H IH]; [reflexivity|]. cbn [map app run_opts fst snd]. rewrite T. exact IH. Qed.

(** for all tests, and whatever has been evaluated before (contents of the cache): the body of the first <when> whose test
    comes out true is executed and nothing else, and the tests have changed nothing ([shown]: words, variables and their
    word-bound blanks, blank queue, output) *)
Theorem C29_first_when : forall pre c b post o st st1 st2, r_in_let st = false -> r_in_out st = false ->
  AllFalse pre st st1 -> test c st1 = Some (true, st2) ->
  run call (choose (pre ++ (c, b) :: post) o) st = run_list call b st2 /\ shown st2 = shown st.
Proof.
  intros pre c b post o st st1 st2 Q1 Q2 H T. assert (Q : quiet st) by (split; assumption). split.
  - unfold choose. rewrite run_choose, map_app, <- app_assoc, (skip_false _ _ _ _ H). cbn [map app run_opts fst snd]. rewrite T. reflexivity.
  - assert (K := all_false_same _ _ _ Q H). assert (K2 := test_same _ _ _ _ _ _ _ _ _ _ _ (proj1 K) T). exact (eq_trans (proj2 K2) (proj2 K)).
Qed.
(** <otherwise> exactly when no test holds *)
Theorem C29_otherwise : forall ws b st st1, r_in_let st = false -> r_in_out st = false -> AllFalse ws st st1 ->
  run call (choose ws (Some b)) st = run_list call b st1 /\ shown st1 = shown st.
Proof.
  intros ws b st st1 Q1 Q2 H. split; [|exact (proj2 (all_false_same _ _ _ (conj Q1 Q2) H))].
  unfold choose. rewrite run_choose, (skip_false _ _ _ _ H). cbn [run_opts]. destruct (run_list call b st1) as [[z s]|]; [|reflexivity]. destruct (Z.eqb_spec z (-1)); [subst; reflexivity|reflexivity].
Qed.
Theorem C29_nothing : forall ws st st1, r_in_let st = false -> r_in_out st = false -> AllFalse ws st st1 ->
  run call (choose ws None) st = Some ((-1)%Z, st1) /\ shown st1 = shown st.
Proof.
  intros ws st st1 Q1 Q2 H. split; [|exact (proj2 (all_false_same _ _ _ (conj Q1 Q2) H))].
  unfold choose. rewrite run_choose, (skip_false _ _ _ _ H). reflexivity.
Qed.
(** exactly one of the three happens, or a test is undefined *)
Theorem C29_cases : forall ws st, 
  (exists pre c b post st1 st2, ws = pre ++ (c, b) :: post /\ AllFalse pre st st1 /\ test c st1 = Some (true, st2)) \/
  (exists st1, AllFalse ws st st1) \/
  (exists pre c b post st1, ws = pre ++ (c, b) :: post /\ AllFalse pre st st1 /\ test c st1 = None).
Proof.
  induction ws as [|[c b] ws IH]; intros st; [right; left; exists st; constructor|]. destruct (test c st) as [[[|] st1]|] eqn:T.
  - left. exists [], c, b, ws, st, st1. split; [reflexivity|]. split; [constructor|exact T].
  - destruct (IH st1) as [(pre & c' & b' & post & s1 & s2 & -> & A & B)|[(s1 & A)|(pre & c' & b' & post & s1 & -> & A & B)]].
    + left. exists ((c, b) :: pre), c', b', post, s1, s2. split; [reflexivity|]. split; [econstructor; eassumption|exact B].
    + right. left. exists s1. econstructor; eassumption.
    + right. right. exists ((c, b) :: pre), c', b', post, s1. split; [reflexivity|]. split; [econstructor; eassumption|exact B].
  - right. right. exists [], c, b, ws, st. split; [reflexivity|]. split; [constructor|exact T].
Qed.
(** what "comes out true" means: the outcome of a test without units in it is determined by the words, variables and blanks *)
Theorem C29_tests : forall N, functional N -> forall c st b, Inv N plain st -> incl (nodes_c c) N -> simple_c c = true ->
  (holds c (proj st) = Some b <-> exists st', test c st = Some (b, st')).
Proof.
  intros N HN c st b HI Hn Hs. assert (K := test_holds attr_match copy_case case_from get_case lower lists dict_case N HN c st HI Hn Hs). unfold test_ok in K.
  destruct (holds c (proj st)) as [x|].
  - destruct K as (st1 & E & _). split; [intros H; injection H as <-; eauto|]. intros [st' E']. rewrite E in E'. injection E' as <- _. reflexivity.
  - split; [discriminate|]. intros [st' E']. rewrite K in E'. discriminate.
Qed.
(** ... by the usual meaning of the connectives and comparisons *)
Theorem C29_connectives : forall s,
  (forall l bs, Forall2 (fun c b => holds c s = Some b) l bs -> holds (CAnd l) s = Some (forallb id bs) /\ holds (COr l) s = Some (existsb id bs)) /\
  (forall c b, holds c s = Some b -> holds (CNot c) s = Some (negb b)).
Proof.
  intros s. split.
  - intros l bs H. induction H as [|c b l bs Hc H [IH1 IH2]]; [split; reflexivity|]. cbn [TransferRules.holds map fold_right forallb existsb] in *. rewrite Hc. split.
    + destruct b; [exact IH1|reflexivity].
    + destruct b; [reflexivity|exact IH2].
  - intros c b H. cbn. rewrite H. reflexivity.
Qed.
Theorem C29_comparisons : forall s a b x y, value a s = Some x -> value b s = Some y ->
  (holds (CEqual false a b) s = Some true <-> x = y) /\ (holds (CBegins false a b) s = Some true <-> exists r, x = y ++ r) /\
  (holds (CEnds false a b) s = Some true <-> exists r, x = r ++ y) /\ (holds (CContains false a b) s = Some true <-> exists p r, x = p ++ y ++ r) /\
  (forall l, holds (CIn false a l) s = Some true <-> In x (lists l)) /\
  (forall l, holds (CBeginsList false a l) s = Some true <-> exists v r, In v (lists l) /\ x = v ++ r) /\
  (forall l, holds (CEndsList false a l) s = Some true <-> exists v r, In v (lists l) /\ x = r ++ v).
Proof.
  intros s a b x y Ha Hb.
  assert (SO : forall p : bool, Some p = Some true <-> p = true) by (intros p; split; congruence).
  assert (CT : contains x y = true <-> exists p r, x = p ++ y ++ r).
  { clear. induction x as [|c x IH]; cbn [contains].
    - rewrite orb_false_r, begins_spec. split; [intros [r E]; exists [], r; exact E|]. intros (p & r & E). destruct p; [exists r; exact E|discriminate].
    - rewrite orb_true_iff, begins_spec, IH. split.
      + intros [[r E]|(p & r & E)]; [exists [], r; exact E|exists (c :: p), r; cbn; rewrite E; reflexivity].
      + intros ([|d p] & r & E); [left; exists r; exact E|right; exists p, r; cbn in E; injection E as _ E; exact E]. }
  cbn [TransferRules.holds]. unfold cmp, cmp_list, low, list_of. rewrite Ha, Hb. rewrite !SO.
  split; [rewrite str_eqb_eq; reflexivity|]. split; [apply begins_spec|]. split; [apply ends_spec|]. split; [exact CT|].
  split; [|split]; intros l; rewrite SO, existsb_exists.
  - split; [intros (v & Hv & E); apply str_eqb_eq in E as ->; exact Hv|]. intros H. exists x. split; [exact H|apply str_eqb_eq; reflexivity].
  - split; [intros (v & Hv & E); apply begins_spec in E as [r E]; exists v, r; split; assumption|]. intros (v & r & Hv & E). exists v. split; [exact Hv|]. apply begins_spec. exists r. exact E.
  - split; [intros (v & Hv & E); apply ends_spec in E as [r E]; exists v, r; split; assumption|]. intros (v & r & Hv & E). exists v. split; [exact Hv|]. apply ends_spec. exists r. exact E.
Qed.
End C29.
Print Assumptions C29_first_when.
Print Assumptions C29_otherwise.
Print Assumptions C29_nothing.
Print Assumptions C29_cases.
Print Assumptions C29_tests.
Print Assumptions C29_connectives.
Print Assumptions C29_comparisons.

(** the second of three <when>s *)
Definition ex_st : rst := mkr [] None 2 (fun n => if str_eqb n (u "v") then u "b" else []) (fun _ => []) [] false false false [] [] [] (fun _ => None).
Definition ex_when (n : nat) (s : str) : cond * list instr := (CEqual false (XVar n (u "v")) (XLit (S n) s), [IOut [XLit (S (S n)) (u "got " ++ s)]]).
Example C29_example :
  match run (fun _ s => s) (fun _ s _ => s) (fun _ s => s) (fun _ s => s) (fun s => s) (fun s => s) (fun _ => []) false (fun _ _ _ => None)
    (choose [ex_when 0 (u "a"); ex_when 3 (u "b"); ex_when 6 (u "b")] (Some [IOut [XLit 9 (u "other")]])) ex_st with
  | Some (z, st) => (z, r_out st) = ((-1)%Z, u "got b") | None => False end.
Proof. reflexivity. Qed.
