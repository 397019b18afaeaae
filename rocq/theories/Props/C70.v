(** C70: generating the dictionary of one variety (apertium-filter-dix, apertium-genvdix). *)
From Coq Require Import String.
From Verif Require Import Model.Base Model.DictScripts Spec.DictScripts Proofs.Base Proofs.DictScripts.
Open Scope nat_scope.

(** In each direction the new dictionary has the entries of the old one that can be used in it and are of the variety, and in the direction of the side also those of other varieties. *)
Theorem C70_variety_partial lang left d x : covered x ->
  (left = true -> forall a, entry_in a x -> of_variety (fun v => str_eqb v lang) a = false -> att (u "r"%string) a <> Some (u "RL"%string)) ->
  flat_map (view (usable d)) (fd lang left x) =
  view (fun a => usable d a && (of_variety (fun v => str_eqb v lang) a || dir_eqb d (if left then LR else RL))) x.
Proof. intros C NR. apply fd_view; [exact C|]. intros a E L. now apply NR. Qed.
Print Assumptions C70_variety_partial.

(** Filtering again changes nothing, for any document. *)
Theorem C70_again lang left x : flat_map (fd lang left) (fd lang left x) = fd lang left x.
Proof. apply fd_again. Qed.
Print Assumptions C70_again.

(** apertium-genvdix and its two sisters write XML, and it is the document with each list of varieties replaced by the variety wanted or by another name. *)
Theorem C70_written_partial ws var alt n a k : ws 32%N = true -> ws 34%N = false -> printable ws (El n a k) ->
  exists t, relabelled ws var alt [El n a k] t /\ written ws (genv ws var alt (El n a k)) t.
Proof. intros H1 H2 P. exists (newtree ws var alt (El n a k)). split; [apply newtree_relabelled|now apply genv_written]. Qed.
Print Assumptions C70_written_partial.

(** genvdix for a variety and then filter-dix for it: an entry is of the variety if the variety is in its list. *)
Theorem C70_both_partial ws lang left d x (listed : str -> bool) : covered x -> (forall v, listed v = true <-> word ws lang v) ->
  (left = true -> forall a, entry_in a x -> of_variety listed a = false -> att (u "r"%string) a <> Some (u "RL"%string)) ->
  flat_map (view (usable d)) (flat_map (fd lang left) (newtree ws (u "v"%string) lang x)) =
  view (fun a => usable d a && (of_variety listed a || dir_eqb d (if left then LR else RL))) x.
Proof.
  intros C L NR.
  assert (E : forall a, of_variety listed a = of_variety (Proofs.DictScripts.listed ws lang) a).
  { intros a. unfold of_variety. destruct (att (u "v"%string) a) as [v|]; [|reflexivity]. apply bool_iff. now rewrite L, listed_spec. }
  rewrite both_view.
  - assert (V : forall p q y, (forall a, p a = q a) -> view p y = view q y).
    { intros p q y H. induction y as [n a k IH|s|s] using xml_ind'; [|reflexivity|reflexivity]. cbn [view]. rewrite H. rewrite (fm_eq _ _ _ IH). reflexivity. }
    apply V. intros a. now rewrite E.
  - exact C.
  - intros a I LF F. rewrite <- E in F. now apply NR.
Qed.
Print Assumptions C70_both_partial.

(** ** Instances *)
Notation e := (fun (r v : option string) (k : list xml) => El (u "e"%string) ((match r with Some x => [(u "r"%string, u x)] | None => [] end) ++ (match v with Some x => [(u "v"%string, u x)] | None => [] end)) k).
Notation w := (fun x : string => [El (u "i"%string) [] [Tx (u x)]]).
Definition dix1 : xml := El (u "dictionary"%string) []
  [El (u "alphabet"%string) [] [Tx (u "abc"%string)];
   El (u "section"%string) [(u "id"%string, u "main"%string); (u "type"%string, u "standard"%string)]
     [e None (Some "ca"%string) (w "a"%string); Mk (u "x"%string); e (Some "LR"%string) (Some "val"%string) (w "b"%string); e (Some "LR"%string) None (w "c"%string); e None (Some "val"%string) (w "d"%string)]].
Example C70_covered : covered dix1.
Proof.
  unfold dix1. apply V_bare; [cbn; auto 12|].
  repeat (first [apply V_text | apply V_comment | apply V_section | (apply V_entry; [repeat (constructor; [cbn; auto|]); constructor|]) | (apply V_bare; [cbn; auto 12|]) | constructor]).
Qed.
Example C70_no_reverse : forall a, entry_in a dix1 -> of_variety (fun v => str_eqb v (u "ca"%string)) a = false -> att (u "r"%string) a <> Some (u "RL"%string).
Proof.
  assert (G : forall a x, entry_in a x -> forall n b k, x = El n b k -> (n = u "e"%string /\ a = b) \/ exists y, In y k /\ entry_in a y).
  { intros a x E n b k ->. inversion E; subst; eauto. }
  intros a E _. apply (fun E => G _ _ E _ _ _ eq_refl) in E. destruct E as [[E _]|(y & I & E)]; [discriminate|].
  cbn [In] in I. destruct I as [<-|[<-|[]]]; apply (fun E => G _ _ E _ _ _ eq_refl) in E; destruct E as [[E _]|(y & I & E)]; try discriminate.
  - cbn [In] in I. destruct I as [<-|[]]. inversion E.
  - cbn [In] in I. destruct I as [<-|[<-|[<-|[<-|[<-|[]]]]]]; try (inversion E; fail); apply (fun E => G _ _ E _ _ _ eq_refl) in E; (destruct E as [[_ ->]|(y & I & E)]; [discriminate|]);
      cbn [In] in I; destruct I as [<-|[]]; apply (fun E => G _ _ E _ _ _ eq_refl) in E; (destruct E as [[E _]|(y & I & E)]; [discriminate|]); cbn [In] in I; destruct I as [<-|[]]; inversion E.
Qed.
Example C70_run : fd (u "ca"%string) false dix1 =
  [El (u "dictionary"%string) [] [El (u "alphabet"%string) [] [Tx (u "abc"%string)];
   El (u "section"%string) [(u "id"%string, u "main"%string); (u "type"%string, u "standard"%string)]
     [e None None (w "a"%string); e (Some "LR"%string) None (w "c"%string); e (Some "RL"%string) None (w "d"%string)]]].
Proof. vm_compute. reflexivity. Qed.
Definition blank (c : char) : bool := (c =? 32)%N || (c =? 10)%N.
Example C70_genv_run : genv blank (u "v"%string) (u "val"%string) (El (u "d"%string) [] [El (u "e"%string) [(u "v"%string, u "ca val"%string); (u "lm"%string, u "a&b"%string)] []; El (u "e"%string) [(u "v"%string, u "valx"%string)] [Tx (u "<"%string)]])
  = u "<d><e lm="%string ++ [34%N] ++ u "a&amp;b"%string ++ [34%N] ++ u " v="%string ++ [34%N] ++ u "val"%string ++ [34%N] ++ u "/><e v="%string ++ [34%N] ++ u "other"%string ++ [34%N] ++ u ">&lt;</e></d>"%string.
Proof. vm_compute. reflexivity. Qed.
Example C70_printable : printable blank (El (u "d"%string) [] [El (u "e"%string) [(u "v"%string, u "ca val"%string); (u "lm"%string, u "a&b"%string)] []; El (u "e"%string) [(u "v"%string, u "valx"%string)] [Tx (u "<"%string)]]).
Proof.
  assert (PR : forall n, n <> [] -> Forall (fun c => blank c = false /\ ~ In c [60; 62; 47; 61; 34; 38]%N) n -> proper blank n) by (split; auto).
  Ltac ok PR := apply PR; [discriminate|repeat (constructor; [split; [reflexivity|cbn; intuition discriminate]|]); constructor].
  unfold printable. repeat (constructor; try (ok PR); try (cbn; intuition discriminate)).
Qed.

(** ** What does not hold *)
(** An entry of another variety for generation only: in the left dictionary it becomes one for analysis only. *)
Theorem C70_reverse_refuted : exists x, covered x /\
  flat_map (view (usable LR)) (fd (u "ca"%string) true x) <> view (fun a => usable LR a && (of_variety (fun v => str_eqb v (u "ca"%string)) a || dir_eqb LR LR)) x.
Proof.
  exists (e (Some "RL"%string) (Some "val"%string) (w "a"%string)). split; [|vm_compute; discriminate].
  apply V_entry; [repeat (constructor; [cbn; auto|]); constructor|]. constructor; [|constructor]. apply V_bare; [cbn; auto 12|]. constructor; constructor.
Qed.
Print Assumptions C70_reverse_refuted.
(** An element that the style sheet does not know loses its tags. *)
Example C70_unknown : fd (u "ca"%string) true (e None None [El (u "ig"%string) [] [Tx (u "a"%string)]; El (u "l"%string) [] [El (u "t"%string) [(u "n"%string, u "x"%string)] []; Tx (u "b"%string)]])
  = [e None None [Tx (u "a"%string); El (u "l"%string) [] [Tx (u "b"%string)]]].
Proof. vm_compute. reflexivity. Qed.
(** Entries lose the attributes other than r: two that differ in being ignored come out the same. *)
Theorem C70_attributes_refuted : exists a b, att (u "i"%string) a = Some (u "yes"%string) /\ att (u "i"%string) b = None /\ forall k, fd [] true (El (u "e"%string) a k) = fd [] true (El (u "e"%string) b k).
Proof. exists [(u "i"%string, u "yes"%string)], []. repeat split. Qed.
Print Assumptions C70_attributes_refuted.
(** Quotes in attributes are not escaped: different documents are written alike. *)
Theorem C70_quotes_refuted : exists x y, x <> y /\ (forall var alt, var <> u "a"%string -> var <> u "b"%string -> genv blank var alt x = genv blank var alt y).
Proof.
  exists (El (u "e"%string) [(u "a"%string, u "x"%string ++ [34%N] ++ u " b="%string ++ [34%N] ++ u "y"%string)] []),
         (El (u "e"%string) [(u "a"%string, u "x"%string); (u "b"%string, u "y"%string)] []).
  split; [discriminate|]. intros var alt N1 N2. unfold genv. cbn [events flat_map app fold_left step fst snd].
  unfold new_attrs. cbn [att]. rewrite (str_eqb_n (u "a"%string) var), (str_eqb_n (u "b"%string) var) by congruence. vm_compute. reflexivity.
Qed.
Print Assumptions C70_quotes_refuted.
