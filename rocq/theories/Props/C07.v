(** C07: apertium-pretransfer splits joined units and moves the lemma queue behind the first lemma. *)
From Coq Require Import String.
From Verif Require Import Model.Base Model.Pretransfer Spec.Pretransfer Proofs.Pretransfer.

Theorem C07_split_unit : forall cs p l1 q l2,
  first_ok p = true -> forallb later_ok l1 = true -> queue_ok q = true -> forallb later_ok l2 = true ->
  after_ok q l2 = true -> exists fuel0, forall fuel, fuel0 <= fuel ->
  processStream fuel false cs ([cCARET] ++ body p l1 q l2 ++ [cDOL])
  = Done ([cCARET] ++ split_body cs [] p l1 q l2 ++ [cDOL]).
Proof. exact pretransfer_unit. Qed.
Print Assumptions C07_split_unit.

(** With a word-bound blank, every resulting unit carries it. *)
Theorem C07_split_unit_wblank : forall cs w p l1 q l2, forallb (pwf_t [cRB]) w = true ->
  first_ok p = true -> forallb later_ok l1 = true -> queue_ok q = true -> forallb later_ok l2 = true ->
  after_ok q l2 = true -> exists fuel0, forall fuel, fuel0 <= fuel ->
  processStream fuel false cs (wb_text w ++ [cCARET] ++ body p l1 q l2 ++ [cDOL])
  = Done (wb_text w ++ [cCARET] ++ split_body cs (wb_text w) p l1 q l2 ++ [cDOL]).
Proof. exact pretransfer_wunit. Qed.
Print Assumptions C07_split_unit_wblank.

(** With surface forms the part up to the slash is dropped and the rest treated in the same way. *)
Theorem C07_surface_forms : forall cs s b, forallb (pwf_t [cSLASH]) s = true -> ~ In cDOL b ->
  exists fuel0, forall fuel, fuel0 <= fuel ->
  processStream fuel true cs ([cCARET] ++ render_ts s ++ [cSLASH] ++ b ++ [cDOL])
  = processStream fuel false cs ([cCARET] ++ b ++ [cDOL]).
Proof. exact pretransfer_surface. Qed.
Print Assumptions C07_surface_forms.

(** Outside the documented shape: a queue on a second part is moved to the FIRST lemma. *)
Theorem C07_second_queue_refuted :
  processStream 20 false false (u "^a<n># b+c<v># d$") = Done (u "^a# b# d<n>$ ^c<v>$").
Proof. vm_compute. reflexivity. Qed.
Print Assumptions C07_second_queue_refuted.

Example C07_example :
  let p := mkpart (u "echar") [u "vblex"; u "inf"] in
  let l := [(Plus, mkpart (u "lo") [u "prn"]); (Tilde, mkpart (u "x") [u "n"])] in
  let q := Some (u " de menos") in
  first_ok p = true /\ forallb later_ok l = true /\ queue_ok q = true /\ after_ok q [] = true /\
  body p l q [] = u "echar<vblex><inf>+lo<prn>~x<n># de menos" /\
  split_body true [] p l q [] = u "echar# de menos<vblex><inf>$ ^lo<prn>$^x<n>" /\
  split_body false [] p l q [] = u "echar# de menos<vblex><inf>$ ^lo<prn>x<n>".
Proof. vm_compute. repeat split. Qed.
