(** C18: feature vectors behave as sparse vectors over exact rationals.
    [den m k] (Spec/FeatureVec.v) is the weight vector [m] gives to feature [k], 0 when absent.
    [fsorted] is the std::map representation invariant; C18_representation shows every constructor and operation
    establishes or keeps it. *)
From Coq Require Import String QArith.
From Verif Require Import Model.Base Model.Codec Model.FeatureVec Spec.FeatureVec Proofs.FeatureVec.
Open Scope nat_scope.

Theorem C18_representation :
  fsorted [] /\ (forall uv, fsorted (of_unary uv)) /\
  (forall m o, fsorted m -> fsorted (add_vec m o)) /\ (forall m o, fsorted m -> fsorted (sub_vec m o)) /\
  (forall m uv, fsorted m -> fsorted (add_unary m uv)) /\ (forall m uv, fsorted m -> fsorted (sub_unary m uv)) /\
  (forall m, fsorted m -> NoDup (map fst m)).
Proof.
  exact (conj eq_refl (conj (fun uv => proj1 (of_unary_spec uv)) (conj (fun m o => proj1 (add_vec_spec o m))
        (conj (fun m o => proj1 (sub_vec_spec o m)) (conj (fun m uv => proj1 (unary_spec 1 uv m))
        (conj (fun m uv => proj1 (unary_spec (-(1)) uv m)) fsorted_simple)))))).
Qed.
Print Assumptions C18_representation.

Theorem C18_add : forall m o k, (den (add_vec m o) k == den m k + den o k)%Q.
Proof. exact (fun m o => proj2 (add_vec_spec o m)). Qed.
Print Assumptions C18_add.
Theorem C18_sub : forall m o k, (den (sub_vec m o) k == den m k - den o k)%Q.
Proof. exact (fun m o => proj2 (sub_vec_spec o m)). Qed.
Print Assumptions C18_sub.

(** a unary vector counts with multiplicity in += and -= *)
Theorem C18_add_unary : forall m uv k, (den (add_unary m uv) k == den m k + Qnat (count_occ key_dec uv k))%Q.
Proof. exact add_unary_den. Qed.
Print Assumptions C18_add_unary.
Theorem C18_sub_unary : forall m uv k, (den (sub_unary m uv) k == den m k - Qnat (count_occ key_dec uv k))%Q.
Proof. exact sub_unary_den. Qed.
Print Assumptions C18_sub_unary.

(** but is collapsed by the constructor *)
Theorem C18_of_unary : forall uv k, (den (of_unary uv) k == if in_dec key_dec k uv then 1 else 0)%Q.
Proof. exact (fun uv => proj2 (of_unary_spec uv)). Qed.
Print Assumptions C18_of_unary.

(** dot products: sums over the listed features, resp. over every feature of any list covering the left operand *)
Theorem C18_dot_unary : forall m uv, fsorted m -> (dot_unary m uv == fold_right (fun k s => den m k + s) 0 uv)%Q.
Proof. exact dot_unary_spec. Qed.
Print Assumptions C18_dot_unary.
Theorem C18_dot : forall l r ks, fsorted l -> fsorted r -> NoDup ks -> incl (map fst l) ks ->
  (dot_vec l r == fold_right (fun k s => den l k * den r k + s) 0 ks)%Q.
Proof. exact dot_vec_cover. Qed.
Print Assumptions C18_dot.
Theorem C18_dot_comm : forall l r, fsorted l -> fsorted r -> (dot_vec l r == dot_vec r l)%Q.
Proof. exact dot_vec_comm. Qed.
Print Assumptions C18_dot_comm.

(** The constructor and += disagree on a repeated feature: FeatureVec(uv) is not FeatureVec() += uv. *)
Theorem C18_constructor_collapses : exists uv k, ~ (den (of_unary uv) k == den (add_unary [] uv) k)%Q.
Proof. exists [[u "f"]; [u "f"]], [u "f"]. vm_compute. discriminate. Qed.
Print Assumptions C18_constructor_collapses.

Example C18_example :
  let a := add_unary [] [[u "w"; u "dog"]; [u "t"]; [u "w"]; [u "t"]]%string in
  let b := sub_unary [] [[u "t"]; [u "w"; u "dog"]; [u "z"]]%string in
  fsorted a /\ fsorted b /\ length a = 3 /\ (dot_vec a b == -(3))%Q.
Proof. repeat split; reflexivity. Qed.
