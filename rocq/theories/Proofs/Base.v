(** Shared tactics and lemmas. *)
From Verif Require Export Model.Base.

Lemma ceq_eq a b : (a =?c b) = true <-> a = b.
Proof. apply N.eqb_eq. Qed.
Lemma ceq_neq a b : (a =?c b) = false <-> a <> b.
Proof. apply N.eqb_neq. Qed.
Lemma ceq_refl a : (a =?c a) = true.
Proof. apply N.eqb_refl. Qed.
Lemma ceq_spec a b : reflect (a = b) (a =?c b).
Proof. apply N.eqb_spec. Qed.

Lemma str_eqb_eq a b : str_eqb a b = true <-> a = b.
Proof. unfold str_eqb; destruct (list_eq_dec N.eq_dec a b); intuition congruence. Qed.
Lemma str_eqb_refl a : str_eqb a a = true.
Proof. apply str_eqb_eq; reflexivity. Qed.
Lemma str_eqb_neq a b : str_eqb a b = false <-> a <> b.
Proof. unfold str_eqb; destruct (list_eq_dec N.eq_dec a b); intuition congruence. Qed.

Lemma mem_In c l : mem c l = true <-> In c l.
Proof.
  unfold mem; rewrite existsb_exists; split.
  - intros [x [Hx He]]; apply N.eqb_eq in He; subst; exact Hx.
  - intros H; exists c; split; [exact H | apply N.eqb_refl].
Qed.
Lemma mem_nIn c l : mem c l = false <-> ~ In c l.
Proof. rewrite <- mem_In; destruct (mem c l); intuition congruence. Qed.

(** Case split on one character comparison, substituting in the positive case. *)
Ltac ceq_case a b :=
  let E := fresh "E" in
  destruct (ceq_spec a b) as [E|E]; [try (subst a || subst b) |].

(** Normalise appends and close by reflexivity. *)
Ltac appeq := repeat (progress (rewrite <- ?app_assoc; cbn [app])); rewrite ?app_nil_r; try reflexivity.
