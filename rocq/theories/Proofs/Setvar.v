(** Proofs about preferences. *)
From Coq Require Import String.
From Verif Require Import Model.Base Proofs.Base Model.Setvar Spec.Setvar.
Open Scope nat_scope.

Lemma cut_none c s : ~ In c s -> cut c s = (s, None).
Proof.
  induction s as [|x r IH]; intros H; [reflexivity|]. cbn. rewrite (proj2 (ceq_neq x c)) by (intros ->; apply H; left; reflexivity).
  rewrite IH by (intros K; apply H; right; exact K). reflexivity.
Qed.
Lemma cut_some c a b : ~ In c a -> cut c (a ++ c :: b) = (a, Some b).
Proof.
  induction a as [|x r IH]; intros H; cbn. { rewrite ceq_refl. reflexivity. }
  rewrite (proj2 (ceq_neq x c)) by (intros ->; apply H; left; reflexivity).
  rewrite IH by (intros K; apply H; right; exact K). reflexivity.
Qed.
Lemma split_nil c s : split c s <> [].
Proof. destruct s as [|x r]; cbn; [discriminate|]. destruct (x =?c c); [discriminate|]. destruct (split c r); discriminate. Qed.
Lemma split_one c s : ~ In c s -> split c s = [s].
Proof.
  induction s as [|x r IH]; intros H; [reflexivity|]. cbn. rewrite (proj2 (ceq_neq x c)) by (intros ->; apply H; left; reflexivity).
  rewrite IH by (intros K; apply H; right; exact K). reflexivity.
Qed.
Lemma split_app c a b : ~ In c a -> split c (a ++ c :: b) = a :: split c b.
Proof.
  induction a as [|x r IH]; intros H; cbn. { rewrite ceq_refl. reflexivity. }
  rewrite (proj2 (ceq_neq x c)) by (intros ->; apply H; left; reflexivity).
  rewrite IH by (intros K; apply H; right; exact K). reflexivity.
Qed.
Lemma split_join c l : l <> [] -> Forall (fun x => ~ In c x) l -> split c (join c l) = l.
Proof.
  induction l as [|a r IH]; intros N H; [congruence|]. inversion H as [|? ? Ha Hr]; subst. destruct r as [|b r]; [apply split_one; exact Ha|].
  change (join c (a :: b :: r)) with (a ++ c :: join c (b :: r)). rewrite split_app by exact Ha. rewrite IH by (discriminate || exact Hr). reflexivity.
Qed.
Lemma join_cons c a b r : join c (a :: b :: r) = a ++ c :: join c (b :: r).
Proof. reflexivity. Qed.

Lemma in_join c x l : In x (join c l) -> x = c \/ exists p, In p l /\ In x p.
Proof.
  induction l as [|a r IH]; [intros []|]. destruct r as [|b r]. { intros H. right. exists a. split; [left; reflexivity|exact H]. }
  rewrite join_cons. intros H. apply in_app_or in H. destruct H as [H|[<-|H]].
  - right. exists a. split; [left; reflexivity|exact H].
  - left. reflexivity.
  - destruct (IH H) as [->|[p [Hp K]]]; [left; reflexivity|]. right. exists p. split; [right; exact Hp|exact K].
Qed.
Lemma without_in cs t c : without cs t -> In c cs -> ~ In c t.
Proof. intros H. exact (H c). Qed.

(** ** Exceptions *)
Lemma join_snoc c l x : l <> [] -> join c (l ++ [x]) = join c l ++ c :: x.
Proof.
  induction l as [|a r IH]; intros H; [congruence|]. destruct r as [|b r]; [reflexivity|].
  change ((a :: b :: r) ++ [x]) with (a :: b :: (r ++ [x])). rewrite join_cons. change (b :: (r ++ [x])) with ((b :: r) ++ [x]).
  rewrite IH by discriminate. rewrite join_cons, <- app_assoc. reflexivity.
Qed.
Lemma join_nil c l : Forall (fun x : str => x <> []) l -> join c l = [] -> l = [].
Proof.
  destruct l as [|a r]; [reflexivity|]. intros H. inversion H; subst. destruct r; cbn; [congruence|]. destruct a; [congruence|discriminate].
Qed.
Lemma keep_spec skip ids done :
  Forall (fun x : str => x <> []) ids -> Forall (fun x : str => x <> []) done ->
  keep_all skip ids (join cCOLON done) = join cCOLON (done ++ filter (fun o => negb (existsb (str_eqb o) skip)) ids).
Proof.
  revert done. induction ids as [|i r IH]; intros d Hi Hd; cbn. { rewrite app_nil_r. reflexivity. }
  inversion Hi as [|? ? Ni Nr]; subst. destruct (existsb (str_eqb i) skip); cbn [negb]; [apply IH; assumption|].
  replace (d ++ i :: filter _ r) with ((d ++ [i]) ++ filter (fun o => negb (existsb (str_eqb o) skip)) r) by (rewrite <- app_assoc; reflexivity).
  rewrite <- IH; [|exact Nr|apply Forall_app; split; [exact Hd|constructor; [exact Ni|constructor]]].
  f_equal. destruct (join cCOLON d) as [|c t] eqn:J.
  - rewrite (join_nil _ _ Hd J). reflexivity.
  - rewrite join_snoc by (intros ->; discriminate J). rewrite J, <- app_assoc. reflexivity.
Qed.
Lemma invert_spec p key l : Forall name_ok l -> Forall (fun x : str => x <> []) (p key) ->
  invert p key (join cCOLON l) = join cCOLON (filter (fun o => negb (existsb (str_eqb o) l)) (p key)).
Proof.
  intros H N. unfold invert, awk_split.
  assert (E : match join cCOLON l with [] => [] | _ => split cCOLON (join cCOLON l) end = l).
  { destruct l as [|a r]; [reflexivity|]. rewrite split_join.
    - destruct (join cCOLON (a :: r)) eqn:J; [|reflexivity]. apply join_nil in J; [discriminate|].
      eapply Forall_impl; [|exact H]. intros x Hx. exact (proj1 Hx).
    - discriminate.
    - eapply Forall_impl; [|exact H]. intros x Hx. apply (without_in _ _ _ (proj2 Hx)). cbn. tauto. }
  rewrite E. change (@nil char) with (join cCOLON []) at 1. rewrite (keep_spec l (p key) []) by (exact N || constructor). reflexivity.
Qed.

(** ** Reading what was written *)
Lemma read_plain k : ~ In cEQ k -> read_kv k = (k, []).
Proof. intros H. unfold read_kv. rewrite cut_none by exact H. reflexivity. Qed.
Lemma read_value k v : ~ In cEQ k -> ~ In cEQ v -> read_kv (k ++ cEQ :: v) = (k, v).
Proof. intros H K. unfold read_kv. rewrite cut_some by exact H. rewrite cut_none by exact K. reflexivity. Qed.

Lemma name_in (n : str) c : name_ok n -> c = 44%N \/ c = 61%N \/ c = 58%N \/ c = 10%N -> ~ In c n.
Proof. intros [_ H] K. apply H. cbn. intuition. Qed.
Lemma key_in (n : str) c : key_ok n -> c = 44%N \/ c = 61%N \/ c = 10%N -> ~ In c n.
Proof. intros [_ [_ H]] K. apply H. cbn. intuition. Qed.
Lemma names_in l c : Forall name_ok l -> c = 44%N \/ c = 61%N \/ c = 10%N -> ~ In c (join cCOLON l).
Proof.
  intros H K I. apply in_join in I. destruct I as [->|[p [Hp I]]].
  - unfold cCOLON in K. destruct K as [K|[K|K]]; discriminate.
  - rewrite Forall_forall in H. apply (name_in p c (H p Hp)); [tauto|exact I].
Qed.
Definition sep (acc : str) : str := match acc with [] => [] | _ => acc ++ [cCOMMA] end.
Lemma step_write o p acc : pref_ok p -> Forall (fun x : str => x <> []) (o (fst p)) -> step o acc (write p) = sep acc ++ write (meant o p).
Proof.
  intros [K W] N. destruct p as [k w]. cbn [fst snd] in *. unfold write, meant. cbn [fst snd].
  assert (NE : ~ In cEQ k) by (apply (key_in k cEQ K); tauto).
  destruct k as [|k0 k']; [destruct K; congruence|].
  destruct w as [|l|l].
  - rewrite !app_nil_r. unfold step. rewrite read_plain by exact NE. reflexivity.
  - destruct W as [Wl [Wf Wd]]. change (u "="%string ++ join 58%N l) with (cEQ :: join cCOLON l). unfold step.
    rewrite read_value by (exact NE || (apply names_in; [exact Wf|tauto])).
    assert (J : exists a0 t, join cCOLON l = a0 :: t /\ a0 <> cDASH).
    { destruct l as [|a r]; [congruence|]. inversion Wf as [|? ? Wa Wr]; subst. destruct a as [|a0 a']; [destruct Wa; congruence|].
      cbn [hd] in Wd. destruct r; [exists a0, a'; split; [reflexivity|exact Wd]|]. rewrite join_cons. eexists; eexists; split; [reflexivity|exact Wd]. }
    destruct J as [a0 [t [J D]]]. change (join 58%N l) with (join cCOLON l). rewrite J. rewrite (proj2 (ceq_neq a0 cDASH)) by exact D. unfold sep. rewrite <- app_assoc. reflexivity.
  - change (u "=-"%string ++ join 58%N l) with (cEQ :: cDASH :: join cCOLON l). unfold step.
    rewrite read_value; [|exact NE|].
    + rewrite ceq_refl. rewrite invert_spec by (exact W || exact N). unfold sep. rewrite <- app_assoc. reflexivity.
    + intros [E|I]; [discriminate E|]. revert I. apply names_in; [exact W|tauto].
Qed.
Lemma write_head o p : pref_ok p -> exists c r, write (meant o p) = c :: r /\ c <> 45%N.
Proof.
  intros [[Kn [Kd _]] _]. destruct p as [[|c k] w]; [exfalso; apply Kn; reflexivity|]. cbn in Kd. unfold write, meant. cbn. eexists; eexists; split; [reflexivity|exact Kd].
Qed.
Lemma fold_write o ps done : Forall pref_ok ps -> (forall k, Forall (fun x : str => x <> []) (o k)) -> Forall pref_ok done ->
  fold_left (step o) (map write ps) (join 44%N (map write (map (meant o) done))) = join 44%N (map write (map (meant o) (done ++ ps))).
Proof.
  revert done. induction ps as [|p r IH]; intros d H N D; cbn. { rewrite app_nil_r. reflexivity. }
  inversion H as [|? ? Hp Hr]; subst. rewrite step_write by (exact Hp || apply N).
  replace (d ++ p :: r) with ((d ++ [p]) ++ r) by (rewrite <- app_assoc; reflexivity).
  rewrite <- IH; [|exact Hr|exact N|apply Forall_app; split; [exact D|constructor; [exact Hp|constructor]]].
  f_equal. rewrite !map_app. cbn [map]. destruct d as [|d0 d']; [reflexivity|].
  rewrite join_snoc by discriminate. unfold sep. inversion D as [|? ? D0 D1]; subst.
  destruct (join 44%N (map write (map (meant o) (d0 :: d')))) as [|x y] eqn:J.
  - cbn [map] in J. destruct (write_head o d0 D0) as [c [t [E _]]]. rewrite E in J. destruct (map write (map (meant o) d')); discriminate J.
  - rewrite <- app_assoc. reflexivity.
Qed.
Lemma write_no_comma p : pref_ok p -> ~ In cCOMMA (write p).
Proof.
  intros [K W] I. unfold write in I. apply in_app_or in I. destruct I as [I|I]; [revert I; apply (key_in _ _ K); tauto|].
  destruct (snd p) as [|l|l]; [exact I| |].
  - destruct I as [E|I]; [discriminate E|]. destruct W as [_ [W _]]. revert I. apply names_in; [exact W|tauto].
  - destruct I as [E|[E|I]]; [discriminate E|discriminate E|]. revert I. apply names_in; [exact W|tauto].
Qed.
Lemma new_value_spec o ps : Forall pref_ok ps -> (forall k, Forall (fun x : str => x <> []) (o k)) -> new_value o (write_all ps) = write_all (map (meant o) ps).
Proof.
  intros H N. unfold new_value, write_all. destruct ps as [|p r]; [reflexivity|]. change 44%N with cCOMMA. rewrite split_join.
  - exact (fold_write o (p :: r) [] H N (Forall_nil _)).
  - discriminate.
  - apply Forall_forall. intros x Hx. apply in_map_iff in Hx. destruct Hx as [q [<- Hq]]. apply write_no_comma. rewrite Forall_forall in H. exact (H q Hq).
Qed.

Lemma chomp_id s : ~ In cNL s -> chomp s = s.
Proof.
  induction s as [|x r IH]; intros H; [reflexivity|]. cbn. rewrite IH by (intros K; apply H; right; exact K).
  destruct r; [|reflexivity]. rewrite (proj2 (ceq_neq x cNL)) by (intros ->; apply H; left; reflexivity). reflexivity.
Qed.
Lemma echo_id s : hd 0%N s <> cDASH -> echo s = s.
Proof. intros H. destruct s as [|c [|d r]]; try reflexivity. cbn in H. unfold echo. rewrite (proj2 (ceq_neq c cDASH)) by exact H. reflexivity. Qed.

Definition found (files : str -> option prefs) (d pair : str) : option prefs :=
  let file n := files (d ++ u "/prefs/"%string ++ n ++ u ".xml"%string) in
  match file pair with Some p => Some p | None => file (base pair) end.
Lemma setvar_found files d pair var o : found files d pair = Some o -> setvar files d pair var = chomp (echo (new_value o var)).
Proof. intros H. unfold setvar. unfold found in H. cbv zeta in *. destruct (files (d ++ u "/prefs/"%string ++ pair ++ u ".xml"%string)); rewrite ?H; [injection H as ->; reflexivity|reflexivity]. Qed.
Lemma setvar_none files d pair var : found files d pair = None -> setvar files d pair var = chomp (echo var).
Proof. intros H. unfold setvar. unfold found in H. cbv zeta in *. destruct (files (d ++ u "/prefs/"%string ++ pair ++ u ".xml"%string)); [discriminate|rewrite H; reflexivity]. Qed.

Definition options_ok (o : prefs) : Prop := forall k, Forall name_ok (o k).
Lemma names_nonempty l : Forall name_ok l -> Forall (fun x : str => x <> []) l.
Proof. apply Forall_impl. intros x Hx. exact (proj1 Hx). Qed.
Lemma filter_ok (f : str -> bool) l : Forall name_ok l -> Forall name_ok (filter f l).
Proof. intros H. apply Forall_forall. intros x Hx. apply filter_In in Hx. rewrite Forall_forall in H. exact (H x (proj1 Hx)). Qed.
Lemma meant_no_nl o p : pref_ok p -> options_ok o -> ~ In cNL (write (meant o p)).
Proof.
  intros [K W] O I. unfold write, meant in I. cbn [fst snd] in I. apply in_app_or in I. destruct I as [I|I]; [revert I; apply (key_in _ _ K); tauto|].
  destruct (snd p) as [|l|l]; [exact I| |].
  - destruct I as [E|I]; [discriminate E|]. destruct W as [_ [W _]]. revert I. apply names_in; [exact W|tauto].
  - destruct I as [E|I]; [discriminate E|]. revert I. apply names_in; [apply filter_ok, O|tauto].
Qed.
Theorem setvar_spec files d pair o ps : found files d pair = Some o -> options_ok o -> Forall pref_ok ps ->
  setvar files d pair (write_all ps) = write_all (map (meant o) ps).
Proof.
  intros F O H. rewrite (setvar_found _ _ _ _ _ F). rewrite new_value_spec by (exact H || (intros k; apply names_nonempty, O)).
  rewrite echo_id.
  - apply chomp_id. intros I. unfold write_all in I. apply in_join in I. destruct I as [E|[t [Ht I]]]; [discriminate E|].
    rewrite map_map in Ht. apply in_map_iff in Ht. destruct Ht as [q [<- Hq]]. rewrite Forall_forall in H. revert I. apply meant_no_nl; [exact (H q Hq)|exact O].
  - destruct ps as [|p r]; [discriminate|]. inversion H as [|? ? Hp Hr]; subst. destruct (write_head o p Hp) as [c [t [E C]]].
    unfold write_all. cbn [map]. rewrite E. destruct (map write (map (meant o) r)); exact C.
Qed.
Lemma base_spec a b : ~ In cDASH b -> base (a ++ cDASH :: b) = a.
Proof.
  intros H. unfold base. assert (E0 : forall b, ~ In cDASH b -> cut_last b = None).
  { induction b0 as [|x r IH]; intros K; [reflexivity|]. cbn. rewrite IH by (intros L; apply K; right; exact L).
    rewrite (proj2 (ceq_neq x cDASH)) by (intros ->; apply K; left; reflexivity). reflexivity. }
  assert (E : cut_last (a ++ cDASH :: b) = Some a).
  { induction a as [|x r IH]; cbn. { rewrite (E0 b H). reflexivity. } rewrite IH. reflexivity. }
  rewrite E. reflexivity.
Qed.

(** ** The stream *)
Definition term (c : char) : bool := (c =?c cNUL) || (c =?c cNL).
Lemma records_cons c r : term c = false -> records (c :: r) = match records r with (w, t) :: l => (c :: w, t) :: l | [] => [([c], [])] end.
Proof. unfold term. intros H. cbn. rewrite H. reflexivity. Qed.
Lemma records_term c r : term c = true -> records (c :: r) = ([], [c]) :: records r.
Proof. unfold term. intros H. cbn. rewrite H. reflexivity. Qed.
Lemma records_app p s : Forall (fun c => term c = false) p -> p <> [] -> records (p ++ s) = match records s with (w, t) :: l => (p ++ w, t) :: l | [] => [(p, [])] end.
Proof.
  induction p as [|c p IH]; intros H N; [congruence|]. inversion H as [|? ? Hc Hp]; subst. change ((c :: p) ++ s) with (c :: (p ++ s)).
  rewrite records_cons by exact Hc. destruct p as [|d p].
  - cbn [app]. destruct (records s) as [|[w t] l]; reflexivity.
  - rewrite IH by (exact Hp || discriminate). destruct (records s) as [|[w t] l]; reflexivity.
Qed.
Lemma records_text s : flat_map (fun rt => fst rt ++ snd rt) (records s) = s.
Proof.
  induction s as [|c r IH]; [reflexivity|]. destruct (term c) eqn:T.
  - rewrite records_term by exact T. cbn. f_equal. exact IH.
  - rewrite records_cons by exact T. destruct (records r) as [|[w t] l]; cbn in *; subst; [reflexivity|]. reflexivity.
Qed.
Lemma records_nil s : records s = [] -> s = [].
Proof. intros H. rewrite <- (records_text s), H. reflexivity. Qed.
Lemma begins_spec p s r : begins p s = Some r <-> s = p ++ r.
Proof.
  revert s. induction p as [|a p IH]; intros s; cbn. { split; [intros [= ->]; reflexivity|intros ->; reflexivity]. }
  destruct s as [|b s]; [split; discriminate|]. ceq_case a b.
  - rewrite IH. split; [intros ->; reflexivity|intros [= ->]; reflexivity].
  - split; [discriminate|]. intros [= -> _]. congruence.
Qed.
Lemma match_begins s n : match_len s = Some n -> exists r, s = head ++ r.
Proof. unfold match_len. destruct (begins head s) as [r|] eqn:E; [|discriminate]. intros _. exists r. apply begins_spec. exact E. Qed.
Lemma gsub_skip a s : gsub (length a) (a ++ s) = gsub 0 s.
Proof. induction a as [|c a IH]; [reflexivity|]. cbn. exact IH. Qed.
Lemma command_len v s : ~ In cGT v -> match_len (command v ++ s) = Some (length (command v)).
Proof.
  intros H. unfold match_len. replace (begins head (command v ++ s)) with (Some (v ++ u ">]"%string ++ s)).
  - change (u ">]"%string ++ s) with (cGT :: cRB :: s). rewrite cut_some by exact H. rewrite ceq_refl. f_equal. unfold command. rewrite !app_length. cbn [length u List.map list_ascii_of_string]. lia.
  - symmetry. apply begins_spec. unfold command. rewrite <- !app_assoc. reflexivity.
Qed.
Lemma gsub_command v s : ~ In cGT v -> gsub 0 (command v ++ s) = gsub 0 s.
Proof.
  intros H. assert (M := command_len v s H). remember (command v) as k eqn:K. destruct k as [|c k]; [discriminate K|].
  change ((c :: k) ++ s) with (c :: (k ++ s)) in *. change (gsub 0 (c :: (k ++ s))) with (match match_len (c :: (k ++ s)) with Some n => gsub (n - 1) (k ++ s) | None => c :: gsub 0 (k ++ s) end).
  rewrite M. cbn [length]. rewrite Nat.sub_succ, Nat.sub_0_r. apply gsub_skip.
Qed.
Lemma command_terms v : value_ok v -> Forall (fun c => term c = false) (command v).
Proof.
  intros H. apply Forall_app. split; [repeat constructor|]. apply Forall_app. split; [|repeat constructor].
  apply Forall_forall. intros c Hc. unfold term. apply orb_false_iff. split; apply ceq_neq; intros ->.
  - apply (H cNUL); [left; reflexivity|exact Hc].
  - apply (H cNL); [right; left; reflexivity|exact Hc].
Qed.
Definition U (s : str) : str := flat_map (fun rt : str * str => gsub 0 (fst rt) ++ snd rt) (records s).
Lemma unwrap_on var s : on var = true -> unwrap var s = U s.
Proof. intros H. unfold unwrap. rewrite H. reflexivity. Qed.
Lemma U_command v s : value_ok v -> U (command v ++ s) = U s.
Proof.
  intros H. assert (G : ~ In cGT v) by (apply H; right; right; left; reflexivity). unfold U. rewrite records_app; [|apply command_terms; exact H|discriminate].
  destruct (records s) as [|[w t] l]; cbn [flat_map fst snd].
  - rewrite <- (app_nil_r (command v)), gsub_command by exact G. reflexivity.
  - rewrite gsub_command by exact G. reflexivity.
Qed.
Lemma records_prefix r w t l : records r = (w, t) :: l -> exists z, r = w ++ z.
Proof. intros H. exists (t ++ flat_map (fun rt => fst rt ++ snd rt) l). rewrite <- (records_text r), H. cbn. rewrite <- app_assoc. reflexivity. Qed.
Lemma U_char c r : begins head (c :: r) = None -> U (c :: r) = c :: U r.
Proof.
  intros B. unfold U. destruct (term c) eqn:T. { rewrite records_term by exact T. reflexivity. }
  rewrite records_cons by exact T.
  assert (G : forall w z, r = w ++ z -> gsub 0 (c :: w) = c :: gsub 0 w).
  { intros w z ->. change (gsub 0 (c :: w)) with (match match_len (c :: w) with Some n => gsub (n - 1) w | None => c :: gsub 0 w end).
    destruct (match_len (c :: w)) as [n|] eqn:M; [|reflexivity]. exfalso. destruct (match_begins _ _ M) as [y E].
    assert (K : begins head (c :: (w ++ z)) = Some (y ++ z)) by (apply begins_spec; rewrite app_comm_cons, E, <- app_assoc; reflexivity). congruence. }
  destruct (records r) as [|[w t] l] eqn:E; cbn [flat_map fst snd].
  - rewrite (G [] r eq_refl). reflexivity.
  - destruct (records_prefix _ _ _ _ E) as [z Z]. rewrite (G w z Z). reflexivity.
Qed.
Lemma app_cases {A} (a b c d : list A) : a ++ b = c ++ d -> (exists e, a = c ++ e) \/ (exists x e, c = a ++ x :: e /\ b = x :: e ++ d).
Proof.
  revert c. induction a as [|x a IH]; intros c H.
  - destruct c as [|y c]; [left; exists []; reflexivity|right; exists y, c; split; [reflexivity|exact H]].
  - destruct c as [|y c]; [left; exists (x :: a); reflexivity|]. injection H as -> H. destruct (IH c H) as [[e ->]|[z [e [-> ->]]]]; [left; exists e; reflexivity|right; exists z, e; split; reflexivity].
Qed.
Lemma U_text t s : free t -> s = [] \/ hd 0%N s = cLB -> U (t ++ s) = t ++ U s.
Proof.
  intros F S0. induction t as [|c t IH]; [reflexivity|]. cbn [app]. rewrite U_char.
  - f_equal. apply IH. intros a b E. apply (F (c :: a) b). cbn. f_equal. exact E.
  - destruct (begins head (c :: (t ++ s))) as [r|] eqn:B; [|reflexivity]. exfalso. apply begins_spec in B. rewrite app_comm_cons in B.
    destruct (app_cases _ _ _ _ B) as [[e E]|[x [e [E1 E2]]]]; [exact (F [] e E)|].
    destruct S0 as [->|S0]; [discriminate E2|]. rewrite E2 in S0. cbn in S0. subst x.
    assert (I : In cLB (tl head)) by (rewrite E1; cbn [tl app]; apply in_or_app; right; left; reflexivity). cbn in I. unfold cLB in I.
    repeat (destruct I as [I|I]; [discriminate I|]). exact I.
Qed.
Lemma U_nil : U [] = [].
Proof. reflexivity. Qed.
Lemma command_cmd v : command v = cmd v.
Proof. reflexivity. Qed.
Theorem unwrap_weave var t l : on var = true -> free t -> Forall (fun x => value_ok (fst x) /\ free (snd x)) l ->
  unwrap var (weave t l) = plain_text t l.
Proof.
  intros O F H. rewrite unwrap_on by exact O. unfold weave, plain_text.
  assert (G : forall l : list (str * str), flat_map (fun x => cmd (fst x) ++ snd x) l = [] \/ hd 0%N (flat_map (fun x => cmd (fst x) ++ snd x) l) = cLB)
    by (intros [|[v x] k]; [left; reflexivity|right; reflexivity]).
  rewrite U_text by (exact F || apply G). f_equal. induction l as [|[v x] l IH]; [reflexivity|]. inversion H as [|? ? [Hv Hx] Hl]; subst. cbn [flat_map fst snd] in *.
  rewrite <- app_assoc. rewrite <- command_cmd. rewrite U_command by exact Hv. rewrite U_text by (exact Hx || apply G). f_equal. apply IH. exact Hl.
Qed.
Lemma unwrap_off var s : on var = false -> unwrap var s = s.
Proof. intros H. unfold unwrap. rewrite H. apply records_text. Qed.
Definition W (var s : str) : str := flat_map (wrap_one var) (records s).
Lemma wrap_off var s : on var = false -> wrap var s = s.
Proof.
  intros H. unfold wrap. destruct (records s) as [|r l] eqn:E; [rewrite (records_nil _ E); reflexivity|]. rewrite <- E, H. cbn [app].
  rewrite <- (records_text s) at 2. apply flat_map_ext. intros [w t]. unfold wrap_one. rewrite H. cbn. rewrite app_nil_r. reflexivity.
Qed.
Lemma wrap_on var s : on var = true -> s <> [] -> wrap var s = command var ++ W var s.
Proof.
  intros H N. unfold wrap, W. destruct (records s) as [|r l] eqn:E; [exfalso; apply N, records_nil, E|]. rewrite H. reflexivity.
Qed.
Lemma W_char var c s : c <> cNUL -> W var (c :: s) = c :: W var s.
Proof.
  intros H. unfold W. destruct (term c) eqn:T.
  - rewrite records_term by exact T. cbn [flat_map]. unfold wrap_one at 1. cbn [fst snd]. unfold str_eqb.
    destruct (list_eq_dec N.eq_dec [c] [cNUL]) as [E|E]; [injection E as E; congruence|]. rewrite andb_false_r. reflexivity.
  - rewrite records_cons by exact T. destruct (records s) as [|[w t] l]; cbn [flat_map]; unfold wrap_one; cbn [fst snd]; [|reflexivity].
    rewrite andb_false_r. reflexivity.
Qed.
Lemma W_text var t s : ~ In cNUL t -> W var (t ++ s) = t ++ W var s.
Proof.
  induction t as [|c t IH]; intros H; [reflexivity|]. cbn [app]. rewrite W_char by (intros ->; apply H; left; reflexivity).
  f_equal. apply IH. intros K. apply H. right. exact K.
Qed.
Lemma W_nul var s : on var = true -> W var (cNUL :: s) = cNUL :: command var ++ W var s.
Proof. intros H. unfold W. rewrite records_term by reflexivity. cbn [flat_map]. unfold wrap_one at 1. cbn [fst snd]. rewrite H. reflexivity. Qed.
Theorem wrap_spec var ms rest : on var = true -> Forall (fun m => ~ In 0%N m) (rest :: ms) -> messages ms rest <> [] ->
  wrap var (messages ms rest) = cmd var ++ flat_map (fun m => m ++ [0]%N ++ cmd var) ms ++ rest.
Proof.
  intros O H N. rewrite wrap_on by assumption. rewrite command_cmd. f_equal. inversion H as [|? ? Hr Hm]; subst. clear N H. unfold messages.
  induction ms as [|m ms IH]; cbn [flat_map app].
  - rewrite <- (app_nil_r rest) at 1. rewrite W_text by exact Hr. cbn. apply app_nil_r.
  - inversion Hm as [|? ? Hx Hy]; subst. rewrite <- !app_assoc. cbn [app]. rewrite W_text by exact Hx. change 0%N with cNUL at 1. rewrite W_nul by exact O.
    rewrite command_cmd. rewrite (IH Hy). cbn [app]. rewrite <- ?app_assoc. reflexivity.
Qed.
Lemma free_app a b : free (a ++ b) -> free a /\ free b.
Proof.
  intros H. split; intros x y E.
  - apply (H x (y ++ b)). rewrite E, <- !app_assoc. reflexivity.
  - apply (H (a ++ x) y). rewrite E, <- !app_assoc. reflexivity.
Qed.
Lemma to_messages s : exists ms rest, s = messages ms rest /\ Forall (fun m => ~ In 0%N m) (rest :: ms).
Proof.
  induction s as [|c s [ms [rest [-> H]]]]; [exists [], []; split; [reflexivity|repeat constructor; intros []]|].
  inversion H as [|? ? Hr Hm]; subst. destruct (N.eq_dec c 0) as [->|E].
  - exists ([] :: ms), rest. split; [reflexivity|]. constructor; [exact Hr|constructor; [intros []|exact Hm]].
  - destruct ms as [|m ms].
    + exists [], (c :: rest). split; [reflexivity|]. constructor; [intros [K|K]; [congruence|exact (Hr K)]|constructor].
    + inversion Hm as [|? ? Hx Hy]; subst. exists ((c :: m) :: ms), rest. split; [reflexivity|].
      constructor; [exact Hr|constructor; [intros [K|K]; [congruence|exact (Hx K)]|exact Hy]].
Qed.
(** what comes out of [wrap] is text with commands in it *)
Fixpoint woven (var : str) (ms : list str) (rest : str) : list (str * str) :=
  match ms with [] => [(var, rest)] | m :: r => (var, m ++ [0]%N) :: woven var r rest end.
Lemma woven_text var ms rest : weave [] (woven var ms rest) = cmd var ++ flat_map (fun m => m ++ [0]%N ++ cmd var) ms ++ rest.
Proof.
  unfold weave. cbn [app]. induction ms as [|m r IH]; cbn [woven flat_map fst snd app]. { rewrite app_nil_r. reflexivity. }
  rewrite IH. rewrite <- !app_assoc. cbn [app]. reflexivity.
Qed.
Lemma woven_plain var ms rest : plain_text [] (woven var ms rest) = messages ms rest.
Proof.
  unfold plain_text, messages. cbn [app]. induction ms as [|m r IH]; cbn [woven flat_map fst snd]. { apply app_nil_r. }
  rewrite IH. rewrite <- !app_assoc. reflexivity.
Qed.
Theorem roundtrip var s : value_ok var -> free s -> unwrap var (wrap var s) = s.
Proof.
  intros V F. destruct (on var) eqn:O; [|rewrite wrap_off, unwrap_off by exact O; reflexivity].
  destruct (to_messages s) as [ms [rest [E H]]]. destruct s as [|c s']; [reflexivity|].
  rewrite E at 1. rewrite wrap_spec; [|exact O|exact H|rewrite <- E; discriminate]. rewrite <- woven_text. rewrite unwrap_weave.
  - rewrite woven_plain. symmetry. exact E.
  - exact O.
  - intros a b K. destruct a; discriminate K.
  - rewrite E in F. unfold messages in F. clear E H O c s'. revert F. induction ms as [|m r IH]; cbn [flat_map woven app]; intros F.
    + constructor; [split; [exact V|exact F]|constructor].
    + rewrite <- app_assoc in F. apply free_app in F. destruct F as [F1 F2]. constructor; [split; [exact V|exact F1]|apply IH; exact F2].
Qed.

(** ** Which values count as given *)
Definition number_char (c : char) : Prop := In c ([32; 9; 10; 11; 12; 13]%N ++ u "+-.0123456789eE"%string).
Lemma drop_while_spec f s : exists a, s = a ++ drop_while f s /\ Forall (fun c => f c = true) a.
Proof.
  induction s as [|c r [a [E H]]]; [exists []; split; [reflexivity|constructor]|]. cbn. destruct (f c) eqn:F.
  - exists (c :: a). split; [cbn; f_equal; exact E|constructor; assumption].
  - exists []. split; [reflexivity|constructor].
Qed.
Lemma drop_while_all f s (P : char -> Prop) : (forall c, f c = true -> P c) -> Forall P (drop_while f s) -> Forall P s.
Proof.
  intros H K. destruct (drop_while_spec f s) as [a [E A]]. rewrite E. apply Forall_app. split; [|exact K].
  eapply Forall_impl; [|exact A]. exact H.
Qed.
Lemma blank_number c : blank c = true -> number_char c.
Proof. intros H. apply mem_In in H. apply in_or_app. left. exact H. Qed.
Lemma digit_number c : digit c = true -> number_char c.
Proof.
  unfold digit. rewrite andb_true_iff, !N.leb_le. intros [A B]. apply in_or_app. right. cbn.
  assert (c = 48 \/ c = 49 \/ c = 50 \/ c = 51 \/ c = 52 \/ c = 53 \/ c = 54 \/ c = 55 \/ c = 56 \/ c = 57)%N by lia. intuition.
Qed.
Lemma drop_sign_all s : Forall number_char (drop_sign s) -> Forall number_char s.
Proof.
  destruct s as [|c r]; [exact (fun h => h)|]. cbn. ceq_case c cPLUS; cbn. { intros H. constructor; [cbn; tauto|exact H]. }
  ceq_case c cDASH; [|exact (fun h => h)]. intros H. constructor; [cbn; tauto|exact H].
Qed.
Lemma all_blank_number s : all_blank s = true -> Forall number_char s.
Proof. intros H. apply Forall_forall. intros c C. apply blank_number. unfold all_blank in H. rewrite forallb_forall in H. exact (H c C). Qed.
Lemma exponent_number s : exponent s = true -> Forall number_char s.
Proof.
  destruct s as [|c r]; [constructor|]. unfold exponent. destruct ((c =? 101)%N || (c =? 69)%N) eqn:E.
  - intros H. constructor. { apply orb_true_iff in E. rewrite !N.eqb_eq in E. destruct E as [-> | ->]; cbn; tauto. }
    apply drop_sign_all. destruct (drop_sign r) as [|d r']; [discriminate|]. apply andb_true_iff in H. destruct H as [D B].
    constructor; [apply digit_number; exact D|]. apply (drop_while_all digit); [exact digit_number|apply all_blank_number; exact B].
  - apply all_blank_number.
Qed.
Lemma zeros_number s : Forall number_char (snd (zeros s)) -> Forall number_char s.
Proof. apply (drop_while_all (fun c => (c =? 48)%N)). intros c H. apply N.eqb_eq in H. subst c. cbn. tauto. Qed.
Lemma is_zero_number s : is_zero s = true -> Forall number_char s.
Proof.
  unfold is_zero. intros H. apply (drop_while_all blank); [exact blank_number|]. apply drop_sign_all, zeros_number.
  destruct (zeros (drop_sign (drop_while blank s))) as [a r]. cbn [snd]. destruct r as [|c r']; [constructor|].
  destruct (c =?c cDOT) eqn:D.
  - apply ceq_eq in D. subst c. constructor; [cbn; tauto|]. apply zeros_number. destruct (zeros r') as [b r2]. cbn [snd]. apply andb_true_iff in H. apply exponent_number, (proj2 H).
  - apply andb_true_iff in H. apply exponent_number, (proj2 H).
Qed.
Lemma on_spec var c : In c var -> ~ number_char c -> on var = true.
Proof.
  intros I N. unfold on. destruct var as [|x r]; [destruct I|]. destruct (is_zero (x :: r)) eqn:Z; [|reflexivity].
  exfalso. apply N. assert (F := is_zero_number _ Z). rewrite Forall_forall in F. exact (F c I).
Qed.
