(** Proofs for C75: the dictionaries of lexchoice.xsl and lexchoicebil.xsl. *)
From Coq Require Import String Lia.
From Verif Require Import Proofs.Base Proofs.DictScripts Model.Base Model.DictScripts Model.LexChoice Spec.DictScripts Spec.LexChoice.
Open Scope nat_scope.

Lemma spell_app a b : spell (a ++ b) = spell a ++ spell b. Proof. apply flat_map_app. Qed.
Lemma content_lc b r2l x : content x -> forall pa, spell (lc b r2l pa x) = spell1 x.
Proof.
  induction x as [n a k IH|s|s] using xml_ind'; intros C pa; [|cbn; rewrite app_nil_r; reflexivity|reflexivity].
  inversion C as [| |n' a' k' I|a' k' F]; subst.
  - cbn in I. destruct I as [<-|[<-|[<-|[<-|[]]]]]; cbn; try rewrite app_nil_r; reflexivity.
  - change (spell (lc b r2l pa (El (u "g"%string) a k))) with (Ch 35%N :: spell (flat_map (lc b r2l a) k) ++ []).
    change (spell1 (El (u "g"%string) a k)) with (Ch 35%N :: flat_map spell1 k). rewrite app_nil_r. f_equal.
    induction k as [|x k IHk]; [reflexivity|]. inversion IH; inversion F; subst. cbn [flat_map]. rewrite spell_app. f_equal; [auto|]. apply IHk; try assumption; apply T_group; assumption.
Qed.
Lemma contents_lc b r2l k : Forall content k -> forall pa, spell (flat_map (lc b r2l pa) k) = spell k.
Proof. induction 1 as [|x k C _ IH]; intros pa; [reflexivity|]. cbn [flat_map]. rewrite spell_app, content_lc, IH by assumption. reflexivity. Qed.
Lemma contents_part b r2l p k : Forall content k -> forall pa, spell (flat_map (fun z => if Bool.eqb (is_s z) p then lc b r2l pa z else []) k) = spell (filter (fun z => Bool.eqb (is_s z) p) k).
Proof. induction 1 as [|x k C _ IH]; intros pa; [reflexivity|]. cbn [flat_map filter]. rewrite spell_app, IH. destruct (Bool.eqb (is_s x) p); [rewrite content_lc by assumption|]; reflexivity. Qed.

Section D.
Context (regex : str -> list sym -> Prop) (d : dir) (da : list (str * str)) (D : list xml).
Let r2l : bool := dir_eqb d LR.
Hypothesis OK : dict_ok D.
Definition gen (b : bool) : list xml := match lex_dict b r2l (El (u "dictionary"%string) da D) with El _ _ k :: _ => k | _ => [] end.
Lemma gen_dict b : lex_dict b r2l (El (u "dictionary"%string) da D) = [El (u "dictionary"%string) [] (gen b)].
Proof. reflexivity. Qed.
Definition img (b : bool) (pa : list (str * str)) (z : xml) : list xml := if is_elt z then lc b r2l pa z else [].
Definition msp (pa : list (str * str)) (k : list xml) : list sym :=
  match sense_of d pa with Some v => spell (filter (fun z => Bool.eqb (is_s z) false) k) ++ map Ch (u "__"%string ++ v) ++ spell (filter (fun z => Bool.eqb (is_s z) true) k) | None => spell k end.
Lemma sense_dir pa : att (sense r2l) pa = sense_of d pa.
Proof. unfold sense, sense_of, r2l. destruct d; reflexivity. Qed.
Lemma spell_mark b pa pa' k : Forall content k ->
  spell (mark_of r2l pa (flat_map (lc b r2l pa') k) (flat_map (fun z => if Bool.eqb (is_s z) false then lc b r2l pa' z else []) k) (flat_map (fun z => if Bool.eqb (is_s z) true then lc b r2l pa' z else []) k)) = msp pa k.
Proof.
  intros C. unfold mark_of, msp. rewrite sense_dir. destruct (sense_of d pa) as [v|]; [|apply contents_lc, C].
  rewrite spell_app, contents_part by exact C. f_equal.
  change (spell (Tx (u "__"%string) :: Tx v :: flat_map (fun z => if Bool.eqb (is_s z) true then lc b r2l pa' z else []) k)) with (map Ch (u "__"%string) ++ map Ch v ++ spell (flat_map (fun z => if Bool.eqb (is_s z) true then lc b r2l pa' z else []) k)).
  rewrite contents_part by exact C. rewrite map_app, <- app_assoc. reflexivity.
Qed.
Lemma fm_elt {B} (f : str -> list (str * str) -> list xml -> list B) k : flat_map (fun y => match y with El m b j => f m b j | _ => [] end) k = flat_map (fun y => match y with El m b j => f m b j | _ => [] end) (filter is_elt k).
Proof. induction k as [|[n a j|s|s] k IH]; cbn; [reflexivity|rewrite IH; reflexivity|exact IH|exact IH]. Qed.
(* the image of a pair and of an i *)
Lemma img_pair b pa a k la lk ra rk : filter is_elt k = [El (u "l"%string) la lk; El (u "r"%string) ra rk] -> Forall content lk -> Forall content rk ->
  let s := if dir_eqb d LR then lk else rk in let o := if dir_eqb d LR then rk else lk in
  exists A B, lc b r2l pa (El (u "p"%string) a k) = [El (u "p"%string) [] [El (u "l"%string) [] A; El (u "r"%string) [] B]] /\ spell A = (if b then msp pa s else spell s) /\ spell B = (if b then spell o else msp pa s).
Proof.
  intros E Cl Cr s o. subst s o. cbn [lc]. 
  change (str_eqb (u "p"%string) (u "s"%string)) with false. change (isin (u "p"%string) (map u ["b"; "a"; "j"]%string)) with false. change (isin (u "p"%string) (map u ["g"; "re"]%string)) with false.
  change (str_eqb (u "p"%string) (u "par"%string)) with false. change (str_eqb (u "p"%string) (u "p"%string)) with true. cbv iota.
  rewrite (fm_elt (fun m b0 j => if str_eqb m (src r2l) then flat_map (lc b r2l b0) j else []) k), (fm_elt (fun m b0 j => if str_eqb m (dst r2l) then flat_map (lc b r2l b0) j else []) k),
    (fm_elt (fun m b0 j => if str_eqb m (src r2l) then flat_map (fun z => if Bool.eqb (is_s z) false then lc b r2l b0 z else []) j else []) k),
    (fm_elt (fun m b0 j => if str_eqb m (src r2l) then flat_map (fun z => if Bool.eqb (is_s z) true then lc b r2l b0 z else []) j else []) k), E.
  cbn [flat_map]. pose proof (spell_mark b pa la lk Cl) as Ql. pose proof (spell_mark b pa ra rk Cr) as Qr. unfold pair_of, r2l, src, dst in *. clear r2l. destruct d; cbn [dir_eqb] in *.
  - change (str_eqb (u "l"%string) (u "l"%string)) with true. change (str_eqb (u "r"%string) (u "l"%string)) with false. change (str_eqb (u "l"%string) (u "r"%string)) with false. change (str_eqb (u "r"%string) (u "r"%string)) with true. cbv iota.
    rewrite !app_nil_r. pose proof Ql as Q.
    destruct b; eexists; eexists; (split; [reflexivity|]); (split; [try exact Q; apply contents_lc; assumption | try exact Q; apply contents_lc; assumption]).
  - change (str_eqb (u "l"%string) (u "l"%string)) with true. change (str_eqb (u "r"%string) (u "l"%string)) with false. change (str_eqb (u "l"%string) (u "r"%string)) with false. change (str_eqb (u "r"%string) (u "r"%string)) with true. cbv iota.
    rewrite !app_nil_r. cbn [app]. pose proof Qr as Q.
    destruct b; eexists; eexists; (split; [reflexivity|]); (split; [try exact Q; apply contents_lc; assumption | try exact Q; apply contents_lc; assumption]).
Qed.
Lemma img_same b pa a k : Forall content k ->
  exists A B, lc b r2l pa (El (u "i"%string) a k) = [El (u "p"%string) [] [El (u "l"%string) [] A; El (u "r"%string) [] B]] /\ spell A = (if b then msp pa k else spell k) /\ spell B = (if b then spell k else msp pa k).
Proof.
  intros C. cbn [lc].
  change (str_eqb (u "i"%string) (u "s"%string)) with false. change (isin (u "i"%string) (map u ["b"; "a"; "j"]%string)) with false. change (isin (u "i"%string) (map u ["g"; "re"]%string)) with false.
  change (str_eqb (u "i"%string) (u "par"%string)) with false. change (str_eqb (u "i"%string) (u "p"%string)) with false. change (str_eqb (u "i"%string) (u "i"%string)) with true. cbv iota.
  unfold pair_of. pose proof (spell_mark b pa a k C) as Q. destruct b; eexists; eexists; (split; [reflexivity|]); (split; [try exact Q; apply contents_lc; assumption | try exact Q; apply contents_lc; assumption]).
Qed.
Lemma img_re b pa a k : lc b r2l pa (El (u "re"%string) a k) = [El (u "re"%string) [] (flat_map (lc b r2l a) k)].
Proof. reflexivity. Qed.
Lemma img_par b pa a k : lc b r2l pa (El (u "par"%string) a k) = [El (u "par"%string) [(u "n"%string, att0 (u "n"%string) a)] []].
Proof. reflexivity. Qed.
Lemma text_lc b a k : Forall (fun x => is_elt x = false) k -> text (flat_map (lc b r2l a) k) = text k.
Proof. induction 1 as [|[n c j|s|s] k E _ IH]; [reflexivity|discriminate|cbn [flat_map lc app text]; unfold text in *; cbn [flat_map]; rewrite IH; reflexivity|exact IH]. Qed.
(* the entries *)
Lemma left_out_spec b a : left_out b r2l a = false <-> (b = true -> att (u "i"%string) a <> Some (u "yes"%string)) /\ usable d a = true.
Proof.
  unfold left_out, usable, r2l. rewrite Bool.orb_false_iff, Bool.andb_false_iff. split.
  - intros (H & R). split.
    + intros ->. destruct H as [H|H]; [discriminate|]. intros E. rewrite E in H. rewrite str_eqb_r in H. discriminate.
    + destruct (att (u "r"%string) a) as [v|]; [|reflexivity]. destruct d; cbn [dir_eqb] in *.
      * destruct (str_eqb v (u "LR"%string)) eqn:E1; [reflexivity|]. rewrite R. reflexivity.
      * rewrite R. destruct (str_eqb v (u "RL"%string)); reflexivity.
  - intros (H & R). split.
    + destruct b; [right|left; reflexivity]. destruct (att (u "i"%string) a) as [v|]; [|reflexivity]. apply str_eqb_n. intros ->. exact (H eq_refl eq_refl).
    + destruct (att (u "r"%string) a) as [v|]; [|reflexivity]. destruct d; cbn [dir_eqb] in *.
      * destruct (str_eqb v (u "RL"%string)) eqn:E; [|reflexivity]. apply str_eqb_eq in E as ->. discriminate R.
      * destruct (str_eqb v (u "LR"%string)) eqn:E; [|reflexivity]. discriminate R.
Qed.
Lemma lc_entry b pa a k : lc b r2l pa (El (u "e"%string) a k) = if left_out b r2l a then [] else [El (u "e"%string) [] (flat_map (img b a) k)].
Proof. reflexivity. Qed.
Lemma entries_of b pa k a' k' : Forall entry_ok k -> In (El (u "e"%string) a' k') (flat_map (lc b r2l pa) k) <->
  exists ea ek, In (El (u "e"%string) ea ek) k /\ left_out b r2l ea = false /\ Forall part_ok ek /\ a' = [] /\ k' = flat_map (img b ea) ek.
Proof.
  intros F. rewrite in_flat_map. split.
  - intros (x & I & H). rewrite Forall_forall in F. destruct (F x I) as [s|s|ea ek P].
    + destruct H as [H|[]]. discriminate H.
    + destruct H.
    + rewrite lc_entry in H. destruct (left_out b r2l ea) eqn:L; [destruct H|]. destruct H as [H|[]]. injection H as <- <-. exists ea, ek. auto.
  - intros (ea & ek & I & L & P & -> & ->). exists (El (u "e"%string) ea ek). split; [exact I|]. rewrite lc_entry, L. left. reflexivity.
Qed.
Definition sections_of (b : bool) (k : list xml) : list xml := flat_map (fun p => match p with El m c j => [El m [(u "id"%string, att0 (u "id"%string) c); (u "type"%string, att0 (u "type"%string) c)] (flat_map (lc b r2l c) j)] | _ => [] end) (filter (is_el (u "section"%string)) k).
Lemma is_el_spec n x : is_el n x = true <-> exists a k, x = El n a k.
Proof.
  destruct x as [m a k|s|s]; cbn; split; try discriminate; try (intros (? & ? & E); discriminate E).
  - intros E. apply str_eqb_eq in E as ->. eauto.
  - intros (? & ? & E). injection E as -> _ _. apply str_eqb_r.
Qed.
Definition sect (b : bool) : list xml := flat_map (fun p => match p with El m c j => [El m [(u "id"%string, att0 (u "id"%string) c); (u "type"%string, att0 (u "type"%string) c)] (flat_map (lc b r2l c) j)] | _ => [] end) (filter (is_el (u "section"%string)) D).
Definition pds : list xml := flat_map (fun p => filter (is_el (u "pardef"%string)) (kids p)) (filter (is_el (u "pardefs"%string)) D).
Definition pimg (b : bool) : list xml := flat_map (fun p => match p with El m c j => [nl; El m [(u "n"%string, att0 (u "n"%string) c)] (flat_map (lc b r2l c) j)] | _ => [] end) pds.
Definition pbox (b : bool) : list xml := match pds with [] => [] | _ => [El (u "pardefs"%string) [] (nl :: pimg b ++ [nl])] end.
Lemma gen_eq b : gen b = nl :: filter (is_el (u "alphabet"%string)) D ++ nl :: filter (is_el (u "sdefs"%string)) D ++ nl :: pbox b ++ nl :: sect b.
Proof. reflexivity. Qed.
Lemma gen_in b n a k : str_eqb n (u "alphabet"%string) = false -> str_eqb n (u "sdefs"%string) = false -> In (El n a k) (gen b) <-> In (El n a k) (pbox b) \/ In (El n a k) (sect b).
Proof.
  intros H1 H2. assert (N : forall z, In (El n a k) (nl :: z) <-> In (El n a k) z) by (intros z; split; [intros [E|E]; [discriminate E|exact E] | right; assumption]).
  assert (F : forall m, str_eqb n m = false -> In (El n a k) (filter (is_el m) D) -> False) by (intros m E I; apply filter_In in I as (_ & I); cbn in I; congruence).
  rewrite gen_eq, N, in_app_iff, N, in_app_iff, N, in_app_iff, N. split.
  - intros [H|[H|H]]; [destruct (F _ H1 H) | destruct (F _ H2 H) | exact H].
  - auto.
Qed.
Lemma sect_in b n a k : In (El n a k) (sect b) <-> n = u "section"%string /\ exists c j, In (El (u "section"%string) c j) D /\ a = [(u "id"%string, att0 (u "id"%string) c); (u "type"%string, att0 (u "type"%string) c)] /\ k = flat_map (lc b r2l c) j.
Proof.
  unfold sect. rewrite in_flat_map. split.
  - intros (x & I & H). apply filter_In in I as (I & E). apply is_el_spec in E as (c & j & ->). destruct H as [H|[]]. injection H as <- <- <-. split; [reflexivity|]. exists c, j. auto.
  - intros (-> & c & j & I & -> & ->). exists (El (u "section"%string) c j). split; [|left; reflexivity]. apply filter_In. split; [exact I|]. apply is_el_spec. eauto.
Qed.
Lemma pbox_in b n a k : In (El n a k) (pbox b) <-> n = u "pardefs"%string /\ a = [] /\ pds <> [] /\ k = nl :: pimg b ++ [nl].
Proof.
  unfold pbox. destruct pds as [|p q]; [split; [intros []|intros (_ & _ & H & _); destruct (H eq_refl)]|]. split.
  - intros [H|[]]. injection H as <- <- <-. repeat split. discriminate.
  - intros (-> & -> & _ & ->). left. reflexivity.
Qed.
Lemma gen_section b a k : In (El (u "section"%string) a k) (gen b) <-> exists c j, In (El (u "section"%string) c j) D /\ a = [(u "id"%string, att0 (u "id"%string) c); (u "type"%string, att0 (u "type"%string) c)] /\ k = flat_map (lc b r2l c) j.
Proof.
  rewrite gen_in by reflexivity. rewrite pbox_in, sect_in. split.
  - intros [(H & _)|(_ & H)]; [discriminate H | exact H].
  - intros H. right. auto.
Qed.
Lemma pds_in x : In x pds <-> exists pa pk c j, In (El (u "pardefs"%string) pa pk) D /\ In (El (u "pardef"%string) c j) pk /\ x = El (u "pardef"%string) c j.
Proof.
  unfold pds. rewrite in_flat_map. split.
  - intros (y & I & H). apply filter_In in I as (I & E), H as (H & E'). apply is_el_spec in E as (pa & pk & ->), E' as (c & j & ->). exists pa, pk, c, j. auto.
  - intros (pa & pk & c & j & I & H & ->). exists (El (u "pardefs"%string) pa pk). split; apply filter_In; (split; [assumption|]); apply is_el_spec; eauto.
Qed.
Lemma gen_pardef b ba bk : (exists pa pk, In (El (u "pardefs"%string) pa pk) (gen b) /\ In (El (u "pardef"%string) ba bk) pk) <->
  exists pa pk c j, In (El (u "pardefs"%string) pa pk) D /\ In (El (u "pardef"%string) c j) pk /\ ba = [(u "n"%string, att0 (u "n"%string) c)] /\ bk = flat_map (lc b r2l c) j.
Proof.
  assert (M : In (El (u "pardef"%string) ba bk) (nl :: pimg b ++ [nl]) <-> In (El (u "pardef"%string) ba bk) (pimg b)).
  { cbn [In]. rewrite in_app_iff. split; [intros [H|[H|[H|[]]]]; [discriminate H|exact H|discriminate H] | auto]. }
  split.
  - intros (pa & pk & I & H). apply gen_in in I; [|reflexivity|reflexivity]. rewrite pbox_in, sect_in in I. destruct I as [(_ & -> & NE & ->)|(I & _)]; [|discriminate I].
    apply M in H. unfold pimg in H. apply in_flat_map in H as (x & I & H). apply pds_in in I as (pa & pk & c & j & I1 & I2 & ->). destruct H as [H|[H|[]]]; [discriminate H|]. injection H as <- <-.
    exists pa, pk, c, j. auto.
  - intros (pa & pk & c & j & I1 & I2 & -> & ->). exists [], (nl :: pimg b ++ [nl]).
    assert (P : In (El (u "pardef"%string) c j) pds) by (apply pds_in; exists pa, pk, c, j; auto). split.
    + apply gen_in; [reflexivity|reflexivity|]. left. apply pbox_in. repeat split. intros E. rewrite E in P. destruct P.
    + apply M. unfold pimg. apply in_flat_map. exists (El (u "pardef"%string) c j). split; [exact P|]. right. left. reflexivity.
Qed.

(** ** Every translation can be reached *)
Lemma dirsel (A : Type) (x y : A) : (if dir_eqb LR LR then x else y) = x. Proof. reflexivity. Qed.
Lemma att_n a n : att (u "n"%string) a = Some n -> att (u "n"%string) [(u "n"%string, att0 (u "n"%string) a)] = Some n.
Proof. intros E. unfold att0. rewrite E. reflexivity. Qed.
Lemma parts_reach ek x y : parts regex d D ek x y -> forall ea, Forall part_ok ek ->
  exists m, parts regex LR (gen false) (flat_map (img false ea) ek) x m /\ parts regex LR (gen true) (flat_map (img true ea) ek) m y.
Proof.
  induction 1 as [|s r x y _ IH|s r x y _ IH|a k la lk ra rk r x y E _ IH|a k r x y _ IH|a k w r x y W _ IH|a k n pa pk ba bk e0 k0 x1 y1 r x y A I1 I2 A2 I3 U _ IH1 _ IH]; intros ea F.
  - exists []. split; constructor.
  - inversion F; subst. exact (IH ea ltac:(assumption)).
  - inversion F; subst. exact (IH ea ltac:(assumption)).
  - inversion F as [|? ? P F']; subst. destruct (IH ea F') as (m & H1 & H2). inversion P as [| |? ? la' lk' ra' rk' E' Cl Cr| | |]; subst. rewrite E in E'. injection E' as <- <- <- <-.
    destruct (img_pair false ea a k la lk ra rk E Cl Cr) as (A1 & B1 & Q1 & S1 & S2). destruct (img_pair true ea a k la lk ra rk E Cl Cr) as (A2 & B2 & Q2 & T1 & T2).
    exists (msp ea (if dir_eqb d LR then lk else rk) ++ m). cbn [flat_map]. unfold img at 1 3. cbn [is_elt]. rewrite Q1, Q2. cbn [app]. split.
    + rewrite <- S1, <- S2. exact (P_pair regex LR _ [] [El (u "l"%string) [] A1; El (u "r"%string) [] B1] [] A1 [] B1 _ _ _ eq_refl H1).
    + rewrite <- T1, <- T2. exact (P_pair regex LR _ [] [El (u "l"%string) [] A2; El (u "r"%string) [] B2] [] A2 [] B2 _ _ _ eq_refl H2).
  - inversion F as [|? ? P F']; subst. destruct (IH ea F') as (m & H1 & H2). inversion P as [| | |? ? C| |]; subst.
    destruct (img_same false ea a k C) as (A1 & B1 & Q1 & S1 & S2). destruct (img_same true ea a k C) as (A2 & B2 & Q2 & T1 & T2).
    exists (msp ea k ++ m). cbn [flat_map]. unfold img at 1 3. cbn [is_elt]. rewrite Q1, Q2. cbn [app]. split.
    + rewrite <- S1, <- S2. exact (P_pair regex LR _ [] [El (u "l"%string) [] A1; El (u "r"%string) [] B1] [] A1 [] B1 _ _ _ eq_refl H1).
    + rewrite <- T1, <- T2. exact (P_pair regex LR _ [] [El (u "l"%string) [] A2; El (u "r"%string) [] B2] [] A2 [] B2 _ _ _ eq_refl H2).
  - inversion F as [|? ? P F']; subst. destruct (IH ea F') as (m & H1 & H2). inversion P as [| | | | |? ? C]; subst.
    exists (w ++ m). cbn [flat_map]. unfold img at 1 3. cbn [is_elt]. rewrite !img_re. cbn [app]. split; apply P_regex; try assumption; rewrite text_lc; assumption.
  - inversion F as [|? ? P F']; subst. destruct (IH ea F') as (m & H1 & H2). destruct (proj2 OK pa pk ba bk I1 I2) as (OE & _).
    assert (OE0 : Forall part_ok k0) by (rewrite Forall_forall in OE; pose proof (OE _ I3) as Z; inversion Z; assumption).
    destruct (IH1 e0 OE0) as (m1 & G1 & G2). exists (m1 ++ m). cbn [flat_map]. unfold img at 1 3. cbn [is_elt]. rewrite !img_par. cbn [app].
    assert (X : forall b, exists pa' pk', In (El (u "pardefs"%string) pa' pk') (gen b) /\ In (El (u "pardef"%string) [(u "n"%string, att0 (u "n"%string) ba)] (flat_map (lc b r2l ba) bk)) pk').
    { intros b. apply gen_pardef. exists pa, pk, ba, bk. auto. }
    assert (Y : forall b, In (El (u "e"%string) [] (flat_map (img b e0) k0)) (flat_map (lc b r2l ba) bk)).
    { intros b. apply entries_of; [exact OE|]. exists e0, k0. repeat split; try assumption. apply left_out_spec. destruct U as (U1 & U2). auto. }
    assert (Z : used LR []) by (split; [discriminate | reflexivity]).
    split.
    + destruct (X false) as (pa' & pk' & J1 & J2). exact (P_paradigm regex LR _ _ [] n pa' pk' _ _ [] _ x1 m1 _ x m (att_n a n A) J1 J2 (att_n ba n A2) (Y false) Z G1 H1).
    + destruct (X true) as (pa' & pk' & J1 & J2). exact (P_paradigm regex LR _ _ [] n pa' pk' _ _ [] _ m1 y1 _ m y (att_n a n A) J1 J2 (att_n ba n A2) (Y true) Z G2 H2).
Qed.
Lemma entry_gen b ea ek : entry D ea ek -> left_out b r2l ea = false -> entry (gen b) [] (flat_map (img b ea) ek).
Proof.
  intros (sa & sk & I & J) L. exists [(u "id"%string, att0 (u "id"%string) sa); (u "type"%string, att0 (u "type"%string) sa)], (flat_map (lc b r2l sa) sk). split; [apply gen_section; exists sa, sk; auto|].
  apply entries_of; [exact (proj1 OK sa sk I)|]. exists ea, ek. repeat split; try assumption. pose proof (proj1 OK sa sk I) as F. rewrite Forall_forall in F. pose proof (F _ J) as Z. inversion Z; assumption.
Qed.
Lemma entry_from b ea' ek' : entry (gen b) ea' ek' -> exists ea ek, entry D ea ek /\ left_out b r2l ea = false /\ Forall part_ok ek /\ ea' = [] /\ ek' = flat_map (img b ea) ek.
Proof.
  intros (sa & sk & I & J). apply gen_section in I as (c & j & I & -> & ->). apply entries_of in J; [|exact (proj1 OK c j I)]. destruct J as (ea & ek & J & H). exists ea, ek. split; [exists c, j; auto | exact H].
Qed.
Lemma entry_parts ea ek : entry D ea ek -> Forall part_ok ek.
Proof. intros (sa & sk & I & J). pose proof (proj1 OK sa sk I) as F. rewrite Forall_forall in F. pose proof (F _ J) as Z. inversion Z; assumption. Qed.
Lemma used_nil d' : used d' []. Proof. split; [discriminate | reflexivity]. Qed.
Theorem reach x y : translates regex d [El (u "dictionary"%string) da D] x y ->
  exists m, translates regex LR (lex_dict false r2l (El (u "dictionary"%string) da D)) x m /\ translates regex LR (lex_dict true r2l (El (u "dictionary"%string) da D)) m y.
Proof.
  intros (a & D' & ea & ek & E & I & (U1 & U2) & P). injection E as <- <-. destruct (parts_reach ek x y P ea (entry_parts ea ek I)) as (m & H1 & H2).
  exists m. rewrite !gen_dict. split; eexists; eexists; exists []; eexists; (split; [reflexivity|]); (split; [apply entry_gen; [exact I | apply left_out_spec; auto] |]); (split; [apply used_nil | eassumption]).
Qed.

(** ** Every sense leads on to a translation *)
Lemma parts_filter e D0 ek x y : parts regex e D0 (filter is_elt ek) x y <-> parts regex e D0 ek x y.
Proof.
  split.
  - revert x y. induction ek as [|[n a k|s|s] ek IH]; intros x y H; cbn [filter is_elt] in H; [exact H| |constructor; auto|constructor; auto].
    inversion H; subst; econstructor; eauto.
  - induction 1; cbn [filter is_elt]; try assumption; try (econstructor; eassumption).
Qed.
Lemma img_filter b ea ek : flat_map (img b ea) ek = flat_map (img b ea) (filter is_elt ek).
Proof. induction ek as [|[n a k|s|s] ek IH]; cbn [flat_map filter is_elt]; [reflexivity|f_equal; exact IH|exact IH|exact IH]. Qed.
Lemma img_one b pa z : part_ok z -> is_elt z = true -> exists X, lc b r2l pa z = [X].
Proof.
  intros P E. destruct P as [s|s|a k la lk ra rk Q Cl Cr|a k C|a k n A|a k C]; try discriminate E.
  - destruct (img_pair b pa a k la lk ra rk Q Cl Cr) as (A & B & H & _). eauto.
  - destruct (img_same b pa a k C) as (A & B & H & _). eauto.
  - eexists. apply img_par.
  - eexists. apply img_re.
Qed.
Definition elts (L : list xml) : Prop := Forall (fun z => part_ok z /\ is_elt z = true) L.
Lemma img_cons b pa L X R : elts L -> X :: R = flat_map (img b pa) L -> exists z L', L = z :: L' /\ part_ok z /\ is_elt z = true /\ elts L' /\ lc b r2l pa z = [X] /\ R = flat_map (img b pa) L'.
Proof.
  intros F E. destruct F as [|z L' (P & Q) F]; [discriminate E|]. cbn [flat_map] in E. unfold img at 1 in E. rewrite Q in E. destruct (img_one b pa z P Q) as (Y & H). rewrite H in E. injection E as -> ->.
  exists z, L'. auto 10.
Qed.

Lemma ok_elts ek : Forall part_ok ek -> elts (filter is_elt ek).
Proof. intros PK. apply Forall_forall; intros z Z; apply filter_In in Z as (Z & Z'); rewrite Forall_forall in PK; auto. Qed.

(** ** Entries of one pair of words *)
Lemma with_sense_app v w t : (match t with Ch _ :: _ => False | _ => True end) -> with_sense v (map Ch w ++ t) = map Ch w ++ map Ch (u "__"%string ++ v) ++ t.
Proof. intros H. induction w as [|c w IH]; cbn [map app with_sense]; [destruct t as [|[c|n] t]; [reflexivity|destruct H|reflexivity]|rewrite IH; reflexivity]. Qed.
Lemma tags_only b : Forall (fun x => is_el (u "s"%string) x = true) b -> exists t, spell b = map Tag t.
Proof. induction 1 as [|x b E _ (t & IH)]; [exists []; reflexivity|]. apply is_el_spec in E as (a & k & ->). exists (att0 (u "n"%string) a :: t). cbn [spell flat_map]. unfold spell in IH. rewrite IH. reflexivity. Qed.
Lemma filter_all {A} (f : A -> bool) l : Forall (fun x => f x = true) l -> filter f l = l.
Proof. induction 1 as [|x l E _ IH]; cbn; [reflexivity|rewrite E, IH; reflexivity]. Qed.
Lemma filter_none {A} (f : A -> bool) l : Forall (fun x => f x = false) l -> filter f l = [].
Proof. induction 1 as [|x l E _ IH]; cbn; [reflexivity|rewrite E; exact IH]. Qed.
Lemma tidy_msp pa k : tidy k -> msp pa k = marked (sense_of d pa) (spell k).
Proof.
  intros (a & b & w & -> & _ & Fa & Ea & Fb). unfold msp. destruct (sense_of d pa) as [v|]; [|reflexivity]. cbn [marked]. rewrite !filter_app.
  rewrite (filter_all (fun z => Bool.eqb (is_s z) false) a), (filter_none (fun z => Bool.eqb (is_s z) false) b), (filter_none (fun z => Bool.eqb (is_s z) true) a), (filter_all (fun z => Bool.eqb (is_s z) true) b), app_nil_r;
    try (eapply Forall_impl; [|first [exact Fa | exact Fb]]; intros z Z; unfold is_s; rewrite Z; reflexivity).
  destruct (tags_only b Fb) as (t & Et). change ([] ++ b) with b. rewrite (spell_app a b), Ea, Et. rewrite (with_sense_app v w (map Tag t)); [reflexivity|]. destruct t; exact I.
Qed.
Lemma one_pair e D0 a k la lk ra rk x y : filter is_elt k = [El (u "l"%string) la lk; El (u "r"%string) ra rk] ->
  parts regex e D0 [El (u "p"%string) a k] x y <-> x = spell (if dir_eqb e LR then lk else rk) /\ y = spell (if dir_eqb e LR then rk else lk).
Proof.
  intros E. split.
  - intros H. inversion H as [| | |? ? la' lk' ra' rk' ? x' y' E' H'| | |]; subst. rewrite E in E'. injection E' as <- <- <- <-. inversion H'; subst. rewrite !app_nil_r. auto.
  - intros (-> & ->). pose proof (P_pair regex e D0 a k la lk ra rk [] [] [] E (P_end _ _ _)) as H. rewrite !app_nil_r in H. exact H.
Qed.
Lemma one_same e D0 a k x y : parts regex e D0 [El (u "i"%string) a k] x y <-> x = spell k /\ y = spell k.
Proof.
  split.
  - intros H. inversion H as [| | | |? ? ? x' y' H'| |]; subst. inversion H'; subst. rewrite !app_nil_r. auto.
  - intros (-> & ->). pose proof (P_same regex e D0 a k [] [] [] (P_end _ _ _)) as H. rewrite !app_nil_r in H. exact H.
Qed.
Lemma plain_parts ea ek : Forall part_ok ek -> plain_entry d ek ->
  exists x0 y0, (forall x y, parts regex d D ek x y <-> x = x0 /\ y = y0) /\
    (forall x m, parts regex LR (gen false) (flat_map (img false ea) ek) x m <-> x = x0 /\ m = marked (sense_of d ea) x0) /\
    (forall m y, parts regex LR (gen true) (flat_map (img true ea) ek) m y <-> m = marked (sense_of d ea) x0 /\ y = y0).
Proof.
  intros PK P. pose proof (ok_elts ek PK) as EL. destruct P as [ek a k la lk ra rk E E0 T|ek a k E T].
  - rewrite E in EL. inversion EL as [|? ? (O & _) _]; subst. inversion O as [| |? ? la' lk' ra' rk' E' Cl Cr| | |]; subst. rewrite E0 in E'. injection E' as <- <- <- <-.
    exists (spell (if dir_eqb d LR then lk else rk)), (spell (if dir_eqb d LR then rk else lk)). rewrite <- (tidy_msp ea _ T). split; [|split]; intros x y.
    + rewrite <- parts_filter, E. apply one_pair with (la := la) (ra := ra). exact E0.
    + rewrite img_filter, E. cbn [flat_map]. unfold img. cbn [is_elt]. destruct (img_pair false ea a k la lk ra rk E0 Cl Cr) as (A1 & B1 & Q1 & S1 & S2). rewrite Q1. cbn [app]. rewrite <- S1, <- S2. exact (one_pair LR _ [] [El (u "l"%string) [] A1; El (u "r"%string) [] B1] [] A1 [] B1 x y eq_refl).
    + rewrite img_filter, E. cbn [flat_map]. unfold img. cbn [is_elt]. destruct (img_pair true ea a k la lk ra rk E0 Cl Cr) as (A1 & B1 & Q1 & S1 & S2). rewrite Q1. cbn [app]. rewrite <- S1, <- S2. exact (one_pair LR _ [] [El (u "l"%string) [] A1; El (u "r"%string) [] B1] [] A1 [] B1 x y eq_refl).
  - rewrite E in EL. inversion EL as [|? ? (O & _) _]; subst. inversion O as [| | |? ? C| |]; subst.
    exists (spell k), (spell k). rewrite <- (tidy_msp ea _ T). split; [|split]; intros x y.
    + rewrite <- parts_filter, E. apply one_same.
    + rewrite img_filter, E. cbn [flat_map]. unfold img. cbn [is_elt]. destruct (img_same false ea a k C) as (A1 & B1 & Q1 & S1 & S2). rewrite Q1. cbn [app]. rewrite <- S1, <- S2. exact (one_pair LR _ [] [El (u "l"%string) [] A1; El (u "r"%string) [] B1] [] A1 [] B1 x y eq_refl).
    + rewrite img_filter, E. cbn [flat_map]. unfold img. cbn [is_elt]. destruct (img_same true ea a k C) as (A1 & B1 & Q1 & S1 & S2). rewrite Q1. cbn [app]. rewrite <- S1, <- S2. exact (one_pair LR _ [] [El (u "l"%string) [] A1; El (u "r"%string) [] B1] [] A1 [] B1 x y eq_refl).
Qed.
Hypothesis PL : forall ea ek, entry D ea ek -> plain_entry d ek.
Theorem senses_added x m : translates regex LR (lex_dict false r2l (El (u "dictionary"%string) da D)) x m <-> exists v y, translates_as regex d D true x v y /\ m = marked v x.
Proof.
  rewrite gen_dict. split.
  - intros (a & D' & ea' & ek' & E & I & _ & P). injection E as <- <-. apply entry_from in I as (ea & ek & I & LO & PK & -> & ->).
    destruct (plain_parts ea ek PK (PL ea ek I)) as (x0 & y0 & H1 & H2 & _). pose proof (proj1 (H2 _ _) P) as (E1 & E2). exists (sense_of d ea), y0. split; [|rewrite E2, E1; reflexivity].
    exists ea, ek. apply left_out_spec in LO as (_ & US). split; [exact I|]. split; [left; reflexivity|]. split; [exact US|]. split; [reflexivity|]. apply H1. auto.
  - intros (v & y & (ea & ek & I & _ & US & <- & P) & ->). destruct (plain_parts ea ek (entry_parts ea ek I) (PL ea ek I)) as (x0 & y0 & H1 & H2 & _). pose proof (proj1 (H1 _ _) P) as (E1 & E2). symmetry in E1, E2. subst x0 y0.
    exists [], (gen false), [], (flat_map (img false ea) ek). split; [reflexivity|]. split; [apply entry_gen; [exact I | apply left_out_spec; split; [discriminate|exact US]]|]. split; [apply used_nil | apply H2; auto].
Qed.
Theorem senses_translated m y : translates regex LR (lex_dict true r2l (El (u "dictionary"%string) da D)) m y <-> exists x v, translates_as regex d D false x v y /\ m = marked v x.
Proof.
  rewrite gen_dict. split.
  - intros (a & D' & ea' & ek' & E & I & _ & P). injection E as <- <-. apply entry_from in I as (ea & ek & I & LO & PK & -> & ->).
    destruct (plain_parts ea ek PK (PL ea ek I)) as (x0 & y0 & H1 & _ & H2). pose proof (proj1 (H2 _ _) P) as (E1 & E2). exists x0, (sense_of d ea). split; [|exact E1].
    exists ea, ek. apply left_out_spec in LO as (NY & US). split; [exact I|]. split; [right; auto|]. split; [exact US|]. split; [reflexivity|]. apply H1. auto.
  - intros (x & v & (ea & ek & I & CN & US & <- & P) & ->). assert (NY : att (u "i"%string) ea <> Some (u "yes"%string)) by (destruct CN as [C|NY]; [discriminate C | exact NY]). destruct (plain_parts ea ek (entry_parts ea ek I) (PL ea ek I)) as (x0 & y0 & H1 & _ & H2). pose proof (proj1 (H1 _ _) P) as (E1 & E2). symmetry in E1, E2. subst x0 y0.
    exists [], (gen true), [], (flat_map (img true ea) ek). split; [reflexivity|]. split; [apply entry_gen; [exact I | apply left_out_spec; split; auto]|]. split; [apply used_nil | apply H2; auto].
Qed.
Hypothesis NI : none_ignored D.
Lemma parts_choice K x m : parts regex LR (gen false) K x m -> forall ea L, elts L -> K = flat_map (img false ea) L ->
  exists y, parts regex LR (gen true) (flat_map (img true ea) L) m y /\ parts regex d D L x y.
Proof.
  induction 1 as [|s r x y _ IH|s r x y _ IH|a k la lk ra rk r x y E _ IH|a k r x y _ IH|a k w r x y W _ IH|a k n pa pk ba bk e0 k0 x1 y1 r x y A I1 I2 A2 I3 U _ IH1 _ IH]; intros ea L F K.
  - exists []. destruct F as [|z L (P & Q) F]; [split; constructor|]. cbn [flat_map] in K. unfold img at 1 in K. rewrite Q in K. destruct (img_one false ea z P Q) as (Y & H). rewrite H in K. discriminate K.
  - apply img_cons in K as (z & L' & -> & P & Q & F' & H & ->); [|exact F]. destruct P; try discriminate Q.
    + destruct (img_pair false ea a k la lk ra rk) as (A & B & G & _); [assumption..|]. rewrite G in H. discriminate H.
    + destruct (img_same false ea a k) as (A & B & G & _); [assumption|]. rewrite G in H. discriminate H.
    + discriminate H.
    + discriminate H.
  - apply img_cons in K as (z & L' & -> & P & Q & F' & H & ->); [|exact F]. destruct P; try discriminate Q.
    + destruct (img_pair false ea a k la lk ra rk) as (A & B & G & _); [assumption..|]. rewrite G in H. discriminate H.
    + destruct (img_same false ea a k) as (A & B & G & _); [assumption|]. rewrite G in H. discriminate H.
    + discriminate H.
    + discriminate H.
  - apply img_cons in K as (z & L' & -> & P & Q & F' & H & ->); [|exact F]. destruct (IH ea L' F' eq_refl) as (y' & G1 & G2). cbn [flat_map]. unfold img at 1. rewrite Q.
    destruct P as [s|s|a0 k0 la0 lk0 ra0 rk0 E0 Cl Cr|a0 k0 C|a0 k0 n A|a0 k0 C]; try discriminate Q.
    + destruct (img_pair false ea a0 k0 la0 lk0 ra0 rk0 E0 Cl Cr) as (A1 & B1 & Q1 & S1 & S2). destruct (img_pair true ea a0 k0 la0 lk0 ra0 rk0 E0 Cl Cr) as (A2 & B2 & Q2 & T1 & T2).
      rewrite Q1 in H. injection H as <- <-. injection E as <- <- <- <-. exists (spell (if dir_eqb d LR then rk0 else lk0) ++ y'). rewrite !dirsel, S1, S2, Q2. cbn [app]. split.
      * rewrite <- T1, <- T2. exact (P_pair regex LR _ [] [El (u "l"%string) [] A2; El (u "r"%string) [] B2] [] A2 [] B2 _ _ _ eq_refl G1).
      * exact (P_pair regex d D a0 k0 la0 lk0 ra0 rk0 L' x y' E0 G2).
    + destruct (img_same false ea a0 k0 C) as (A1 & B1 & Q1 & S1 & S2). destruct (img_same true ea a0 k0 C) as (A2 & B2 & Q2 & T1 & T2).
      rewrite Q1 in H. injection H as <- <-. injection E as <- <- <- <-. exists (spell k0 ++ y'). rewrite !dirsel, S1, S2, Q2. cbn [app]. split.
      * rewrite <- T1, <- T2. exact (P_pair regex LR _ [] [El (u "l"%string) [] A2; El (u "r"%string) [] B2] [] A2 [] B2 _ _ _ eq_refl G1).
      * exact (P_same regex d D a0 k0 L' x y' G2).
    + rewrite img_par in H. discriminate H.
    + rewrite img_re in H. discriminate H.
  - apply img_cons in K as (z & L' & -> & P & Q & F' & H & ->); [|exact F]. destruct P; try discriminate Q.
    + destruct (img_pair false ea a0 k0 la lk ra rk) as (A & B & G & _); [assumption..|]. rewrite G in H. discriminate H.
    + destruct (img_same false ea a0 k0) as (A & B & G & _); [assumption|]. rewrite G in H. discriminate H.
    + discriminate H.
    + discriminate H.
  - apply img_cons in K as (z & L' & -> & P & Q & F' & H & ->); [|exact F]. destruct (IH ea L' F' eq_refl) as (y' & G1 & G2). cbn [flat_map]. unfold img at 1. rewrite Q.
    destruct P as [s|s|a0 k0 la0 lk0 ra0 rk0 E0 Cl Cr|a0 k0 C|a0 k0 n A|a0 k0 C]; try discriminate Q.
    + destruct (img_pair false ea a0 k0 la0 lk0 ra0 rk0) as (A & B & G & _); [assumption..|]. rewrite G in H. discriminate H.
    + destruct (img_same false ea a0 k0) as (A & B & G & _); [assumption|]. rewrite G in H. discriminate H.
    + rewrite img_par in H. discriminate H.
    + rewrite img_re in H. injection H as <- <-. rewrite text_lc in W by exact C. exists (w ++ y'). rewrite img_re. cbn [app]. split; apply P_regex; try assumption. rewrite text_lc; assumption.
  - apply img_cons in K as (z & L' & -> & P & Q & F' & H & ->); [|exact F]. destruct (IH ea L' F' eq_refl) as (y' & G1 & G2). cbn [flat_map]. unfold img at 1. rewrite Q.
    destruct P as [s|s|a1 k1 la0 lk0 ra0 rk0 E0 Cl Cr|a1 k1 C|a1 k1 n1 A1|a1 k1 C]; try discriminate Q.
    + destruct (img_pair false ea a1 k1 la0 lk0 ra0 rk0) as (A3 & B3 & G & _); [assumption..|]. rewrite G in H. discriminate H.
    + destruct (img_same false ea a1 k1) as (A3 & B3 & G & _); [assumption|]. rewrite G in H. discriminate H.
    + rewrite img_par in H. injection H as <- <-. rewrite (att_n a1 n1 A1) in A. injection A as <-.
      destruct (proj1 (gen_pardef false ba bk) (ex_intro _ pa (ex_intro _ pk (conj I1 I2)))) as (pa' & pk' & c & j & J1 & J2 & -> & ->).
      destruct (proj2 OK pa' pk' c j J1 J2) as (OE & nc & AC). rewrite (att_n c nc AC) in A2. injection A2 as ->.
      apply entries_of in I3; [|exact OE]. destruct I3 as (eb & kb & I3 & LO & PK & -> & ->).
      assert (EL : elts (filter is_elt kb)) by (apply Forall_forall; intros z Z; apply filter_In in Z as (Z & Z'); rewrite Forall_forall in PK; auto).
      destruct (IH1 eb (filter is_elt kb) EL (img_filter false eb kb)) as (y1' & K1 & K2). rewrite <- img_filter in K1. apply (proj1 (parts_filter d D kb _ _)) in K2.
      apply left_out_spec in LO as (_ & US). pose proof (proj2 NI pa' pk' c j eb kb J1 J2 I3) as NY.
      assert (LO : left_out true r2l eb = false) by (apply left_out_spec; auto).
      destruct (proj2 (gen_pardef true [(u "n"%string, att0 (u "n"%string) c)] (flat_map (lc true r2l c) j)) (ex_intro _ pa' (ex_intro _ pk' (ex_intro _ c (ex_intro _ j (conj J1 (conj J2 (conj eq_refl eq_refl)))))))) as (pa2 & pk2 & M1 & M2).
      assert (M3 : In (El (u "e"%string) [] (flat_map (img true eb) kb)) (flat_map (lc true r2l c) j)) by (apply entries_of; [exact OE|]; exists eb, kb; auto).
      exists (y1' ++ y'). rewrite img_par. cbn [app]. split.
      * exact (P_paradigm regex LR _ _ [] n1 pa2 pk2 _ _ [] _ y1 y1' _ y y' (att_n a1 n1 A1) M1 M2 (att_n c n1 AC) M3 (used_nil LR) K1 G1).
      * exact (P_paradigm regex d D a1 k1 n1 pa' pk' c j eb kb x1 y1' _ x y' A1 J1 J2 AC I3 (conj NY US) K2 G2).
    + rewrite img_re in H. discriminate H.
Qed.
Theorem choice x m : translates regex LR (lex_dict false r2l (El (u "dictionary"%string) da D)) x m ->
  exists y, translates regex LR (lex_dict true r2l (El (u "dictionary"%string) da D)) m y /\ translates regex d [El (u "dictionary"%string) da D] x y.
Proof.
  rewrite !gen_dict. intros (a & D' & ea' & ek' & E & I & U & P). injection E as <- <-. apply entry_from in I as (ea & ek & I & LO & PK & -> & ->).
  rewrite img_filter in P. destruct (parts_choice _ x m P ea _ (ok_elts ek PK) eq_refl) as (y & H1 & H2). rewrite <- img_filter in H1. apply (proj1 (parts_filter d D ek _ _)) in H2.
  apply left_out_spec in LO as (_ & US). assert (NY : att (u "i"%string) ea <> Some (u "yes"%string)) by (destruct I as (sa & sk & I & J); exact (proj1 NI sa sk ea ek I J)).
  exists y. split.
  - exists [], (gen true), [], (flat_map (img true ea) ek). split; [reflexivity|]. split; [apply entry_gen; [exact I | apply left_out_spec; auto]|]. split; [apply used_nil | exact H1].
  - exists da, D, ea, ek. split; [reflexivity|]. split; [exact I|]. split; [split; assumption | exact H2].
Qed.
End D.

(** ** The mark can be found again *)
Definition clean (w : str) : Prop := ~ (exists p q, w = p ++ u "__"%string ++ q) /\ ~ (exists p, w = p ++ u "_"%string).
Lemma clean_tl c w : clean (c :: w) -> clean w.
Proof. intros (H1 & H2). split; [intros (p & q & ->); apply H1; exists (c :: p), q; reflexivity | intros (p & ->); apply H2; exists (c :: p); reflexivity]. Qed.
Lemma clean_nil v c w v' : clean (c :: w) -> u "__"%string ++ v = (c :: w) ++ u "__"%string ++ v' -> False.
Proof.
  intros (H1 & H2) E. injection E as <- E. destruct w as [|c w].
  - apply H2. exists []. reflexivity.
  - injection E as <- _. apply H1. exists [], w. reflexivity.
Qed.
Lemma mark_unique w w' v v' : clean w -> clean w' -> w ++ u "__"%string ++ v = w' ++ u "__"%string ++ v' -> w = w' /\ v = v'.
Proof.
  revert w'. induction w as [|c w IH]; intros [|c' w'] C C' E.
  - split; [reflexivity|]. injection E as E. exact E.
  - destruct (clean_nil v c' w' v' C' E).
  - symmetry in E. destruct (clean_nil v' c w v C E).
  - injection E as <- E. destruct (IH w' (clean_tl _ _ C) (clean_tl _ _ C') E) as (-> & ->). auto.
Qed.
Lemma lemma_tags w w' t t' : map Ch w ++ map Tag t = map Ch w' ++ map Tag t' -> w = w' /\ t = t'.
Proof.
  revert w'. induction w as [|c w IH]; intros [|c' w'] E.
  - split; [reflexivity|]. revert t' E. induction t as [|n t IH]; intros [|n' t'] E; try discriminate E; [reflexivity|]. injection E as <- E. f_equal. exact (IH t' E).
  - destruct t; discriminate E.
  - destruct t'; discriminate E.
  - injection E as <- E. destruct (IH w' E) as (-> & ->). auto.
Qed.
Theorem marked_unique x x' v v' : unmarked x -> unmarked x' -> marked v x = marked v' x' -> x = x' /\ v = v'.
Proof.
  intros (w & t & -> & N1 & N2) (w' & t' & -> & N1' & N2') E. assert (C : clean w) by (split; assumption). assert (C' : clean w') by (split; assumption).
  assert (M : forall z w t, marked (Some z) (map Ch w ++ map Tag t) = map Ch (w ++ u "__"%string ++ z) ++ map Tag t).
  { intros z w0 t0. cbn [marked]. rewrite with_sense_app by (destruct t0; exact I). rewrite (map_app Ch w0), <- app_assoc. reflexivity. }
  destruct v as [v|], v' as [v'|].
  - rewrite !M in E. apply lemma_tags in E as (E & ->). apply mark_unique in E as (-> & ->); auto.
  - rewrite M in E. apply lemma_tags in E as (E & _). destruct N1'. exists w, v. symmetry. exact E.
  - rewrite M in E. apply lemma_tags in E as (E & _). destruct N1. exists w', v'. exact E.
  - auto.
Qed.
