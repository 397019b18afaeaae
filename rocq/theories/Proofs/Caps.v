(** Proofs for C36 and C50. *)
From Coq Require Import String.
From Verif Require Import Model.Base Model.Caps Spec.MorphoStream Spec.Caps Proofs.Base.

(** ** reading *)
Lemma blankw_inside p : plain (fun c => c = cRB) (fun _ => False) p -> forall acc rest, read_blankw (p ++ cRB :: rest) true acc = read_blankw rest false (acc ++ p ++ [cRB]).
Proof.
  induction 1 as [|c s Hc Hs H IH|d s Hd H IH]; intros acc rest; cbn [app].
  - reflexivity.
  - cbn [read_blankw]. destruct (ceq_spec c cBS); [contradiction|]. destruct (ceq_spec c cRB); [contradiction|]. cbn [negb]. rewrite IH. appeq.
  - cbn [read_blankw]. rewrite ceq_refl, IH. appeq.
Qed.
Lemma blankw_part b : wf_blankw b -> forall acc rest, read_blankw (b ++ rest) false acc = read_blankw rest false (acc ++ b).
Proof.
  induction 1 as [|c s H1 H2 H3 H4 H IH|d s H IH|p s Hp Hn H IH]; intros acc rest; cbn [app].
  - rewrite app_nil_r. reflexivity.
  - cbn [read_blankw]. destruct (ceq_spec c cBS); [contradiction|]. destruct (ceq_spec c cCARET); [contradiction|]. destruct (ceq_spec c cNUL); [contradiction|].
    destruct (ceq_spec c cLB); [contradiction|]. cbn [orb]. rewrite IH. appeq.
  - cbn [read_blankw]. rewrite ceq_refl, IH. appeq.
  - rewrite <- app_assoc. cbn [app]. cbn [read_blankw]. change (cLB =?c cBS) with false. change (cLB =?c cCARET) with false. change (cLB =?c cNUL) with false. cbn [orb]. rewrite ceq_refl.
    destruct (p ++ cRB :: s ++ rest) as [|d q] eqn:E; [destruct p; discriminate|].
    assert (D : d <> cLB). { intros ->. destruct p as [|x p]; inversion E; subst. exact (Hn p eq_refl). }
    destruct (ceq_spec d cLB); [contradiction|]. rewrite <- E, blankw_inside by exact Hp. rewrite IH. appeq.
Qed.
Lemma blankw_stop acc c r : c = cCARET \/ c = cNUL -> read_blankw (c :: r) false acc = (acc, c :: r).
Proof. intros [->| ->]; reflexivity. Qed.
Lemma blankw_wb acc r : read_blankw (cLB :: cLB :: r) false acc = (acc, cLB :: cLB :: r).
Proof. reflexivity. Qed.
Lemma finish_wb t : plain (fun c => c = cRB) (fun _ => False) t -> forall acc rest, finish_wblank (t ++ cRB :: cRB :: rest) acc = Some (acc ++ t ++ [cRB; cRB], rest).
Proof.
  induction 1 as [|c s Hc Hs H IH|d s Hd H IH]; intros acc rest; cbn [app].
  - reflexivity.
  - cbn [finish_wblank]. destruct (ceq_spec c cBS); [contradiction|]. destruct (ceq_spec c cRB); [contradiction|]. rewrite IH. appeq.
  - cbn [finish_wblank]. rewrite ceq_refl, IH. appeq.
Qed.
Lemma finish_bl t : plain (fun c => c = cGT) (fun _ => False) t -> forall acc rest, finish_block (t ++ cGT :: rest) acc = Some (acc ++ t ++ [cGT], rest).
Proof.
  induction 1 as [|c s Hc Hs H IH|d s Hd H IH]; intros acc rest; cbn [app].
  - reflexivity.
  - cbn [finish_block]. destruct (ceq_spec c cBS); [contradiction|]. destruct (ceq_spec c cGT); [contradiction|]. rewrite IH. appeq.
  - cbn [finish_block]. rewrite ceq_refl, IH. appeq.
Qed.
Lemma seg_part s : wf_seg s -> forall fuel acc c rest, c = cSLASH \/ c = cDOL -> length s < fuel -> read_seg fuel (s ++ c :: rest) acc = Some (acc ++ s, c :: rest, false).
Proof.
  induction 1 as [|x s H1 H2 H3 H4 H IH|d s H IH|t s Ht H IH]; intros fuel acc c rest Hc L; destruct fuel as [|fuel]; cbn [length] in L; try lia; cbn [app].
  - rewrite app_nil_r. destruct Hc as [->| ->]; reflexivity.
  - cbn [read_seg]. destruct (ceq_spec x cBS); [contradiction|]. destruct (ceq_spec x cLT); [contradiction|]. destruct (ceq_spec x cSLASH); [contradiction|].
    destruct (ceq_spec x cDOL); [contradiction|]. cbn [orb]. rewrite IH by (auto; lia). appeq.
  - cbn [read_seg]. rewrite ceq_refl, IH by (auto; lia). appeq.
  - cbn [read_seg]. change (cLT =?c cBS) with false. rewrite ceq_refl. rewrite <- app_assoc. cbn [app]. rewrite finish_bl by exact Ht.
    rewrite app_length in L. cbn [length] in L. rewrite IH by (auto; lia). appeq.
Qed.
Lemma seg_of_part s acc c rest : wf_seg s -> c = cSLASH \/ c = cDOL -> seg_of (s ++ c :: rest) acc = Some (acc ++ s, c :: rest, false).
Proof. intros H Hc. unfold seg_of. apply seg_part; auto. rewrite app_length. cbn. lia. Qed.

(** ** pieces *)
Lemma split_piece p : no_sep p -> forall cur r, split_sc (p ++ cSEMI :: cSP :: r) cur = (cur ++ p) :: split_sc r [].
Proof.
  induction 1 as [|c|c d s Hn H IH]; intros cur r; cbn [app].
  - rewrite app_nil_r. reflexivity.
  - cbn [split_sc]. destruct (ceq_spec c cSEMI); [|rewrite !ceq_refl; reflexivity]. change (cSEMI =?c cSP) with false. rewrite !ceq_refl. reflexivity.
  - cbn [app] in IH. cbn [split_sc]. cbn [split_sc] in IH. destruct (ceq_spec c cSEMI) as [->|N].
    + destruct (ceq_spec d cSP) as [->|N']; [exfalso; apply Hn; auto|]. rewrite IH. appeq.
    + rewrite IH. appeq.
Qed.
Lemma split_last p : no_sep p -> forall cur, split_sc p cur = [cur ++ p].
Proof.
  induction 1 as [|c|c d s Hn H IH]; intros cur.
  - rewrite app_nil_r. reflexivity.
  - cbn [split_sc]. destruct (c =?c cSEMI); reflexivity.
  - cbn [split_sc] in *. destruct (ceq_spec c cSEMI) as [->|N].
    + destruct (ceq_spec d cSP) as [->|N']; [exfalso; apply Hn; auto|]. rewrite IH. appeq.
    + rewrite IH. appeq.
Qed.
Lemma split_joined l : l <> [] -> Forall wf_piece l -> split_sc (joined l) [] = l.
Proof.
  induction l as [|p l IH]; intros N F; [congruence|]. inversion F as [|? ? (H1 & H2 & H3) F']; subst. cbn [joined]. destruct l as [|q l].
  - apply (split_last p H2 []).
  - change (u "; "%string ++ joined (q :: l)) with (cSEMI :: cSP :: joined (q :: l)). rewrite split_piece by exact H2. rewrite IH by (auto; discriminate). reflexivity.
Qed.
Lemma join_joined l : join_sc l = joined l.
Proof. induction l as [|x [|y l] IH]; [reflexivity..|]. cbn [join_sc joined]. cbn [join_sc] in IH. rewrite IH. reflexivity. Qed.
Lemma joined_plain l : Forall wf_piece l -> plain (fun c => c = cRB) (fun _ => False) (joined l).
Proof.
  assert (A : forall a b, plain (fun c => c = cRB) (fun _ => False) a -> plain (fun c => c = cRB) (fun _ => False) b -> plain (fun c => c = cRB) (fun _ => False) (a ++ b)).
  { induction 1; intros Hb; cbn [app]; [exact Hb|apply P_char; auto|apply P_esc; auto]. }
  induction 1 as [|p l (H1 & H2 & H3) F IH]; [apply P_nil|]. cbn [joined]. destruct l as [|q l]; [exact H3|].
  apply A; [exact H3|]. apply A; [|exact IH]. repeat (apply P_char; [discriminate..|]). apply P_nil.
Qed.
Lemma joined_ne l : l <> [] -> Forall wf_piece l -> joined l <> [].
Proof. intros N F. destruct F as [|p l (H1 & _) F]; [congruence|]. cbn. destruct l; [exact H1|]. destruct p; [congruence|]. discriminate. Qed.
Lemma is_caps_match p X (a b : X) : 
  (exists q, p = u "c:"%string ++ q) \/ ((match p with c :: d :: q => if (c =?c 99%N) && (d =?c cCOLON) then a else b | _ => b end) = b /\ ~ is_caps p).
Proof.
  destruct p as [|c [|d q]].
  - right. split; [reflexivity|]. intros [q E]. discriminate.
  - right. split; [reflexivity|]. intros [q E]. discriminate.
  - destruct (ceq_spec c 99%N) as [->|N]; cbn [andb].
    + destruct (ceq_spec d cCOLON) as [->|N].
      * left. exists q. reflexivity.
      * right. split; [reflexivity|]. intros [q' E]. vm_compute in E. injection E as E1 E2. apply N; exact E1.
    + right. split; [reflexivity|]. intros [q' E]. vm_compute in E. injection E as E1 E2. apply N; exact E1.
Qed.
Lemma caps_pieces_note l : exists src kept, caps_note l src kept /\ (forall k0, exists sc, caps_pieces l k0 = (sc, k0 ++ kept) /\ src = match sc with Some q => q | None => u "aa/aa"%string end) /\ (forall P, Forall P l -> Forall P kept).
Proof.
  induction l as [|p l (src & kept & H1 & H2 & H3)].
  - exists (u "aa/aa"%string), []. split; [apply CN_none; constructor|]. split; [|auto]. intros k0. exists None. rewrite app_nil_r. auto.
  - destruct (is_caps_match p _ 0 1) as [(q & ->)|(_ & N)].
    + exists q, []. split; [exact (CN_some [] q l (Forall_nil _))|]. split; [|auto]. intros k0. exists (Some q). rewrite app_nil_r. auto.
    + exists src, (p :: kept). split; [|split].
      * inversion H1; subst; [apply CN_none; constructor; auto|apply (CN_some (p :: kept)); constructor; auto].
      * intros k0. destruct (H2 (k0 ++ [p])) as (sc & E1 & E2). exists sc. split; [|exact E2]. cbn [caps_pieces].
        assert (M : caps_pieces l (k0 ++ [p]) = (sc, k0 ++ p :: kept)) by (rewrite E1, <- app_assoc; reflexivity).
        destruct p as [|c [|d q]]; try exact M. destruct ((c =?c 99%N) && (d =?c cCOLON)) eqn:E; [|exact M].
        apply andb_prop in E as [A B]. apply ceq_eq in A, B. subst. exfalso. apply N. exists q. reflexivity.
      * intros P F. inversion F; subst. constructor; auto.
Qed.
Lemma caps_of_text del l : Forall wf_piece l -> exists src kept, caps_note l src kept /\ Forall wf_piece kept /\ caps_of del (wb_text l) = (src, wb_text (if del then kept else l)).
Proof.
  intros F. destruct l as [|p0 l0].
  - exists (u "aa/aa"%string), []. split; [apply CN_none; constructor|]. split; [constructor|]. destruct del; reflexivity.
  - remember (p0 :: l0) as l eqn:El. assert (N : l <> []) by (subst; discriminate). clear p0 l0 El.
    destruct (caps_pieces_note l) as (src & kept & H1 & H2 & H3). exists src, kept. split; [exact H1|]. split; [auto|].
    assert (T : wb_text l = cLB :: cLB :: joined l ++ [cRB; cRB]) by (destruct l; [congruence|reflexivity]).
    rewrite T. unfold caps_of. cbn [skipn].
    replace (length (cLB :: cLB :: joined l ++ [cRB; cRB]) - 4) with (length (joined l) + 0) by (cbn [length]; rewrite app_length; cbn [length]; lia).
    rewrite firstn_app_2. cbn [firstn]. rewrite app_nil_r, split_joined by auto. destruct (H2 []) as (sc & E1 & E2). rewrite E1. cbn [app].
    destruct del; rewrite <- E2; [|rewrite T; reflexivity]. rewrite join_joined. destruct kept as [|k kept]; [reflexivity|].
    pose proof (joined_ne (k :: kept) ltac:(discriminate) (H3 _ F)) as Nj. unfold wb_text. destruct (joined (k :: kept)); [congruence|]. reflexivity.
Qed.

Section R.
Variables (W : Type) (w0 : W) (wadd : W -> W -> W) (wge : W -> W -> bool).
Variable weights : str -> W.
Variables (tolower totitle toupper : str -> str).
Variables (State : Type) (initial : State) (step_null step_wb : State -> State) (step_word : State -> str -> str -> str -> State).
Variable finals : State -> list (str * list str).
Variable dead : State -> bool.
Variable merge : State -> State.
Variable delete_wblanks : bool.
Variable late : bool.
Notation LU := (Caps.LU W).
Notation mk := (Caps.mkLU W).
Definition form_of (w : cword) : str := match c_form w with Some f => f | None => [] end.
Definition lu_of (w : cword) (wb : str) : LU := mk (c_blank w) wb (form_of w) (c_surf w) w0 w0 w0 w0.
Notation rword := (read_word W w0 State step_word delete_wblanks).
Lemma word_head w rest : wf_word w -> exists c r, word_text w ++ rest = c :: r /\ c <> cNUL.
Proof.
  intros (H & _). unfold word_text. destruct H as [|c s _ _ N|d s|p s].
  - destruct (c_wb w); eexists _, _; split; try reflexivity; discriminate.
  - eexists _, _; split; [reflexivity|exact N].
  - eexists _, _; split; [reflexivity|discriminate].
  - eexists _, _; split; [reflexivity|discriminate].
Qed.
Lemma read_word_text w rest st : wf_word w -> exists src kept, caps_note (c_wb w) src kept /\ Forall wf_piece kept /\
  rword (word_text w ++ rest) st = Some (lu_of w (wb_text (if delete_wblanks then kept else c_wb w)), step_word st src (form_of w) (c_surf w), rest, false).
Proof.
  intros (H1 & H2 & H3 & H4 & H5). destruct (caps_of_text delete_wblanks (c_wb w) H2) as (src & kept & K1 & K2 & K3). exists src, kept. split; [exact K1|]. split; [exact K2|].
  unfold read_word, word_text. rewrite <- !app_assoc. rewrite blankw_part by exact H1. cbn [app].
  set (rest2 := u "^"%string ++ (match c_form w with Some f => f ++ u "/"%string | None => [] end) ++ c_surf w ++ u "$"%string ++ rest).
  assert (R : exists r, rest2 = cCARET :: r /\ r = (match c_form w with Some f => f ++ u "/"%string | None => [] end) ++ c_surf w ++ u "$"%string ++ rest) by (eexists; split; reflexivity).
  destruct R as (r & -> & Er).
  assert (A : (let '(b, r') := read_blankw (wb_text (c_wb w) ++ cCARET :: r) false (c_blank w) in
     b = c_blank w /\ match r' with
         | c :: r1 => if c =?c cLB then match r1 with _ :: r2 => finish_wblank r2 [cLB; cLB] | [] => None end else Some ([], r')
         | [] => Some ([], r')
         end = Some (wb_text (c_wb w), cCARET :: r))).
  { destruct (c_wb w) as [|p l] eqn:Ew.
    - cbn [wb_text app]. rewrite blankw_stop by auto. split; reflexivity.
    - change (wb_text (p :: l) ++ cCARET :: r) with (cLB :: cLB :: (joined (p :: l) ++ u "]]"%string) ++ cCARET :: r). rewrite blankw_wb. split; [reflexivity|].
      rewrite ceq_refl. rewrite <- app_assoc. change (u "]]"%string ++ cCARET :: r) with (cRB :: cRB :: cCARET :: r). rewrite finish_wb by (apply joined_plain; exact H2). reflexivity. }
  destruct (read_blankw (wb_text (c_wb w) ++ cCARET :: r) false (c_blank w)) as [b r'] eqn:B. destruct A as [-> A]. rewrite A. clear A. rewrite ceq_refl.
  subst r. unfold lu_of, form_of. destruct (c_form w) as [f|] eqn:Ef.
  - rewrite <- app_assoc. change (u "/"%string ++ c_surf w ++ u "$"%string ++ rest) with (cSLASH :: c_surf w ++ cDOL :: rest).
    rewrite seg_of_part by auto. change (cSLASH =?c cDOL) with false. cbn [read_alts]. rewrite seg_of_part by auto.
    change (cDOL =?c cSLASH) with false. rewrite K3. reflexivity.
  - cbn [app]. change (u "$"%string ++ rest) with (cDOL :: rest). rewrite seg_of_part by auto. rewrite ceq_refl. rewrite K3. reflexivity.
Qed.
Lemma read_gap e st c rest : wf_blankw e -> c = cNUL -> rword (e ++ c :: rest) st = Some (mk e [] [] [] w0 w0 w0 w0, st, c :: rest, false).
Proof. intros H ->. unfold read_word. rewrite blankw_part by exact H. cbn [app]. rewrite blankw_stop by auto. reflexivity. Qed.
Lemma read_end e st : wf_blankw e -> rword e st = Some (mk e [] [] [] w0 w0 w0 w0, st, [], true).
Proof. intros H. unfold read_word. rewrite <- (app_nil_r e) at 1. rewrite blankw_part by exact H. reflexivity. Qed.

(** ** votes *)
Notation ev := (evidence_from W wadd).
Definition bump (k : nat) (vs : list (list (W * list str))) (w : LU) : LU :=
  let 'Caps.mkLU _ b wb f s d A a l := w in mk b wb f s (ev k vs DIX d) (ev k vs UP A) (ev k vs TITLE a) (ev k vs LOW l).
Fixpoint imap {X} (f : nat -> X -> X) (k : nat) (l : list X) : list X := match l with [] => [] | x :: r => f k x :: imap f (S k) r end.
Lemma imap_app {X} (f : nat -> X -> X) l1 l2 k : imap f k (l1 ++ l2) = imap f k l1 ++ imap f (k + length l1) l2.
Proof. revert k. induction l1 as [|x l IH]; intros k; cbn [app imap length]; [rewrite Nat.add_0_r; reflexivity|]. rewrite IH. do 2 f_equal. f_equal. lia. Qed.
Lemma imap_ext {X} (f g : nat -> X -> X) l k : (forall i x, k <= i -> f i x = g i x) -> imap f k l = imap g k l.
Proof. revert k. induction l as [|x l IH]; intros k H; [reflexivity|]. cbn [imap]. rewrite H by lia. f_equal. apply IH. intros; apply H; lia. Qed.
Lemma imap_imap {X} (f g : nat -> X -> X) l k : imap f k (imap g k l) = imap (fun i x => f i (g i x)) k l.
Proof. revert k. induction l as [|x l IH]; intros k; [reflexivity|]. cbn [imap]. rewrite IH. reflexivity. Qed.
Lemma imap_shift {X} (f : nat -> X -> X) l k : imap f (S k) l = imap (fun i => f (S i)) k l.
Proof. revert k. induction l as [|x l IH]; intros k; [reflexivity|]. cbn [imap]. rewrite IH. reflexivity. Qed.
Lemma imap_length {X} (f : nat -> X -> X) l k : length (imap f k l) = length l.
Proof. revert k. induction l as [|x l IH]; intros k; [reflexivity|]. cbn. rewrite IH. reflexivity. Qed.
Lemma imap_id {X} (f : nat -> X -> X) l k : (forall i x, k <= i -> f i x = x) -> imap f k l = l.
Proof. revert k. induction l as [|x l IH]; intros k H; [reflexivity|]. cbn. rewrite H by lia. f_equal. apply IH. intros; apply H; lia. Qed.
Definition vote1 (rp : list str) (x : W) (k : nat) (w : LU) : LU := match nth_error rp k with Some p => add_case W wadd p x w | None => w end.
Lemma add_path_imap x rp : forall rw, length rp <= length rw -> add_path W wadd x rp rw = Some (imap (vote1 rp x) 0 rw).
Proof.
  assert (G : forall rp rw k pre, length pre = k -> length rp <= length rw -> add_path W wadd x rp rw = Some (imap (vote1 (pre ++ rp) x) k rw)).
  { clear rp. intros rp. induction rp as [|p rp IH]; intros rw k pre E L.
    - destruct rw; cbn [add_path]; f_equal; symmetry; apply imap_id; intros i y Hi; unfold vote1; rewrite app_nil_r; destruct (nth_error pre i) eqn:Q; auto;
      assert (nth_error pre i <> None) by congruence; apply nth_error_Some in H; lia.
    - destruct rw as [|w rw]; [cbn in L; lia|]. cbn [add_path imap]. rewrite (IH rw (S k) (pre ++ [p])) by (rewrite ?app_length; cbn in *; lia).
      rewrite <- app_assoc. cbn [app]. f_equal. f_equal. unfold vote1. rewrite nth_error_app2 by lia. rewrite E, Nat.sub_diag. reflexivity. }
  intros rw L. apply (G rp rw 0 []); auto.
Qed.
Lemma vote1_bump rp x k w : vote1 (rev rp) x k w = bump k [[(x, rp)]] w.
Proof.
  unfold vote1, bump. destruct w as [b wb f s d A a l]. cbn [evidence_from fold_left fst snd]. destruct (nth_error (rev rp) k) as [p|]; [|reflexivity].
  unfold add_case. fold DIX LOW TITLE UP.
  destruct (str_eqb p UP) eqn:E1; [apply str_eqb_eq in E1; subst; reflexivity|].
  destruct (str_eqb p TITLE) eqn:E2; [apply str_eqb_eq in E2; subst; reflexivity|].
  destruct (str_eqb p LOW) eqn:E3; [apply str_eqb_eq in E3; subst; reflexivity|].
  destruct (str_eqb p DIX) eqn:E4; reflexivity.
Qed.
Lemma bump_app k v1 v2 w : bump k [v1 ++ v2] w = bump k [v2] (bump k [v1] w).
Proof. destruct w. unfold bump. cbn [evidence_from]. rewrite !fold_left_app. reflexivity. Qed.
Lemma bump_nil k w : bump k [[]] w = w.
Proof. destruct w. reflexivity. Qed.
Lemma bump_none k w : bump k [] w = w.
Proof. destruct w. reflexivity. Qed.
Lemma bump_cons k v vs w : bump k (v :: vs) w = bump (S k) vs (bump k [v] w).
Proof. destruct w. reflexivity. Qed.
Lemma add_paths_imap paths : forall seen words, Forall (fun v => length (snd v) <= length words) (firsts W weights paths seen) ->
  add_paths W wadd weights paths seen words = Some (rev (imap (fun k => bump k [firsts W weights paths seen]) 0 (rev words))).
Proof.
  induction paths as [|[r p] paths IH]; intros seen words F; cbn [add_paths firsts] in *.
  - f_equal. rewrite imap_id by (intros; apply bump_nil). rewrite rev_involutive. reflexivity.
  - destruct (existsb (str_eqb r) seen); [apply IH; exact F|]. inversion F as [|? ? F1 F2]; subst. cbn [snd] in F1.
    rewrite add_path_imap by (rewrite !rev_length; exact F1). rewrite IH.
    + rewrite rev_involutive, imap_imap. do 2 f_equal. apply imap_ext. intros i w _. rewrite vote1_bump, <- bump_app. reflexivity.
    + rewrite rev_length, imap_length, rev_length. exact F2.
Qed.

(** ** the run over the items *)
Notation aw := (after_word W wadd wge weights tolower totitle toupper State initial step_wb finals dead merge).
Notation outall := (output_all W wge tolower totitle toupper).
Notation aft := (after State step_wb step_word).
Notation vat := (votes_at W weights State finals).
Notation nxt := (next State initial dead merge).
Notation votes := (all_votes W weights State initial step_wb step_word finals dead merge).
Notation Fits := (fits W weights State initial step_wb step_word finals dead merge).
Definition stepi (st : State) (i : citem) : State := match i with Some (c, f, s) => step_word st c f s | None => st end.
Fixpoint run (l : list (LU * citem)) (st : State) (ws : list LU) : option (str * list LU * State) :=
  match l with
  | [] => Some ([], ws, st)
  | (w, i) :: r => match aw w (stepi st i) ws with
                   | None => None
                   | Some (o, ws, st) => match run r st ws with Some (o', ws, st) => Some (o ++ o', ws, st) | None => None end
                   end
  end.
Lemma out_of_reach l : forall st n k c acc, Fits st n l -> n < k -> ev k (votes st l) c acc = acc.
Proof.
  induction l as [|i l IH]; intros st n k c acc F L; [reflexivity|]. cbn [fits all_votes evidence_from] in *. destruct F as [F1 F2].
  rewrite IH with (n := if dead (aft st i) then 0 else S n); [|exact F2|destruct (dead _); lia].
  induction F1 as [|v vs Hv _ IHv]; [reflexivity|]. cbn [fold_left].
  assert (N : nth_error (rev (snd v)) k = None) by (apply nth_error_None; rewrite rev_length; lia). rewrite N. exact IHv.
Qed.
Lemma bump_reach l st n k w : Fits st n l -> n < k -> bump k (votes st l) w = w.
Proof. intros F L. destruct w. unfold bump. rewrite !(out_of_reach l st n) by auto. reflexivity. Qed.
(* the words in the order read, the later votes counted *)
Definition final (vs : list (list (W * list str))) (k : nat) (ws : list LU) : list LU := rev (imap (fun i => bump i vs) k (rev ws)).
Fixpoint fresh (vs : list (list (W * list str))) (l : list LU) : list LU :=
  match l, vs with w :: l, v :: vs' => bump 0 (v :: vs') w :: fresh vs' l | _, _ => [] end.
Lemma outall_app a b : outall (a ++ b) = outall a ++ outall b.
Proof. apply flat_map_app. Qed.
Lemma run_spec l : forall st ws, Fits st (length ws) (map snd l) ->
  exists o ws' st', run l st ws = Some (o, ws', st') /\
    o ++ outall ws' = outall (final (votes st (map snd l)) 1 ws) ++ outall (fresh (votes st (map snd l)) (map fst l)).
Proof.
  induction l as [|[w i] l IH]; intros st ws F.
  - exists [], ws, st. split; [reflexivity|]. cbn. unfold final. rewrite imap_id by (intros; apply bump_none). rewrite rev_involutive, app_nil_r. reflexivity.
  - cbn [map fst snd fits all_votes run] in *. destruct F as [F1 F2]. unfold after_word at 1. change (step_wb (stepi st i)) with (aft st i).
    rewrite add_paths_imap by (rewrite app_length, Nat.add_1_r; exact F1). fold (vat (aft st i)).
    set (v := vat (aft st i)) in *. set (ws1 := rev (imap (fun k => bump k [v]) 0 (rev (ws ++ [w])))).
    assert (L1 : length ws1 = S (length ws)) by (unfold ws1; rewrite rev_length, imap_length, rev_length, app_length; cbn; lia).
    assert (K : forall vs, final (v :: vs) 1 ws ++ [bump 0 (v :: vs) w] = final vs 1 ws1).
    { intros vs. unfold final, ws1. rewrite rev_involutive, rev_app_distr. cbn [rev app imap].
      rewrite !imap_shift, imap_imap. rewrite (bump_cons 0). f_equal. f_equal. apply imap_ext. intros k x _. apply bump_cons. }
    cbn [fresh]. destruct (dead (aft st i)) eqn:D; unfold next in F2 |- *; rewrite D in *.
    + destruct (IH initial [] F2) as (o & ws' & st' & E & E'). rewrite E. eexists _, ws', st'. split; [reflexivity|].
      assert (N : final (votes initial (map snd l)) 1 ws1 = ws1).
      { unfold final. rewrite imap_id; [apply rev_involutive|]. intros k x Hk. apply (bump_reach _ _ 0); auto. }
      rewrite <- app_assoc, E'. change (final (votes initial (map snd l)) 1 []) with (@nil LU). change (outall []) with (@nil char). cbn [app].
      match goal with |- _ = _ ++ outall (?a :: ?b) => change (a :: b) with ([a] ++ b) end.
      rewrite outall_app, app_assoc. apply (f_equal (fun x => x ++ _)). rewrite <- outall_app, K, N. reflexivity.
    + rewrite <- L1 in F2. destruct (IH (merge (aft st i)) ws1 F2) as (o & ws' & st' & E & E'). rewrite E. eexists _, ws', st'. split; [reflexivity|].
      match goal with |- _ = _ ++ outall (?a :: ?b) => change (a :: b) with ([a] ++ b) end.
      cbn [app]. change (outall (bump 0 (v :: votes (merge (aft st i)) (map snd l)) w :: fresh (votes (merge (aft st i)) (map snd l)) (map fst l)))
        with (outall ([bump 0 (v :: votes (merge (aft st i)) (map snd l)) w] ++ fresh (votes (merge (aft st i)) (map snd l)) (map fst l))).
      rewrite outall_app, app_assoc. rewrite E'. apply (f_equal (fun x => x ++ _)). rewrite <- outall_app, K. reflexivity.
Qed.
Lemma run_app a : forall b st ws, run (a ++ b) st ws = match run a st ws with
  | Some (o, ws, st) => match run b st ws with Some (o', ws, st) => Some (o ++ o', ws, st) | None => None end | None => None end.
Proof.
  induction a as [|[w i] a IH]; intros b st ws; cbn [app run].
  - destruct (run b st ws) as [[[o ws'] st']|]; reflexivity.
  - destruct (aw w (stepi st i) ws) as [[[o ws1] st1]|]; [|reflexivity]. rewrite IH. destruct (run a st1 ws1) as [[[o1 ws2] st2]|]; [|reflexivity].
    destruct (run b st2 ws2) as [[[o2 ws3] st3]|]; [|reflexivity]. rewrite app_assoc. reflexivity.
Qed.
(** ** from the text *)
Notation ploop := (process_loop W w0 wadd wge weights tolower totitle toupper State initial step_null step_wb step_word finals dead merge delete_wblanks late).
Inductive rel : list cword -> list (LU * citem) -> Prop :=
  | R_nil : rel [] []
  | R_cons w l src kept its : caps_note (c_wb w) src kept -> Forall wf_piece kept -> wf_word w -> rel l its ->
      rel (w :: l) ((lu_of w (wb_text (if delete_wblanks then kept else c_wb w)), item_of w src) :: its).
Lemma rel_items l its : rel l its -> items_of l (map snd its).
Proof. induction 1; cbn [map snd]; econstructor; eauto. Qed.
Definition oapp (o : str) (s : option str) : option str := match s with Some s => Some (o ++ s) | None => None end.
Lemma process_words l : Forall wf_word l -> exists its, rel l its /\ forall f rest buf st,
  ploop (length l + f) (flat_map word_text l ++ rest) buf st = match run its st buf with Some (o, ws, st') => oapp o (ploop f rest ws st') | None => None end.
Proof.
  induction 1 as [|w l Hw H (its & Hr & IH)].
  - exists []. split; [constructor|]. intros f rest buf st. cbn [length run flat_map app Nat.add]. destruct (ploop f rest buf st); reflexivity.
  - destruct (read_word_text w [] initial Hw) as (src & kept & K1 & K2 & _). eexists. split; [econstructor; eauto|]. intros f rest buf st.
    cbn [length Nat.add flat_map run]. rewrite <- app_assoc. destruct (word_head w (flat_map word_text l ++ rest) Hw) as (c & r & E & N).
    cbn [process_loop]. rewrite E. destruct (ceq_spec c cNUL); [contradiction|]. rewrite <- E.
    destruct (read_word_text w (flat_map word_text l ++ rest) st Hw) as (src' & kept' & K1' & K2' & R). rewrite R.
    assert (U : src' = src /\ kept' = kept).
    { clear - K1 K1'. assert (D : forall l s1 k1 s2 k2, caps_note l s1 k1 -> caps_note l s2 k2 -> s1 = s2 /\ k1 = k2).
      { clear. induction l as [|p l IH]; intros s1 k1 s2 k2 A B.
        - inversion A as [x F1|x q1 r1 F1 Q1]; subst; [|destruct k1; discriminate]. inversion B as [x F2|x q2 r2 F2 Q2]; subst; [|destruct k2; discriminate]. auto.
        - inversion A as [x F1|x q1 r1 F1 Q1]; subst; inversion B as [y F2|y q2 r2 F2 Q2]; subst.
          + auto.
          + exfalso. rewrite <- Q2 in F1. apply Forall_app in F1 as [_ F1]. inversion F1 as [|? ? M _]. apply M. eexists; reflexivity.
          + exfalso. rewrite <- Q1 in F2. apply Forall_app in F2 as [_ F2]. inversion F2 as [|? ? M _]. apply M. eexists; reflexivity.
          + destruct k1 as [|a k1], k2 as [|b k2].
            * cbn [app] in Q1, Q2. rewrite <- Q2 in Q1. injection Q1 as Q1 _. subst. auto.
            * exfalso. inversion F2 as [|? ? M _]; subst. cbn [app] in Q1, Q2. pose proof (f_equal (hd []) Q1) as E1. pose proof (f_equal (hd []) Q2) as E2. cbn [hd] in E1, E2. apply M. exists s1. rewrite E2, <- E1. reflexivity.
            * exfalso. inversion F1 as [|? ? M _]; subst. cbn [app] in Q1, Q2. pose proof (f_equal (hd []) Q1) as E1. pose proof (f_equal (hd []) Q2) as E2. cbn [hd] in E1, E2. apply M. exists s2. rewrite E1, <- E2. reflexivity.
            * cbn [app] in Q1, Q2. inversion F1 as [|? ? _ F1']; inversion F2 as [|? ? _ F2']. pose proof (f_equal (hd []) Q1) as E1. pose proof (f_equal (hd []) Q2) as E2. apply (f_equal (@tl _)) in Q1, Q2. cbn [hd tl] in *.
              destruct (IH s1 k1 s2 k2) as [-> ->]; [rewrite <- Q1; apply CN_some; exact F1'|rewrite <- Q2; apply CN_some; exact F2'|rewrite E1, E2; auto]. }
      exact (D _ _ _ _ _ K1' K1). }
    destruct U as [-> ->]. unfold item_of, stepi. fold (form_of w).
    destruct (aw (lu_of w (wb_text (if delete_wblanks then kept else c_wb w))) (step_word st src (form_of w) (c_surf w)) buf) as [[[o ws] st1]|]; [|reflexivity].
    rewrite IH. destruct (run its st1 ws) as [[[o1 ws1] st2]|]; [|reflexivity]. destruct (ploop f rest ws1 st2); [|reflexivity]. cbn [oapp]. rewrite app_assoc. reflexivity.
Qed.
Definition gap (e : str) : list (LU * citem) := [(mk e [] [] [] w0 w0 w0 w0, None)].
Definition tail_of (last : bool) (e : str) : list (LU * citem) := match e with [] => if last && late then gap [] else [] | _ => gap e end.
Lemma tail_items last e : map snd (tail_of last e) = tail_item late last e.
Proof. unfold tail_of, tail_item. destruct e; [destruct (last && late)|]; reflexivity. Qed.
Lemma gap_head e : e <> [] -> wf_blankw e -> exists c r, e = c :: r /\ c <> cNUL.
Proof. intros N H. destruct H as [|c s _ _ M|d s|p s]; [congruence| | |]; eexists _, _; (split; [reflexivity|]); auto; discriminate. Qed.
Lemma tail_nul e f rest buf st : wf_blankw e -> ploop (S (S f)) (e ++ cNUL :: rest) buf st =
  match run (tail_of false e) st buf with Some (o, ws, _) => oapp (o ++ outall ws ++ [cNUL]) (ploop (match e with [] => S f | _ => f end) rest [] (start State initial step_null)) | None => None end.
Proof.
  intros H. destruct e as [|x e].
  - cbn [app tail_of andb run]. cbn [process_loop]. rewrite ceq_refl. 
    change (match ploop (S f) rest [] (start State initial step_null) with Some s => Some (outall buf ++ cNUL :: s) | None => None end = oapp ([] ++ outall buf ++ [cNUL]) (ploop (S f) rest [] (start State initial step_null))).
    destruct (ploop (S f) rest [] _); [|reflexivity]. cbn [oapp app]. rewrite <- app_assoc. reflexivity.
  - destruct (gap_head (x :: e) ltac:(discriminate) H) as (c & r & E & N). injection E as -> ->.
    cbn [app tail_of gap run stepi]. set (S1 := S f). cbn [process_loop]. destruct (ceq_spec c cNUL); [contradiction|].
    change (c :: r ++ cNUL :: rest) with ((c :: r) ++ cNUL :: rest). rewrite read_gap by auto.
    destruct (aw _ st buf) as [[[o ws] st1]|]; [|reflexivity]. unfold S1. cbn [process_loop]. rewrite ceq_refl.
    destruct (ploop f rest [] _); [|reflexivity]. cbn [oapp]. rewrite app_nil_r, <- !app_assoc. reflexivity.
Qed.
Lemma tail_end e f buf st : wf_blankw e -> ploop (S f) e buf st =
  match run (tail_of true e) st buf with Some (o, ws, _) => Some (o ++ outall ws) | None => None end.
Proof.
  intros H. destruct e as [|x e].
  - cbn [tail_of andb]. cbn [process_loop]. destruct late; [|reflexivity]. cbn [gap run stepi]. destruct (aw _ st buf) as [[[o ws] st1]|]; [|reflexivity]. rewrite app_nil_r. reflexivity.
  - destruct (gap_head (x :: e) ltac:(discriminate) H) as (c & r & E & N). injection E as -> ->.
    cbn [tail_of gap run stepi]. cbn [process_loop]. destruct (ceq_spec c cNUL); [contradiction|]. rewrite read_end by auto.
    destruct (aw _ st buf) as [[[o ws] st1]|]; [|reflexivity]. rewrite app_nil_r. reflexivity.
Qed.
(** ** the case chosen *)
Hypothesis wge_total : forall a b, wge a b = true \/ wge b a = true.
Hypothesis wge_trans : forall a b c, wge a b = true -> wge b c = true -> wge a c = true.
Lemma wge_refl a : wge a a = true.
Proof. destruct (wge_total a a); assumption. Qed.
Lemma chosen_word f (s : str) :
  exists c, chosen W wge f c /\ (if wge (f DIX) (f UP) && wge (f DIX) (f TITLE) && wge (f DIX) (f LOW) then s
             else if wge (f LOW) (f UP) && wge (f LOW) (f TITLE) then tolower s
             else if wge (f TITLE) (f UP) then totitle s else toupper s) = apply_case tolower totitle toupper c s.
Proof.
  assert (T : forall a b, wge a b = false -> wge b a = true) by (intros a b H; destruct (wge_total a b); congruence).
  set (d := f DIX). set (l := f LOW). set (t := f TITLE). set (p := f UP).
  assert (P : priority = [DIX; LOW; TITLE; UP]) by reflexivity.
  destruct (wge d p && wge d t && wge d l) eqn:E1.
  - exists DIX. split; [|reflexivity]. apply andb_prop in E1 as [E1 E3]. apply andb_prop in E1 as [E1 E2].
    apply (CH _ _ _ [] DIX [LOW; TITLE; UP]); [reflexivity| |constructor]. rewrite P. repeat constructor; auto using wge_refl.
  - assert (B : exists x, In x priority /\ wge d (f x) = false).
    { destruct (wge d p) eqn:A1; [|exists UP; cbn; auto 10]. destruct (wge d t) eqn:A2; [|exists TITLE; cbn; auto 10].
      destruct (wge d l) eqn:A3; [rewrite ?A1, ?A2, ?A3 in E1; discriminate|]. exists LOW; cbn; auto 10. }
    destruct (wge l p && wge l t) eqn:E2.
    + exists LOW. split; [|reflexivity]. apply andb_prop in E2 as [E2 E3].
      assert (L : wge l d = true).
      { destruct B as (x & Hx & Bx). destruct Hx as [<-|[<-|[<-|[<-|[]]]]]; [rewrite wge_refl in Bx; discriminate|apply T; exact Bx| |].
        - apply (wge_trans _ t); [exact E3|apply T; exact Bx].
        - apply (wge_trans _ p); [exact E2|apply T; exact Bx]. }
      apply (CH _ _ _ [DIX] LOW [TITLE; UP]); [reflexivity| |repeat constructor; exact B]. rewrite P. repeat constructor; auto using wge_refl.
    + assert (BL : exists x, In x priority /\ wge l (f x) = false).
      { destruct (wge l p) eqn:A1; [|exists UP; cbn; auto 10]. destruct (wge l t) eqn:A2; [rewrite ?A1, ?A2 in E2; discriminate|exists TITLE; cbn; auto 10]. }
      destruct (wge t p) eqn:E3.
      * exists TITLE. split; [|reflexivity].
        assert (TL : wge t l = true).
        { apply andb_false_iff in E2 as [E2|E2]; [|apply T; exact E2]. apply (wge_trans _ p); [exact E3|apply T; exact E2]. }
        assert (TD : wge t d = true).
        { destruct B as (x & Hx & Bx). destruct Hx as [<-|[<-|[<-|[<-|[]]]]]; [rewrite wge_refl in Bx; discriminate| |apply T; exact Bx|].
          - apply (wge_trans _ l); [exact TL|apply T; exact Bx].
          - apply (wge_trans _ p); [exact E3|apply T; exact Bx]. }
        apply (CH _ _ _ [DIX; LOW] TITLE [UP]); [reflexivity| |repeat constructor; assumption]. rewrite P. repeat constructor; auto using wge_refl.
      * exists UP. split; [|reflexivity]. pose proof (T _ _ E3) as PT.
        assert (PL : wge p l = true).
        { apply andb_false_iff in E2 as [E2|E2]; [apply T; exact E2|]. apply (wge_trans _ t); [exact PT|apply T; exact E2]. }
        assert (PD : wge p d = true).
        { destruct B as (x & Hx & Bx). destruct Hx as [<-|[<-|[<-|[<-|[]]]]]; [rewrite wge_refl in Bx; discriminate| | |apply T; exact Bx].
          - apply (wge_trans _ l); [exact PL|apply T; exact Bx].
          - apply (wge_trans _ t); [exact PT|apply T; exact Bx]. }
        apply (CH _ _ _ [DIX; LOW; TITLE] UP []); [reflexivity| |].
        -- rewrite P. repeat constructor; auto using wge_refl.
        -- repeat constructor; auto. exists UP. split; [cbn; auto 10|exact E3].
Qed.
Notation wout := (words_out W w0 wadd wge tolower totitle toupper delete_wblanks).
Lemma fresh_out l its : rel l its -> forall st tl tg, map snd tg = tl ->
  exists s, wout l (votes st (map snd its ++ tl)) s /\
            outall (fresh (votes st (map snd its ++ tl)) (map fst (its ++ tg))) = s ++ outall (fresh (skipn (length its) (votes st (map snd its ++ tl))) (map fst tg)).
Proof.
  induction 1 as [|w l src kept its K1 K2 Kw Hr IH]; intros st tl tg E.
  - exists []. split; [constructor|reflexivity].
  - cbn [map snd app all_votes fst length skipn fresh].
    destruct (IH (nxt (aft st (item_of w src))) tl tg E) as (s & H1 & H2).
    set (vs := votes (nxt (aft st (item_of w src))) (map snd its ++ tl)) in *. set (v := vat (aft st (item_of w src))).
    destruct (chosen_word (evidence W w0 wadd (v :: vs)) (c_surf w)) as (c & C1 & C2).
    eexists. split; [eapply O_word; eauto|]. 
    cbn [output_all flat_map]. change (flat_map (out_word W wge tolower totitle toupper) (fresh vs (map fst (its ++ tg)))) with (outall (fresh vs (map fst (its ++ tg)))). rewrite H2.
    rewrite <- !app_assoc. unfold lu_of, bump, out_word. cbn [lblank lsurf lwblank w_dix w_AA w_Aa w_aa]. rewrite <- !app_assoc. match goal with |- _ ++ ?a ++ _ = _ ++ ?b ++ _ => refine (f_equal (fun z => c_blank w ++ z ++ s ++ _) (_ : a = b)) end.
    change (ev 0 (v :: vs)) with (fun c => ev 0 (v :: vs) c). unfold evidence in C2. cbv zeta.
    destruct Kw as (_ & Kp & _ & _ & Ks). destruct (c_surf w) as [|x sf] eqn:Es; [congruence|]. rewrite C2.
    set (ps := if delete_wblanks then kept else c_wb w). destruct ps as [|p ps]; [reflexivity|]. unfold wb_text at 1. cbn [app]. reflexivity.
Qed.
Lemma rel_len l its : rel l its -> length its = length l.
Proof. induction 1; cbn; congruence. Qed.
Lemma doc_run last d its : wf_cdoc d -> rel (cd_words d) its ->
  doc_fits W weights State initial step_null step_wb step_word finals dead merge late last d ->
  exists o ws st', run (its ++ tail_of last (cd_end d)) (start State initial step_null) [] = Some (o, ws, st') /\
    doc_out W w0 wadd wge weights tolower totitle toupper State initial step_null step_wb step_word finals dead merge delete_wblanks late last d (o ++ outall ws).
Proof.
  intros [Hw He] Hr Hf. pose proof (Hf _ (rel_items _ _ Hr)) as F.
  destruct (run_spec (its ++ tail_of last (cd_end d)) (start State initial step_null) []) as (o & ws & st' & R & E).
  - rewrite map_app, tail_items. exact F.
  - exists o, ws, st'. split; [exact R|]. rewrite E. cbn [final rev imap output_all flat_map app]. rewrite map_app, tail_items.
    destruct (fresh_out _ _ Hr (start State initial step_null) (tail_item late last (cd_end d)) (tail_of last (cd_end d)) (tail_items _ _)) as (s & H1 & H2).
    rewrite H2.
    assert (T : outall (fresh (skipn (length its) (votes (start State initial step_null) (map snd its ++ tail_item late last (cd_end d)))) (map fst (tail_of last (cd_end d)))) = cd_end d).
    { assert (V : forall a b st, length a = length its -> exists st', skipn (length its) (votes st (a ++ b)) = votes st' b).
      { clear. intros a. generalize (length its) as n. induction a as [|x a IH]; intros n b st L.
        - cbn in L. subst n. exists st. reflexivity.
        - cbn in L. subst n. cbn [app all_votes skipn]. apply IH. reflexivity. }
      destruct (V (map snd its) (tail_item late last (cd_end d)) (start State initial step_null) (map_length _ _)) as (st2 & ->).
      unfold tail_of, tail_item. destruct (cd_end d) as [|x e].
      - destruct (last && late); reflexivity.
      - cbn. rewrite !app_nil_r. reflexivity. }
    rewrite T. eapply DO; [exact (rel_items _ _ Hr)|exact H1].
Qed.
Fixpoint docs_fit (d : cdoc) (ds : list cdoc) : Prop :=
  match ds with
  | [] => doc_fits W weights State initial step_null step_wb step_word finals dead merge late true d
  | d' :: r => doc_fits W weights State initial step_null step_wb step_word finals dead merge late false d /\ docs_fit d' r
  end.
Lemma word_len w : 1 <= length (word_text w).
Proof. unfold word_text. rewrite !app_length. cbn. lia. Qed.
Lemma words_len l : length l <= length (flat_map word_text l).
Proof. induction l as [|w l IH]; [reflexivity|]. cbn. rewrite app_length. pose proof (word_len w). lia. Qed.
Notation couts := (cdocs_out W w0 wadd wge weights tolower totitle toupper State initial step_null step_wb step_word finals dead merge delete_wblanks late).
Lemma process_docs ds : forall d fuel, Forall wf_cdoc (d :: ds) -> docs_fit d ds -> length (cdocs_text d ds) < fuel ->
  exists s, ploop fuel (cdocs_text d ds) [] (start State initial step_null) = Some s /\ couts d ds s.
Proof.
  induction ds as [|d' ds IH]; intros d fuel F Hf L.
  - inversion F as [|? ? Hd _]; subst. cbn [cdocs_text docs_fit] in *. unfold cdoc_text in *. rewrite app_length in L.
    destruct (process_words (cd_words d) (proj1 Hd)) as (its & Hr & E). pose proof (words_len (cd_words d)) as L2.
    replace fuel with (length (cd_words d) + S (fuel - length (cd_words d) - 1)) by lia. rewrite E.
    destruct (doc_run true d its Hd Hr Hf) as (o & ws & st' & R & O). rewrite run_app in R.
    destruct (run its _ []) as [[[o1 ws1] st1]|]; [|discriminate]. rewrite tail_end by exact (proj2 Hd).
    destruct (run (tail_of true (cd_end d)) st1 ws1) as [[[o2 ws2] st2]|]; [|discriminate]. injection R as <- <- <-.
    eexists. split; [reflexivity|]. apply CO_last. rewrite app_assoc. exact O.
  - inversion F as [|? ? Hd F']; subst. cbn [cdocs_text docs_fit] in *. unfold cdoc_text in *. destruct Hf as [Hf Hf'].
    destruct (process_words (cd_words d) (proj1 Hd)) as (its & Hr & E). pose proof (words_len (cd_words d)) as L2.
    rewrite <- app_assoc in *. rewrite !app_length in L. cbn [length] in L.
    replace fuel with (length (cd_words d) + S (S (fuel - length (cd_words d) - 2))) by lia. rewrite E.
    destruct (doc_run false d its Hd Hr Hf) as (o & ws & st' & R & O). rewrite run_app in R.
    destruct (run its _ []) as [[[o1 ws1] st1]|]; [|discriminate]. rewrite tail_nul by exact (proj2 Hd).
    destruct (run (tail_of false (cd_end d)) st1 ws1) as [[[o2 ws2] st2]|]; [|discriminate]. injection R as <- <- <-.
    destruct (IH d' (match cd_end d with [] => S (fuel - length (cd_words d) - 2) | _ => fuel - length (cd_words d) - 2 end) F' Hf') as (s & E' & O').
    { destruct (cd_end d); cbn [length] in L; lia. }
    rewrite E'. eexists. split; [reflexivity|]. rewrite <- !app_assoc. cbn [app]. rewrite !app_assoc. rewrite <- (app_assoc _ (outall ws2)), <- app_assoc, app_assoc. 
    change (cNUL :: s) with ([cNUL] ++ s). rewrite <- !app_assoc, (app_assoc o1), (app_assoc (o1 ++ o2)). apply CO_more; assumption.
Qed.
End R.

(** ** apertium-extract-caps *)
Lemma slash_part s : plain stopE (fun _ => False) s -> forall acc c rest, stopE c -> until_slash (s ++ c :: rest) acc = (acc ++ s, c :: rest, false).
Proof.
  induction 1 as [|x s Hc Hs H IH|d s Hd H IH]; intros acc c rest Hc'; cbn [app].
  - rewrite app_nil_r. destruct Hc' as [->|[->| ->]]; reflexivity.
  - cbn [until_slash]. destruct (ceq_spec x cBS); [contradiction|].
    destruct (ceq_spec x cSLASH); [exfalso; apply Hs; left; assumption|]. destruct (ceq_spec x cDOL); [exfalso; apply Hs; right; left; assumption|].
    destruct (ceq_spec x cNUL); [exfalso; apply Hs; right; right; assumption|]. cbn [orb]. rewrite IH by exact Hc'. appeq.
  - cbn [until_slash]. rewrite ceq_refl, IH by exact Hc'. appeq.
Qed.
Lemma alts_part rs : Forall (plain stopE (fun _ => False)) rs -> forall fuel rest, length rs < fuel ->
  skip_alts fuel (flat_map (fun r => cSLASH :: r) rs ++ cDOL :: rest) false = (cDOL :: rest, false).
Proof.
  induction 1 as [|r rs Hr H IH]; intros fuel rest L; destruct fuel as [|fuel]; try lia.
  - reflexivity.
  - cbn [flat_map app length] in *. cbn [skip_alts]. change (cSLASH =?c cNUL) with false. change (cSLASH =?c cDOL) with false. cbn [orb].
    rewrite <- app_assoc. destruct rs as [|r' rs].
    + cbn [flat_map app]. rewrite slash_part by (auto; right; left; reflexivity). apply (IH fuel rest). cbn [length] in *. lia.
    + cbn [flat_map app] in *. rewrite slash_part by (auto; left; reflexivity). apply (IH fuel rest). cbn [length] in *. lia.
Qed.
Definition no_gp (s : str) : Prop := forall a b, s <> a ++ u ">+"%string ++ b.
Lemma last_gtplus_spec s : forall i f, (no_gp s /\ last_gtplus s i f = f) \/
  exists a b, s = a ++ u ">+"%string ++ b /\ no_gp (cPLUS :: b) /\ last_gtplus s i f = i + length a.
Proof.
  induction s as [|c r IH]; intros i f.
  - left. split; [|reflexivity]. intros [|x a] b E; discriminate.
  - cbn [last_gtplus]. set (f' := match r with d :: _ => _ | [] => _ end). destruct (IH (S i) f') as [[N E]|(a & b & -> & N & E)].
    + rewrite E. unfold f'. clear E f'. destruct r as [|d r].
      * left. split; [|reflexivity]. intros [|x [|y a]] b E; discriminate.
      * destruct (ceq_spec c cGT) as [->|M1]; cbn [andb]; [destruct (ceq_spec d cPLUS) as [->|M2]|].
        -- right. exists [], r. split; [reflexivity|]. split; [exact N|]. cbn. lia.
        -- left. split; [|reflexivity]. intros [|x a] b E; [vm_compute in E; injection E as E1 E2; apply M2; exact E1|]. injection E as _ E. exact (N a b E).
        -- left. split; [|reflexivity]. intros [|x a] b E; [vm_compute in E; injection E as E1 E2; apply M1; exact E1|]. injection E as _ E. exact (N a b E).
    + right. exists (c :: a), b. split; [reflexivity|]. split; [exact N|]. rewrite E. cbn [length]. lia.
Qed.
Fixpoint upto_lt (s : str) : str := match s with c :: r => if c =?c cLT then [] else c :: upto_lt r | [] => [] end.
Lemma before_after s : forall i from, from <= i -> before_lt s i from = upto_lt s.
Proof.
  induction s as [|c s IH]; intros i from L; [reflexivity|]. cbn [before_lt upto_lt]. assert (E : (from <=? i) = true) by (apply Nat.leb_le; exact L).
  rewrite E. cbn [andb]. destruct (c =?c cLT); [reflexivity|]. rewrite IH by lia. reflexivity.
Qed.
Lemma before_before a s : forall i, before_lt (a ++ s) i (i + length a) = a ++ upto_lt s.
Proof.
  induction a as [|c a IH]; intros i; cbn [app length].
  - apply before_after. lia.
  - cbn [before_lt]. assert (E : (i + S (length a) <=? i) = false) by (apply Nat.leb_gt; lia). rewrite E. cbn [andb].
    replace (i + S (length a)) with (S i + length a) by lia. rewrite IH. reflexivity.
Qed.
Lemma upto_split s : exists t, s = upto_lt s ++ t /\ ~ In cLT (upto_lt s) /\ (t = [] \/ exists t', t = cLT :: t').
Proof.
  induction s as [|c s (t & E & N & T)]; [exists []; cbn; auto|]. cbn [upto_lt]. destruct (ceq_spec c cLT) as [->|M].
  - exists (cLT :: s). split; [reflexivity|]. split; [intros []|right; eauto].
  - exists t. cbn [app]. split; [congruence|]. split; [|exact T]. intros [K|K]; [congruence|contradiction].
Qed.
Lemma lemma_of_model r : lemma_of r (before_lt r 0 (last_gtplus r 0 0)).
Proof.
  destruct (last_gtplus_spec r 0 0) as [[N ->]|(a & b & E & N & ->)].
  - rewrite before_after by lia. destruct (upto_split r) as (t & E & M & T). rewrite E at 1. apply L_one; auto. rewrite <- E. exact N.
  - subst r. rewrite before_before. destruct (upto_split b) as (t & E & M & T).
    replace (upto_lt (u ">+"%string ++ b)) with (u ">+"%string ++ upto_lt b) by reflexivity.
    rewrite E at 1. apply L_many; auto. rewrite <- E. exact N.
Qed.
Section EX.
Variables (getcase : str -> str) (merge_wblanks : str -> str -> str) (keep_surf : bool).
Notation xloop := (extract_loop getcase merge_wblanks keep_surf).
Lemma extract_lu_text w rest : wf_eword w -> forall r rs, e_reads w = r :: rs ->
  extract_lu (e_surf w ++ flat_map (fun r => cSLASH :: r) (e_reads w) ++ cDOL :: rest) = (e_surf w, r, rest, false).
Proof.
  intros (_ & _ & Hs & _ & Hr) r rs E. rewrite E in *. inversion Hr as [|? ? H1 H2]; subst. unfold extract_lu. cbn [flat_map app].
  rewrite slash_part by (auto; left; reflexivity). rewrite ceq_refl, <- app_assoc. cbn [app].
  destruct rs as [|r' rs].
  - cbn [flat_map app]. rewrite slash_part by (auto; right; left; reflexivity). reflexivity.
  - cbn [flat_map app]. rewrite slash_part by (auto; left; reflexivity). cbn [app].
    pose proof (alts_part (r' :: rs) H2) as A. cbn [flat_map app] in A. rewrite A; [reflexivity|]. cbn [length]. rewrite !app_length.
    assert (L : length rs <= length (flat_map (fun r => cSLASH :: r) rs)) by (clear; induction rs; cbn; [lia|rewrite app_length; lia]). cbn [length]. lia.
Qed.
Lemma extract_word w rest f : wf_eword w -> exists s, eword_out getcase merge_wblanks keep_surf w s /\ xloop (S f) (eword_text w ++ rest) = oapp s (xloop f rest).
Proof.
  intros H. pose proof H as (Hb & Hw & _ & Hn & _). destruct (e_reads w) as [|r rs] eqn:E; [congruence|].
  eexists. split; [eapply EO; [exact E|apply lemma_of_model]|]. cbn [extract_loop]. unfold eword_text. rewrite <- !app_assoc, blankw_part by exact Hb. cbn [app].
  change (u "^"%string ++ e_surf w ++ flat_map (fun r => cSLASH :: r) (e_reads w) ++ u "$"%string ++ rest) with (cCARET :: e_surf w ++ flat_map (fun r => cSLASH :: r) (e_reads w) ++ cDOL :: rest).
  destruct Hw as [Hw|(t & Hw & Ht)]; rewrite Hw.
  - cbn [app]. rewrite blankw_stop by auto. change (cCARET =?c cNUL) with false. change (cCARET =?c cLB) with false. cbv beta iota. rewrite ceq_refl.
    rewrite (extract_lu_text w rest H r rs E). destruct (xloop f rest); [|reflexivity]. cbn [oapp]. rewrite <- !app_assoc. cbn [app]. rewrite <- !app_assoc. unfold lemma_case. reflexivity.
  - change ((u "[["%string ++ t ++ u "]]"%string) ++ cCARET :: e_surf w ++ flat_map (fun r => cSLASH :: r) (e_reads w) ++ cDOL :: rest) with
      (cLB :: cLB :: (t ++ u "]]"%string) ++ cCARET :: e_surf w ++ flat_map (fun r => cSLASH :: r) (e_reads w) ++ cDOL :: rest).
    rewrite blankw_wb. change (cLB =?c cNUL) with false. rewrite ceq_refl. rewrite <- app_assoc. change (u "]]"%string ++ cCARET :: e_surf w ++ flat_map (fun r => cSLASH :: r) (e_reads w) ++ cDOL :: rest) with (cRB :: cRB :: cCARET :: e_surf w ++ flat_map (fun r => cSLASH :: r) (e_reads w) ++ cDOL :: rest).
    rewrite finish_wb by exact Ht. rewrite ceq_refl.
    rewrite (extract_lu_text w rest H r rs E). destruct (xloop f rest); [|reflexivity]. cbn [oapp]. rewrite <- !app_assoc. cbn [app]. rewrite <- !app_assoc. unfold lemma_case. reflexivity.
Qed.
Lemma extract_words l : Forall wf_eword l -> exists s, ewords_out getcase merge_wblanks keep_surf l s /\ forall f rest, xloop (length l + f) (flat_map eword_text l ++ rest) = oapp s (xloop f rest).
Proof.
  induction 1 as [|w l Hw H (s & O & IH)].
  - exists []. split; [constructor|]. intros f rest. cbn [length Nat.add flat_map app]. destruct (xloop f rest); reflexivity.
  - destruct (extract_word w [] 0 Hw) as (t & O' & _). exists (t ++ s). split; [constructor; assumption|]. intros f rest. cbn [length Nat.add flat_map]. rewrite <- app_assoc.
    destruct (extract_word w (flat_map eword_text l ++ rest) (length l + f) Hw) as (t' & O2 & ->). rewrite IH.
    assert (U : t' = t).
    { destruct O' as [r rs lm E1 L1]. destruct O2 as [r2 rs2 lm2 E2 L2]. rewrite E1 in E2. injection E2 as <- <-.
      assert (D : lm = lm2); [|subst; reflexivity].
      assert (Un : forall r l, lemma_of r l -> l = before_lt r 0 (last_gtplus r 0 0)).
      { clear. intros r l L. assert (C : forall l t, ~ In cLT l -> t = [] \/ (exists t', t = cLT :: t') -> upto_lt (l ++ t) = l).
        { clear. induction l as [|c l IH]; intros t N T; [destruct T as [->|(t' & ->)]; reflexivity|]. cbn. destruct (ceq_spec c cLT); [exfalso; apply N; left; auto|].
          rewrite IH; auto. intros K. apply N. right. exact K. }
        destruct L as [l t N M T|a l t N M T].
        - destruct (last_gtplus_spec (l ++ t) 0 0) as [[_ ->]|(a & b & E & _)]; [|exfalso; exact (N a b E)]. rewrite before_after by lia. symmetry. apply C; auto.
        - destruct (last_gtplus_spec (a ++ u ">+"%string ++ l ++ t) 0 0) as [[Q _]|(a' & b & E & Q & ->)]; [exfalso; exact (Q a (l ++ t) eq_refl)|].
          assert (A : forall a a' x y, no_gp (cPLUS :: x) -> no_gp (cPLUS :: y) -> a ++ u ">+"%string ++ x = a' ++ u ">+"%string ++ y -> a = a').
          { clear. induction a as [|c a IH]; intros [|c' a'] x y Nx Ny E; [reflexivity| | |].
            - exfalso. cbn [app] in E. change (u ">+"%string ++ x) with (cGT :: cPLUS :: x) in E. injection E as E1 E2. exact (Nx a' y E2).
            - exfalso. cbn [app] in E. change (u ">+"%string ++ y) with (cGT :: cPLUS :: y) in E. injection E as E1 E2. symmetry in E2. exact (Ny a x E2).
            - cbn [app] in E. injection E as -> E. f_equal. exact (IH a' x y Nx Ny E). }
          pose proof (A _ _ _ _ N Q E) as Ea. subst a'. apply app_inv_head in E. apply app_inv_head in E. subst b.
          rewrite before_before. replace (upto_lt (u ">+"%string ++ l ++ t)) with (u ">+"%string ++ upto_lt (l ++ t)) by reflexivity. rewrite C; auto. }
      rewrite (Un _ _ L1), (Un _ _ L2). reflexivity. }
    subst t'. destruct (xloop f rest); [|reflexivity]. cbn [oapp]. rewrite app_assoc. reflexivity.
Qed.
Lemma eword_len l : length l <= length (flat_map eword_text l).
Proof. induction l as [|w l IH]; [reflexivity|]. cbn. rewrite app_length. assert (1 <= length (eword_text w)); [|lia]. unfold eword_text. rewrite !app_length. cbn. lia. Qed.
Lemma extract_docs ds : forall d fuel, Forall wf_edoc (d :: ds) -> length (edocs_text d ds) < fuel ->
  exists s, xloop fuel (edocs_text d ds) = Some s /\ edocs_out getcase merge_wblanks keep_surf d ds s.
Proof.
  induction ds as [|d' ds IH]; intros d fuel F L; inversion F as [|? ? Hd F']; subst; cbn [edocs_text] in *; unfold edoc_text in *;
  destruct (extract_words (ed_words d) (proj1 Hd)) as (s & O & E); pose proof (eword_len (ed_words d)) as L2.
  - rewrite app_length in L. replace fuel with (length (ed_words d) + S (fuel - length (ed_words d) - 1)) by lia. rewrite E. cbn [extract_loop].
    assert (B : read_blankw (ed_end d) false [] = (ed_end d, [])) by (pose proof (blankw_part _ (proj2 Hd) [] []) as B; rewrite app_nil_r in B; exact B). rewrite B. cbn [oapp]. eexists. split; [reflexivity|]. apply ED_last. exact O.
  - rewrite <- app_assoc in *. rewrite !app_length in L. cbn [length] in L.
    replace fuel with (length (ed_words d) + S (fuel - length (ed_words d) - 1)) by lia. rewrite E. cbn [extract_loop].
    rewrite blankw_part by exact (proj2 Hd). rewrite blankw_stop by auto. cbn [app]. rewrite ceq_refl.
    destruct (IH d' (fuel - length (ed_words d) - 1) F') as (s' & E' & O'); [lia|]. rewrite E'. eexists. split; [reflexivity|]. apply ED_more; assumption.
Qed.
End EX.
