(** The language of .mtx files: expressions, what they mean, and how they are written.  The meaning does not mention
    stacks, slots or byte code. *)
From Coq Require Import String.
From Verif Require Import Model.Base Model.Serialiser Model.Stream Model.FeatureVec Model.PerceptronVM Model.Mtx.
Open Scope nat_scope.

(** ** Syntax *)
Inductive base := BStr | BWrd.
Inductive ty := TInt | TBool | TEl (b : base) | TArr (b : base) | TAddr.
Record num := mknum { minus : bool; digits : list nat }.
Inductive const := Lit (s : str) | Named (n : str).       (* val="..." or name="..." *)
Inductive nary := All | Some_of.                           (* and, or *)
Inductive rel := Req | Rneq | Rlt | Rlte | Rgt | Rgte.

Inductive ex : ty -> Type :=
  | ESentlen : ex TInt
  | ETokaddr : ex TInt
  | EWrdidx : ex TInt
  | EInt (n : num) : ex TInt
  | EAdd (a b : ex TInt) : ex TInt
  | EVar b (x : str) : ex (TEl b)
  | ESliceS (s e : option num) (x : ex (TEl BStr)) : ex (TEl BStr)
  | ESliceA b (s e : option num) (x : ex (TArr b)) : ex (TArr b)
  | ESub b (i : num) (x : ex (TArr b)) : ex (TEl b)
  | ESurf (i : ex TInt) : ex (TEl BStr)
  | ELemma (w : ex (TEl BWrd)) : ex (TEl BStr)
  | ECoarse (w : ex (TEl BWrd)) : ex (TEl BStr)
  | EJoin (sep : option const) (x : ex (TArr BStr)) : ex (TEl BStr)
  | ETags (w : ex (TEl BWrd)) : ex (TArr BStr)
  | EAmbg (i : ex TInt) : ex (TArr BStr)
  | EWords (i : ex TInt) : ex (TArr BWrd)
  | EForS b (x : str) (it : ex (TArr BStr)) (body : ex (TEl b)) : ex (TArr b)      (* for-each over strings *)
  | EForW b (x : str) (i : ex TInt) (body : ex (TEl b)) : ex (TArr b)              (* for-each over ex-wordoids *)
  | EWord (a : ex TAddr) : ex (TEl BWrd)
  | EAddr : ex TAddr
  | EAddrOf (t w : ex TInt) : ex TAddr
  | EAddA (a b : ex TAddr) : ex TAddr
  | EAdj (a : ex TAddr) : ex TAddr
  | EClamp (a : ex TAddr) : ex TAddr
  | ENary (o : nary) (e : ex TBool) (es : exs) : ex TBool
  | ENot (e : ex TBool) : ex TBool
  | ERel (r : rel) (a b : ex TInt) : ex TBool
  | EStreq (c : const) (e : ex (TEl BStr)) : ex TBool
  | EStrin (set : str) (e : ex (TEl BStr)) : ex TBool
  | EAny (set : str) (e : ex (TArr BStr)) : ex TBool
  | EAll (set : str) (e : ex (TArr BStr)) : ex TBool
with exs := ENil | ECons (e : ex TBool) (es : exs).

Inductive stmt := SPred (e : ex TBool) | SOutS (e : ex (TEl BStr)) | SOutB (e : ex TBool) | SOutI (e : ex TInt) | SMany (e : ex (TArr BStr)).
Record doc := mkdoc { d_coarse : bool; d_strs : list (str * str); d_pred : option (ex TBool); d_feats : list (list stmt) }.

(** ** How a document is written *)
Definition num_text (n : num) : str := (if minus n then [45%N] else []) ++ map (fun d => N.of_nat (48 + d)) (digits n).
Definition elem (n : el) (a : attrs) (body : list tok) : list tok := Op n a :: body ++ [Cl n a].
Definition single (n : el) (a : attrs) : list tok := [Op n a].
Definition const_attr (c : const) : attrs := match c with Lit s => [(Aval, s)] | Named n => [(Aname, n)] end.
Definition num_attr (a : at_name) (o : option num) : attrs := match o with Some n => [(a, num_text n)] | None => [] end.
Definition rel_el (r : rel) : el := match r with Req => Xeq | Rneq => Xneq | Rlt => Xlt | Rlte => Xlte | Rgt => Xgt | Rgte => Xgte end.
Definition nary_el (o : nary) : el := match o with All => Xand | Some_of => Xor end.
Fixpoint print {t} (e : ex t) : list tok :=
  match e with
  | ESentlen => single Xsentlen []
  | ETokaddr => single Xtokaddr []
  | EWrdidx => single Xwrdidx []
  | EInt n => single Xint [(Aval, num_text n)]
  | EAdd a b => elem Xadd [] (print a ++ print b)
  | EVar _ x => single Xvar [(Aname, x)]
  | ESliceS s e x => elem Xslice (num_attr Astart s ++ num_attr Aend e) (print x)
  | ESliceA _ s e x => elem Xslice (num_attr Astart s ++ num_attr Aend e) (print x)
  | ESub _ i x => elem Xsubscript [(Aidx, num_text i)] (print x)
  | ESurf i => elem Xex_surf [] (print i)
  | ELemma w => elem Xex_lemma [] (print w)
  | ECoarse w => elem Xex_coarse [] (print w)
  | EJoin sep x => elem Xjoin (match sep with Some c => const_attr c | None => [] end) (print x)
  | ETags w => elem Xex_tags [] (print w)
  | EAmbg i => elem Xex_ambgset [] (print i)
  | EWords i => elem Xex_wordoids [] (print i)
  | EForS _ x it body => elem Xfor_each [(Aas, x)] (print it ++ print body)
  | EForW _ x i body => elem Xfor_each [(Aas, x)] (elem Xex_wordoids [] (print i) ++ print body)
  | EWord a => elem Xex_wordoid [] (print a)
  | EAddr => single Xwrdaddr []
  | EAddrOf a b => elem Xaddr_of_ints [] (print a ++ print b)
  | EAddA a b => elem Xadd [] (print a ++ print b)
  | EAdj a => elem Xadjust [] (print a)
  | EClamp a => elem Xclamp [] (print a)
  | ENary o e es => elem (nary_el o) [] (print e ++ print_all es)
  | ENot e => elem Xnot [] (print e)
  | ERel r a b => elem (rel_el r) [] (print a ++ print b)
  | EStreq c e => elem Xstreq (const_attr c) (print e)
  | EStrin s e => elem Xstrin [(Aval, s)] (print e)
  | EAny s e => elem Xsethasany [(Aval, s)] (print e)
  | EAll s e => elem Xsethasall [(Aval, s)] (print e)
  end
with print_all (es : exs) : list tok := match es with ENil => [] | ECons e es => print e ++ print_all es end.
Definition print_stmt (s : stmt) : list tok :=
  match s with
  | SPred e => elem Xpred [] (print e)
  | SOutS e => elem Xout [] (print e) | SOutB e => elem Xout [] (print e) | SOutI e => elem Xout [] (print e)
  | SMany e => elem Xout_many [] (print e)
  end.
Definition print_feat (f : list stmt) : list tok := elem Xfeat [] (flat_map print_stmt f).
Definition print_def (d : str * str) : list tok := single Xdef_str [(Aname, fst d); (Astr, snd d)].
Definition print_doc (d : doc) : list tok :=
  elem Xmetatag []
    ((if d_coarse d then single Xcoarse_tags [] else []) ++
     elem Xdefns [] (flat_map print_def (d_strs d)) ++
     (match d_pred d with Some e => elem Xglobal_pred [] (print e) | None => [] end) ++
     elem Xfeats [] (flat_map print_feat (d_feats d))).

(** ** What a document means *)
Inductive item := IS (s : str) | IW (m : morpheme).
Definition env := list (str * item).                             (* the loop variables, innermost first *)
Fixpoint find {V} (x : str) (l : list (str * V)) : option V :=
  match l with [] => None | (y, v) :: r => if list_eq_dec N.eq_dec x y then Some v else find x r end.
Definition vty (t : ty) : Type :=
  match t with
  | TInt => Z | TBool => bool | TEl BStr => str | TEl BWrd => morpheme
  | TArr BStr => list str | TArr BWrd => list morpheme | TAddr => (Z * Z)%type
  end.
Definition read_var (b : base) (o : option item) : vty (TEl b) :=
  match b with
  | BStr => match o with Some (IS s) => s | _ => [] end
  | BWrd => match o with Some (IW m) => m | _ => mkm [] [] end
  end.
Definition num_value (n : num) : Z :=
  let v := fold_left (fun a d => (10 * a + Z.of_nat d)%Z) (digits n) 0%Z in if minus n then (- v)%Z else v.
(* the elements at the positions from [s] up to but not including [e]; negative positions count from the end, and so
   does 0 as [e] (as when it is absent) *)
Definition bounds (len : nat) (s e : option num) : Z * Z :=
  let l := Z.of_nat len in
  let s := match s with Some n => num_value n | None => 0%Z end in
  let e := match e with Some n => num_value n | None => 0%Z end in
  (Z.max 0 (if (s <? 0)%Z then l + s else s), Z.min l (Z.max 0 (if (e <=? 0)%Z then l + e else e)))%Z.
Definition cut {X} (l : list X) (s e : option num) : list X :=
  let '(b, e) := bounds (List.length l) s e in
  map snd (filter (fun p => (b <=? Z.of_nat (fst p))%Z && (Z.of_nat (fst p) <? e)%Z) (combine (seq 0 (List.length l)) l)).
Definition elt {X} (d : X) (l : list X) (i : num) : X := nth (Z.to_nat (num_value i)) l d.
Fixpoint intercalate (sep : str) (l : list str) : str :=
  match l with [] => [] | [x] => x | x :: r => x ++ sep ++ intercalate sep r end.
Definition rel_holds (r : rel) (a b : Z) : Prop :=
  match r with Req => a = b | Rneq => a <> b | Rlt => (a < b)%Z | Rlte => (a <= b)%Z | Rgt => (a > b)%Z | Rgte => (a >= b)%Z end.
Definition rel_dec (r : rel) (a b : Z) : {rel_holds r a b} + {~ rel_holds r a b}.
Proof. destruct r; cbn; [apply Z.eq_dec|destruct (Z.eq_dec a b); [right; tauto|left; assumption]|apply Z_lt_dec|apply Z_le_dec|apply Z_gt_dec|apply Z_ge_dec]. Defined.
(* the words of [set] *)
Definition in_set (set s : str) : bool := if in_dec (list_eq_dec N.eq_dec) s (words set) then true else false.
(* the token and the wordoid in it at a distance of [p] wordoids from the beginning of the sentence; before the
   beginning and after the end the numbers run on *)
Fixpoint locate (t : Z) (lens : list Z) (p : Z) : Z * Z :=
  match lens with
  | len :: ((_ :: _) as r) => if (p <? len)%Z then (t, p) else locate (t + 1) r (p - len)
  | _ => (t, p)
  end.
Definition within (lo hi x : Z) : Z := if (x <? lo)%Z then lo else if (hi <? x)%Z then hi else x.

Section Meaning.
Variable u8 : str -> str.
Variable show : Z -> str.
Variable coarsen : morpheme -> str.
Variable rev_rel : bool.                         (* are the operands of the comparisons exchanged? *)
Variable names : list (str * str).               (* def-str *)
Variables (tagged : list (option (list morpheme))) (untagged : list lexunit).
Variables (ti wi : Z).
Definition wordoids_of (t : option (list morpheme)) : list morpheme := match t with Some l => l | None => untagged_sentinel end.
Definition at_pos {X} (before after : X) (l : list X) (z : Z) : X :=
  if (z <? 0)%Z then before else nth (Z.to_nat z) l after.
Definition token_at (z : Z) : lexunit := at_pos underflow overflow untagged z.
Definition words_at (z : Z) : list morpheme := at_pos [under_wrd] [over_wrd] (map wordoids_of tagged) z.
Definition word_at (t w : Z) : morpheme :=
  if (t <? 0)%Z then under_wrd else if (Z.of_nat (List.length tagged) <=? t)%Z then over_wrd else at_pos under_wrd over_wrd (words_at t) w.
Definition lens : list Z := map (fun t => Z.of_nat (List.length (wordoids_of t))) tagged.
Definition before (t : Z) : Z := fold_right Z.add 0%Z (firstn (Z.to_nat t) lens).
Definition the_const (c : const) : str := match c with Lit s => s | Named n => match find n names with Some s => s | None => [] end end.
(* the analyses of a token, coarsened, the wordoids of each joined by + *)
Definition ambiguity (x : lexunit) : list str := map (fun a => intercalate [cPLUS] (map coarsen (an_morphemes a))) (lx_an x).
Definition relation (r : rel) (a b : Z) : bool := if rel_dec r a b then true else false.

Definition slice_of (b : base) (s e : option num) : vty (TArr b) -> vty (TArr b) := match b with BStr => fun l => cut l s e | BWrd => fun l => cut l s e end.
Definition elt_of (b : base) (i : num) : vty (TArr b) -> vty (TEl b) := match b with BStr => fun l => elt [] l i | BWrd => fun l => elt (mkm [] []) l i end.
Definition map_of {X} (b : base) (f : X -> vty (TEl b)) (l : list X) : vty (TArr b) :=
  match b return (X -> vty (TEl b)) -> vty (TArr b) with BStr => fun f => map f l | BWrd => fun f => map f l end f.
Fixpoint eval {t} (v : env) (e : ex t) : vty t :=
  match e in ex t return vty t with
  | ESentlen => Z.of_nat (List.length untagged)
  | ETokaddr => ti
  | EWrdidx => wi
  | EInt n => num_value n
  | EAdd a b => (eval v a + eval v b)%Z
  | EVar b x => read_var b (find x v)
  | ESliceS s e x => cut (eval v x) s e
  | ESliceA b s e x => slice_of b s e (eval v x)
  | ESub b i x => elt_of b i (eval v x)
  | ESurf i => u8 (lx_sf (token_at (eval v i)))
  | ELemma w => u8 (m_lemma (eval v w))
  | ECoarse w => coarsen (eval v w)
  | EJoin sep x => intercalate (match sep with Some c => the_const c | None => [cDOT] end) (eval v x)
  | ETags w => map u8 (m_tags (eval v w))
  | EAmbg i => ambiguity (token_at (eval v i))
  | EWords i => words_at (eval v i)
  | EForS b x it body => map_of b (fun s => eval ((x, IS s) :: v) body) (eval v it)
  | EForW b x i body => map_of b (fun m => eval ((x, IW m) :: v) body) (words_at (eval v i))
  | EWord a => let '(t, w) := eval v a in word_at t w
  | EAddr => (ti, wi)
  | EAddrOf a b => (eval v a, eval v b)
  | EAddA a b => let '(t1, w1) := eval v a in let '(t2, w2) := eval v b in ((t1 + t2)%Z, (w1 + w2)%Z)
  | EAdj a => let '(t, w) := eval v a in
              if (0 <=? t)%Z && (t <? Z.of_nat (List.length tagged))%Z then locate 0 lens (before t + w) else (t, w)
  | EClamp a => let '(t, w) := eval v a in
                let t := within 0 (Z.of_nat (List.length tagged) - 1) t in
                (t, within 0 (nth (Z.to_nat t) lens 0%Z - 1)%Z w)
  | ENary All e es => eval v e && all_true v es
  | ENary Some_of e es => eval v e || some_true v es
  | ENot e => negb (eval v e)
  | ERel r a b => if rev_rel then relation r (eval v b) (eval v a) else relation r (eval v a) (eval v b)
  | EStreq c e => if list_eq_dec N.eq_dec (eval v e) (the_const c) then true else false
  | EStrin s e => in_set s (eval v e)
  | EAny s e => existsb (in_set s) (eval v e)
  | EAll s e => forallb (in_set s) (eval v e)
  end
with all_true (v : env) (es : exs) : bool := match es with ENil => true | ECons e es => eval v e && all_true v es end
with some_true (v : env) (es : exs) : bool := match es with ENil => false | ECons e es => eval v e || some_true v es end.

(* the features of one <feat>; the key of each begins with the number of the <feat> as a character *)
Definition add_part (f : ufvec) (part : str) : ufvec := map (fun k => k ++ [part]) f.
Fixpoint features (f : ufvec) (l : list stmt) : ufvec :=
  match l with
  | [] => f
  | SPred e :: r => if eval [] e then features f r else []
  | SOutS e :: r => features (add_part f (eval [] e)) r
  | SOutB e :: r => features (add_part f (if eval [] e then u "t" else u "f")) r
  | SOutI e :: r => features (add_part f (show (eval [] e))) r
  | SMany e :: r => features (flat_map (add_part f) (eval [] e)) r
  end.
Definition key (i : nat) : ufvec := [[[N.of_nat (i mod 256)]]].
Fixpoint all_features (i : nat) (l : list (list stmt)) : ufvec :=
  match l with [] => [] | f :: r => features (key i) f ++ all_features (S i) r end.
Definition meaning (d : doc) : ufvec :=
  if match d_pred d with Some e => eval [] e | None => true end then all_features 0 (d_feats d) else [].

(** ** The inputs on which the machine is claimed to compute this meaning
    (the other inputs are the defects proved in Props/C53.v) *)
Definition slice_ok (len : nat) (s e : option num) : Prop := let '(b, e) := bounds len s e in (b <= e /\ b < Z.of_nat len)%Z.
Definition join_ok (l : list str) : Prop := match l with [] :: _ :: _ => False | _ => True end.
Definition items (b : base) : vty (TArr b) -> nat := match b with BStr => fun l => List.length l | BWrd => fun l => List.length l end.
Fixpoint safe {t} (v : env) (e : ex t) : Prop :=
  match e in ex t return Prop with
  | ESentlen | ETokaddr | EWrdidx | EInt _ | EVar _ _ | EAddr => True
  | EAdd a b => safe v a /\ safe v b
  | ESliceS s e x => safe v x /\ slice_ok (List.length (eval v x)) s e
  | ESliceA b s e x => safe v x /\ slice_ok (items b (eval v x)) s e
  | ESub b i x => safe v x /\ (0 <= num_value i < Z.of_nat (items b (eval v x)))%Z
  | ESurf i => safe v i
  | ELemma w => safe v w
  | ECoarse w => safe v w
  | EJoin _ x => safe v x /\ join_ok (eval v x)
  | ETags w => safe v w
  | EAmbg i => safe v i /\ Forall (fun a => an_morphemes a <> []) (lx_an (token_at (eval v i)))
  | EWords i => safe v i
  | EForS b x it body => safe v it /\ eval v it <> [] /\ Forall (fun s => safe ((x, IS s) :: v) body) (eval v it)
  | EForW b x i body => safe v i /\ words_at (eval v i) <> [] /\ Forall (fun m => safe ((x, IW m) :: v) body) (words_at (eval v i))
  | EWord a => safe v a
  | EAddrOf a b => safe v a /\ safe v b
  | EAddA a b => safe v a /\ safe v b
  | EAdj a => safe v a
  | EClamp a => safe v a /\ tagged <> [] /\ Forall (fun t => wordoids_of t <> []) tagged
  | ENary o e es => safe v e /\ safes v o es
  | ENot e => safe v e
  | ERel _ a b => safe v a /\ safe v b
  | EStreq _ e => safe v e
  | EStrin _ e => safe v e
  | EAny _ e => safe v e
  | EAll _ e => safe v e
  end
(* every operand of an <and> after the first is true, every operand of an <or> after the first false *)
with safes (v : env) (o : nary) (es : exs) : Prop :=
  match es with
  | ENil => True
  | ECons e es => safe v e /\ eval v e = (match o with All => true | Some_of => false end) /\ safes v o es
  end.
Fixpoint safe_all (v : env) (es : exs) : Prop := match es with ENil => True | ECons e es => safe v e /\ safe_all v es end.
(* in a <pred>, the operands of an outermost <and> may have any value *)
Definition safe_pred (e : ex TBool) : Prop :=
  match e in ex t return Prop with ENary All e es => safe [] e /\ safe_all [] es | e => safe [] e end.
Definition safe_stmt (s : stmt) : Prop :=
  match s with SPred e => safe_pred e | SOutS e => safe [] e | SOutB e => safe [] e | SOutI e => safe [] e | SMany e => safe [] e end.
(* nothing is asked of the statements after a <pred> that fails or an <out-many> of nothing *)
Fixpoint safe_feat (l : list stmt) : Prop :=
  match l with
  | [] => True
  | s :: r => safe_stmt s /\
      (match s with SPred e => eval [] e = true | SMany e => eval [] e <> [] | _ => True end -> safe_feat r)
  end.
Definition safe_doc (d : doc) : Prop :=
  match d_pred d with Some e => safe [] e /\ (eval [] e = true -> Forall safe_feat (d_feats d)) | None => Forall safe_feat (d_feats d) end.
End Meaning.

(** ** Well-formed documents: no loop variable hides another one, variables are used inside their loop and where their
    type is wanted, constants are named and not empty, numbers have digits *)
Definition num_ok (n : num) : Prop := digits n <> [] /\ Forall (fun d => d < 10) (digits n).
Definition num_ok_opt (o : option num) : Prop := match o with Some n => num_ok n | None => True end.
Definition base_of (i : item) : base := match i with IS _ => BStr | IW _ => BWrd end.
Section Wf.
Variable coarse : bool.                  (* is there a <coarse-tags>? *)
Variable names : list (str * str).
Definition const_ok (c : const) : Prop := match c with Lit s => s <> [] | Named n => n <> [] /\ In n (map fst names) end.
(* [used]: the names of the loops around; [sc]: the variables that may be read, and their type *)
Fixpoint wf {t} (used : list str) (sc : list (str * base)) (e : ex t) : Prop :=
  match e in ex t return Prop with
  | ESentlen | ETokaddr | EWrdidx | EAddr => True
  | EInt n => num_ok n
  | EVar b x => find x sc = Some b
  | EAdd a b => wf used sc a /\ wf used sc b
  | ESliceS s e x => num_ok_opt s /\ num_ok_opt e /\ wf used sc x
  | ESliceA b s e x => num_ok_opt s /\ num_ok_opt e /\ wf used sc x
  | ESub b i x => num_ok i /\ wf used sc x
  | ESurf i => wf used sc i
  | ELemma w => wf used sc w
  | ECoarse w => coarse = true /\ wf used sc w
  | EJoin o x => match o with Some c => const_ok c | None => True end /\ wf used sc x
  | ETags w => wf used sc w
  | EAmbg i => coarse = true /\ wf used sc i
  | EWords i => wf used sc i
  | EForS b x it body => x <> [] /\ ~ In x used /\ wf (x :: used) sc it /\ wf (x :: used) ((x, BStr) :: sc) body
  | EForW b x i body => x <> [] /\ ~ In x used /\ wf (x :: used) sc i /\ wf (x :: used) ((x, BWrd) :: sc) body
  | EWord a => wf used sc a
  | EAddrOf a b => wf used sc a /\ wf used sc b
  | EAddA a b => wf used sc a /\ wf used sc b
  | EAdj a => wf used sc a
  | EClamp a => wf used sc a
  | ENary o e es => wf used sc e /\ wfs used sc es
  | ENot e => wf used sc e
  | ERel _ a b => wf used sc a /\ wf used sc b
  | EStreq c e => const_ok c /\ wf used sc e
  | EStrin s e => s <> [] /\ wf used sc e
  | EAny s e => s <> [] /\ wf used sc e
  | EAll s e => s <> [] /\ wf used sc e
  end
with wfs (used : list str) (sc : list (str * base)) (es : exs) : Prop :=
  match es with ENil => True | ECons e es => wf used sc e /\ wfs used sc es end.
Definition wf_stmt (s : stmt) : Prop :=
  match s with SPred e => wf [] [] e | SOutS e => wf [] [] e | SOutB e => wf [] [] e | SOutI e => wf [] [] e | SMany e => wf [] [] e end.
End Wf.
Definition wf_doc (d : doc) : Prop :=
  Forall (fun p => fst p <> []) (d_strs d) /\ NoDup (map fst (d_strs d)) /\
  (match d_pred d with Some e => wf (d_coarse d) (d_strs d) [] [] e | None => True end) /\
  Forall (Forall (wf_stmt (d_coarse d) (d_strs d))) (d_feats d).
