(** apertium/feature_vec.cc:11-200, feature_vec_averager.cc:1-57.  Weights are exact rationals (double rounding is
    not modelled).  [std::map<FeatureKey,double,CompareFeatureKey>] is a list sorted by the comparison. *)
From Coq Require Import QArith.
From Verif Require Import Model.Base Model.Codec.
Open Scope nat_scope.

Definition key := list str.                                (* FeatureKey = vector<string> *)

(* feature_vec.cc:11-23 CompareFeatureKey: first difference within the shorter length, else the lengths *)
Fixpoint cmp_key (l r : key) : bool :=
  match l, r with
  | x :: l', y :: r' => if str_lt x y then true else if str_lt y x then false else cmp_key l' r'
  | _, _ => length l <? length r
  end.
(* std::vector<std::string>::operator<, used at feature_vec.cc:112-116 *)
Fixpoint vec_lt (l r : key) : bool :=
  match l, r with
  | [], [] => false
  | [], _ :: _ => true
  | _ :: _, [] => false
  | x :: l', y :: r' => if str_lt x y then true else if str_lt y x then false else vec_lt l' r'
  end.

Definition fvec := list (key * Q).
Definition ufvec := list key.                              (* UnaryFeatureVec *)

(* data[k] += v (AddFeat/SubFeat, feature_vec.cc:166-188; an absent key is created with 0) *)
Fixpoint fadd (k : key) (v : Q) (m : fvec) : fvec :=
  match m with
  | [] => [(k, 0 + v)%Q]
  | (k', v') :: r =>
      if cmp_key k k' then (k, 0 + v)%Q :: m
      else if cmp_key k' k then (k', v') :: fadd k v r
      else (k', (v' + v)%Q) :: r
  end.
(* data.insert(pair): no effect on a present key *)
Fixpoint finsert (k : key) (v : Q) (m : fvec) : fvec :=
  match m with
  | [] => [(k, v)]
  | (k', v') :: r =>
      if cmp_key k k' then (k, v) :: m
      else if cmp_key k' k then (k', v') :: finsert k v r
      else m
  end.
(* data.find *)
Fixpoint ffind (k : key) (m : fvec) : option Q :=
  match m with
  | [] => None
  | (k', v') :: r => if cmp_key k k' then None else if cmp_key k' k then ffind k r else Some v'
  end.

(* feature_vec.cc:27-31, 133-151: constructor from a unary vector *)
Definition of_unary (uv : ufvec) : fvec := fold_left (fun m k => finsert k 1%Q m) uv [].
(* feature_vec.cc:42-58, 83-87 with inPlaceAdd/inPlaceSubtract (190-206) *)
Definition add_unary (m : fvec) (uv : ufvec) : fvec := fold_left (fun m k => fadd k 1%Q m) uv m.
Definition add_vec (m o : fvec) : fvec := fold_left (fun m kv => fadd (fst kv) (snd kv) m) o m.
Definition sub_unary (m : fvec) (uv : ufvec) : fvec := fold_left (fun m k => fadd k (- (1))%Q m) uv m.
Definition sub_vec (m o : fvec) : fvec := fold_left (fun m kv => fadd (fst kv) (- snd kv)%Q m) o m.

(* feature_vec.cc:89-101 *)
Definition dot_unary (m : fvec) (uv : ufvec) : Q :=
  fold_left (fun s k => match ffind k m with Some v => (s + v)%Q | None => s end) uv 0%Q.
(* feature_vec.cc:103-124: merge of the two maps with vector's operator<; [fuel] >= sum of the sizes *)
Fixpoint dot_merge (fuel : nat) (acc : Q) (l r : fvec) : Q :=
  match fuel with
  | 0 => acc
  | S f =>
      match l, r with
      | (kl, vl) :: l', (kr, vr) :: r' =>
          if vec_lt kl kr then dot_merge f acc l' r
          else if vec_lt kr kl then dot_merge f acc l r'
          else dot_merge f (acc + vl * vr)%Q l' r'
      | _, _ => acc
      end
  end.
Definition dot_vec (l r : fvec) : Q := dot_merge (length l + length r) 0%Q l r.

(** ** FeatureVecAverager *)
Record avg := mka { weights : fvec; totals : fvec; tstamps : list (key * nat); iterations : nat }.
Fixpoint ts_get (k : key) (m : list (key * nat)) : nat :=
  match m with [] => 0 | (k', v) :: r => if list_eq_dec (list_eq_dec N.eq_dec) k k' then v else ts_get k r end.
Definition ts_set (k : key) (v : nat) (m : list (key * nat)) : list (key * nat) := (k, v) :: m.

(* feature_vec_averager.cc:5-6 *)
Definition avg0 (w : fvec) : avg := mka w [] [] 0.
Definition Qnat (n : nat) : Q := inject_Z (Z.of_nat n).
Definition fval (m : fvec) (k : key) : Q := match ffind k m with Some v => v | None => 0%Q end.

(* feature_vec_averager.cc:13-15: totals[fk] += (iterations - tstamps[fk]) * weights.data[fk]; operator[] creates
   absent entries with 0 *)
Definition updateTotal (k : key) (a : avg) : avg :=
  mka (fadd k 0%Q (weights a))
      (fadd k (Qnat (iterations a - ts_get k (tstamps a)) * fval (weights a) k)%Q (totals a))
      (tstamps a) (iterations a).
(* feature_vec_averager.cc:17-23 *)
Definition updateTotalsTimestamps (o : fvec) (a : avg) : avg :=
  fold_left (fun a kv => let a1 := updateTotal (fst kv) a in
                         mka (weights a1) (totals a1) (ts_set (fst kv) (iterations a1) (tstamps a1)) (iterations a1)) o a.

Inductive aop := OAdd (o : fvec) | OSub (o : fvec) | OInc.
Definition astep (a : avg) (x : aop) : avg :=
  match x with
  | OAdd o => let a1 := updateTotalsTimestamps o a in               (* 25-30 *)
              mka (add_vec (weights a1) o) (totals a1) (tstamps a1) (iterations a1)
  | OSub o => let a1 := updateTotalsTimestamps o a in               (* 32-37 *)
              mka (sub_vec (weights a1) o) (totals a1) (tstamps a1) (iterations a1)
  | OInc => mka (weights a) (totals a) (tstamps a) (S (iterations a))   (* 8-11 *)
  end.

(* feature_vec_averager.cc:39-53 [average]: None = the erased iterator is incremented (undefined behaviour) *)
Fixpoint average_loop (a : avg) (todo : fvec) : option fvec :=
  match todo with
  | [] => Some []
  | (k, v) :: r =>
      let t := (fval (totals a) k + Qnat (iterations a - ts_get k (tstamps a)) * v)%Q in
      if Qeq_bool t 0 then None
      else match average_loop a r with
           | Some m => Some ((k, (t / Qnat (iterations a))%Q) :: m)
           | None => None
           end
  end.
Definition average (a : avg) : option fvec := average_loop a (weights a).
