(** apertium/hmm.cc:86-93, 444-669: unsupervised (Baum-Welch) training of the HMM tagger.
    Exact rationals; overflow, underflow, NaN checks (exits) and the log-likelihood printed on stderr are not modelled.
    A std::map<int, double> is a function that is 0 where no entry was made. *)
From Coq Require Import QArith.
From Verif Require Import Model.Base Model.HMM.
Open Scope nat_scope.

Section BW.
Variables (N M : nat).
Variable cls : nat -> list nat.                      (* output[k] *)
Variable idx : list nat -> option nat.               (* output[tags]; None: has_not(tags), require_ambiguity_class exits *)
Variable open_class : list nat.
Variable eos : nat.
Variable dmin : Q.                                   (* DBL_MIN *)

Section Pass.
Variables (A B : mat).

(* hmm.cc:498-512: alpha[len], from alpha[len-1] and its tags *)
Definition fwd (pretags : list nat) (pa : nat -> Q) (tags : list nat) (k : nat) : nat -> Q :=
  fun i => if existsb (Nat.eqb i) tags then
             let s := fold_left (fun s j => (s + pa j * A j i * B i k)%Q) pretags 0%Q in
             if Qeq_bool s 0 then dmin else s
           else 0%Q.

(* the accumulators: beta[1-t%2], xsi, gamma, phi *)
Record acc := mka { a_beta : nat -> Q; a_xsi : nat -> nat -> Q; a_gam : nat -> Q; a_phi : nat -> nat -> Q }.
(* 534-538 *)
Definition bstep_in (pa beta : nat -> Q) (prob : Q) (k i : nat) (c : acc) (j : nat) : acc :=
  mka (set1 (a_beta c) j (a_beta c j + A j i * B i k * beta i)%Q)
      (set2 (a_xsi c) j i (a_xsi c j i + pa j * A j i * B i k * beta i / prob)%Q)
      (a_gam c) (a_phi c).
(* 532-560 *)
Definition bstep_out (pretags : list nat) (pa al beta : nat -> Q) (prob : Q) (k : nat) (c : acc) (i : nat) : acc :=
  let c1 := fold_left (bstep_in pa beta prob k i) pretags c in
  let g := (a_gam c1 i + al i * beta i / prob)%Q in
  let g' := if Qeq_bool g 0 then dmin else g in
  mka (a_beta c1) (a_xsi c1) (set1 (a_gam c1) i g') (set2 (a_phi c1) i k (a_phi c1 i k + al i * beta i / prob)%Q).
(* pending entries, last one first: tags, class, alpha row *)
Record ent := mke { e_tags : list nat; e_cls : nat; e_al : nat -> Q }.
(* 527-562; the class of popped tags is looked up again in the code, here it is kept with them *)
Fixpoint bloop (prob : Q) (cur : ent) (beta : nat -> Q) (pend : list ent) (c : acc) : acc :=
  match pend with
  | [] => c
  | pre :: rest =>
    let c1 := fold_left (bstep_out (e_tags pre) (e_al pre) (e_al cur) beta prob (e_cls cur)) (e_tags cur)
                        (mka (fun _ => 0%Q) (a_xsi c) (a_gam c) (a_phi c)) in
    bloop prob pre (a_beta c1) rest c1
  end.

Definition base (t : nat) : ent := mke [t] 0 (set1 (fun _ => 0%Q) t 1%Q).     (* 466-472, 564-568; the class of the base entry is never used *)
Record bst := mkbs { b_pend : list ent; b_acc : acc }.
Definition bst0 : bst := mkbs [base eos] (mka (fun _ => 0%Q) (fun _ _ => 0%Q) (fun _ => 0%Q) (fun _ _ => 0%Q)).
(* 476-573: one word, given by get_tags() *)
Definition word_tags (w : list nat) : list nat := match w with [] => open_class | _ => w end.   (* 485-490 *)
Definition train_word (st : bst) (w : list nat) : option bst :=
  let tags := word_tags w in
  match idx tags, b_pend st with
  | Some k, pre :: _ =>
    let cur := mke tags k (fwd (e_tags pre) (e_al pre) tags k) in
    match tags with
    | [tag] => Some (mkbs [base tag]
                          (bloop (e_al cur tag) cur (set1 (fun _ => 0%Q) tag 1%Q) (b_pend st) (b_acc st)))
    | _ => Some (mkbs (cur :: b_pend st) (b_acc st))      (* an empty set is undefined behaviour in the code *)
    end
  | _, _ => None
  end.
Fixpoint train_words (st : bst) (ws : list (list nat)) : option bst :=
  match ws with
  | [] => Some st
  | w :: r => match train_word st w with Some st' => train_words st' r | None => None end
  end.

(* 584-617 *)
Definition newA (c : acc) : mat := fun i j =>
  if Qlt_le_dec 0 (a_xsi c i j)
  then (a_xsi c i j / (if Qeq_bool (a_gam c i) 0 then dmin else a_gam c i))%Q else ZERO.
(* 619-641 *)
Definition newB (c : acc) : mat := fun i k =>
  if Qlt_le_dec 0 (a_phi c i k) then (a_phi c i k / a_gam c i)%Q else ZERO.
(* 645-651 *)
Definition normA (a : mat) : mat := fun i j => (a i j / sum N (a i))%Q.
(* 653-664 *)
Definition normB (b : mat) : mat := fun i k =>
  if inc cls k i then (b i k / sum M (fun k => if inc cls k i then b i k else 0%Q))%Q else b i k.
End Pass.

(* HMM::train(MorphoStream &), 446-669 *)
Definition train1 (ab : mat * mat) (ws : list (list nat)) : option (mat * mat) :=
  match train_words (fst ab) (snd ab) bst0 ws with
  | Some st => Some (normA (newA (b_acc st)), normB (newB (b_acc st)))
  | None => None
  end.
(* HMM::train(MorphoStream &, unsigned long), 86-93: the stream is rewound before each pass *)
Fixpoint passes (count : nat) (ab : mat * mat) (ws : list (list nat)) : option (mat * mat) :=
  match count with
  | 0 => Some ab
  | S n => match train1 ab ws with Some ab' => passes n ab' ws | None => None end
  end.
Definition train (forbid : list (nat * nat)) (enforce : list (nat * list nat)) (ab : mat * mat) (ws : list (list nat)) (count : nat)
  : option (mat * mat) :=
  match passes count ab ws with
  | Some ab' => Some (apply_rules N forbid enforce (fst ab'), snd ab')
  | None => None
  end.
End BW.
