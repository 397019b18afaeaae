(** apertium/hmm.cc.  Probabilities are exact rationals (double rounding, NaN and overflow are not modelled);
    matrices are functions on indices below N (tags) and M (ambiguity classes). *)
From Coq Require Import QArith.
From Verif Require Import Model.Base.
Open Scope nat_scope.

Definition mat := nat -> nat -> Q.
Definition Qn (n : nat) : Q := inject_Z (Z.of_nat n).
(* for(j=0; j<n; j++) sum += f(j) *)
Definition sum (n : nat) (f : nat -> Q) : Q := fold_left (fun s j => (s + f j)%Q) (seq 0 n) 0%Q.
Definition set1 {B} (f : nat -> B) (i : nat) (v : B) : nat -> B := fun i' => if i' =? i then v else f i'.
Definition set2 {B} (f : nat -> nat -> B) (i j : nat) (v : B) : nat -> nat -> B :=
  fun i' j' => if (i' =? i) && (j' =? j) then v else f i' j'.

Section HMM.
Variables (N M : nat).
Variable cls : nat -> list nat.                    (* output[k]: tags of ambiguity class k *)
Variable eos : nat.
Definition inc (k i : nat) : bool := existsb (Nat.eqb i) (cls k).    (* output[k].find(i) != end *)

(** ** init_probabilities_from_tagged_text, hmm.cc:272-371 *)
(* one aligned pair of words: coarse tags of the tagged word, ambiguity class of the untagged one
   (alignment, class lookup and the error exits are not modelled) *)
Record tw := mktw { t_tags : list nat; t_cls : nat }.
Record cnt := mkc { c_tag : option nat; c_pair : nat -> nat -> nat; c_em : nat -> nat -> nat }.
Definition cnt0 : cnt := mkc (Some eos) (fun _ _ => 0) (fun _ _ => 0).        (* 278-279, 289 *)
(* 307-337: None is tag -1 *)
Definition cnt_step (c : cnt) (w : tw) : cnt :=
  let tag2 := c_tag c in
  let tag1 := match t_tags w with [] => None | [t] => Some t | _ => c_tag c end in
  let pair := match tag2, tag1 with
              | Some a, Some b => set2 (c_pair c) a b (S (c_pair c a b))
              | _, _ => c_pair c
              end in
  let em := match tag1 with Some b => set2 (c_em c) b (t_cls w) (S (c_em c b (t_cls w))) | None => c_em c end in
  mkc tag1 pair em.
Definition counts (l : list tw) : cnt := fold_left cnt_step l cnt0.
(* 345-352 *)
Definition estA (pair : nat -> nat -> nat) : mat :=
  fun i j => ((Qn (pair i j) + 1) / sum N (fun j => (Qn (pair i j) + 1)%Q))%Q.
(* 355-368; an entry whose class does not contain the tag is left as it was *)
Definition nclasses (i : nat) : nat := length (filter (fun k => inc k i) (seq 0 M)).
Definition times (em : nat -> nat -> nat) (i : nat) : Q := sum M (fun k => if inc k i then Qn (em i k) else 0%Q).
Definition estB (old : mat) (em : nat -> nat -> nat) : mat :=
  fun i k => if inc k i then ((Qn (em i k) + 1 / Qn (nclasses i)) / (times em i + 1))%Q else old i k.

(** ** init_probabilities_kupiec, hmm.cc:174-270 *)
(* 181-216: k1 = class of the previous word; counts start at 1 *)
Record kcnt := mkk { k_prev : nat; k_occ : nat -> nat; k_pair : nat -> nat -> nat }.
Definition kcnt_step (c : kcnt) (k2 : nat) : kcnt :=
  let k1 := k_prev c in
  mkk k2 (set1 (k_occ c) k1 (S (k_occ c k1))) (set2 (k_pair c) k1 k2 (S (k_pair c k1 k2))).
Definition kcounts (keos : nat) (l : list nat) : kcnt := fold_left kcnt_step l (mkk keos (fun _ => 1) (fun _ _ => 1)).
Definition csize (k : nat) : Q := Qn (length (cls k)).
(* 218-225 *)
Definition tags_est (occ : nat -> nat) (i : nat) : Q := sum M (fun k => if inc k i then Qn (occ k) / csize k else 0%Q)%Q.
(* 227-239: the additions to entry (i, j), in the order of the loops *)
Definition pair_est (pair : nat -> nat -> nat) (i j : nat) : Q :=
  sum M (fun k1 => sum M (fun k2 => if inc k1 i && inc k2 j then Qn (pair k1 k2) / (csize k1 * csize k2) else 0%Q)%Q).
(* 241-255 *)
Definition kupA (pair : nat -> nat -> nat) : mat :=
  fun i j => let s := sum N (pair_est pair i) in if Qlt_le_dec 0 s then (pair_est pair i j / s)%Q else 0%Q.
(* 257-268 *)
Definition kupB (old : mat) (occ : nat -> nat) : mat :=
  fun i k => if inc k i then (if Qlt_le_dec 0 (tags_est occ i) then (Qn (occ k) / csize k) / tags_est occ i else 0)%Q else old i k.

(** ** apply_rules, hmm.cc:374-413 *)
Definition ZERO : Q := 1 # 10000000000.             (* hmm.h:47 (the double 1e-10 taken as exact) *)
(* 383-385 *)
Definition forbid_step (a : mat) (r : nat * nat) : mat := set2 a (fst r) (snd r) ZERO.
(* 387-399 *)
Definition enforce_step (a : mat) (r : nat * list nat) : mat :=
  fun i j => if (i =? fst r) && (j <? N) && negb (existsb (fun t => t =? j) (snd r)) then ZERO else a i j.
(* 401-412 *)
Definition normalise (a : mat) : mat :=
  fun i j => if i <? N then (if j <? N then (if Qlt_le_dec 0 (sum N (a i)) then (a i j / sum N (a i))%Q else 0%Q) else a i j) else a i j.
Definition apply_rules (forbid : list (nat * nat)) (enforce : list (nat * list nat)) (a : mat) : mat :=
  normalise (fold_left enforce_step enforce (fold_left forbid_step forbid a)).

(** ** tagger, hmm.cc:672-784 *)
Variables (A B : mat).
Variable nf : bool.                                  (* TheFlags.getNullFlush() *)
(* a word: tags after the open class was put in for an unknown word (709-710), index of its (similar) class
   (712-714), and whether getEndOfFile() holds after it was read (764) *)
Record vw := mkw { w_tags : list nat; w_cls : nat; w_eof : bool }.
Inductive ev := EWord (w : vw) (t : nat) | ENul.
Record vst := mkv { al0 : nat -> Q; al1 : nat -> Q; be0 : nat -> list nat; be1 : nat -> list nat;
                    v_tags : list nat; v_pend : list vw }.
(* 683-697 *)
Definition vst0 : vst := mkv (set1 (fun _ => 0%Q) eos 1%Q) (fun _ => 0%Q) (fun _ => []) (fun _ => []) [eos] [].
(* 719-732: the inner loop for tag i *)
Definition induct (nw : nat) (pal : nat -> Q) (pbe : nat -> list nat) (k i : nat) (pretags : list nat) : Q * list nat :=
  fold_left (fun ab j =>
    let x := (pal j * A j i * B i k)%Q in
    if Qle_bool (fst ab) x then (x, (if 1 <? nw then pbe j else snd ab) ++ [i]) else ab) pretags (0%Q, []).
Definition vstep (st : vst) (w : vw) : vst * list ev :=
  let pend := v_pend st ++ [w] in                                        (* 702-703 *)
  let nw := length pend in
  let pretags := v_tags st in                                            (* 705 *)
  let tags := w_tags w in
  let odd := (nw mod 2 =? 1) in
  let pal := if odd then al0 st else al1 st in
  let pbe := if odd then be0 st else be1 st in
  let r i := if existsb (Nat.eqb i) tags then induct nw pal pbe (w_cls w) i pretags else (0%Q, []) in   (* 716-732 *)
  let al i := fst (r i) in
  let be i := snd (r i) in
  let st1 := if odd then mkv (al0 st) al (be0 st) be tags pend else mkv al (al1 st) be (be1 st) tags pend in
  let '(st2, out) := match tags with                                     (* 734-760 *)
    | [tag] => (mkv (set1 (al0 st1) tag 1%Q) (al1 st1) (be0 st1) (be1 st1) tags [],
                map (fun wt => EWord (fst wt) (snd wt)) (combine pend (be tag)))
    | _ => (st1, [])
    end in
  if w_eof w && nf                                                       (* 764-777 *)
  then (mkv (set1 (al0 st2) eos 1%Q) (al1 st2) (be0 st2) (be1 st2) [eos] (v_pend st2), out ++ [ENul])
  else (st2, out).
Fixpoint vrun (st : vst) (ws : list vw) : vst * list ev :=
  match ws with
  | [] => (st, [])
  | w :: r => let '(st1, o1) := vstep st w in let '(st2, o2) := vrun st1 r in (st2, o1 ++ o2)
  end.
Definition tagger (ws : list vw) : list ev := snd (vrun vst0 ws).
End HMM.
