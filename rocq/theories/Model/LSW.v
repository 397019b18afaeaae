(** apertium/lswpost.cc (light sliding-window tagger).  Exact rationals for double; the class lookups with their error
    exits (require_ambiguity_class) and warnings are not modelled. *)
From Coq Require Import QArith.
From Verif Require Import Model.Base.
Open Scope nat_scope.

Definition cube := nat -> nat -> nat -> Q.
Definition tri := (nat * nat * nat)%type.
(* the three nested loops over tags_left, tags_mid, tags_right *)
Definition triples (l m r : list nat) : list tri :=
  flat_map (fun a => flat_map (fun b => map (fun c => (a, b, c)) r) m) l.
Definition at3 (d : cube) (t : tri) : Q := let '(a, b, c) := t in d a b c.
Definition add3 (d : cube) (t : tri) (x : Q) : cube :=
  let '(a, b, c) := t in fun a' b' c' => if (a' =? a) && (b' =? b) && (c' =? c) then (d a' b' c' + x)%Q else d a' b' c'.

Section LSW.
Variable forbid : list (nat * nat).
Variable enforce : list (nat * list nat).
Variable eos : nat.

(* lswpost.cc:183-226 *)
Definition enforce_ok (tl tm tr : nat) (r : nat * list nat) : bool :=
  if tl =? fst r then existsb (fun t => t =? tm) (snd r)
  else if tm =? fst r then existsb (fun t => t =? tr) (snd r)
  else true.
Definition is_valid_seq (t : tri) : bool :=
  let '(tl, tm, tr) := t in
  if existsb (fun r => ((tl =? fst r) && (tm =? snd r)) || ((tm =? fst r) && (tr =? snd r))) forbid then false
  else forallb (enforce_ok tl tm tr) enforce.

(** ** training, lswpost.cc:101-181 and 237-307 *)
(* 143-167, one window *)
Definition init_window (p : cube) (l m r : list nat) : cube :=
  let ts := triples l m r in
  let num := length l * length m * length r - length (filter (fun t => negb (is_valid_seq t)) ts) in
  if num =? 0 then p
  else fold_left (fun p t => if is_valid_seq t then add3 p t (1 / inject_Z (Z.of_nat num))%Q else p) ts p.
Definition ZERO3 : Q := 1 # 10000000000.                      (* lswpost.h: ZERO 1e-10 *)
(* 274-295, one window; D is the current matrix *)
Definition train_window (D p : cube) (l m r : list nat) : cube :=
  let ts := triples l m r in
  let norm := fold_left (fun s t => (s + at3 D t)%Q) ts 0%Q in
  fold_left (fun p t => if Qlt_le_dec ZERO3 norm then add3 p t (at3 D t / norm)%Q else p) ts p.
(* 134-170 and 264-301: the loop over the words; ws are the tags of the remaining words *)
Fixpoint windows (f : cube -> list nat -> list nat -> list nat -> cube) (p : cube) (l m : list nat) (ws : list (list nat)) : cube :=
  match ws with
  | [] => p
  | r :: ws' => windows f (f p l m r) m r ws'
  end.
Definition cube0 : cube := fun _ _ _ => 0%Q.
(* tags of the words of the corpus, the open class put in for unknown words (112, 122, 141), the last one being the
   end-of-file word; with a single word the function returns early and D stays (128-130, 256-258) *)
Definition init_probabilities (D : cube) (ws : list (list nat)) : cube :=
  match ws with
  | m :: r :: rest => windows init_window cube0 [eos] m (r :: rest)
  | _ => D
  end.
Definition train1 (D : cube) (ws : list (list nat)) : cube :=
  match ws with
  | m :: r :: rest => windows (train_window D) cube0 [eos] m (r :: rest)
  | _ => D
  end.
(* lswpost.cc:75-80 *)
Fixpoint train (n : nat) (D : cube) (ws : list (list nat)) : cube :=
  match n with 0 => D | S n' => train n' (train1 D ws) ws end.

(** ** tagger, lswpost.cc:322-400 *)
Variable D : cube.
Variable nf : bool.
(* tags as analysed (no open class here), and whether getEndOfFile() holds once the word was read *)
Record lw := mklw { lw_tags : list nat; lw_eof : bool }.
Inductive lev := LWord (w : lw) (t : option nat) | LNul.      (* None: *begin() of an empty set, undefined value *)
(* 357-374 *)
Definition wscore (l r : list nat) (b : nat) : Q :=
  fold_left (fun n a => fold_left (fun n c => (n + D a b c)%Q) r n) l 0%Q.
Definition best_mid (l m r : list nat) : option nat :=
  match m with
  | [] => None
  | t0 :: _ => Some (snd (fold_left (fun mt b => let n := wscore l r b in if Qlt_le_dec (fst mt) n then (n, b) else mt) m ((-(1))%Q, t0)))
  end.
(* 352-397; [more]: the words still to be read, the first of them being word_right *)
Fixpoint lsw_loop (l : list nat) (mid : lw) (more : list lw) : list lev :=
  match more with
  | [] => []
  | w :: rest =>
      LWord mid (best_mid l (lw_tags mid) (lw_tags w)) ::
      (if lw_eof w && nf then [LNul] else []) ++ lsw_loop (lw_tags mid) w rest
  end.
Definition lsw_tagger (ws : list lw) : list lev :=
  match ws with
  | [] => []
  | m :: rest => if lw_eof m then [] else lsw_loop [eos] m rest          (* 341-345 *)
  end.
End LSW.
