(** The compiled patterns at work: lttoolbox's MatchExe / MatchState (not in the repository; modelled from their use in
    apertium/transfer.cc 1129-1140, 1206-1230 and transfer_data.cc:117-175): the machine is deterministic over symbols, a state of
    the matcher is a list of its states, reading a symbol follows the transitions with that symbol and those with any_char / any_tag. *)
From Verif Require Import Model.Base Model.TransferUnit Model.TrxPatterns.

Definition inb (x : nat) (l : list nat) : bool := existsb (Nat.eqb x) l.
Definition takesb (l : lab) (x : msym) : bool :=
  match l, x with
  | LChar c, MChar d => c =?c d
  | LChar c, MMark d => c =?c d
  | LAnyChar, MChar _ => true
  | LTag t, MTag t' => str_eqb t t'
  | LAnyTag, MTag _ => true
  | _, _ => false
  end.
(* minimize / determinize: sets of states, closed under empty transitions *)
Fixpoint close (fuel : nat) (E : list edge) (s : list nat) : list nat :=
  match fuel with
  | 0 => s
  | S f => match find (fun e => match e with (p, l, q) => inb p s && (if lab_eq_dec l LEps then true else false) && negb (inb q s) end) E with
           | Some (_, _, q) => close f E (q :: s)
           | None => s
           end
  end.
Definition closed (E : list edge) (s : list nat) : list nat := close (length E) E s.
Definition move (E : list edge) (s : list nat) (l : lab) : list nat :=
  flat_map (fun e => match e with (p, l', q) => if inb p s && (if lab_eq_dec l' l then true else false) then [q] else [] end) E.
Definition next (E : list edge) (s : list nat) (l : lab) : list nat := match move E s l with [] => [] | s' => closed E s' end.
Definition labels_of (E : list edge) : list lab := nodup lab_eq_dec (map (fun e => snd (fst e)) E).
(* MatchState::init, step, size *)
Definition em_init (t : trans) : list (list nat) := [closed (t_edges t) [0]].
Definition em_step (t : trans) (M : list (list nat)) (x : msym) : list (list nat) :=
  flat_map (fun s => flat_map (fun l => if takesb l x then match next (t_edges t) s l with [] => [] | s' => [s'] end else []) (labels_of (t_edges t))) M.
Definition em_empty (M : list (list nat)) : bool := match M with [] => true | _ => false end.
(* TransferData::write: the rule of a state is the least one *)
Definition rules_of (t : trans) (s : list nat) : list nat :=
  flat_map (fun e => match e with (p, LRule n, f) => if inb p s && inb f (t_finals t) then [n] else [] | _ => [] end) (t_edges t).
Definition em_rules (t : trans) (M : list (list nat)) : list nat :=
  flat_map (fun s => match rules_of t s with [] => [] | n :: r => [fold_right Nat.min n r] end) M.
(* Transfer::applyWord; an unterminated tag reads beyond the word: no state *)
Definition em_word (lower : char -> char) (t : trans) (M : list (list nat)) (w : str) : list (list nat) :=
  match apply_word lower w with Some x => fold_left (em_step t) x M | None => [] end.
Definition em_blank (t : trans) (M : list (list nat)) : list (list nat) := em_step t M (MMark cSP).
