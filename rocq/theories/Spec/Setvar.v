(** What preferences are, as a user writes them; independent of the script. *)
From Coq Require Import String.
From Verif Require Import Model.Base.
Open Scope nat_scope.

(** A preference names a key; it may say which options of it are wanted, or which are not. *)
Inductive wanted := Key | Among (l : list str) | Except (l : list str).
Definition pref := (str * wanted)%type.
Fixpoint join (sep : char) (l : list str) : str := match l with [] => [] | [a] => a | a :: r => a ++ sep :: join sep r end.
Definition write (p : pref) : str :=
  fst p ++ match snd p with Key => [] | Among l => u "="%string ++ join 58%N l | Except l => u "=-"%string ++ join 58%N l end.
Definition write_all (l : list pref) : str := join 44%N (map write l).
(** What is meant: "all but these" becomes the list of the others, in the order of the file. *)
Definition meant (options : str -> list str) (p : pref) : pref :=
  (fst p, match snd p with Except l => Among (filter (fun o => negb (existsb (str_eqb o) l)) (options (fst p))) | w => w end).

Definition without (cs t : str) : Prop := forall c, In c cs -> ~ In c t.
Definition name_ok (n : str) : Prop := n <> [] /\ without (u ",=:"%string ++ [10]%N) n.
Definition key_ok (k : str) : Prop := k <> [] /\ hd 0%N k <> 45%N /\ without (u ",="%string ++ [10]%N) k.
Definition pref_ok (p : pref) : Prop :=
  key_ok (fst p) /\
  match snd p with
  | Key => True
  | Among l => l <> [] /\ Forall name_ok l /\ hd 0%N (hd [] l) <> 45%N
  | Except l => Forall name_ok l
  end.

(** The command that tells the stages the preferences, and texts with commands in them. *)
Definition cmd (v : str) : str := u "[<STREAMCMD:SETVAR:"%string ++ v ++ u ">]"%string.
Definition free (t : str) : Prop := forall a b, t <> a ++ u "[<STREAMCMD:SETVAR:"%string ++ b.
Definition weave (t : str) (l : list (str * str)) : str := t ++ flat_map (fun x => cmd (fst x) ++ snd x) l.
Definition plain_text (t : str) (l : list (str * str)) : str := t ++ flat_map snd l.
Definition value_ok (v : str) : Prop := without [0; 10; 62]%N v.
(** Messages of a stream: each ends with NUL, then there may be a rest without NUL. *)
Definition messages (ms : list str) (rest : str) : str := flat_map (fun m => m ++ [0]%N) ms ++ rest.
