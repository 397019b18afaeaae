(** Preferences of the user (AP_SETVAR) in the script "apertium": apertium/apertium-header.sh 85-156.
    Simplifications: the options of a preference, which the script asks xmllint for, are a function from keys to lists of names, one per
    preferences file; a file that is not readable is [None].  awk interprets backslashes in the values it is given by -v: values with a
    backslash are outside the model.  Flushing is not modelled. *)
From Coq Require Import String.
From Verif Require Import Model.Base.
Open Scope nat_scope.

Definition cCOMMA : char := 44%N.
(** the characters up to the first [c], and what follows it, if it is there *)
Fixpoint cut (c : char) (s : str) : str * option str :=
  match s with
  | [] => ([], None)
  | x :: r => if x =?c c then ([], Some r) else let '(a, b) := cut c r in (x :: a, b)
  end.
Fixpoint split (c : char) (s : str) : list str :=                           (* split of awk on a text that is not empty: one more piece than separators *)
  match s with
  | [] => [[]]
  | x :: r => if x =?c c then [] :: split c r else match split c r with p :: l => (x :: p) :: l | [] => [[x]] end
  end.

(** ** Exceptions: key=-a:b stands for all options of the key but a and b *)
Definition prefs := str -> list str.
(* split(val, ar, ":"): nothing for an empty text *)
Definition awk_split (v : str) : list str := match v with [] => [] | _ => split cCOLON v end.
(* invert_setvar, 85-98 *)
Fixpoint keep_all (skip ids : list str) (keep : str) : str :=
  match ids with
  | [] => keep
  | i :: r => if existsb (str_eqb i) skip then keep_all skip r keep
              else keep_all skip r ((match keep with [] => [] | _ => keep ++ [cCOLON] end) ++ i)
  end.
Definition invert (p : prefs) (key val : str) : str := keep_all (awk_split val) (p key) [].

(* IFS='=' read -r key value, on the text before a comma *)
Definition read_kv (s : str) : str * str :=
  let '(k, rest) := cut cEQ s in
  (k, match rest with
      | None => []
      | Some v => let '(w, after) := cut cEQ v in match after with Some [] => w | _ => v end
      end).
(* the body of the loop, 119-128 *)
Definition step (p : prefs) (acc s : str) : str :=
  let '(key, value) := read_kv s in
  match key with
  | [] => acc
  | _ =>
      let acc := (match acc with [] => [] | _ => acc ++ [cCOMMA] end) ++ key in
      match value with
      | [] => acc
      | c :: val => if c =?c cDASH then acc ++ [cEQ] ++ invert p key val else acc ++ [cEQ] ++ value
      end
  end.
(* read -d',' over the value with a comma added (116): one round per comma *)
Definition new_value (p : prefs) (var : str) : str := fold_left (step p) (split cCOMMA var) [].
(* bash's echo: words made of -, n, e and E only are options *)
Definition echo (s : str) : str :=
  match s with
  | c :: (_ :: _) as r => if (c =?c cDASH) && forallb (fun x => mem x (u "neE"%string)) (tl r) then [] else s
  | _ => s
  end.
(* the $( ) of 149 *)
Fixpoint chomp (s : str) : str :=
  match s with
  | [] => []
  | x :: r => match chomp r with [] => if x =?c cNL then [] else [x] | r' => x :: r' end
  end.
(* ${PAIR%-*} *)
Fixpoint cut_last (s : str) : option str :=
  match s with
  | [] => None
  | x :: r => match cut_last r with Some a => Some (x :: a) | None => if x =?c cDASH then Some [] else None end
  end.
Definition base (pair : str) : str := match cut_last pair with Some a => a | None => pair end.
(* apply_invert_setvars, 100-131, and the assignment in 149 *)
Definition setvar (files : str -> option prefs) (datadir pair var : str) : str :=
  let file n := files (datadir ++ u "/prefs/"%string ++ n ++ u ".xml"%string) in
  chomp (echo match (match file pair with Some p => Some p | None => file (base pair) end) with
              | None => var
              | Some p => new_value p var
              end).

(** ** The command in the stream, 133-152 *)
(* a value of awk given by -v is false if it is empty or looks like a number and is zero *)
Definition blank (c : char) : bool := mem c [32; 9; 10; 11; 12; 13]%N.
Definition digit (c : char) : bool := ((48 <=? c) && (c <=? 57))%N.
Fixpoint drop_while (f : char -> bool) (s : str) : str := match s with [] => [] | c :: r => if f c then drop_while f r else s end.
Definition zeros (s : str) : bool * str := (match s with c :: _ => (c =? 48)%N | [] => false end, drop_while (fun c => (c =? 48)%N) s).
Definition drop_sign (s : str) : str := match s with c :: r => if (c =?c cPLUS) || (c =?c cDASH) then r else s | [] => [] end.
Definition all_blank (s : str) : bool := forallb blank s.
Definition exponent (s : str) : bool :=                                    (* nothing, or e, a sign and digits; then blanks *)
  match s with
  | c :: r => if (c =? 101)%N || (c =? 69)%N then match drop_sign r with d :: r' => digit d && all_blank (drop_while digit r') | [] => false end
              else all_blank s
  | [] => true
  end.
Definition is_zero (s : str) : bool :=
  let '(a, r) := zeros (drop_sign (drop_while blank s)) in
  match r with
  | c :: r' => if c =?c cDOT then let '(b, r2) := zeros r' in (a || b) && exponent r2 else a && exponent r
  | [] => a
  end.
Definition on (var : str) : bool := match var with [] => false | _ => negb (is_zero var) end.

(* RS = "\0|\n": the records with what ends them (RT); no empty record after the last end *)
Fixpoint records (s : str) : list (str * str) :=
  match s with
  | [] => []
  | c :: r => if (c =?c cNUL) || (c =?c cNL) then ([], [c]) :: records r
              else match records r with (w, t) :: l => (c :: w, t) :: l | [] => [([c], [])] end
  end.
Definition head : str := u "[<STREAMCMD:SETVAR:"%string.
Definition command (var : str) : str := head ++ var ++ u ">]"%string.
(* setvar_wrap, 133-140 *)
Definition wrap_one (var : str) (rt : str * str) : str :=
  fst rt ++ snd rt ++ (if on var && str_eqb (snd rt) [cNUL] then command var else []).
Definition wrap (var s : str) : str :=
  match records s with
  | [] => []
  | l => (if on var then command var else []) ++ flat_map (wrap_one var) l
  end.
(* the length of a match of \[<STREAMCMD:SETVAR:[^>]*>] at the beginning of s *)
Fixpoint begins (p s : str) : option str :=
  match p, s with
  | [], _ => Some s
  | a :: p', b :: s' => if a =?c b then begins p' s' else None
  | _ :: _, [] => None
  end.
Definition match_len (s : str) : option nat :=
  match begins head s with
  | None => None
  | Some r => match cut cGT r with
              | (v, Some (c :: _)) => if c =?c cRB then Some (length head + length v + 2) else None
              | _ => None
              end
  end.
(* gsub: leftmost matches, one after the other; [k] characters of a match are still to be skipped *)
Fixpoint gsub (k : nat) (s : str) : str :=
  match s with
  | [] => []
  | c :: r => match k with
              | S k' => gsub k' r
              | 0 => match match_len s with Some n => gsub (n - 1) r | None => c :: gsub 0 r end
              end
  end.
(* setvar_unwrap, 141-147 *)
Definition unwrap (var s : str) : str :=
  flat_map (fun rt : str * str => (if on var then gsub 0 (fst rt) else fst rt) ++ snd rt) (records s).
