(** The rule-application loop shared by apertium/transfer.cc (932-1237), apertium/interchunk.cc (454-588) and
    apertium/postchunk.cc (550-679); line numbers below are those of interchunk.cc.
    Simplifications: the pattern matcher (lttoolbox MatchState/MatchExe), the actions of rules and the default treatment of a
    word are parameters; the circular token buffer is an unbounded list of tokens (positions are indices into it, [l_hi] is the
    number of tokens read so far); tracing is omitted.  Postchunk's rules change the blank after the chunk (see C43): omitted. *)
From Coq Require Import ZArith.
From Verif Require Import Model.Base.

Inductive tkn := KWord (w : str) | KBlank (b : str) | KEof (c : str).

Section Loop.
Variable clear_at_eof : bool.          (* interchunk.cc:577 clears tmpblank at the end of input; transfer.cc and postchunk.cc do not *)
Variable MS : Type.
Variable ms_init : MS.
Variable ms_word : MS -> str -> MS.            (* applyWord *)
Variable ms_blank : MS -> MS.                  (* ms.step(' ') *)
Variable ms_empty : MS -> bool.                (* ms.size() == 0 *)
Variable ms_rules : MS -> list nat.            (* the rules whose final states are in the state set *)
Variable G : Type.                             (* variables of the rule file *)
(* processRule up to the flush: rule, state, words, blank queue -> output, blanks left in the queue, words_to_consume, state *)
Variable act : nat -> G -> list str -> list str -> str * list str * Z * G.
Variable default : str -> str.                 (* the default treatment of a word: "^%S$" (505), unchunk, bilingual lookup *)

(* classifyFinals: the least rule that is final and not banned *)
Definition classify (m : MS) (banned : list nat) : option nat :=
  fold_right (fun r o => if existsb (Nat.eqb r) banned then o else match o with Some x => Some (Nat.min r x) | None => Some r end) None (ms_rules m).

Record lst := mkl {
  l_pos : nat; l_hi : nat; l_last : nat; l_prev : nat;
  l_rule : option nat;              (* lastrule, lastrule_id *)
  l_nw : nat;                       (* last_lword *)
  l_banned : list nat; l_ms : option MS; l_tw : list str; l_tb : list str; l_g : G }.
Definition ldead (st : lst) : bool := match l_ms st with None => true | Some m => ms_empty m end.

(* processRule's flush, transfer_base.cc:265-271 *)
Definition flush_blanks (l : list str) : str := flat_map (fun b => if str_eqb b [cSP] then [] else b) l.
(* applyRule, 590-631 *)
Definition apply_rule (r : nat) (st : lst) : str * Z * G :=
  let '(o, lf, z, g) := act r (l_g st) (l_tw st) (firstn (l_nw st - 1) (l_tb st)) in (o ++ flush_blanks lf, z, g).
(* 490-500: skip tokens of the buffer until n words are consumed *)
Fixpoint skip_words (fuel : nat) (toks : list tkn) (hi pos n : nat) : nat :=
  match fuel, n with
  | S f, S n' => if hi <=? pos then pos
                 else match nth_error toks pos with
                      | Some (KWord _) => skip_words f toks hi (S pos) n'
                      | _ => skip_words f toks hi (S pos) n
                      end
  | _, _ => pos
  end.
(* 469-533 *)
Definition lsettle (toks : list tkn) (st : lst) : str * lst :=
  if ldead st then
    match l_rule st with
    | Some r =>
        let '(o, z, g) := apply_rule r st in
        if (z <? 0)%Z then (o, mkl (l_last st) (l_hi st) (l_last st) (l_prev st) None (l_nw st) [] (Some ms_init) [] [] g)
        else if (0 <? z)%Z
        then (o, mkl (skip_words (S (l_hi st)) toks (l_hi st) (S (l_prev st)) (Z.to_nat z)) (l_hi st) (l_last st) (l_prev st) None (l_nw st) [] (Some ms_init) [] [] g)
        else (o, mkl (S (l_prev st)) (l_hi st) (S (l_prev st)) (l_prev st) None (l_nw st) (r :: l_banned st) (Some ms_init) [] [] g)
    | None =>
        match l_tw st with
        | w :: _ => (default w, mkl (S (l_last st)) (l_hi st) (S (l_last st)) (l_last st) None (l_nw st) [] (Some ms_init) [] (l_tb st) (l_g st))
        | [] => match l_tb st with
                | b :: _ => (b, mkl (l_pos st) (l_hi st) (l_pos st) (l_last st) None (l_nw st) (l_banned st) (Some ms_init) [] [] (l_g st))
                | [] => ([], st)
                end
        end
    end
  else ([], st).
(* 534-552 *)
Definition lmark (st : lst) : lst :=
  match l_ms st with
  | Some m => match classify m (l_banned st) with
              | Some r => mkl (l_pos st) (l_hi st) (l_pos st) (l_prev st) (Some r) (length (l_tw st)) (l_banned st) (l_ms st) (l_tw st) (l_tb st) (l_g st)
              | None => st
              end
  | None => st
  end.
(* 554-587; [inl]: the function returns after that last output *)
Definition lconsume (toks : list tkn) (st : lst) : option ((str * lst) + lst) :=
  let pos' := S (l_pos st) in
  let hi' := Nat.max (l_hi st) pos' in
  match nth_error toks (l_pos st) with
  | None => None
  | Some (KWord w) => Some (inr (mkl pos' hi' (l_last st) (l_prev st) (l_rule st) (l_nw st) (l_banned st)
                                     (option_map (fun m => ms_word m w) (l_ms st)) (l_tw st ++ [w]) (l_tb st) (l_g st)))
  | Some (KBlank b) => Some (inr (mkl pos' hi' (l_last st) (l_prev st) (l_rule st) (l_nw st) (l_banned st)
                                      (option_map ms_blank (l_ms st)) (l_tw st) (l_tb st ++ [b]) (l_g st)))
  | Some (KEof c) =>
      match l_tw st with
      | _ :: _ => Some (inr (mkl pos' hi' (l_last st) (l_prev st) (l_rule st) (l_nw st) (l_banned st) None (l_tw st) (l_tb st ++ [c]) (l_g st)))
      | [] => Some (inl (c, mkl pos' hi' (l_last st) (l_prev st) (l_rule st) (l_nw st) (l_banned st) (l_ms st) []
                                (if clear_at_eof then [] else l_tb st) (l_g st)))
      end
  end.
Fixpoint lloop (fuel : nat) (toks : list tkn) (st : lst) : option (str * lst) :=
  match fuel with
  | 0 => None
  | S f =>
      let '(o, st1) := lsettle toks st in
      match lconsume toks (lmark st1) with
      | None => None
      | Some (inl (c, st2)) => Some (o ++ c, st2)
      | Some (inr st2) => match lloop f toks st2 with Some (o2, st3) => Some (o ++ o2, st3) | None => None end
      end
  end.
(* 459-466; what survives from an earlier call: tmpblank *)
Definition lstart (tb : list str) (g : G) : lst := mkl 0 0 0 0 None 0 [] (Some ms_init) [] tb g.
(* the null-flush wrappers: interchunk.cc 437-450, postchunk.cc 531-546, transfer.cc 906-929 (which also clears tmpblank before
   each document): documents (tokens up to the NUL), each answered by a NUL; variables are reset *)
Fixpoint ldocs (clear_at_start : bool) (fuel : nat) (g0 : G) (tb : list str) (docs : list (list tkn)) : option str :=
  match docs with
  | [] => Some []
  | d :: r => match lloop fuel d (lstart (if clear_at_start then [] else tb) g0) with
              | Some (o, st) => match ldocs clear_at_start fuel g0 (l_tb st) r with Some o2 => Some (o ++ cNUL :: o2) | None => None end
              | None => None
              end
  end.
End Loop.
