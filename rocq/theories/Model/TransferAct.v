(** apertium-transfer -b (readings already in the input): what applying a rule does, apertium/transfer.cc 1242-1368, from the texts of
    the words read so far (the rule's words and those read beyond them) and the blanks between the rule's words.
    [None] as state: the program has stopped (undefined behaviour, exit, or macros nested deeper than [fuel]). *)
From Coq Require Import String ZArith.
From Verif Require Import Model.Base Model.TransferUnit Model.TransferRules.

(* 1267-1340: new TransferWord(sl, tl, ref, wblank, false); the last argument is the length of the queue *)
Definition tword_of (w : str) : option tword :=
  match rule_parts w with Some p => Some (mkw (p_sl p) (p_tl p) (p_ref p) (p_wb p) 0) | None => None end.
Fixpoint twords (ws : list str) : option (list tword) :=
  match ws with
  | [] => Some []
  | w :: r => match tword_of w, twords r with Some a, Some l => Some (a :: l) | _, _ => None end
  end.
(* 1249-1261: all words read get an object (limit, lword), the blanks between the words matched (last_lword) are queued *)
Definition tload (ws : list tword) (nw : nat) (bl : list str) (st : rst) : rst :=
  mkr ws (Some (map Some (seq 0 (length ws)))) nw (r_vars st) (r_vwb st) (r_owb st) (r_in_lu st) (r_in_let st) (r_in_out st) (r_vv st)
      (push_blanks (nw - 1) (r_bq st) bl) (r_out st) (r_cache st).
(* 1345-1365 *)
Definition tclear (st : rst) : rst := with_out (with_bq (with_frame (with_words st []) None) []) [].

Section Act.
Variable attr_match : str -> str -> str.
Variable attr_replace : str -> str -> str -> str.
Variable copy_case case_from : str -> str -> str.
Variable get_case lower : str -> str.
Variable lists : str -> list str.
Variable dict_case : bool.
Variable macros : str -> nat.
Variable macro_map : list (nat * list instr).
(* applyRule with the body rule_map[r - 1]; processRule (transfer_base.cc 253-273) up to its flush of the blanks, which the loop prints.
   The loop passes the blanks between the words matched, so last_lword is one more than their number. *)
Definition tact (fuel : nat) (bodies : list (list instr)) (r : nat) (g : option rst) (ws bs : list str) : str * list str * Z * option rst :=
  let stopped := ([], [], (-1)%Z, None) in
  match g, nth_error bodies (r - 1), twords ws with
  | Some st, Some body, Some l =>
      match run_list attr_match attr_replace copy_case case_from get_case lower lists dict_case
              (call attr_match attr_replace copy_case case_from get_case lower lists dict_case macros macro_map fuel) body (tload l (S (length bs)) bs st) with
      | Some (z, st1) => (r_out st1, r_bq st1, z, Some (tclear st1))
      | None => stopped
      end
  | _, _, _ => stopped
  end.
End Act.
(* a new Transfer object: variables as the rule file initialises them, everything else empty *)
Definition tstart (vars : str -> str) : rst := mkr [] None 0 vars (fun _ => []) [] false false false [] [] [] (fun _ => None).
(* 1050-1149: the default treatment of a word; reading beyond the end of the text is not given a meaning here *)
Definition tdefault (chunk : bool) (w : str) : str := match default_out FromBilingual chunk w with Some o => o | None => [] end.
