(** The loop of apertium-postchunk, apertium/postchunk.cc 548-729, with its rules.  As in Model/ChunkLoop.v the circular token buffer is an
    unbounded list of tokens (positions are indices into it, [o_hi] is the number of tokens read so far) and tracing is omitted.
    Unlike there the contents of the buffer change: tmpblank holds pointers into it ([o_tb]: positions), and the text before the
    first word of a chunk is appended to what the last of them points to.
    [None]: undefined behaviour, an exception, exit, or the fuel is used up.  A rule is applied with one blank in tmpblank; with more or
    fewer (patterns with several items, which postchunk.dtd excludes) the code deletes blanks it does not own: None. *)
From Coq Require Import ZArith.
From Verif Require Import Model.Base Model.ChunkLoop Model.TransferRules Model.TrxPatterns Model.TrxMachine Model.Postchunk Model.PostchunkRules.

Record post := mko {
  o_toks : list tkn; o_pos : nat; o_hi : nat; o_last : nat; o_prev : nat;
  o_rule : option nat; o_banned : list nat; o_ms : option (list (list nat)); o_tw : list str; o_tb : list nat; o_g : pglob }.
Definition tok_text (t : tkn) : str := match t with KWord s | KBlank s | KEof s => s end.
Definition tok_set (t : tkn) (s : str) : tkn := match t with KWord _ => KWord s | KBlank _ => KBlank s | KEof _ => KEof s end.
(* write to the string a pointer points to *)
Fixpoint tok_put (toks : list tkn) (i : nat) (s : str) : list tkn :=
  match toks, i with
  | t :: r, 0 => tok_set t s :: r
  | t :: r, S i' => t :: tok_put r i' s
  | [], _ => []
  end.

Section Run.
Variable attr_match : str -> str -> str.
Variable attr_replace : str -> str -> str -> str.
Variable copy_case case_from : str -> str -> str.
Variable get_case lower_str : str -> str.
Variable itoa : nat -> str.
Variable lists : str -> list str.
Variable dict_case : bool.
Variable macros : str -> nat.
Variable macro_map : list (nat * list pinstr).
Variable bodies : list (list pinstr).               (* rule_map *)
Variable up : char -> char.
Variable alnum : char -> bool.
Variable getcase : str -> ckind.
Variable lower : char -> char.
Variable t : trans.
Variable depth : nat.                               (* how deep macros may be nested *)

Definition o_dead (st : post) : bool := match o_ms st with None => true | Some m => em_empty m end.
(* 566-628 *)
Definition o_settle (st : post) : option (str * post) :=
  if o_dead st then
    match o_rule st with
    | Some r =>
        match o_tw st, o_tb st, nth_error bodies (r - 1) with
        | chunk :: _, [i], Some body =>
            match nth_error (o_toks st) i with
            | None => None
            | Some tk =>
                match p_apply attr_match attr_replace copy_case case_from get_case lower_str itoa lists dict_case macros macro_map up alnum getcase depth body (o_g st) chunk (tok_text tk) with
                | None => None
                | Some (o, after, z, g) =>
                    let toks := tok_put (o_toks st) i after in
                    if (z <? 0)%Z then Some (o, mko toks (o_last st) (o_hi st) (o_last st) (o_prev st) None [] (Some (em_init t)) [] [] g)
                    else if (0 <? z)%Z
                    then Some (o, mko toks (skip_words (S (o_hi st)) toks (o_hi st) (S (o_prev st)) (Z.to_nat z)) (o_hi st) (o_last st) (o_prev st) None [] (Some (em_init t)) [] [] g)
                    else Some (o, mko toks (S (o_prev st)) (o_hi st) (S (o_prev st)) (o_prev st) None (r :: o_banned st) (Some (em_init t)) [] [] g)
                end
            end
        | _, _, _ => None
        end
    | None =>
        match o_tw st with
        | w :: _ => match unchunk up alnum getcase dict_case w with
                    | Some d => Some (d, mko (o_toks st) (S (o_last st)) (o_hi st) (S (o_last st)) (o_last st) None [] (Some (em_init t)) [] (o_tb st) (o_g st))
                    | None => None
                    end
        | [] => match o_tb st with
                | i :: _ => match nth_error (o_toks st) i with
                            | Some tk => Some (tok_text tk, mko (o_toks st) (o_pos st) (o_hi st) (o_pos st) (o_last st) None (o_banned st) (Some (em_init t)) [] [] (o_g st))
                            | None => None
                            end
                | [] => Some ([], st)
                end
        end
    end
  else Some ([], st).
(* 629-646 *)
Definition o_mark (st : post) : post :=
  match o_ms st with
  | Some m => match classify (list (list nat)) (em_rules t) m (o_banned st) with
              | Some r => mko (o_toks st) (o_pos st) (o_hi st) (o_pos st) (o_prev st) (Some r) (o_banned st) (o_ms st) (o_tw st) (o_tb st) (o_g st)
              | None => st
              end
  | None => st
  end.
(* 648-678; [inl]: the function returns after that last output *)
Definition o_consume (st : post) : option ((str * pglob) + post) :=
  let p := o_pos st in let hi := Nat.max (o_hi st) (S p) in
  match nth_error (o_toks st) p with
  | None => None
  | Some (KWord w) => Some (inr (mko (o_toks st) (S p) hi (o_last st) (o_prev st) (o_rule st) (o_banned st)
                                     (option_map (fun m => em_name lower t m w) (o_ms st)) (o_tw st ++ [w]) (o_tb st) (o_g st)))
  | Some (KBlank b) => Some (inr (mko (o_toks st) (S p) hi (o_last st) (o_prev st) (o_rule st) (o_banned st)
                                      (option_map (em_blank t) (o_ms st)) (o_tw st) (o_tb st ++ [p]) (o_g st)))
  | Some (KEof c) =>
      match o_tw st with
      | _ :: _ => Some (inr (mko (o_toks st) (S p) hi (o_last st) (o_prev st) (o_rule st) (o_banned st) None (o_tw st) (o_tb st ++ [p]) (o_g st)))
      | [] => Some (inl (c, o_g st))
      end
  end.
Fixpoint o_loop (fuel : nat) (st : post) : option (str * pglob) :=
  match fuel with
  | 0 => None
  | S f =>
      match o_settle st with
      | None => None
      | Some (o, st1) =>
          match o_consume (o_mark st1) with
          | None => None
          | Some (inl (c, g)) => Some (o ++ c, g)
          | Some (inr st2) => match o_loop f st2 with Some (o2, g) => Some (o ++ o2, g) | None => None end
          end
      end
  end.
(* 555-562 *)
Definition o_start (toks : list tkn) (g : pglob) : post := mko toks 0 0 0 0 None [] (Some (em_init t)) [] [] g.
End Run.
