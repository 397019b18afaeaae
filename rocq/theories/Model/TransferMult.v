(** apertium/transfer_mult.cc.  The bilingual lookup (fstp.biltransWithQueue, first component) and the pattern matcher
    (lttoolbox MatchState) are parameters; the token buffer (lttoolbox Buffer) is a list with a position. *)
From Verif Require Import Model.Base.

(* UString::find(pat) != npos *)
Fixpoint prefixb (p s : str) : bool :=
  match p, s with
  | [], _ => true
  | x :: p', y :: s' => (x =?c y) && prefixb p' s'
  | _, [] => false
  end.
Fixpoint infixb (p s : str) : bool :=
  prefixb p s || match s with [] => false | _ :: s' => infixb p s' end.

(* isDefaultWord, transfer_mult.cc:305-309 *)
Definition isDefaultWord (w : str) : bool := infixb [cSP; 68%N; cLT] w.
(* the loop of acceptions, 323-346: [cur] is str.substr(low, i-low) so far.  None: a final backslash moves the index
   past the limit and the loop reads out of bounds *)
Definition add_acc (strict : bool) (result : list str) (w : str) : list str :=
  match result with
  | r0 :: rs => if (if strict then match rs with [] => false | _ => true end else true) && isDefaultWord w
                then w :: rs ++ [r0] else result ++ [w]
  | [] => [w]
  end.
Fixpoint acc_loop (s cur : str) (result : list str) : option (list str) :=
  match s with
  | [] => Some (add_acc false result cur)                                          (* 348-357 *)
  | c :: s1 => if c =?c cBS then match s1 with d :: s2 => acc_loop s2 (cur ++ [c; d]) result | [] => None end
               else if c =?c cSLASH then acc_loop s1 [] (add_acc true result cur)
               else acc_loop s1 (cur ++ [c]) result
  end.
Definition sense (w : str) : bool := infixb [cUND; cUND] w.
(* 317-321 *)
Definition strip_at (s : str) : str := match s with c :: r => if c =?c cAT then r else s | [] => s end.
(* 311-375 *)
Definition acceptions (s : str) : option (list str) :=
  match acc_loop (strip_at s) [] [] with
  | None => None
  | Some result =>
      let result2 := filter sense result in
      Some (if (2 <=? length result) && (2 <=? length result2) then result2 else result)
  end.

(* writeMultiple, 377-426; output_string is threaded.  None: *itblanks past the end *)
Definition sep : str := [cLB; cPIPE; cRB].
Fixpoint writeMultiple (words : list (list str)) (blanks : list str) (acum : str) (multiple : bool) (out : str) : option str :=
  match words with
  | [] => Some (out ++ (if multiple then sep else []) ++ acum)
  | refword :: words' =>
      match words', blanks with
      | _ :: _, [] => None
      | _, _ =>
        let refblank := match words', blanks with _ :: _, b :: _ => b | _, _ => [] end in
        let blanks' := match words', blanks with _ :: _, _ :: bs => bs | _, _ => blanks end in
        (fix go (first : bool) (rw : list str) (out : str) : option str :=
           match rw with
           | [] => Some out
           | w :: rw' => match writeMultiple words' blanks' (acum ++ cCARET :: w ++ cDOL :: refblank) (multiple || negb first) out with
                         | Some out' => go false rw' out'
                         | None => None
                         end
           end) true refword out
      end
  end.
Definition open_mark : str := [cLB; cLC; cRB].                        (* [{] *)
Definition close_mark : str := [cDOT; cLB; cRB; cLB; cRC; cRB].       (* .[][}] *)

Section Mult.
Variable bil : str -> str.

Fixpoint opt_map {A B} (f : A -> option B) (l : list A) : option (list B) :=
  match l with
  | [] => Some []
  | x :: r => match f x, opt_map f r with Some y, Some ys => Some (y :: ys) | _, _ => None end
  end.
(* applyRule, 428-458: the first numwords words and numwords-1 blanks *)
Definition applyRule (words blanks : list str) : option str :=
  match opt_map (fun w => acceptions (bil w)) words with
  | None => None
  | Some ws => match writeMultiple ws blanks [] false [] with
               | None => None
               | Some o => Some (if infixb sep o then open_mark ++ o ++ close_mark else o)
               end
  end.
(* 225-244: a word without rule *)
Fixpoint join_sep (l : list str) : str := match l with [] => [] | [x] => x | x :: r => x ++ sep ++ join_sep r end.
Definition defaultWord (w : str) : option str :=
  match bil w with
  | [] => Some []
  | tr => match acceptions tr with
          | None => None
          | Some m => let body := join_sep (map (fun w => cCARET :: w ++ [cDOL]) m) in
                      Some (if 1 <? length m then open_mark ++ body ++ close_mark else body)
          end
  end.

(** ** readToken, 147-203 *)
Inductive token := TWord (s : str) | TBlank (s : str) | TEof (s : str).
(* [lex s content inb]: None when it does not terminate (an unclosed superblank at the end of the input, 167-187).
   A backslash at the very end appends the end-of-file value: not modelled, None *)
Fixpoint lex (s content : str) (inb : bool) : option (list token) :=
  match s with
  | [] => if inb then None else Some [TEof content]
  | c :: s1 =>
      if c =?c cBS then match s1 with d :: s2 => lex s2 (content ++ [c; d]) inb | [] => None end
      else if inb then lex s1 (content ++ [c]) (negb (c =?c cRB))
      else if c =?c cLB then lex s1 (content ++ [c]) true
      else match (if c =?c cDOL then Some (TWord content) else if c =?c cCARET then Some (TBlank content) else None) with
           | Some t => match lex s1 [] false with Some l => Some (t :: l) | None => None end
           | None => lex s1 (content ++ [c]) false
           end
  end.

(** ** transfer, 205-303 *)
Variable MS : Type.
Variable ms_init : MS.
Variable ms_word : MS -> str -> MS.            (* applyWord, 460-505 *)
Variable ms_blank : MS -> MS.                  (* ms.step(' ') *)
Variable ms_empty : MS -> bool.                (* ms.size() == 0; the cleared state is [None] below *)
Variable ms_final : MS -> bool.                (* classifyFinals != -1 *)
Record tst := mkt { t_pos : nat; t_last : nat; t_ms : option MS; t_isr : bool; t_nw : nat; t_tw : list str; t_tb : list str }.
Definition t0 : tst := mkt 0 0 (Some ms_init) false 0 [] [].
Definition dead (st : tst) : bool := match t_ms st with None => true | Some m => ms_empty m end.
Definition oapp (o : option str) (r : option str) : option str := match o, r with Some a, Some b => Some (a ++ b) | _, _ => None end.
(* 214-262 *)
Definition settle (st : tst) : option (str * tst) :=
  if dead st then
    if t_isr st then
      match applyRule (firstn (t_nw st) (t_tw st)) (firstn (t_nw st - 1) (t_tb st)) with
      | Some o => Some (o, mkt (t_last st) (t_last st) (Some ms_init) false 0 [] [])
      | None => None
      end
    else match t_tw st with
      | w :: _ => match defaultWord w with
                  | Some o => Some (o, mkt (S (t_last st)) (S (t_last st)) (Some ms_init) false (t_nw st) [] (t_tb st))
                  | None => None
                  end
      | [] => match t_tb st with
              | b :: _ => Some (b, mkt (t_pos st) (t_pos st) (Some ms_init) false (t_nw st) [] [])
              | [] => Some ([], st)
              end
      end
  else Some ([], st).
(* 263-269 *)
Definition mark (st : tst) : tst :=
  match t_ms st with
  | Some m => if ms_final m then mkt (t_pos st) (t_pos st) (t_ms st) true (length (t_tw st)) (t_tw st) (t_tb st) else st
  | None => st
  end.
(* 271-301; [inl] = returned with that last output *)
Definition consume (toks : list token) (st : tst) : option (str + tst) :=
  match nth_error toks (t_pos st) with
  | None => None
  | Some (TWord w) => Some (inr (mkt (S (t_pos st)) (t_last st) (option_map (fun m => ms_word m w) (t_ms st)) (t_isr st) (t_nw st) (t_tw st ++ [w]) (t_tb st)))
  | Some (TBlank b) => Some (inr (mkt (S (t_pos st)) (t_last st) (option_map ms_blank (t_ms st)) (t_isr st) (t_nw st) (t_tw st) (t_tb st ++ [b])))
  | Some (TEof c) => match t_tw st with
                     | _ :: _ => Some (inr (mkt (S (t_pos st)) (t_last st) None (t_isr st) (t_nw st) (t_tw st) (t_tb st ++ [c])))
                     | [] => Some (inl c)
                     end
  end.
Fixpoint loop (fuel : nat) (toks : list token) (st : tst) : option str :=
  match fuel with
  | 0 => None
  | S f => match settle st with
           | None => None
           | Some (o, st1) => match consume toks (mark st1) with
                              | None => None
                              | Some (inl c) => Some (o ++ c)
                              | Some (inr st2) => oapp (Some o) (loop f toks st2)
                              end
           end
  end.
End Mult.
