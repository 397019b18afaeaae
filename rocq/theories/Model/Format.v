(** Deformatters and reformatters: the flex scanners generated by apertium/deformat.xsl (mode "apertium") and
    apertium/reformat.xsl from a format description (apertium/*-format.xml).
    Text is bytes.  A regular expression is given by the function that returns the length of its longest match at the
    head of a text.  The buffer is kept as UTF-8 (the code keeps UTF-16: bufferAppend and put convert); [usize] is its
    size in UTF-16 units.  Not modelled: mode "matxin", command line, caseless (part of the matchers). *)
From Coq Require Import String.
From Verif Require Import Model.Base.

Definition matcher := str -> option nat.
(** format-rule: tag or begin/end, eos, eoh, priority *)
Record frule := mkfr { r_m : matcher; r_end : option matcher; r_eos : bool; r_eoh : bool; r_prio : nat }.
Record format := mkfmt {
  f_rules : list frule;
  f_repl : list (matcher * list (str * str));        (* replacement-rule: source, target *)
  f_prefer : list (str * str);                       (* reformat.xsl 41-58: target, source where prefer = yes *)
  f_space : char -> bool;                            (* space-chars: one character class *)
  f_esc : list (char -> bool);                       (* escape-chars: alternatives, each a character class *)
  f_grouped : bool;                                  (* whether the alternatives stand in parentheses *)
  f_large : nat }.
Definition is_esc (F : format) (c : char) : bool := existsb (fun a => a c) (f_esc F).

(** what yytext gives when used as a C string *)
Fixpoint cstr (s : str) : str := match s with [] => [] | c :: r => if c =?c cNUL then [] else c :: cstr r end.

(** ** UTF-8 (utf8::is_valid; size of the UTF-16 string) *)
Definition within (a b c : N) : bool := ((a <=? c) && (c <=? b))%N.
Definition cont (c : char) : bool := within 128 191 c.
Fixpoint valid (s : str) : bool :=
  match s with
  | [] => true
  | a :: r =>
      if (a <? 128)%N then valid r
      else match r with
      | [] => false
      | b :: r =>
          if within 194 223 a then cont b && valid r
          else match r with
          | [] => false
          | c :: r =>
              if within 224 239 a then (if (a =? 224)%N then within 160 191 b else if (a =? 237)%N then within 128 159 b else cont b) && cont c && valid r
              else match r with
              | [] => false
              | d :: r =>
                  if within 240 244 a then (if (a =? 240)%N then within 144 191 b else if (a =? 244)%N then within 128 143 b else cont b) && cont c && cont d && valid r
                  else false
              end
          end
      end
  end.
Definition usize (s : str) : nat :=
  fold_right (fun c n => (if (c <? 128)%N then 1 else if (c <? 192)%N then 0 else if (c <? 240)%N then 1 else 2) + n) 0 s.

(** ** flex: the longest match; of several the first *)
Fixpoint pick {A} (l : list (matcher * A)) (s : str) : option (nat * A) :=
  match l with
  | [] => None
  | (m, a) :: r =>
      match m s, pick r s with
      | Some (S n), Some (k, b) => if k <=? S n then Some (S n, a) else Some (k, b)
      | Some (S n), None => Some (S n, a)
      | _, o => o
      end
  end.
Definition one (f : char -> bool) : matcher := fun s => match s with c :: _ => if f c then Some 1 else None | [] => None end.
Inductive action := AFmt (r : frule) | ARepl (t : list (str * str)) | ASpace | AEsc | AChar | APop | AAny.

Section D.
Variable F : format.
(** the rules of the initial state, deformat.xsl 598-676 *)
Definition initial : list (matcher * action) :=
  map (fun r => (r_m r, AFmt r)) (f_rules F) ++ map (fun p => (fst p, ARepl (snd p))) (f_repl F) ++
  [(one (f_space F), ASpace); (one (is_esc F), AEsc); (one (fun c => negb (c =?c cNL)), AChar)].
(** the rules of the state of a comment rule, 558-596: those of smaller priority number, by priority *)
Fixpoint insert_prio (r : frule) (l : list frule) : list frule :=
  match l with [] => [r] | x :: t => if r_prio r <=? r_prio x then r :: l else x :: insert_prio r t end.
Definition inner (c : frule) : list frule := fold_right insert_prio [] (filter (fun r => r_prio r <? r_prio c) (f_rules F)).
Definition comment_rules (c : frule) : list (matcher * action) :=
  map (fun r => (r_m r, AFmt r)) (inner c) ++
  [(match r_end c with Some m => m | None => fun _ => None end, APop); (one (fun _ => true), AAny)].
Definition rules_of (stack : list frule) : list (matcher * action) := match stack with [] => initial | c :: _ => comment_rules c end.

Variables (eosIncond noDot markEoh : bool).
Variable tmpname : nat -> str.                        (* tmpnam *)
(** 255-280: escape() *)
Definition escape (s : str) : str := flat_map (fun c => if is_esc F c then [cBS; c] else [c]) s.
Definition dot_mark : str := if noDot then u "[]" else u ".[]".
Definition preDot : str := if eosIncond then dot_mark else [].
Definition eoh_mark : str := u "[]" ++ [226; 157; 161]%N.     (* U+2761 *)

Record dst := mkd { d_buf : str; d_sym : str; d_dot : bool; d_eoh : bool; d_stack : list frule; d_tmp : nat }.
Definition files := list (str * str).
Definition block (s : str) : str :=
  let t := escape s in cLB :: (match t with c :: _ => if c =?c cAT then [cBS] else [] | [] => [] end) ++ t ++ [cRB].
(** printBuffer, 466-524: output, new files, next state *)
Definition printBuffer (d : dst) : str * files * dst :=
  let o1 := if d_eoh d && markEoh then eoh_mark else [] in
  let o2 := if d_dot d && negb eosIncond then dot_mark else [] in
  let d' := mkd [] (d_sym d) (if negb eosIncond then false else d_dot d) (if markEoh then false else d_eoh d) (d_stack d) in
  let b := d_buf d in
  if f_large F <? usize b then (o1 ++ o2 ++ preDot ++ u "[@" ++ tmpname (d_tmp d) ++ u "]", [(tmpname (d_tmp d), b)], d' (S (d_tmp d)))
  else if (1 <? usize b) || ((usize b =? 1) && negb (str_eqb b [cSP])) then (o1 ++ o2 ++ preDot ++ block b, [], d' (d_tmp d))
  else (o1 ++ o2 ++ b, [], d' (d_tmp d)).
Fixpoint lookup (k : str) (t : list (str * str)) : option str :=      (* a map: the last entry for a key counts *)
  match t with [] => None | (a, b) :: r => match lookup k r with Some v => Some v | None => if str_eqb a k then Some b else None end end.
Definition append (d : dst) (s : str) : dst := mkd (d_buf d ++ s) (d_sym d) (d_dot d) (d_eoh d) (d_stack d) (d_tmp d).
Definition with_sym (d : dst) (s : str) : dst := mkd (d_buf d) s (d_dot d) (d_eoh d) (d_stack d) (d_tmp d).
(** the actions; tok is yytext *)
Definition act (a : action) (tok : str) (d : dst) : str * files * dst :=
  match a with
  | AFmt r => ([], [], mkd (d_buf d ++ cstr tok) (d_sym d) (r_eos r || d_dot d) (r_eoh r || d_eoh d)
                          (match r_end r with Some _ => r :: d_stack d | None => d_stack d end) (d_tmp d))
  | APop => ([], [], mkd (d_buf d ++ cstr tok) (d_sym d) (d_dot d) (d_eoh d) (tl (d_stack d)) (d_tmp d))
  | AAny => let s := d_sym d ++ cstr tok in
            ([], [], if valid s then append (with_sym d []) s else with_sym d s)
  | ARepl t => match lookup (cstr tok) t with
               | Some v => let '(o, f, d') := printBuffer d in (o ++ cstr v, f, d')
               | None => ([], [], append d (cstr tok))
               end
  | ASpace => ([], [], append d (cstr tok))
  | AEsc => let '(o, f, d') := printBuffer d in (o ++ cBS :: tok, f, d')
  | AChar => let '(o, f, d') := printBuffer d in
             let s := d_sym d' ++ cstr tok in
             if valid s then (o ++ s, f, with_sym d' []) else (o, f, with_sym d' s)
  end.
(** yylex; a character no rule matches is copied to the output (flex default rule) *)
Fixpoint lex (fuel : nat) (d : dst) (s : str) : str * files :=
  match fuel with
  | O => ([], [])
  | S fuel =>
      match s with
      | [] => let '(o, f, _) := printBuffer (mkd (d_buf d) (d_sym d) true (d_eoh d) (d_stack d) (d_tmp d)) in (preDot ++ o, f)
      | c :: r =>
          match pick (rules_of (d_stack d)) s with
          | Some (n, a) => let '(o, f, d') := act a (firstn n s) d in
                           let '(o', f') := lex fuel d' (skipn n s) in (o ++ o', f ++ f')
          | None => let '(o', f') := lex fuel d r in (c :: o', f')
          end
      end
  end.
Definition deformat (s : str) : str * files := lex (S (length s)) (mkd [] [] false false [] 0) s.
End D.

(** ** reformat.xsl 67-130 *)
Section R.
Variable F : format.
Fixpoint until_rb (s : str) : option (str * str) :=
  match s with [] => None | c :: r => if c =?c cRB then Some ([], r) else match until_rb r with Some (a, b) => Some (c :: a, b) | None => None end end.
(** the file system: files in the order they were written, the last one of a name counts; reading unlinks *)
Definition take_file (n : str) (fs : files) : option (str * files) :=
  match lookup n fs with Some x => Some (x, filter (fun p => negb (str_eqb (fst p) n)) fs) | None => None end.
(** "\\" followed by the escape-chars expression as it is written: without parentheses the bar ends the sequence *)
Definition esc_match (s : str) : option str :=
  let two := fun f : char -> bool => match s with a :: b :: _ => if (a =?c cBS) && f b then Some [b] else None | _ => None end in
  let single := fun f : char -> bool => match s with a :: _ => if f a then Some [] else None | [] => None end in
  if f_grouped F then two (is_esc F)
  else match f_esc F with
       | [] => None
       | f :: l => match two f with Some b => Some b | None => single (fun c => existsb (fun a => a c) l) end
       end.
Definition plain_out (c : char) : str := match lookup [c] (f_prefer F) with Some t => cstr t | None => [c] end.
(** None: a file is not found (exit) *)
Fixpoint rf (fuel : nat) (fs : files) (s : str) : option str :=
  match fuel with
  | O => Some []
  | S fuel =>
      let plain := fun c r => match rf fuel fs r with Some y => Some (plain_out c ++ y) | None => None end in
      match s with
      | [] => Some []
      | c :: r =>
          if c =?c cLB then
            match r with
            | a :: r' =>
                if a =?c cAT then
                  match until_rb r' with
                  | Some ((_ :: _) as n, rest) =>
                      match take_file n fs with
                      | Some (x, fs') => match rf fuel fs' rest with Some y => Some (x ++ y) | None => None end
                      | None => None
                      end
                  | _ => rf fuel fs r
                  end
                else match r' with
                     | b :: r'' => if (a =?c cBS) && (b =?c cAT) then match rf fuel fs r'' with Some y => Some (cAT :: y) | None => None end else rf fuel fs r
                     | [] => rf fuel fs r
                     end
            | [] => rf fuel fs r
            end
          else if c =?c cRB then rf fuel fs r
          else if (c =?c cDOT) && match r with a :: b :: _ => (a =?c cLB) && (b =?c cRB) | _ => false end then rf fuel fs (skipn 2 r)
          else match esc_match s with
               | Some [b] => match rf fuel fs (tl r) with Some y => Some (b :: y) | None => None end
               | Some _ => rf fuel fs r
               | None => plain c r
               end
      end
  end.
Definition reformat (fs : files) (s : str) : option str := rf (length s) fs s.
End R.

(** ** txt-format.xml *)
Fixpoint blank_lines (s : str) : nat :=      (* ((\n\n)|(\r\n\r\n))* *)
  match s with
  | a :: b :: r =>
      if (a =?c cNL) && (b =?c cNL) then 2 + blank_lines r
      else match r with
           | c :: d :: r' => if (a =?c 13%N) && (b =?c cNL) && (c =?c 13%N) && (d =?c cNL) then 4 + blank_lines r' else 0
           | _ => 0
           end
  | _ => 0
  end.
Definition txt : format := mkfmt
  [mkfr (fun s => match blank_lines s with 0 => None | n => Some n end) None true false 1]
  [] [] (fun c => mem c [cSP; cNL; cTAB; 13%N; cTILDE])
  [fun c => mem c (u "][\/@<>^${}")] true (2 ^ 13).
