(** apertium/perceptron_spec.h, perceptron_spec.cc:109-700: the stack machine that computes the features of the
    perceptron tagger.  Integers are unbounded.  Opcodes that no <mtx> element compiles to (ADI, DUP, DUP2, SWAP,
    CLAMPTAGGEDTOKADDR, CLAMPTOKADDR, SENTLENTAGGEDTOK, ISVALID*, FILTERIN, SETHAS, HASSUBSTR, HASANYSUBSTR, CPYSTR,
    LOWER, LOWERARR) are not modelled: they are treated as unimplemented. *)
From Coq Require Import String.
From Verif Require Import Model.Base Model.Serialiser Model.Stream Model.FeatureVec.
Open Scope nat_scope.

(* perceptron_spec.h:38-150, in the order of the enumeration *)
Inductive opcode := OR | AND | NOT | ADI | ADD | ADD2 | PUSHINT | LT | LTE | GT | GTE | EQ | NEQ | DUP | DUP2 | SWAP
  | DIEIFFALSE | FOREACHINIT | FOREACH | ENDFOREACH | GETGVAR | GETVAR | STREQ | STRIN | PUSHTOKADDR | PUSHWRDADDR
  | PUSHADDR | ADJADDR | CLAMPADDR | CLAMPTAGGEDTOKADDR | CLAMPTOKADDR | GETWRD | EXTOKSURF | EXWRDLEMMA
  | EXWRDCOARSETAG | EXAMBGSET | EXTAGS | SENTLENTOK | SENTLENTAGGEDTOK | SENTLENWRD | TOKLENWRD | ISVALIDTOKADDR
  | ISVALIDTAGGEDTOKADDR | ISVALIDADDR | EXWRDARR | FILTERIN | SETHAS | SETHASANY | SETHASALL | HASSUBSTR
  | HASANYSUBSTR | CPYSTR | LOWER | SLICE | SUBSCRIPT | LOWERARR | STRLEN | ARRLEN | JOIN | FCATSTRARR | FCATSTR
  | FCATBOOL | FCATINT.
Definition opcodes : list opcode := [OR; AND; NOT; ADI; ADD; ADD2; PUSHINT; LT; LTE; GT; GTE; EQ; NEQ; DUP; DUP2; SWAP;
  DIEIFFALSE; FOREACHINIT; FOREACH; ENDFOREACH; GETGVAR; GETVAR; STREQ; STRIN; PUSHTOKADDR; PUSHWRDADDR;
  PUSHADDR; ADJADDR; CLAMPADDR; CLAMPTAGGEDTOKADDR; CLAMPTOKADDR; GETWRD; EXTOKSURF; EXWRDLEMMA;
  EXWRDCOARSETAG; EXAMBGSET; EXTAGS; SENTLENTOK; SENTLENTAGGEDTOK; SENTLENWRD; TOKLENWRD; ISVALIDTOKADDR;
  ISVALIDTAGGEDTOKADDR; ISVALIDADDR; EXWRDARR; FILTERIN; SETHAS; SETHASANY; SETHASALL; HASSUBSTR;
  HASANYSUBSTR; CPYSTR; LOWER; SLICE; SUBSCRIPT; LOWERARR; STRLEN; ARRLEN; JOIN; FCATSTRARR; FCATSTR;
  FCATBOOL; FCATINT].
Definition opcode_dec : forall x y : opcode, {x = y} + {x <> y}.
Proof. decide equality. Defined.
Fixpoint pos_of (o : opcode) (l : list opcode) : nat :=
  match l with [] => 0 | x :: r => if opcode_dec x o then 0 else S (pos_of o r) end.
Definition byte_of (o : opcode) : nat := pos_of o opcodes.
Definition code := list nat.                                            (* FeatureDefn: bytes *)

(* perceptron_spec.h:161-360 *)
Inductive value := VInt (z : Z) | VBool (b : bool) | VStr (s : str) | VStrA (l : list str) | VWrd (m : morpheme) | VWrdA (l : list morpheme).

Inductive out (X : Type) :=
  | Ok (x : X)
  | Exc                          (* VMError: popping an empty stack *)
  | Bad.                         (* failed assertion, undefined behaviour, UnimplementedOpcode, throw 1 *)
Arguments Ok {X}. Arguments Exc {X}. Arguments Bad {X}.
Definition bind {X Y} (o : out X) (f : X -> out Y) : out Y := match o with Ok x => f x | Exc => Exc | Bad => Bad end.
Notation "' p <- o ;; k" := (bind o (fun p => k)) (at level 100, p pattern, right associativity).

Record loop := mkloop { l_init : nat; l_iter : value; l_n : nat; l_acc : value }.
Record mach := mkmach { pc : nat; stk : list value; loops : list loop; slots : nat -> option value; fv : ufvec }.

Section VM.
Variable u8 : str -> str.                        (* utf8::utf16to8 *)
Variable show : Z -> str.                        (* operator<<(ostream, int) *)
Variable coarsen : option (morpheme -> str).     (* spec.coarse_tags (the cache is transparent) *)
(* C++ leaves the order of the two pops of a comparison open: is the left operand evaluated first? *)
Variable ltr : bool.
Variables (strs : list str) (sets : list (list str)).    (* str_consts, set_consts *)
Variable globals : list value.                           (* global_results *)
Variables (tagged : list (option (list morpheme))) (untagged : list lexunit).
Variables (token_idx wordoid_idx : Z).

(* perceptron_spec.cc:84-100 *)
Definition untagged_sentinel : list morpheme := [mkm (u "!UNTAGGED!") [u "!UT!"]].
Definition underflow : lexunit := mklex (u "!SURF_UNDERFLOW!") [mkan [mkm (u "!TOK_UNDERFLOW!") [u "!TUF!"]]].
Definition overflow : lexunit := mklex (u "!SURF_OVERFLOW!") [mkan [mkm (u "!TOK_OVERFLOW!") [u "!TOF!"]]].
Definition under_wrd : morpheme := mkm (u "!TOK_UNDERFLOW!") [u "!TUF!"].
Definition over_wrd : morpheme := mkm (u "!TOK_OVERFLOW!") [u "!TOF!"].

Definition zlen {X} (l : list X) : Z := Z.of_nat (List.length l).
(* 245-253; vector operator[] *)
Definition wordoids (t : option (list morpheme)) : list morpheme := match t with None => untagged_sentinel | Some l => l end.
(* 234-243 *)
Definition get_token (z : Z) : lexunit :=
  if (z <? 0)%Z then underflow else nth (Z.to_nat z) untagged overflow.
(* 255-276 *)
Definition get_wordoid (t w : Z) : morpheme :=
  if (t <? 0)%Z then under_wrd else
  match nth_error tagged (Z.to_nat t) with
  | None => over_wrd
  | Some tk => if (w <? 0)%Z then under_wrd else nth (Z.to_nat w) (wordoids tk) over_wrd
  end.
(* 291-294 *)
Definition clamp (lower upper x : Z) : Z := Z.min (Z.max x lower) upper.
(* 296-307; an iterator before the beginning or a backward range is undefined *)
Definition slice {X} (l : list X) (b e : Z) : out (list X) :=
  let b := if (b <? 0)%Z then (zlen l + b)%Z else b in
  let e := if (e <=? 0)%Z then (zlen l + e)%Z else e in
  let b := clamp 0 (zlen l - 1) b in
  let e := clamp 0 (zlen l) e in
  if (b <? 0)%Z || (e <? b)%Z then Bad else Ok (firstn (Z.to_nat (e - b)) (skipn (Z.to_nat b) l)).
(* 309-316; the operand is unsigned, so the first branch of the code is never taken *)
Definition subscript {X} (l : list X) (i : nat) : out X :=
  match nth_error l (Z.to_nat (clamp 0 (zlen l - 1) (Z.of_nat i))) with Some x => if (zlen l - 1 <? 0)%Z then Bad else Ok x | None => Bad end.
(* 419-437 ADJADDR: the two loops; fuel: the number of tokens *)
Definition len_at (t : Z) : Z := match nth_error tagged (Z.to_nat t) with Some tk => zlen (wordoids tk) | None => 0%Z end.
Fixpoint adj_down (n : nat) (t w : Z) : Z * Z :=
  match n with
  | 0 => (t, w)
  | S n => if (w <? 0)%Z && (0 <? t)%Z then adj_down n (t - 1) (w + len_at (t - 1)) else (t, w)
  end.
Fixpoint adj_up (n : nat) (t w : Z) : Z * Z :=
  match n with
  | 0 => (t, w)
  | S n => if (len_at t <=? w)%Z && (t <? zlen tagged - 1)%Z then adj_up n (t + 1) (w - len_at t) else (t, w)
  end.
Definition adjust (t w : Z) : Z * Z :=
  if (0 <=? t)%Z && (t <? zlen tagged)%Z then
    let '(t1, w1) := adj_down (List.length tagged) t w in adj_up (List.length tagged) t1 w1
  else (t, w).
(* 487-505 EXAMBGSET; an analysis without wordoids is dereferenced at its end *)
Fixpoint plus_join (l : list str) : str :=
  match l with [] => [] | [x] => x | x :: r => x ++ [cPLUS] ++ plus_join r end.
Definition ambgset (f : morpheme -> str) (l : list analysis) : out (list str) :=
  if existsb (fun a => match an_morphemes a with [] => true | _ => false end) l then Bad
  else Ok (map (fun a => plus_join (map f (an_morphemes a))) l).
(* 637-648 JOIN *)
Definition join (sep : str) (l : list str) : str :=
  fold_left (fun ss x => (match ss with [] => [] | _ => ss ++ sep end) ++ x) l [].
(* 690-692 In *)
Definition isin (s : str) (set : list str) : bool := existsb (str_eqb s) set.

Definition set_slot (sl : nat -> option value) (i : nat) (v : value) : nat -> option value := fun j => if j =? i then Some v else sl j.
Definition pop (s : list value) : out (value * list value) := match s with [] => Exc | v :: r => Ok (v, r) end.
Definition ivl (v : value) : out Z := match v with VInt z => Ok z | _ => Bad end.        (* intVal() ... with their assertions *)
Definition bvl (v : value) : out bool := match v with VBool b => Ok b | _ => Bad end.
Definition svl (v : value) : out str := match v with VStr s => Ok s | _ => Bad end.
Definition sal (v : value) : out (list str) := match v with VStrA l => Ok l | _ => Bad end.
Definition wvl (v : value) : out morpheme := match v with VWrd m => Ok m | _ => Bad end.
Definition popi s := ' (v, s) <- pop s ;; ' z <- ivl v ;; Ok (z, s).
Definition popb s := ' (v, s) <- pop s ;; ' z <- bvl v ;; Ok (z, s).
Definition pops s := ' (v, s) <- pop s ;; ' z <- svl v ;; Ok (z, s).
Definition popsa s := ' (v, s) <- pop s ;; ' z <- sal v ;; Ok (z, s).
Definition popw s := ' (v, s) <- pop s ;; ' z <- wvl v ;; Ok (z, s).
Definition signed (b : nat) : Z := if b <? 128 then Z.of_nat b else (Z.of_nat b - 256)%Z.    (* get_int_operand, 224-227 *)
(* 208-215 *)
Definition get_str (i : nat) : out str := if i =? 255 then Ok [cDOT] else match nth_error strs i with Some s => Ok s | None => Bad end.
Definition get_set (i : nat) : out (list str) := match nth_error sets i with Some s => Ok s | None => Bad end.
Definition size (v : value) : out nat := match v with VStrA l => Ok (List.length l) | VWrdA l => Ok (List.length l) | _ => Bad end.
Definition item (v : value) (n : nat) : out value :=
  match v with
  | VStrA l => match nth_error l n with Some s => Ok (VStr s) | None => Bad end
  | VWrdA l => match nth_error l n with Some m => Ok (VWrd m) | None => Bad end
  | _ => Bad
  end.
Definition compare (o : opcode) (a b : Z) : bool :=
  match o with LT => (a <? b)%Z | LTE => (a <=? b)%Z | GT => (b <? a)%Z | GTE => (b <=? a)%Z | EQ => (a =? b)%Z | _ => negb (a =? b)%Z end.

Section Code.
Variable c : code.
Definition arg (m : mach) (k : nat) : out nat := match nth_error c (pc m + k) with Some b => Ok b | None => Bad end.
Definition next (m : mach) (n : nat) (s : list value) : mach := mkmach (pc m + n) s (loops m) (slots m) (fv m).
(* execCommonOp, 331-655 *)
Definition exec_op (o : opcode) (m : mach) : option (out mach) :=
  let s := stk m in
  let ret n s := Ok (next m n s) in
  match o with
  | OR => Some (' (a, s) <- popb s ;; if a then ret 1 (VBool true :: s) else ' (b, s) <- popb s ;; ret 1 (VBool b :: s))       (* 336: short circuit *)
  | AND => Some (' (a, s) <- popb s ;; if a then ' (b, s) <- popb s ;; ret 1 (VBool b :: s) else ret 1 (VBool false :: s))
  | NOT => Some (' (a, s) <- popb s ;; ret 1 (VBool (negb a) :: s))
  | ADD => Some (' (a, s) <- popi s ;; ' (b, s) <- popi s ;; ret 1 (VInt (a + b) :: s))
  | ADD2 => Some (' (b2, s) <- popi s ;; ' (b1, s) <- popi s ;; ' (a2, s) <- popi s ;; ' (a1, s) <- popi s ;;
                  ret 1 (VInt (a2 + b2) :: VInt (a1 + b1) :: s))
  | PUSHINT => Some (' i <- arg m 1 ;; ret 2 (VInt (signed i) :: s))
  | LT | LTE | GT | GTE | EQ | NEQ =>
      Some (' (a, s) <- popi s ;; ' (b, s) <- popi s ;; ret 1 (VBool (if ltr then compare o a b else compare o b a) :: s))
  | FOREACHINIT => Some (' (v, s') <- pop s ;; Ok (mkmach (pc m + 1) s' (mkloop (List.length s') v 0 (VInt 0) :: loops m) (slots m) (fv m)))
  | FOREACH => Some (
      ' slot <- arg m 1 ;; ' off <- arg m 2 ;;
      match loops m with
      | [] => Bad
      | l :: ls =>
        ' n <- size (l_iter l) ;;
        if l_n l =? n then Ok (mkmach (pc m + 2 + off + 1) (l_acc l :: s) ls (slots m) (fv m))
        else ' v <- item (l_iter l) (l_n l) ;; Ok (mkmach (pc m + 3) s (loops m) (set_slot (slots m) slot v) (fv m))
      end)
  | ENDFOREACH => Some (
      match loops m with
      | [] => Bad
      | l :: ls =>
        ' back <- arg m 1 ;;
        let jump s l := if pc m + 2 <? back then Bad else Ok (mkmach (pc m + 2 - back) s (l :: ls) (slots m) (fv m)) in
        if l_init l <? List.length s then
          ' (v, s') <- pop s ;;
          match v, (if l_n l =? 0 then (match v with VWrd _ => VWrdA [] | _ => VStrA [] end) else l_acc l) with
          | VWrd w, VWrdA acc => jump s' (mkloop (l_init l) (l_iter l) (S (l_n l)) (VWrdA (acc ++ [w])))
          | VStr x, VStrA acc => jump s' (mkloop (l_init l) (l_iter l) (S (l_n l)) (VStrA (acc ++ [x])))
          | _, _ => Bad
          end
        else jump s l
      end)
  | GETGVAR => Some (' i <- arg m 1 ;; match nth_error globals i with Some v => ret 2 (v :: s) | None => Bad end)
  | GETVAR => Some (' i <- arg m 1 ;; match slots m i with Some v => ret 2 (v :: s) | None => Bad end)
  | STREQ => Some (' i <- arg m 1 ;; ' k <- get_str i ;; ' (x, s) <- pops s ;; ret 2 (VBool (str_eqb k x) :: s))
  | STRIN => Some (' i <- arg m 1 ;; ' k <- get_set i ;; ' (x, s) <- pops s ;; ret 2 (VBool (isin x k) :: s))
  | PUSHTOKADDR => Some (ret 1 (VInt token_idx :: s))
  | PUSHWRDADDR => Some (ret 1 (VInt wordoid_idx :: s))
  | PUSHADDR => Some (ret 1 (VInt wordoid_idx :: VInt token_idx :: s))
  | ADJADDR => Some (' (w, s) <- popi s ;; ' (t, s) <- popi s ;; let '(t', w') := adjust t w in ret 1 (VInt w' :: VInt t' :: s))
  | CLAMPADDR => Some (' (w, s) <- popi s ;; ' (t, s) <- popi s ;;
      let t' := clamp 0 (zlen tagged - 1) t in
      match tagged with [] => Bad | _ => ret 1 (VInt (clamp 0 (len_at t' - 1) w) :: VInt t' :: s) end)
  | GETWRD => Some (' (w, s) <- popi s ;; ' (t, s) <- popi s ;; ret 1 (VWrd (get_wordoid t w) :: s))
  | EXTOKSURF => Some (' (t, s) <- popi s ;; ret 1 (VStr (u8 (lx_sf (get_token t))) :: s))
  | EXWRDLEMMA => Some (' (w, s) <- popw s ;; ret 1 (VStr (u8 (m_lemma w)) :: s))
  | EXWRDCOARSETAG => Some (match coarsen with None => Bad | Some f => ' (w, s) <- popw s ;; ret 1 (VStr (f w) :: s) end)
  | EXAMBGSET => Some (match coarsen with None => Bad | Some f => ' (t, s) <- popi s ;; ' l <- ambgset f (lx_an (get_token t)) ;; ret 1 (VStrA l :: s) end)
  | EXTAGS => Some (' (w, s) <- popw s ;; ret 1 (VStrA (map u8 (m_tags w)) :: s))
  | SENTLENTOK => Some (ret 1 (VInt (zlen untagged) :: s))
  | TOKLENWRD => Some (' (t, s) <- popi s ;; if (0 <=? t)%Z && (t <? zlen tagged)%Z then ret 1 (VInt (len_at t) :: s) else Bad)
  | EXWRDARR => Some (' (t, s) <- popi s ;;
      if (t <? 0)%Z then ret 1 (VWrdA [under_wrd] :: s)
      else match nth_error tagged (Z.to_nat t) with None => ret 1 (VWrdA [over_wrd] :: s) | Some tk => ret 1 (VWrdA (wordoids tk) :: s) end)
  | SETHASANY => Some (' i <- arg m 1 ;; ' k <- get_set i ;; ' (l, s) <- popsa s ;; ret 2 (VBool (existsb (fun x => isin x k) l) :: s))
  | SETHASALL => Some (' i <- arg m 1 ;; ' k <- get_set i ;; ' (l, s) <- popsa s ;; ret 2 (VBool (forallb (fun x => isin x k) l) :: s))
  | SLICE => Some (' b <- arg m 1 ;; ' e <- arg m 2 ;; ' (v, s) <- pop s ;;
      match v with
      | VStr x => ' r <- slice x (signed b) (signed e) ;; ret 3 (VStr r :: s)
      | VStrA x => ' r <- slice x (signed b) (signed e) ;; ret 3 (VStrA r :: s)
      | VWrdA x => ' r <- slice x (signed b) (signed e) ;; ret 3 (VWrdA r :: s)
      | _ => ret 3 (v :: s)
      end)
  | SUBSCRIPT => Some (' i <- arg m 1 ;; ' (v, s) <- pop s ;;
      match v with
      | VStrA x => ' r <- subscript x i ;; ret 2 (VStr r :: s)
      | VWrdA x => ' r <- subscript x i ;; ret 2 (VWrd r :: s)
      | _ => ret 2 (v :: s)
      end)
  | STRLEN => Some (' (x, s) <- pops s ;; ret 1 (VInt (zlen x) :: s))
  | ARRLEN => Some (' (x, s) <- popsa s ;; ret 1 (VInt (zlen x) :: s))
  | JOIN => Some (' i <- arg m 1 ;; ' sep <- get_str i ;; ' (l, s) <- popsa s ;; ret 2 (VStr (join sep l) :: s))
  | _ => None
  end.
Definition append_all (x : str) (f : ufvec) : ufvec := map (fun k => k ++ [x]) f.         (* 694-706 *)
Inductive step_res := Next (m : mach) | Halt (m : mach) | Dead | Exn | Crash.
Definition of_out (o : out mach) : step_res := match o with Ok m => Next m | Exc => Exn | Bad => Crash end.
(* one turn of the loop of getFeature (657-719) or, with [feature] false, of getValue (721-736) *)
Definition step (feature : bool) (m : mach) : step_res :=
  match nth_error c (pc m) with
  | None => if pc m =? List.length c then Halt m else Crash
  | Some b =>
    match nth_error opcodes b with
    | None => Crash
    | Some o =>
      match exec_op o m with
      | Some r => of_out r
      | None =>
        if feature then
          match o with
          | DIEIFFALSE => match popb (stk m) with Ok (true, s) => Next (next m 1 s) | Ok (false, _) => Dead | Exc => Exn | Bad => Crash end
          | FCATSTRARR => match popsa (stk m) with
              | Ok ([], _) => Dead
              | Ok (l, s) => Next (mkmach (pc m + 1) s (loops m) (slots m) (flat_map (fun x => append_all x (fv m)) l))
              | Exc => Exn | Bad => Crash end
          | FCATSTR => of_out (' (x, s) <- pops (stk m) ;; Ok (mkmach (pc m + 1) s (loops m) (slots m) (append_all x (fv m))))
          | FCATBOOL => of_out (' (x, s) <- popb (stk m) ;; Ok (mkmach (pc m + 1) s (loops m) (slots m) (append_all (if x then u "t" else u "f") (fv m))))
          | FCATINT => of_out (' (x, s) <- popi (stk m) ;; Ok (mkmach (pc m + 1) s (loops m) (slots m) (append_all (show x) (fv m))))
          | _ => Crash
          end
        else Crash
      end
    end
  end.
(* runs of the machine *)
Inductive star (feature : bool) : mach -> mach -> Prop :=
  | star_refl m : star feature m m
  | star_step m m1 m2 : step feature m = Next m1 -> star feature m1 m2 -> star feature m m2.
(* getFeature: the features (657-719); [None]: crash *)
Inductive get_feature : ufvec -> option ufvec -> Prop :=
  | gf_end f m m' : star true (mkmach 0 [] [] (fun _ => None) f) m -> step true m = Halt m' -> stk m' = [] -> get_feature f (Some (fv m'))
  | gf_assert f m m' : star true (mkmach 0 [] [] (fun _ => None) f) m -> step true m = Halt m' -> stk m' <> [] -> get_feature f None
  | gf_dead f m : star true (mkmach 0 [] [] (fun _ => None) f) m -> step true m = Dead -> get_feature f (Some [])
  | gf_crash f m : star true (mkmach 0 [] [] (fun _ => None) f) m -> step true m = Crash \/ step true m = Exn -> get_feature f None.
(* getValue, 721-736 *)
Inductive get_value : out value -> Prop :=
  | gv_end m m' v : star false (mkmach 0 [] [] (fun _ => None) []) m -> step false m = Halt m' -> stk m' = [v] -> get_value (Ok v)
  | gv_assert m m' : star false (mkmach 0 [] [] (fun _ => None) []) m -> step false m = Halt m' -> 2 <= List.length (stk m') -> get_value Bad
  | gv_empty m m' : star false (mkmach 0 [] [] (fun _ => None) []) m -> step false m = Halt m' -> stk m' = [] -> get_value Exc
  | gv_exn m : star false (mkmach 0 [] [] (fun _ => None) []) m -> step false m = Exn -> get_value Exc
  | gv_crash m : star false (mkmach 0 [] [] (fun _ => None) []) m -> step false m = Crash -> get_value Bad.
End Code.
End VM.

(** ** get_features, 109-159 *)
Record spec := mkspec { sp_strs : list str; sp_sets : list (list str); sp_pred : code; sp_globals : list code; sp_feats : list code }.
Section Features.
Variables (u8 : str -> str) (show : Z -> str) (coarsen : option (morpheme -> str)) (ltr : bool) (sp : spec).
Variables (tagged : list (option (list morpheme))) (untagged : list lexunit) (ti wi : Z).
(* 118-134 *)
Inductive pred_holds : option bool -> Prop :=
  | ph_none : sp_pred sp = [] -> pred_holds (Some true)
  | ph_val b : sp_pred sp <> [] -> get_value u8 show coarsen ltr (sp_strs sp) (sp_sets sp) [] tagged untagged ti wi (sp_pred sp) (Ok (VBool b)) -> pred_holds (Some b)
  | ph_exc : sp_pred sp <> [] -> get_value u8 show coarsen ltr (sp_strs sp) (sp_sets sp) [] tagged untagged ti wi (sp_pred sp) Exc -> pred_holds (Some false)
  | ph_bad v : sp_pred sp <> [] -> get_value u8 show coarsen ltr (sp_strs sp) (sp_sets sp) [] tagged untagged ti wi (sp_pred sp) v ->
      (v = Bad \/ exists x, v = Ok x /\ forall b, x <> VBool b) -> pred_holds None.
(* 135-140: an exception here is not caught *)
Inductive global_results : list code -> list value -> option (list value) -> Prop :=
  | gr_nil done : global_results [] done (Some done)
  | gr_cons c cs done v r : get_value u8 show coarsen ltr (sp_strs sp) (sp_sets sp) done tagged untagged ti wi c (Ok v) ->
      global_results cs (done ++ [v]) r -> global_results (c :: cs) done r
  | gr_bad c cs done v : get_value u8 show coarsen ltr (sp_strs sp) (sp_sets sp) done tagged untagged ti wi c v -> v = Exc \/ v = Bad ->
      global_results (c :: cs) done None.
(* 141-158: the key starts with the character whose code is the feature's number *)
Inductive feature_results (gl : list value) : nat -> list code -> option ufvec -> Prop :=
  | fr_nil i : feature_results gl i [] (Some [])
  | fr_cons i c cs f r : get_feature u8 show coarsen ltr (sp_strs sp) (sp_sets sp) gl tagged untagged ti wi c [[[N.of_nat (i mod 256)]]] (Some f) ->
      feature_results gl (S i) cs (Some r) -> feature_results gl i (c :: cs) (Some (f ++ r))
  | fr_bad i c cs : get_feature u8 show coarsen ltr (sp_strs sp) (sp_sets sp) gl tagged untagged ti wi c [[[N.of_nat (i mod 256)]]] None ->
      feature_results gl i (c :: cs) None
  | fr_later i c cs f : get_feature u8 show coarsen ltr (sp_strs sp) (sp_sets sp) gl tagged untagged ti wi c [[[N.of_nat (i mod 256)]]] (Some f) ->
      feature_results gl (S i) cs None -> feature_results gl i (c :: cs) None.
Inductive get_features : option ufvec -> Prop :=
  | gfs_no : pred_holds (Some false) -> get_features (Some [])
  | gfs_pbad : pred_holds None -> get_features None
  | gfs_gbad : pred_holds (Some true) -> global_results (sp_globals sp) [] None -> get_features None
  | gfs_yes gl r : pred_holds (Some true) -> global_results (sp_globals sp) [] (Some gl) -> feature_results gl 0 (sp_feats sp) r -> get_features r.
End Features.
