(** apertium/mtx_reader.cc, xml_reader.cc: the compiler from metatag (.mtx) files to the byte code of PerceptronVM.v.

    The XML document is the list of tags the libxml2 reader delivers; text, comments and the document type are dropped
    before ([stepToTag] skips them), so text inside an element that must be empty is not modelled.  A tag carries the
    attributes of its element, also the closing one (libxml2 answers attribute queries there too; <slice> needs that).
    An element written [<a/>] is one opening tag.  [None] is: the compiler does not accept the document (message and
    exit, failed assertion, undefined behaviour, or the fuel is exhausted).  def-macro, macro and inst are not modelled
    (None), nor is reading the .tsx file of coarse-tags. *)
From Coq Require Import String.
From Verif Require Import Model.Base Model.PerceptronVM.
Open Scope nat_scope.

Inductive el := Xmetatag | Xcoarse_tags | Xbeam_width | Xdefns | Xdef_set | Xset_member | Xdef_str | Xdef_macro | Xglobal_pred
  | Xfeats | Xfeat | Xpred | Xout | Xout_many | Xinst | Xmacro | Xvar
  | Xsentlen | Xpathlen | Xtokaddr | Xwrdidx | Xint | Xadd | Xtoklen | Xstrlen | Xarrlen
  | Xex_tags | Xex_ambgset | Xfor_each | Xsubscript | Xslice | Xex_surf | Xex_lemma | Xex_coarse | Xjoin
  | Xand | Xor | Xnot | Xeq | Xneq | Xlt | Xlte | Xgt | Xgte | Xstreq | Xstrin | Xsethasany | Xsethasall
  | Xwrdaddr | Xaddr_of_ints | Xadjust | Xclamp | Xex_wordoids | Xex_wordoid | Xother.
Inductive at_name := Aname | Aval | Aas | Astart | Aend | Aidx | Atag | Astr.
Definition el_dec : forall x y : el, {x = y} + {x <> y}. Proof. decide equality. Defined.
Definition at_dec : forall x y : at_name, {x = y} + {x <> y}. Proof. decide equality. Defined.
Definition attrs := list (at_name * str).
Inductive tok := Op (n : el) (a : attrs) | Cl (n : el) (a : attrs).
Definition nm (t : tok) : el := match t with Op n _ | Cl n _ => n end.
Definition closes (t : tok) : bool := match t with Op _ _ => false | Cl _ _ => true end.
Definition atts (t : tok) : attrs := match t with Op _ a | Cl _ a => a end.

(* perceptron_spec.h:161-163 StackValueType, for the slots *)
Inductive sty := SStr | SWrd.
Definition sty_eqb (a b : sty) : bool := match a, b with SStr, SStr | SWrd, SWrd => true | _, _ => false end.

(* the reader's position and mtx_reader.h:121-141 *)
Record pst := mkpst { toks : list tok; cde : code; cstrs : list str; csets : list (list str);
  strn : list (str * nat); setn : list (str * nat); slotn : list (str * nat); slott : list sty; ctr : nat }.

Definition P A := pst -> option (A * pst).
Definition ret {A} (a : A) : P A := fun s => Some (a, s).
Definition fail {A} : P A := fun _ => None.
Definition bnd {A B} (m : P A) (k : A -> P B) : P B := fun s => match m s with Some (a, s') => k a s' | None => None end.
Notation "! p <-- m ;;; k" := (bnd m (fun p => k)) (at level 100, p pattern, m at level 99, right associativity).
Notation "m ;;; k" := (bnd m (fun _ => k)) (at level 100, right associativity).
Definition guard (b : bool) : P unit := if b then ret tt else fail.

(* xml_reader.cc:34-48, 66-72: at the end of the document step() reports an error *)
Definition step : P unit := fun s =>
  match toks s with
  | _ :: ((_ :: _) as r) => Some (tt, mkpst r (cde s) (cstrs s) (csets s) (strn s) (setn s) (slotn s) (slott s) (ctr s))
  | _ => None
  end.
Definition cur : P tok := fun s => match toks s with t :: _ => Some (t, s) | [] => None end.
Definition is_cl (n : el) (t : tok) : bool := closes t && (if el_dec (nm t) n then true else false).
(* 50-63 *)
Definition past (n : el) : P unit := step ;;; ! t <-- cur ;;; if is_cl n t then step else ret tt.
Fixpoint lookup_at (a : at_name) (l : attrs) : str :=
  match l with [] => [] | (b, v) :: r => if at_dec a b then v else lookup_at a r end.
Definition attrib (a : at_name) : P str := ! t <-- cur ;;; ret (lookup_at a (atts t)).     (* "" when absent *)
(* assert(name == n && type == XML_READER_TYPE_END_ELEMENT) *)
Definition at_end (n : el) : P unit := ! t <-- cur ;;; guard (is_cl n t).
Definition at_some_end : P unit := ! t <-- cur ;;; guard (closes t).

(* 58-78 *)
Definition set_code (c : code) : P unit := fun s => Some (tt, mkpst (toks s) c (cstrs s) (csets s) (strn s) (setn s) (slotn s) (slott s) (ctr s)).
Definition get_code : P code := fun s => Some (cde s, s).
Definition emit_byte (b : nat) : P unit := ! c <-- get_code ;;; set_code (c ++ [b]).
Definition emit (o : opcode) : P unit := emit_byte (byte_of o).
Definition to_byte (z : Z) : nat := Z.to_nat (z mod 256)%Z.
Definition emit_int (z : Z) : P unit := guard ((-128 <=? z)%Z && (z <? 128)%Z) ;;; emit_byte (to_byte z).
Definition emit_uint (z : Z) : P unit := guard ((0 <=? z)%Z && (z <? 256)%Z) ;;; emit_byte (to_byte z).
Definition poke (a : nat) (b : nat) : P unit := ! c <-- get_code ;;; set_code (firstn a c ++ [b] ++ skipn (S a) c).

(* operator>>(istream, string): words separated by white space *)
Definition blank (c : char) : bool := (c =? 32)%N || ((9 <=? c) && (c <=? 13))%N.
Fixpoint words_from (w : str) (s : str) : list str :=
  match s with
  | [] => match w with [] => [] | _ => [w] end
  | c :: r => if blank c then (match w with [] => words_from [] r | _ => w :: words_from [] r end) else words_from (w ++ [c]) r
  end.
Definition words (s : str) : list str := words_from [] s.
(* operator>>(istream, int): white space, a sign, digits; 0 without digits (and no overflow: such a value is rejected anyway) *)
Definition digit (c : char) : bool := ((48 <=? c) && (c <=? 57))%N.
Fixpoint read_digits (a : Z) (s : str) : Z :=
  match s with [] => a | c :: r => if digit c then read_digits (10 * a + Z.of_N (c - 48)) r else a end.
Fixpoint read_int (s : str) : Z :=
  match s with
  | [] => 0%Z
  | c :: r => if blank c then read_int r
              else if (c =? 45)%N then (- read_digits 0 r)%Z
              else if (c =? 43)%N then read_digits 0 r
              else read_digits 0 s
  end.

Fixpoint assoc {V} (x : str) (l : list (str * V)) : option V :=
  match l with [] => None | (y, v) :: r => if str_eqb x y then Some v else assoc x r end.

(* 39-54 *)
Definition push_str (s : str) : P nat := fun p =>
  Some (List.length (cstrs p), mkpst (toks p) (cde p) (cstrs p ++ [s]) (csets p) (strn p) (setn p) (slotn p) (slott p) (ctr p)).
Definition push_set (l : list str) : P nat := fun p =>
  Some (List.length (csets p), mkpst (toks p) (cde p) (cstrs p) (csets p ++ [l]) (strn p) (setn p) (slotn p) (slott p) (ctr p)).
Definition the {V} (o : option V) : P V := match o with Some v => ret v | None => fail end.
Definition nonempty (s : str) : bool := match s with [] => false | _ => true end.
(* 655-711 getConstRef, getStrRef, getSetRef: None = neither attribute *)
Definition str_ref : P (option nat) :=
  ! n <-- attrib Aname ;;;
  if nonempty n then (fun p => match assoc n (strn p) with Some i => Some (Some i, p) | None => None end)
  else ! v <-- attrib Aval ;;; if nonempty v then ! i <-- push_str v ;;; ret (Some i) else ret None.
Definition set_ref : P (option nat) :=
  ! n <-- attrib Aname ;;;
  if nonempty n then (fun p => match assoc n (setn p) with Some i => Some (Some i, p) | None => None end)
  else ! v <-- attrib Aval ;;; if nonempty v then ! i <-- push_set (words v) ;;; ret (Some i) else ret None.
(* 713-750 *)
Definition get_int_opt (a : at_name) : P (option Z) := ! v <-- attrib a ;;; if nonempty v then ret (Some (read_int v)) else ret None.
Definition get_int (a : at_name) : P Z := ! o <-- get_int_opt a ;;; the o.

(* 364-382 tryProcVar, outside macros; a slot whose type is not there yet is read out of bounds *)
Definition try_var (want : option sty) : P bool :=
  ! t <-- cur ;;;
  if el_dec (nm t) Xvar then
    ! x <-- attrib Aname ;;;
    (fun p => match assoc x (slotn p) with
      | None => None
      | Some i => match nth_error (slott p) i, want with
                  | Some ty, Some w => if sty_eqb ty w then (emit GETVAR ;;; emit_uint (Z.of_nat i) ;;; past Xvar ;;; ret true) p else None
                  | _, _ => None
                  end
      end)
  else if el_dec (nm t) Xmacro then fail
  else ret false.

Definition new_slot (x : str) : P nat := fun p =>
  Some (ctr p, mkpst (toks p) (cde p) (cstrs p) (csets p) (strn p) (setn p) ((x, ctr p) :: slotn p) (slott p) (S (ctr p))).
Definition push_type (t : sty) : P unit := fun p =>
  Some (tt, mkpst (toks p) (cde p) (cstrs p) (csets p) (strn p) (setn p) (slotn p) (slott p ++ [t]) (ctr p)).

Inductive kind := KInt | KStr | KBool | KStrA | KWrd | KWrdA | KAddr
  | KOps (o : opcode)              (* the operands of procCommBoolOp *)
  | KLoop (body : kind).           (* procForEach, up to the closing tag of the for-each *)

Section Proc.
Variable proc : kind -> bool -> P bool.
Definition one (k : kind) : P unit := proc k false ;;; ret tt.
Definition try_subscript (inner : kind) : P bool :=                                      (* 288-302 *)
  ! t <-- cur ;;;
  if el_dec (nm t) Xsubscript then
    ! i <-- get_int Aidx ;;; step ;;; one inner ;;; emit SUBSCRIPT ;;; emit_uint i ;;; at_end Xsubscript ;;; step ;;; ret true
  else ret false.
Definition try_slice (inner : kind) : P bool :=                                          (* 304-329 *)
  ! t <-- cur ;;;
  if el_dec (nm t) Xslice then
    step ;;; one inner ;;; emit SLICE ;;;
    ! b <-- get_int_opt Astart ;;; emit_int (match b with Some z => z | None => 0%Z end) ;;;
    ! e <-- get_int_opt Aend ;;; emit_int (match e with Some z => z | None => 0%Z end) ;;;
    at_end Xslice ;;; step ;;; ret true
  else ret false.
Definition wrong (af : bool) : P bool := if af then ret false else fail.
Definition simple (o : opcode) (n : el) : P bool := emit o ;;; past n ;;; ret true.
(* 206-257.  toklen, strlen and arrlen do not step into their element: kept as they are *)
Definition proc_int (af : bool) : P bool :=
  ! v <-- try_var None ;;; if v then ret true else
  ! t <-- cur ;;;
  match nm t with
  | Xsentlen => simple SENTLENTOK Xsentlen
  | Xpathlen => simple SENTLENWRD Xpathlen
  | Xtokaddr => simple PUSHTOKADDR Xtokaddr
  | Xwrdidx => simple PUSHWRDADDR Xwrdidx
  | Xint => emit PUSHINT ;;; ! i <-- get_int Aval ;;; emit_int i ;;; past Xint ;;; ret true
  | Xadd => step ;;; one KInt ;;; one KInt ;;; at_end Xadd ;;; emit ADD ;;; step ;;; ret true
  | Xtoklen => one KInt ;;; at_end Xtoklen ;;; emit TOKLENWRD ;;; step ;;; ret true
  | Xstrlen => one KStr ;;; at_end Xstrlen ;;; emit STRLEN ;;; step ;;; ret true
  | Xarrlen => one KStrA ;;; at_end Xarrlen ;;; one KInt ;;; one KInt ;;; emit ARRLEN ;;; step ;;; ret true
  | _ => wrong af
  end.
(* 259-286 *)
Definition proc_str_arr (af : bool) : P bool :=
  ! v <-- try_var None ;;; if v then ret true else
  ! v <-- try_slice KStrA ;;; if v then ret true else
  ! t <-- cur ;;;
  match nm t with
  | Xex_tags => step ;;; one KWrd ;;; at_some_end ;;; emit EXTAGS ;;; step ;;; ret true
  | Xex_ambgset => step ;;; one KInt ;;; emit EXAMBGSET ;;; step ;;; ret true
  | Xfor_each => one (KLoop KStr) ;;; step ;;; ret true
  | _ => wrong af
  end.
(* 443-485 *)
Definition proc_str (af : bool) : P bool :=
  ! v <-- try_var (Some SStr) ;;; if v then ret true else
  ! v <-- try_slice KStr ;;; if v then ret true else
  ! v <-- try_subscript KStrA ;;; if v then ret true else
  ! t <-- cur ;;;
  match nm t with
  | Xex_surf => step ;;; one KInt ;;; emit EXTOKSURF ;;; at_some_end ;;; step ;;; ret true
  | Xex_lemma => step ;;; one KWrd ;;; emit EXWRDLEMMA ;;; at_some_end ;;; step ;;; ret true
  | Xex_coarse => step ;;; one KWrd ;;; emit EXWRDCOARSETAG ;;; at_some_end ;;; step ;;; ret true
  | Xjoin => ! i <-- str_ref ;;; step ;;; one KStrA ;;; emit JOIN ;;;
             emit_uint (Z.of_nat (match i with Some i => i | None => 255 end)) ;;; at_some_end ;;; step ;;; ret true
  | _ => wrong af
  end.
(* 185-204: n operands, then n-1 operators *)
Definition proc_cmp (o : opcode) (n : el) : P bool := step ;;; one KInt ;;; one KInt ;;; emit o ;;; at_end n ;;; step ;;; ret true.
(* 487-585 *)
Definition proc_bool (af : bool) : P bool :=
  ! v <-- try_var None ;;; if v then ret true else
  ! t <-- cur ;;;
  match nm t with
  | Xand => step ;;; one (KOps AND) ;;; at_end Xand ;;; step ;;; ret true
  | Xor => step ;;; one (KOps OR) ;;; at_end Xor ;;; step ;;; ret true
  | Xnot => step ;;; one KBool ;;; emit NOT ;;; at_end Xnot ;;; step ;;; ret true
  | Xeq => proc_cmp EQ Xeq
  | Xneq => proc_cmp NEQ Xneq
  | Xlt => proc_cmp LT Xlt
  | Xlte => proc_cmp LTE Xlte
  | Xgt => proc_cmp GT Xgt
  | Xgte => proc_cmp GTE Xgte
  | Xstreq => ! i <-- str_ref ;;; ! i <-- the i ;;; step ;;; one KStr ;;; emit STREQ ;;; emit_uint (Z.of_nat i) ;;; at_end Xstreq ;;; step ;;; ret true
  | Xstrin => ! i <-- set_ref ;;; ! i <-- the i ;;; step ;;; one KStr ;;; emit STRIN ;;; emit_uint (Z.of_nat i) ;;; at_end Xstrin ;;; step ;;; ret true
  | Xsethasany => ! i <-- set_ref ;;; ! i <-- the i ;;; step ;;; one KStrA ;;; emit SETHASANY ;;; emit_uint (Z.of_nat i) ;;; at_end Xsethasany ;;; step ;;; ret true
  | Xsethasall => ! i <-- set_ref ;;; ! i <-- the i ;;; step ;;; one KStrA ;;; emit SETHASALL ;;; emit_uint (Z.of_nat i) ;;; at_end Xsethasall ;;; step ;;; ret true
  | _ => wrong af
  end.
(* 587-628; tryProcVar is not called: a <var> is rejected *)
Definition proc_addr : P bool :=
  ! t <-- cur ;;;
  match nm t with
  | Xwrdaddr => simple PUSHADDR Xwrdaddr
  | Xaddr_of_ints => step ;;; one KInt ;;; one KInt ;;; at_end Xaddr_of_ints ;;; step ;;; ret true
  | Xadd => step ;;; one KAddr ;;; one KAddr ;;; at_end Xadd ;;; emit ADD2 ;;; step ;;; ret true
  | Xadjust => step ;;; one KAddr ;;; at_end Xadjust ;;; emit ADJADDR ;;; step ;;; ret true
  | Xclamp => step ;;; one KAddr ;;; at_end Xclamp ;;; emit CLAMPADDR ;;; step ;;; ret true
  | _ => fail
  end.
(* 630-652 *)
Definition proc_wrd_arr (af : bool) : P bool :=
  ! v <-- try_var None ;;; if v then ret true else
  ! v <-- try_slice KWrdA ;;; if v then ret true else
  ! t <-- cur ;;;
  match nm t with
  | Xex_wordoids => step ;;; one KInt ;;; emit EXWRDARR ;;; at_end Xex_wordoids ;;; step ;;; ret true
  | Xfor_each => one (KLoop KWrd) ;;; step ;;; ret true
  | _ => wrong af
  end.
(* 654-676 *)
Definition proc_wrd (af : bool) : P bool :=
  ! v <-- try_var (Some SWrd) ;;; if v then ret true else
  ! v <-- try_subscript KWrdA ;;; if v then ret true else
  ! t <-- cur ;;;
  match nm t with
  | Xex_wordoid => step ;;; one KAddr ;;; emit GETWRD ;;; at_some_end ;;; step ;;; ret true
  | _ => wrong af
  end.
(* 192-204: a <and> or <or> with its operands; the operator follows them, once per operand after the first *)
Definition proc_ops (o : opcode) : P bool :=
  ! t <-- cur ;;;
  if closes t then ret false                     (* no more operands; the result says whether one was read *)
  else one KBool ;;; ! more <-- proc (KOps o) false ;;; (if more then emit o else ret tt) ;;; ret true.
(* 905-959 *)
Definition proc_loop (body : kind) : P bool :=
  ! x <-- attrib Aas ;;;
  guard (nonempty x) ;;;
  ! slot <-- new_slot x ;;;
  step ;;;
  ! a <-- proc KStrA true ;;;
  (if a then push_type SStr else ! b <-- proc KWrdA true ;;; if b then push_type SWrd else fail) ;;;
  emit FOREACHINIT ;;;
  ! c0 <-- get_code ;;;
  emit FOREACH ;;; emit_uint (Z.of_nat slot) ;;;
  ! c1 <-- get_code ;;;
  emit_uint 0 ;;;
  one body ;;;
  at_some_end ;;;
  ! c2 <-- get_code ;;;
  emit ENDFOREACH ;;;
  emit_int (Z.of_nat (List.length c2 + 2 - List.length c0)) ;;;
  poke (List.length c1) (to_byte (Z.of_nat (List.length c2 + 2 - S (List.length c1)))) ;;;
  ret true.
Definition proc_kind (k : kind) (af : bool) : P bool :=
  match k with
  | KInt => proc_int af | KStr => proc_str af | KBool => proc_bool af | KStrA => proc_str_arr af
  | KWrd => proc_wrd af | KWrdA => proc_wrd_arr af | KAddr => proc_addr
  | KOps o => proc_ops o
  | KLoop b => proc_loop b
  end.
End Proc.
Fixpoint proc (fuel : nat) (k : kind) (af : bool) : P bool :=
  match fuel with 0 => fail | S n => proc_kind (proc n) k af end.

Section Document.
Variable fuel : nat.
Definition expr (k : kind) : P unit := proc fuel k false ;;; ret tt.
(* 678-688, 789-826, 961-983; a for-each among the statements of a feature is compiled but not stepped over, and the
   assertion of the enclosing element then fails; inst is not modelled *)
Definition proc_void : P unit :=
  ! t <-- cur ;;;
  match nm t with
  | Xpred => step ;;; expr KBool ;;; at_end Xpred ;;; emit DIEIFFALSE ;;; step
  | Xout => step ;;;
      ! a <-- proc fuel KStr true ;;;
      (if a then emit FCATSTR else
       ! b <-- proc fuel KBool true ;;;
       if b then emit FCATBOOL else
       ! i <-- proc fuel KInt true ;;;
       if i then emit FCATINT else fail) ;;;
      at_end Xout ;;; step
  | Xout_many => step ;;; expr KStrA ;;; emit FCATSTRARR ;;; at_end Xout_many ;;; step
  | _ => fail
  end.
Fixpoint until_close (n : nat) (m : P unit) : P unit :=
  ! t <-- cur ;;; if closes t then ret tt else match n with 0 => fail | S n => m ;;; until_close n m end.
Definition reset (c : code) (z : nat) : P unit := fun p => Some (tt, mkpst (toks p) c (cstrs p) (csets p) (strn p) (setn p) (slotn p) (slott p) z).
(* 1110-1121 *)
Definition proc_feat : P code := reset [] 0 ;;; step ;;; until_close fuel proc_void ;;; at_end Xfeat ;;; step ;;; get_code.
(* 1123-1136 *)
Fixpoint proc_feats_loop (n : nat) : P (list code) :=
  ! t <-- cur ;;;
  if closes t then ret [] else
  match n with
  | 0 => fail
  | S n => if el_dec (nm t) Xfeat then ! c <-- proc_feat ;;; ! r <-- proc_feats_loop n ;;; ret (c :: r) else fail
  end.
Definition proc_feats : P (list code) := step ;;; ! r <-- proc_feats_loop fuel ;;; at_end Xfeats ;;; step ;;; ret r.
(* 122-129 *)
Definition name_str (x : str) (i : nat) : P unit := fun p => Some (tt, mkpst (toks p) (cde p) (cstrs p) (csets p) ((x, i) :: strn p) (setn p) (slotn p) (slott p) (ctr p)).
Definition proc_def_str : P unit :=
  ! n <-- attrib Aname ;;; ! tg <-- attrib Atag ;;; ! s <-- attrib Astr ;;;
  ! i <-- push_str (if nonempty tg then tg else s) ;;; name_str n i ;;; past Xdef_str.
(* 131-150; 100-120: in procSetDef the local variable [name], the value of the attribute, hides the tag name, so that
   the loop accepts no member unless the set is called "set-member", and the assertion wants it to be called "def-set" *)
Fixpoint set_members (n : nat) (sname : str) (acc : list str) : P (list str) :=
  ! t <-- cur ;;;
  if closes t then ret acc else
  match n with
  | 0 => fail
  | S n => if str_eqb sname (u "set-member") then
             ! tg <-- attrib Atag ;;; ! s <-- attrib Astr ;;; step ;;; set_members n sname (acc ++ [if nonempty tg then tg else s])
           else fail
  end.
Definition name_set (x : str) (i : nat) : P unit := fun p => Some (tt, mkpst (toks p) (cde p) (cstrs p) (csets p) (strn p) ((x, i) :: setn p) (slotn p) (slott p) (ctr p)).
Definition proc_set_def : P unit :=
  ! n <-- attrib Aname ;;; step ;;; ! l <-- set_members fuel n [] ;;; ! i <-- push_set l ;;; name_set n i ;;;
  guard (str_eqb n (u "def-set")) ;;; step.
Definition proc_defn : P unit :=
  ! t <-- cur ;;; match nm t with Xdef_set => proc_set_def | Xdef_str => proc_def_str | _ => fail end.
Definition proc_defns : P unit := step ;;; until_close fuel proc_defn ;;; at_end Xdefns ;;; step.
(* 152-160: slot_counter is not set *)
Definition proc_global_pred : P code := ! c <-- get_code ;;; set_code [] ;;; step ;;; expr KBool ;;; at_end Xglobal_pred ;;; step ;;; get_code.
Definition opt {A} (n : el) (d : A) (m : P A) : P A := ! t <-- cur ;;; if el_dec (nm t) n then m else ret d.
(* 1149-1179.  <beam-width> is not stepped over, so that none of the branches after it is taken *)
Definition parse_doc : P spec :=
  ! t <-- cur ;;; guard (if el_dec (nm t) Xmetatag then true else false) ;;; step ;;;
  opt Xcoarse_tags tt (past Xcoarse_tags) ;;;
  opt Xdefns tt proc_defns ;;;
  ! g <-- opt Xglobal_pred [] proc_global_pred ;;;
  ! f <-- opt Xfeats [] proc_feats ;;;
  at_end Xmetatag ;;;
  (fun p => Some (mkspec (cstrs p) (csets p) g [] f, p)).
End Document.
(* [ctr0]: the uninitialised slot_counter (35-37) *)
Definition compile (ctr0 fuel : nat) (doc : list tok) : option spec :=
  match parse_doc fuel (mkpst doc [] [] [] [] [] [] [] ctr0) with Some (sp, _) => Some sp | None => None end.
