(** apertium/pretransfer.cc:10-222.
    [InputFile] is the list of remaining characters; [get] at the end returns U_EOF and then [eof()] holds.
    [exit(EXIT_FAILURE)] is the outcome [Fail]; a run that has not ended after [fuel] loop rounds is [Fuel].
    Flushing (null_flush, lines 207-210) does not change the text and is not modelled. *)
From Verif Require Import Model.Base.

(** U_EOF of ICU, written by [u_fputc(input.get())] when an escape is cut by the end of input *)
Definition cEOF : char := 65535%N.

Inductive res := Done (o : str) | Fail (o : str) | Fuel.
Definition prepend (o : str) (r : res) : res :=
  match r with Done x => Done (o ++ x) | Fail x => Fail (o ++ x) | Fuel => Fuel end.

(* pretransfer.cc:10-48 [storeAndWriteWblank]: (written, Some rest), or None on the unexpected EOF.
   The returned content is "[[" ++ written (each character is both appended and written). *)
Fixpoint storeAndWriteWblank (inp : str) : str * option str :=
  match inp with
  | [] => ([], None)                                             (* 18-22 *)
  | c :: r =>
      if c =?c cBS then                                          (* 27-32 *)
        match r with
        | [] => ([c; cEOF], None)
        | d :: r' => let (o, x) := storeAndWriteWblank r' in (c :: d :: o, x)
        end
      else if c =?c cRB then                                     (* 33-43 *)
        match r with
        | [] => ([c], None)
        | d :: r' =>
            if d =?c cRB then ([c; d], Some r')
            else let (o, x) := storeAndWriteWblank r' in (c :: o, x)   (* d is neither stored nor written *)
        end
      else let (o, x) := storeAndWriteWblank r in (c :: o, x)
  end.

(* pretransfer.cc:50-68 [readAndWriteUntil] *)
Fixpoint readAndWriteUntil (charcode : char) (inp : str) : str * option str :=
  match inp with
  | [] => ([], None)
  | c :: r =>
      if c =?c charcode then ([], Some r)
      else if c =?c cBS then
        match r with
        | [] => ([c; cEOF], None)
        | d :: r' => let (o, x) := readAndWriteUntil charcode r' in (c :: d :: o, x)
        end
      else let (o, x) := readAndWriteUntil charcode r in (c :: o, x)
  end.

(* pretransfer.cc:79-84: skip the surface form; at the end of input get() keeps returning U_EOF *)
Fixpoint skip_surface (fuel : nat) (inp : str) : option str :=
  match fuel with
  | 0 => None
  | S f =>
      match inp with
      | [] => skip_surface f []
      | c :: r => if c =?c cSLASH then Some r
                  else if c =?c cBS then skip_surface f (tl r)
                  else skip_surface f r
      end
  end.

(* pretransfer.cc:75-77 *)
Record wst := mkw { buffer : str; buffer_mode : bool; in_tag : bool; queuing : bool }.
Definition wst0 : wst := mkw [] false false false.

(* pretransfer.cc:94-113: the switch *)
Definition w_switch (s : wst) (c : char) : wst :=
  if c =?c cLT then mkw (buffer s) true true (queuing s)
  else if c =?c cGT then mkw (buffer s) (buffer_mode s) false (queuing s)
  else if c =?c cHASH then
    (if buffer_mode s then mkw (buffer s) false (in_tag s) true else s)
  else s.

Definition sep_plus (wblank : str) : str := [cDOL; cSP] ++ wblank ++ [cCARET].   (* 124-126 *)
Definition sep_tilde (wblank : str) : str := [cDOL] ++ wblank ++ [cCARET].       (* 130-132 *)

(* pretransfer.cc:94-149: one round; result state and directly written characters *)
Definition w_step (compound_sep : bool) (wblank : str) (s0 : wst) (c : char) : wst * str :=
  let s := w_switch s0 c in
  let add x := mkw (buffer s ++ x) (buffer_mode s) (in_tag s) (queuing s) in
  if buffer_mode s then
    if (negb (c =?c cPLUS) || ((c =?c cPLUS) && in_tag s)) && (negb (c =?c cTILDE) || ((c =?c cTILDE) && in_tag s))
    then (add [c], [])
    else if negb (in_tag s) && (c =?c cPLUS) then (add (sep_plus wblank), [])
    else if negb (in_tag s) && (c =?c cTILDE) && compound_sep then (add (sep_tilde wblank), [])
    else (s, [])
  else if (c =?c cPLUS) && queuing s
  then (mkw (buffer s ++ sep_plus wblank) true (in_tag s) (queuing s), [])
  else (s, [c]).

(* pretransfer.cc:86-152: the main loop and the final write of the buffer *)
Fixpoint w_loop (compound_sep : bool) (wblank : str) (s : wst) (inp : str) : str * option str :=
  match inp with
  | [] => ([], None)
  | c :: r =>
      if c =?c cDOL then (buffer s, Some r)
      else let (s', o) := w_step compound_sep wblank s c in
           let (o', x) := w_loop compound_sep wblank s' r in (o ++ o', x)
  end.

(* pretransfer.cc:70-153 [procWord]; outer None = the surface-form loop has not ended within the fuel *)
Definition procWord (fuel : nat) (surface_forms compound_sep : bool) (wblank : str) (inp : str)
  : option (str * option str) :=
  if surface_forms then
    match skip_surface fuel inp with
    | None => None
    | Some r => Some (w_loop compound_sep wblank wst0 r)
    end
  else Some (w_loop compound_sep wblank wst0 inp).

(* pretransfer.cc:155-222 [processStream] *)
Fixpoint processStream (fuel : nat) (surface_forms compound_sep : bool) (inp : str) : res :=
  match fuel with
  | 0 => Fuel
  | S f =>
    let continue := processStream f surface_forms compound_sep in
    let word pre wblank r :=                                   (* 176-178, 199-201 *)
      match procWord f surface_forms compound_sep wblank r with
      | None => Fuel
      | Some (o, None) => Fail (pre ++ cCARET :: o)
      | Some (o, Some r') => prepend (pre ++ [cCARET] ++ o ++ [cDOL]) (continue r')
      end in
    match inp with
    | [] => Done []                                            (* 160-163 *)
    | c :: r =>
      if c =?c cLB then
        match r with
        | d :: r1 =>
          if d =?c cLB then                                    (* 170-186 *)
            match storeAndWriteWblank r1 with
            | (o, None) => Fail ([cLB; cLB] ++ o)
            | (o, Some r2) =>
                match r2 with
                | e :: r3 => if e =?c cCARET then word ([cLB; cLB] ++ o) ([cLB; cLB] ++ o) r3
                             else Fail ([cLB; cLB] ++ o)
                | [] => Fail ([cLB; cLB] ++ o)
                end
            end
          else                                                 (* 187-192 *)
            match readAndWriteUntil cRB r with
            | (o, None) => Fail (cLB :: o)
            | (o, Some r2) => prepend ([cLB] ++ o ++ [cRB]) (continue r2)
            end
        | [] => Fail [cLB]                     (* unget(U_EOF), then readAndWriteUntil meets the EOF *)
        end
      else if c =?c cBS then                                   (* 194-197 *)
        match r with
        | d :: r1 => prepend [c; d] (continue r1)
        | [] => prepend [c; cEOF] (continue [])
        end
      else if c =?c cCARET then word [] [] r                   (* 199-203 *)
      else prepend [c] (continue r)                            (* 205-218 *)
    end
  end.
