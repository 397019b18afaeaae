(** apertium/apertium_cleanstream.cc:34-104 [main], options -n ([spaced = false]) and -b ([keepblank]).
    Error messages on stderr are not modelled.  [InputFile::readBlock] is lttoolbox code (assumed: it
    returns "[" and everything up to and including the first unescaped "]", or up to the end of input). *)
From Verif Require Import Model.Base.

(* lttoolbox InputFile::readBlock (external, assumption) *)
Fixpoint readBlock (inp : str) : str * str :=
  match inp with
  | [] => ([], [])
  | c :: r =>
      if c =?c cRB then ([c], r)
      else if c =?c cBS then
        match r with
        | [] => ([c], [])
        | d :: r' => let (o, x) := readBlock r' in (c :: d :: o, x)
        end
      else let (o, x) := readBlock r in (c :: o, x)
  end.

(* apertium_cleanstream.cc:63-98; state = (buf, intoken). Each round consumes a character, so
   [fuel = length + 1] suffices. At the end of input U_EOF is added to buf, which is never written. *)
Fixpoint loop (fuel : nat) (spaced keepblank : bool) (buf : str) (intoken : bool) (inp : str) : option str :=
  match fuel with
  | 0 => None
  | S f =>
    let ws := if spaced then cSP else cNL in                       (* 44, 48-50 *)
    let again := loop f spaced keepblank in
    match inp with
    | [] => Some (if spaced then [] else [cNL])                    (* 100-103 *)
    | c :: r =>
      if c =?c cCARET then
        if intoken then again (buf ++ [cBS; cCARET]) intoken r     (* 66-68 *)
        else
          option_map (app (if negb (match buf with [] => true | _ => false end) || negb spaced then [ws] else []))
                     (again [cCARET] true r)                       (* 69-75 *)
      else if c =?c cDOL then
        if intoken then option_map (app (buf ++ [c])) (again [] false r)   (* 77-81 *)
        else again buf intoken r                                   (* 82-84 *)
      else if c =?c cBS then
        match r with
        | d :: r' => again (buf ++ [cBS; d]) intoken r'            (* 85-88 *)
        | [] => again (buf ++ [cBS]) intoken []
        end
      else if negb intoken && (c =?c cLB) then                     (* 89-95 *)
        let (b, r') := readBlock r in
        option_map (app (ws :: (if keepblank then cLB :: b else []))) (again buf intoken r')
      else again (buf ++ [c]) intoken r                            (* 96-98 *)
    end
  end.

Definition cleanstream (spaced keepblank : bool) (inp : str) : option str :=
  loop (S (length inp)) spaced keepblank [] false inp.
