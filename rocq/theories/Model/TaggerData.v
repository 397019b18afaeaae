(** apertium/tagger_data.h, tagger_data_hmm.cc:161-401, tagger_data_lsw.cc:120-322 (read and write).
    Parameters: lttoolbox's Compression and PatternList I/O.  [std::set]/[std::map] are sorted lists. *)
From Verif Require Import Model.Base Model.Codec Model.EndianDouble.
From Verif Require Model.Collection Model.ConstantManager.

Section TD.
  Variable P : Type.                                        (* lttoolbox PatternList *)
  Variable putN : N -> bytes.  Variable getN : reader N.
  Variable putS : str -> bytes. Variable getS : reader str.
  Variable putP : P -> bytes.   Variable getP : reader P.
  Variable e : endian.

  Record rule2 := mkf { f_i : N; f_j : N }.                      (* TForbidRule *)
  Record ruleE := mke { e_i : N; e_js : list N }.                (* TEnforceAfterRule *)

  (* tagger_data.h:35-44; [output] is represented by its elements in index order (see Model/Collection.v:
     the index map is determined by them) *)
  Record td := mktd {
    open_class : list N;
    forbid_rules : list rule2;
    array_tags : list str;
    tag_index : list (str * N);
    enforce_rules : list ruleE;
    prefer_rules : list str;
    constants : list (str * N);
    output : Collection.coll;
    plist : P;
    discard : list str }.

  (* tagger_data_hmm.cc:287-294: gaps between consecutive elements *)
  Fixpoint deltas (val : N) (l : list N) : list N :=
    match l with [] => [] | x :: r => (x - val)%N :: deltas x r end.
  (* tagger_data_hmm.cc:168-172: running sums, inserted into the set *)
  Fixpoint undelta (val : N) (l : list N) : list N :=
    match l with [] => [] | d :: r => (val + d)%N :: undelta (val + d)%N r end.

  Definition put_rule2 (f : rule2) : bytes := putN (f_i f) ++ putN (f_j f).
  Definition get_rule2 : reader rule2 := i <- getN ;; j <- getN ;; ret (mkf i j).
  Definition put_ruleE (f : ruleE) : bytes := putN (e_i f) ++ put_vec putN putN (e_js f).
  Definition get_ruleE : reader ruleE := i <- getN ;; js <- get_vec getN getN ;; ret (mke i js).
  Definition put_kv (kv : str * N) : bytes := putS (fst kv) ++ putN (snd kv).
  Definition get_kv : reader (str * N) := k <- getS ;; v <- getN ;; ret (k, v).

  (* tagger_data_hmm.cc:286-341 = tagger_data_lsw.cc:222-272: everything up to and including output *)
  Definition write_common (d : td) : bytes :=
    put_vec putN putN (deltas 0 (open_class d)) ++
    put_vec putN put_rule2 (forbid_rules d) ++
    put_vec putN putS (array_tags d) ++
    put_vec putN put_kv (tag_index d) ++
    put_vec putN put_ruleE (enforce_rules d) ++
    put_vec putN putS (prefer_rules d) ++
    ConstantManager.write putN putS (constants d) ++
    Collection.write putN (output d).

  (* tagger_data_hmm.cc:166-219 = tagger_data_lsw.cc:118-171: read into the object [d0]; note that
     only [constants] is cleared first, everything else accumulates *)
  Definition read_common (d0 : td) : reader td :=
    oc <- get_vec getN getN ;;
    fr <- get_vec getN get_rule2 ;;
    at_ <- get_vec getN getS ;;
    ti <- get_vec getN get_kv ;;
    er <- get_vec getN get_ruleE ;;
    pr <- get_vec getN getS ;;
    cs <- ConstantManager.read getN getS ;;
    out <- Collection.read getN (output d0) ;;
    ret (mktd (set_of_list N.ltb (open_class d0) (undelta 0 oc))
              (forbid_rules d0 ++ fr) (array_tags d0 ++ at_)
              (map_of_list str_lt (tag_index d0) ti)
              (enforce_rules d0 ++ er) (prefer_rules d0 ++ pr) cs out (plist d0) (discard d0)).

  (* tagger_data_hmm.cc:390-400, lsw 312-321: the discard list is only written when it is not empty *)
  Definition write_discard (l : list str) : bytes :=
    match l with [] => [] | _ => put_vec putN putS l end.
  (* tagger_data_hmm.cc:268-280: [multibyte_read] at the end of the file sets feof: no discard rules *)
  Definition read_discard : reader (list str) :=
    fun r => match r with [] => Some ([], []) | _ => get_vec getN getS r end.

  Definition get_dbl : reader dbl := fun r => Some (read_double e dzero r).
  Definition put_dbl (x : dbl) : bytes := write_double e x.

  (** ** HMM *)
  Record hmm := mkh { h_td : td; h_n : nat; h_m : nat; h_a : list (list dbl); h_b : list (list dbl) }.

  (* tagger_data_hmm.cc:357, 372: output[j].find(i) != end *)
  Definition useful (d : td) (i j : nat) : bool :=
    match Collection.at_ j (output d) with
    | Some s => existsb (N.eqb (N.of_nat i)) s
    | None => false                                            (* out of range; excluded by well-formedness *)
    end.
  Definition cell (m : list (list dbl)) (i j : nat) : dbl := nth j (nth i m []) dzero.
  Definition pairs (n m : nat) : list (nat * nat) := list_prod (seq 0 n) (seq 0 m).

  (* tagger_data_hmm.cc:343-401 *)
  Definition write_hmm (h : hmm) : bytes :=
    write_common (h_td h) ++
    putN (N.of_nat (h_n h)) ++ putN (N.of_nat (h_m h)) ++
    flat_map (fun ij => put_dbl (cell (h_a h) (fst ij) (snd ij))) (pairs (h_n h) (h_n h)) ++
    put_vec putN (fun ij => putN (N.of_nat (fst ij)) ++ putN (N.of_nat (snd ij)) ++
                            put_dbl (cell (h_b h) (fst ij) (snd ij)))
            (filter (fun ij => useful (h_td h) (fst ij) (snd ij)) (pairs (h_n h) (h_m h))) ++
    putP (plist (h_td h)) ++
    write_discard (discard (h_td h)).

  Fixpoint set_row {A} (j : nat) (x : A) (l : list A) : list A :=
    match l, j with
    | [], _ => []
    | _ :: r, 0 => x :: r
    | y :: r, S k => y :: set_row k x r
    end.
  (* b[i][j] = x; None = index out of range (undefined behaviour) *)
  Definition set_cell (m : list (list dbl)) (i j : nat) (x : dbl) : option (list (list dbl)) :=
    match nth_error m i with
    | None => None
    | Some row => if j <? length row then Some (set_row i (set_row j x row) m) else None
    end.
  Fixpoint set_cells (m : list (list dbl)) (l : list (N * N * dbl)) : option (list (list dbl)) :=
    match l with
    | [] => Some m
    | (i, j, x) :: r => match set_cell m (N.to_nat i) (N.to_nat j) x with
                        | None => None | Some m' => set_cells m' r end
    end.

  Variable zero : dbl.                                          (* ZERO = 1e-10, tagger_utils.h *)

  Fixpoint chunk (n : nat) (k : nat) (l : list dbl) : list (list dbl) :=
    match k with 0 => [] | S k' => firstn n l :: chunk n k' (skipn n l) end.

  (* tagger_data_hmm.cc:161-281 [read]; result None = premature end or out-of-range index *)
  Definition read_hmm (d0 : td) : reader hmm :=
    d <- read_common d0 ;;
    n <- getN ;; m <- getN ;;
    a <- repeat_get (N.to_nat n * N.to_nat n) get_dbl ;;
    bv <- get_vec getN (i <- getN ;; j <- getN ;; x <- get_dbl ;; ret (i, j, x)) ;;
    p <- getP ;;
    ds <- read_discard ;;
    fun r =>
    match set_cells (repeat (repeat zero (N.to_nat m)) (N.to_nat n)) bv with
    | None => None
    | Some b => Some (mkh (mktd (open_class d) (forbid_rules d) (array_tags d) (tag_index d) (enforce_rules d)
                                (prefer_rules d) (constants d) (output d) p ds)
                          (N.to_nat n) (N.to_nat m) (chunk (N.to_nat n) (N.to_nat n) a) b, r)
    end.

  (** ** LSW.  [d] is an N*N*N array, modelled as a function on index triples; an access outside the
      bounds is undefined behaviour (None). *)
  Record lsw := mkl { l_td : td; l_n : nat; l_d : nat -> nat -> nat -> dbl }.
  Variable big : dbl -> bool.                                   (* the comparison [x > ZERO] on doubles *)

  Definition triples (n : nat) : list (nat * nat * nat) :=
    list_prod (list_prod (seq 0 n) (seq 0 n)) (seq 0 n).
  Definition put_triple (d : nat -> nat -> nat -> dbl) (t : nat * nat * nat) : bytes :=
    let '(i, j, k) := t in
    putN (N.of_nat i) ++ putN (N.of_nat j) ++ putN (N.of_nat k) ++ put_dbl (d i j k).

  (* tagger_data_lsw.cc:273-321 *)
  Definition write_lsw (l : lsw) : bytes :=
    write_common (l_td l) ++
    putN (N.of_nat (l_n l)) ++
    put_vec putN (put_triple (l_d l))
            (filter (fun t => let '(i, j, k) := t in big (l_d l i j k)) (triples (l_n l))) ++
    putP (plist (l_td l)) ++
    write_discard (discard (l_td l)).

  Definition get_triple : reader (nat * nat * nat * dbl) :=
    i <- getN ;; j <- getN ;; k <- getN ;; x <- get_dbl ;; ret (N.to_nat i, N.to_nat j, N.to_nat k, x).
  Fixpoint set_all (n : nat) (d : nat -> nat -> nat -> dbl) (l : list (nat * nat * nat * dbl))
    : option (nat -> nat -> nat -> dbl) :=
    match l with
    | [] => Some d
    | (i, j, k, x) :: r =>
        if (i <? n) && (j <? n) && (k <? n)
        then set_all n (fun i' j' k' => if (i' =? i) && (j' =? j) && (k' =? k) then x else d i' j' k') r
        else None
    end.
  (* tagger_data_lsw.cc:113-215 [read] *)
  Definition read_lsw (d0 : td) : reader lsw :=
    d <- read_common d0 ;;
    n <- getN ;;
    dv <- get_vec getN get_triple ;;
    p <- getP ;;
    ds <- read_discard ;;
    fun r =>
    match set_all (N.to_nat n) (fun _ _ _ => dzero) dv with
    | None => None
    | Some dd => Some (mkl (mktd (open_class d) (forbid_rules d) (array_tags d) (tag_index d) (enforce_rules d)
                                (prefer_rules d) (constants d) (output d) p ds) (N.to_nat n) dd, r)
    end.
End TD.
