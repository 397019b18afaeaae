(** C14: a written HMM (or LSW) tagger model reads back. *)
From Coq Require Import String.
From Verif Require Import Model.Base Model.Codec Proofs.Codec Model.EndianDouble Model.TaggerData Proofs.TaggerData Model.TaggerDataCopy.
From Verif Require Model.Collection Proofs.Collection.

(** For all encoders (numbers, strings, pattern lists) that read back what they wrote, both byte orders and
    every model whose numbers fit: reading the written file into a new object consumes the whole file and
    restores every field; [b[i][j]] is restored for every class j that contains tag i and is ZERO elsewhere. *)
Theorem C14_hmm_roundtrip :
  forall (P : Type) putN getN fits putS getS fitsS (putP : P -> bytes) getP fitsP,
  RT putN getN fits -> (forall n, fits n -> putN n <> []) -> RT putS getS fitsS -> RT putP getP fitsP ->
  forall (e : endian) (zero : dbl) (p0 : P) (h : hmm P), length zero = 8 ->
  hmm_ok P fits fitsS fitsP h ->
  exists b', read_hmm P getN getS getP e zero (td_fresh p0) (write_hmm P putN putS putP e h) =
      Some (mkh (h_td h) (h_n h) (h_m h) (h_a h) b', []) /\
    (length b' = h_n h /\ Forall (fun row => length row = h_m h) b') /\
    forall i j s, i < h_n h -> j < h_m h -> Collection.at_ j (output (h_td h)) = Some s ->
      (In (N.of_nat i) s -> cell b' i j = cell (h_b h) i j) /\ (~ In (N.of_nat i) s -> cell b' i j = zero).
Proof. exact hmm_roundtrip_fresh. Qed.
Print Assumptions C14_hmm_roundtrip.

(** Same for the sliding-window model: the entries above ZERO are restored, the others read back as 0. *)
Theorem C14_lsw_roundtrip :
  forall (P : Type) putN getN fits putS getS fitsS (putP : P -> bytes) getP fitsP,
  RT putN getN fits -> (forall n, fits n -> putN n <> []) -> RT putS getS fitsS -> RT putP getP fitsP ->
  forall (e : endian) (big : dbl -> bool) (p0 : P) (l : lsw P), lsw_ok P fits fitsS fitsP l ->
  exists d', read_lsw P getN getS getP e (td_fresh p0) (write_lsw P putN putS putP e big l) =
      Some (mkl (l_td l) (l_n l) d', []) /\
    forall i j k, i < l_n l -> j < l_n l -> k < l_n l ->
      d' i j k = if big (l_d l i j k) then l_d l i j k else dzero.
Proof. exact lsw_roundtrip_fresh. Qed.
Print Assumptions C14_lsw_roundtrip.

(** [read] clears the matrices but not the rules: reading the same file twice into one object
    duplicates its forbid rules (and array of tags). *)
Definition one_rule : hmm unit :=
  mkh (mktd [] [mkf 0 0] [u "TAG"] [] [] [] [] (fst (Collection.add [0]%N Collection.empty)) tt []) 1 1 [[dzero]] [[dzero]].
Definition wr := write_hmm unit mb_put mb_putS (fun _ => []) Little.
Definition rd := read_hmm unit mb_get mb_getS (fun r => Some (tt, r)) Little dzero.
Theorem C14_reread_refuted :
  match rd (td_fresh tt) (wr one_rule) with
  | Some (h1, _) =>
      h1 = one_rule /\
      match rd (h_td h1) (wr one_rule) with
      | Some (h2, _) => forbid_rules (h_td h2) = [mkf 0 0; mkf 0 0] /\ array_tags (h_td h2) = [u "TAG"; u "TAG"]
      | None => False end
  | None => False end.
Proof. vm_compute. repeat split. Qed.
Print Assumptions C14_reread_refuted.

(** a non-trivial model satisfying the hypotheses *)
Example C14_example :
  hmm_ok unit mb_fits mb_fitsS (fun _ => True)
    (mkh (mktd [1;5]%N [mkf 0 1] [u "A"; u "B"] [(u "A", 0); (u "B", 1)]%N [mke 0 [1]]%N [u "x"] [(u "kEOF", 3)]%N
         (fst (Collection.add [1]%N (fst (Collection.add [0;1]%N Collection.empty)))) tt [u "d"])
       2 2 [[dzero; dzero]; [dzero; dzero]] [[dzero; dzero]; [dzero; dzero]]).
Proof.
  constructor.
  - constructor; cbn; try reflexivity.
    + split; [reflexivity|]. intros n [x [[<-|[<-|[]]] Hx]]; unfold mb_fits; lia.
    + split; [reflexivity|]. repeat constructor; reflexivity.
    + split; [reflexivity|]. repeat constructor; reflexivity.
    + split; [reflexivity|]. repeat constructor; reflexivity.
    + split; [reflexivity|]. repeat constructor; reflexivity.
    + split; [reflexivity|]. repeat constructor; reflexivity.
    + split; [reflexivity|]. split; [|reflexivity]. repeat constructor; reflexivity.
    + split; [|split; [reflexivity|]; repeat constructor; reflexivity].
      exact (proj1 (Proofs.Collection.add_after _ [1]%N (proj1 (Proofs.Collection.add_after _ [0;1]%N Proofs.Collection.Inv_empty)))).
    + split; [reflexivity|]. repeat constructor; reflexivity.
  - cbn. intros k Hk. unfold mb_fits. lia.
  - cbn. intros k Hk. unfold mb_fits. lia.
  - cbn. intros k Hk. unfold mb_fits. lia.
  - split; [reflexivity|]. repeat constructor; reflexivity.
  - split; [reflexivity|]. repeat constructor; reflexivity.
Qed.
