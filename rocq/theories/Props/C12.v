(** C12: doubles survive the byte-order-neutral encoding. A double is its memory image of 8 bytes. *)
From Coq Require Import String.
From Verif Require Import Model.Base Model.Codec Model.EndianDouble Proofs.EndianDouble.

(** whatever follows in the stream and whatever the uninitialised result variable contained *)
Theorem C12_roundtrip : forall (e : endian) (garbage d : dbl) (rest : bytes),
  length d = 8 -> length garbage = 8 -> read_double e garbage (write_double e d ++ rest) = (d, rest).
Proof. intros e g d r H1 H2. exact (double_roundtrip e g d r H1 H2). Qed.
Print Assumptions C12_roundtrip.

(** the same value has reversed memory images on the two kinds of host, and the same bytes in the file *)
Theorem C12_portable : forall d : dbl, length d = 8 -> write_double Big (rev d) = write_double Little d.
Proof. exact wire_independent. Qed.
Print Assumptions C12_portable.

Theorem C12_length : forall e d, length d = 8 -> length (write_double e d) = 8.
Proof. exact wire_length. Qed.
Print Assumptions C12_length.

(** a file that ends inside a number reads as 0 (little-endian hosts) *)
Theorem C12_short_is_zero : forall g r, length r < 8 -> fst (read_double Little g r) = dzero.
Proof. exact read_short_little. Qed.
Print Assumptions C12_short_is_zero.

(** ... but on a big-endian host a truncated file yields uninitialised bytes *)
Theorem C12_short_big_refuted : exists g1 g2, length g1 = 8 /\ length g2 = 8 /\
  fst (read_double Big g1 [1]%N) <> fst (read_double Big g2 [1]%N).
Proof. exists (repeat 0%N 8), (repeat 1%N 8). split; [reflexivity|]. split; [reflexivity|]. vm_compute. discriminate. Qed.
Print Assumptions C12_short_big_refuted.

Example C12_example : (* 1.0 on a little-endian host *)
  write_double Little [0;0;0;0;0;0;240;63]%N = [63;240;0;0;0;0;0;0]%N.
Proof. reflexivity. Qed.
