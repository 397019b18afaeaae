From Verif Require Import Model.Base Proofs.Base Model.Codec Model.EndianDouble Proofs.Codec.

Lemma dbl8 (d : dbl) : length d = dsize -> exists a b c e f g h i, d = [a;b;c;e;f;g;h;i].
Proof.
  unfold dsize. intros H. do 8 (destruct d as [|? d]; [discriminate H|]).
  destruct d; [|discriminate H]. repeat eexists.
Qed.

Lemma double_roundtrip e g d r : length d = dsize -> length g = dsize ->
  read_double e g (write_double e d ++ r) = (d, r).
Proof.
  intros Hd Hg. destruct (dbl8 d Hd) as (a1&a2&a3&a4&a5&a6&a7&a8&->).
  destruct (dbl8 g Hg) as (b1&b2&b3&b4&b5&b6&b7&b8&->).
  destruct e; reflexivity.
Qed.

Lemma wire_independent d : length d = dsize -> write_double Big (rev d) = write_double Little d.
Proof. intros Hd. destruct (dbl8 d Hd) as (a1&a2&a3&a4&a5&a6&a7&a8&->). reflexivity. Qed.

Lemma wire_length e d : length d = dsize -> length (write_double e d) = 8.
Proof. intros Hd. destruct e; [exact Hd|reflexivity]. Qed.

Lemma read_short_little g r : length r < 8 -> fst (read_double Little g r) = dzero.
Proof.
  intros H. cbn. do 8 (destruct r as [|? r]; [reflexivity|cbn in H; try lia]).
Qed.
