(** Specification vocabulary for the comparison of bit streams (C79). *)
From Coq Require Import Reals ZArith.
From Verif Require Import Base TeleBits_Spec.
Local Open Scope nat_scope.
(** Bit of rank z, 0 outside the stream. *)
Definition bitZ (l : list bool) (z : Z) : bool := if (z <? 0)%Z then false else nth (Z.to_nat z) l false.
(** Number of ranks a where the first stream has a 1 and the second one too, d later. *)
Definition coinc (l1 l2 : list bool) (d : Z) : nat := length (filter (fun a => nth a l1 false && bitZ l2 (Z.of_nat a + d)) (seq 0 (length l1))).
(** Number of bits in common when the second stream is read d bits later. *)
Definition overlap (l1 l2 : list bool) (d : Z) : nat := Z.to_nat (Z.min (Z.of_nat (length l1) - Z.max 0 (- d)) (Z.of_nat (length l2) - Z.max 0 d)).
(** Number of ranks from a to b - 1 where two streams differ, the second one being read d bits later. *)
Definition differences (l1 l2 : list bool) (d : Z) (a b : nat) : nat :=
  length (filter (fun j => negb (Bool.eqb (bitZ l1 (Z.of_nat j + Z.max 0 (- d))) (bitZ l2 (Z.of_nat j + Z.max 0 d)))) (seq a (b - a))).
(** The symbols of k bits of a stream, advanced by l modulo 2^k, as bits. *)
Definition rotated (l2 : list bool) (k l : nat) : list bool :=
  concat (map (fun i => int_bits ((bits_val (group l2 k i) + Z.of_nat l) mod 2 ^ Z.of_nat k) k) (seq 0 (ngroups (length l2) k))).
