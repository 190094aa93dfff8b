(** Specification vocabulary for symbol mapping and differential coding. *)
From Verif Require Import Base.

(** Value of a group of bits, least significant first. *)
Fixpoint bits_val (l : list bool) : Z :=
  match l with [] => 0%Z | b :: t => ((if b then 1 else 0) + 2 * bits_val t)%Z end.

(** [k] bits of an integer, least significant first. *)
Definition int_bits (v : Z) (k : nat) : list bool :=
  map (fun j => Z.testbit v (Z.of_nat j)) (seq 0 k).

(** Group number [i] of [k] bits of a stream (the last one may be short). *)
Definition group (l : list bool) (k i : nat) : list bool := firstn k (skipn (i * k) l).

(** Number of groups of [k] bits needed for [n] bits. *)
Definition ngroups (n k : nat) : nat := (n + k - 1) / k.

(** Documented differential encoder: y_n = x_n xor y_(n-1), from [prev]. *)
Fixpoint denc (prev : bool) (l : list bool) : list bool :=
  match l with [] => [] | b :: t => let y := xorb b prev in y :: denc y t end.

(** Documented differential decoder: y_n = x_n xor x_(n-1), one bit less. *)
Fixpoint ddec (l : list bool) : list bool :=
  match l with
  | a :: ((b :: _) as t) => xorb b a :: ddec t
  | _ => []
  end.

(** Aperiodic autocorrelation of a binary code (+1/-1) at shift [tau]. *)
Definition acorr (l : list bool) (tau : nat) : Z :=
  fold_right Z.add 0%Z
    (map (fun t => if Bool.eqb (nth t l false) (nth (t + tau) l false) then 1%Z else (-1)%Z)
         (seq 0 (length l - tau))).
