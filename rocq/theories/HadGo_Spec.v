(** Specification for the Hadamard transform. *)
From Verif Require Import Base Filters_Spec.
Local Open Scope cring_scope.
(** Number of positions t < k where both i and j have a binary digit 1. *)
Fixpoint common_ones (k i j : nat) : nat :=
  match k with
  | O => 0%nat
  | S m => (common_ones m i j + (if Nat.testbit i m && Nat.testbit j m then 1 else 0))%nat
  end.
(** Entry (i, j) of the Hadamard matrix of size 2^k: (-1)^(number of common ones). *)
Definition had {K : cring} (k i j : nat) : K := cpow (- (1)) (common_ones k i j).
