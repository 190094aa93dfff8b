(** Specification of the SNR estimator. *)
From Coq Require Import Reals.
From Verif Require Import Base RField DftSys ComplexSys.
Local Open Scope R_scope.

(** sum of n reals *)
Fixpoint add_up (n : nat) (f : nat -> R) : R := match n with O => 0 | S m => add_up m f + f m end.
(** moment of order 2p of the samples 0..n of X, with the weights g (1-g)^age *)
Definition moment (g : R) (p : nat) (X : list Complex) (n : nat) : R := add_up (S n) (fun j => g * (1 - g) ^ (n - j) * Cnorm2 (samp X j) ^ p).
