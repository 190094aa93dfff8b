(** Specification for the special functions. *)
From Coq Require Import Reals.
From Verif Require Import Base RField.
Local Open Scope R_scope.
(** Dirichlet kernel: real and imaginary part of the sum of e^(-i w k) for k = -N .. N. *)
Definition dirichlet_re (N : nat) (w : R) : R := sum (K := Rring) (2 * N + 1) (fun j => cos ((INR j - INR N) * w)).
Definition dirichlet_im (N : nat) (w : R) : R := sum (K := Rring) (2 * N + 1) (fun j => - sin ((INR j - INR N) * w)).
