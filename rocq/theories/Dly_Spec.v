(** Specification of the delays: interpolation kernels. *)
From Coq Require Import Reals ZArith.
From Verif Require Import Base RField DftSys ComplexSys Rii_Model.
Local Open Scope R_scope.

(** mean of the exponentials of period n and frequencies - n/2 ... n/2 - 1 at the instant u; its real part *)
Definition kern (n : nat) (u : R) : Complex := (sum n (fun k => eit (2 * PI * (INR k - INR (n / 2)) * u / INR n)) / re (INR n))%K.
Definition rkern (n : nat) (u : R) : R := sum (K := Rring) n (fun k => cos (2 * PI * (INR k - INR (n / 2)) * u / INR n)) / INR n.
