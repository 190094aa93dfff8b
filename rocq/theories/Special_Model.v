(** Model of core/src/divers.cc: Chebyshev polynomials (any ring of coefficients),
    cardinal sine and Dirichlet kernel (real numbers, no rounding). *)
From Coq Require Import Reals.
From Verif Require Import Base Poly_Model Phase_Model.
Local Open Scope cring_scope.

(** divers.cc:46-51: body of the loop, T2 = 2 z T1 - T0 (the product is (2 z) * T1, frat.hpp:448-451 and 320-360);
    the pair is (T0, T1) *)
Definition cheb_body {K : cring} (s : poly K * poly K) : poly K * poly K :=
  (snd s, p_sub (p_mul (p_scale p_z (1 + 1)) (snd s)) (fst s)).
(** divers.cc:34-54 Chebychev_TU; espece is a bool: [espece == 1] is the bool itself *)
Definition Chebychev_TU {K : cring} (n : Z) (espece : bool) : poly K :=
  let T0 := p_one in
  let T1 := if espece then p_z else p_scale p_z (1 + 1) in
  if (n =? 0)%Z then T0
  else if (n =? 1)%Z then T1
  else snd (Nat.iter (Z.to_nat (n - 1)) cheb_body (T0, T1)).
(** conversion of an int argument to bool *)
Definition bool_of_int (i : Z) : bool := negb (i =? 0)%Z.
(** divers.cc:56-59, 61-64 *)
Definition Chebychev_T {K : cring} (n : Z) : poly K := Chebychev_TU n (bool_of_int 1).
Definition Chebychev_U {K : cring} (n : Z) : poly K := Chebychev_TU n (bool_of_int 2).

Section Reals.
  Open Scope R_scope.
  (** divers.cc:6-12 sinc(T, f) *)
  Definition sinc_T (T f : R) : R :=
    let a := PI * T * f in
    if Rlt_dec (Rabs a) (/ 10 ^ 7) then T else sin a / (PI * f).
  (** divers.cc:14-18 sinc(t) *)
  Definition sinc1 (t : R) : R := sinc_T 1 t.
  (** divers.cc:21-32 Dirichlet(N, W); the warning is not modelled *)
  Definition Dirichlet (N : Z) (W : R) : R :=
    let eps := / 10 ^ 5 in
    let w := modulo_2pi W in
    if Rlt_dec w eps then 2 * IZR N + 1
    else if Rlt_dec (2 * PI - w) eps then 2 * IZR N + 1
    else sin ((IZR N + / 2) * w) / sin (w / 2).
End Reals.
