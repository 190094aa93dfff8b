(** Specification of the classical analog low-pass prototypes. *)
From Coq Require Import Reals.
From Verif Require Import Base ComplexSys Poly_Model Rii_Model.
Local Open Scope R_scope.
(** the point i w of the imaginary axis (pulsation w of the Laplace transform); complex conjugate *)
Definition im (w : R) : Cfield := (0, w).
Definition conj (z : Cfield) : Cfield := Cconj z.
(** squared gain of a transfer function at a point *)
Definition gain2 (h : frat Cfield) (z : Cfield) : R := Cnorm2 (f_horner h z).
(** poles (as given by the factorised form) in the left half-plane, in the unit disc *)
Definition stable_s (h : frat Cfield) : Prop := p_roots (f_den h) = true /\ forall p, In p (p_coefs (f_den h)) -> fst p < 0.
Definition stable_z (h : frat Cfield) : Prop := p_roots (f_den h) = true /\ forall p, In p (p_coefs (f_den h)) -> Cnorm2 p < 1.
(** Chebyshev polynomials: T_0 = 1, T_1 = x, T_(n+1) = 2 x T_n - T_(n-1) *)
Fixpoint T (n : nat) (x : R) : R := match n with O => 1 | S m => match m with O => x | S k => 2 * x * T m x - T k x end end.
