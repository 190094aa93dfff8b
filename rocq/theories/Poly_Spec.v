(** Specification for polynomials and rational functions: their value at a point. *)
From Verif Require Import Base Poly_Model.
Local Open Scope cring_scope.
(** Sum of c_i x^i. *)
Definition pval {K : cring} (c : list K) (x : K) : K := sum (length c) (fun i => samp c i * cpow x i).
(** Product of (x - r_i). *)
Fixpoint rprod {K : cring} (r : list K) (x : K) : K := match r with [] => 1 | a :: t => (x - a) * rprod t x end.
(** Value of a polynomial given by its coefficients, or by its roots and leading coefficient. *)
Definition value {K : cring} (p : poly K) (x : K) : K :=
  if p_roots p then p_mlt p * rprod (p_coefs p) x else pval (p_coefs p) x.
(** Value of a rational function. *)
Definition fvalue {K : cfield} (f : frat K) (x : K) : K := value (f_num f) x / value (f_den f) x.
(** The pair of representations which operator* handles properly: not (roots) * (coefficients). *)
Definition fits {K : cring} (p q : poly K) : Prop := p_roots p = true -> p_roots q = true.
(** Transfer function of taps a: sum of a_k z^(-k). *)
Definition transfer {K : cfield} (a : list K) (z : K) : K := sum (length a) (fun k => samp a k * cpow (finv z) k).
