(** Specification vocabulary for filter design. *)
From Verif Require Import Base OField.
Local Open Scope cring_scope.
(** (-1)^k *)
Definition alt {K : cring} (k : nat) : K := if Nat.odd k then - (1) else 1.
(** Signal multiplied by (-1)^k: spectrum shifted by half the sampling frequency. *)
Definition alternate {K : cring} (x : list K) : list K := map (fun k => alt k * samp x k) (seq 0 (length x)).
(** Symmetric, antisymmetric impulse response. *)
Definition symmetric {K : cring} (h : list K) : Prop := forall k, (k < length h)%nat -> samp h (length h - 1 - k) = samp h k.
Definition antisymmetric {K : cring} (h : list K) : Prop := forall k, (k < length h)%nat -> samp h (length h - 1 - k) = - samp h k.
(** Scalar product. *)
Definition dot {K : cring} (x y : list K) : K := sum (length x) (fun i => samp x i * samp y i).
From Coq Require Import Reals.
From Verif Require Import RField.
(** N samples of the affine signal a i + b. *)
Definition ramp (a b : R) (N : nat) : list R := map (fun i => (a * INR i + b)%R) (seq 0 N).
