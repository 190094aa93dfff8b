(** Specification vocabulary for decimation, oversampling and CIC filters. *)
From Verif Require Import Base Filters_Spec.
Local Open Scope cring_scope.

(** R-1 zeros after every sample. *)
Definition stuff {K : cring} (R : nat) (x : list K) : list K :=
  flat_map (fun v => v :: repeat 0 (R - 1)) x.

(** Coefficients multiplied by R, then padded by zeros to a multiple of R. *)
Definition ups_coefs {K : cring} (c : list K) (R : nat) : list K :=
  map (fun v => v * cnat R) c ++ repeat 0 ((R - length c mod R) mod R).

(** Moving sum of width R of a signal on the integers, and its n-th iterate. *)
Definition box {K : cring} (R : nat) (f : Z -> K) (n : Z) : K :=
  sum R (fun i => f (n - Z.of_nat i)%Z).
Fixpoint box_n {K : cring} (N R : nat) (f : Z -> K) : Z -> K :=
  match N with O => f | S m => box R (box_n m R f) end.

(** Half-band shape: odd centre, centre tap [half], other odd taps zero. *)
Definition half_band {K : cring} (half : K) (h : list K) : Prop :=
  (length h / 2) mod 2 = 1%nat /\ samp h (length h / 2) = half /\
  forall k, (k < length h)%nat -> k mod 2 = 1%nat -> k <> (length h / 2)%nat -> samp h k = 0.
