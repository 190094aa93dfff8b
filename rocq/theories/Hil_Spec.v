(** Specification vocabulary for the Hilbert transform. *)
From Coq Require Import Reals.
From Verif Require Import Base RField.
Local Open Scope R_scope.
(** The ideal Hilbert transformer (-90 degrees at every positive frequency) at the instant k. *)
Definition ideal_hilbert (k : Z) : R := if Z.even k then 0 else 2 / (PI * IZR k).
(** Odd symmetry around the centre. *)
Definition antisymmetric (h : list R) : Prop := forall i, (i < length h)%nat -> nth i h 0 = - nth (length h - 1 - i) h 0.
(** Amplitude of the response of an antisymmetric filter of 2 m + 1 taps at the angular frequency om. *)
Definition amplitude (h : list R) (m : nat) (om : R) : R := sum (K := Rring) m (fun k => 2 * nth (m + 1 + k) h 0 * sin (INR (k + 1) * om)).
