(** Specification vocabulary for FIR design. *)
From Coq Require Import Reals.
From Verif Require Import Base RField.
Local Open Scope R_scope.
(** Impulse response of the ideal low-pass filter of cut-off fc: inverse transform of the gate [-fc, fc]. *)
Definition ideal_lp (fc : R) (k : Z) : R := if (k =? 0)%Z then 2 * fc else sin (2 * PI * fc * IZR k) / (PI * IZR k).
(** Sum of the coefficients (response at frequency 0). *)
Definition dc_gain (h : list R) : R := sum (K := Rring) (length h) (fun i => nth i h 0).
(** Unit impulse at index m. *)
Definition impulse (m i : nat) : R := if Nat.eqb i m then 1 else 0.
(** Values that increase up to the middle. *)
Definition rises_to_middle (w : list R) : Prop := forall i j, (i <= j <= length w / 2)%nat -> (j < length w)%nat -> nth i w 0 <= nth j w 0.
