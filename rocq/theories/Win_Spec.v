(** Specification vocabulary for the windows. *)
From Coq Require Import Reals.
From Verif Require Import Base RField.
Local Open Scope R_scope.
(** Even symmetry around the centre. *)
Definition symmetric (w : list R) : Prop := forall i, (i < length w)%nat -> nth i w 0 = nth (length w - 1 - i) w 0.
(** Sum of M copies of the window shifted by H samples, at position i. *)
Definition overlap (w : list R) (M H i : nat) : R := sum (K := Rring) M (fun k => nth (i + k * H) w 0).
(** Real (zero phase) frequency response at the angular frequency om, centre of the window as origin. *)
Definition response (w : list R) (om : R) : R :=
  sum (K := Rring) (length w) (fun k => nth k w 0 * cos ((INR k - (INR (length w) - 1) / 2) * om)).
