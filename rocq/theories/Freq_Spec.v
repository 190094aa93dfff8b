(** Specification vocabulary for the frequency sampling design. *)
From Coq Require Import Reals.
From Verif Require Import Base RField.
Local Open Scope R_scope.
(** Frequencies k / (2 M), k < M. *)
Definition grid (M : nat) : list R := map (fun k => INR k / (2 * INR M)) (seq 0 M).
