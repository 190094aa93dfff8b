(** Specification of hard demodulation (C42). *)
From Coq Require Import Reals.
From Verif Require Import Base.
Open Scope R_scope.

(** Squared Euclidean distance between two points of the plane. *)
Definition sqdist (a b : R * R) : R := (fst a - fst b) ^ 2 + (snd a - snd b) ^ 2.
(** Index r designates, among M points, one at minimal distance from p. *)
Definition closest (M : nat) (pt : nat -> R * R) (p : R * R) (r : nat) : Prop :=
  (r < M)%nat /\ forall j, (j < M)%nat -> sqdist p (pt r) <= sqdist p (pt j).
(** The M points are pairwise distinct. *)
Definition distinct (M : nat) (pt : nat -> R * R) : Prop :=
  forall i j, (i < M)%nat -> (j < M)%nat -> pt i = pt j -> i = j.
(** A received point whose distance to point i is less than half the distance
    between point i and any other one. *)
Definition within_half (M : nat) (pt : nat -> R * R) (p : R * R) (i : nat) : Prop :=
  forall j, (j < M)%nat -> j <> i -> 4 * sqdist p (pt i) < sqdist (pt i) (pt j).
