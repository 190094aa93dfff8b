(** Specification of the carrier recovery. *)
From Coq Require Import Reals.
From Verif Require Import Base.
Local Open Scope R_scope.

(** the complex number of modulus a and angle t *)
Definition at_angle (a t : R) : R * R := (a * cos t, a * sin t).
(** a table of the complex exponential whose angle is wrong by at most eps (and whose modulus is at most 1) *)
Definition osc_within (eps : R) (osc : R -> res (R * R)) : Prop :=
  forall t, exists a d, 0 < a <= 1 /\ Rabs d <= eps /\ osc t = Ok (at_angle a (t + d)).
(** the samples 0 .. n-1 of a carrier of amplitude A, initial phase phi and pulsation w (radians per sample) *)
Definition carrier (A : nat -> R) (phi w : R) (n : nat) : list (R * R) :=
  map (fun k => at_angle (A k) (phi + w * INR k)) (seq 0 n).
(** the distance of a sequence to c is ultimately at most L *)
Definition ultimately_within (e : nat -> R) (c L : R) : Prop :=
  forall eta, 0 < eta -> exists n, forall k, (n <= k)%nat -> Rabs (e k - c) <= L + eta.
(** the same carrier bearing symbols: the phase of sample k is shifted by psi k *)
Definition modulated (A : nat -> R) (phi w : R) (psi : nat -> R) (n : nat) : list (R * R) :=
  map (fun k => at_angle (A k) (phi + w * INR k + psi k)) (seq 0 n).
(** a detector that returns the phase error, whatever the amplitude and the symbol: every angle
    t + psi with |t| < B and psi the phase of a symbol *)
Definition detects (p : R * R -> res R) (B : R) (symbol : R -> Prop) : Prop :=
  forall a t psi, 0 < a -> Rabs t < B -> symbol psi -> p (at_angle a (t + psi)) = Ok t.
