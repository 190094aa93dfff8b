(** Specification of the oscillators (C53). *)
From Coq Require Import Reals.
From Verif Require Import Base.
Open Scope R_scope.

(** The unit complex number of angle t. *)
Definition unit_at (t : R) : R * R := (cos t, sin t).
(** n samples of a complex exponential of normalised frequency f, from phase t. *)
Definition tone (t f : R) (n : nat) : list (R * R) := map (fun k => unit_at (t + 2 * PI * f * INR k)) (seq 0 n).
(** A phase-continuous sequence of tones: (frequency, number of samples) list. *)
Fixpoint tones (t : R) (l : list (R * nat)) : list (R * R) :=
  match l with [] => [] | (f, n) :: r => tone t f n ++ tones (t + 2 * PI * f * INR n) r end.
