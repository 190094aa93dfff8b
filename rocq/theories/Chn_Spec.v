(** Specification side of the channel simulators. *)
From Coq Require Import List Arith ZArith Reals.
From Verif Require Import Base ComplexSys Sig_Spec.
Import ListNotations.
Local Open Scope R_scope.

(** Sum and mean of finitely many values. *)
Fixpoint total (n : nat) (f : nat -> R) : R := match n with O => 0 | S n' => total n' f + f n' end.
Definition mean (n : nat) (f : nat -> R) : R := total n f / INR n.

(** Power of a block: mean of the squared moduli. *)
Definition power (x : list C) : R := mean (length x) (fun k => Cnorm2 (nth k x (0, 0))).

(** Sample number k of a signal. *)
Definition smp (x : list C) (k : nat) : C := nth k x (0, 0).

(** Rotation of a sample by a frequency offset f (cycles per sample) and a phase offset phi, at the instant k. *)
Definition rotated (f phi : R) (k : nat) (z : C) : C := Cmul z (unit_at (2 * PI * f * INR k + phi)).

(** Successive deliveries of a source asked for ms samples: the state and the samples obtained each time. *)
Inductive delivers {S X : Type} (gen : S -> nat -> res (S * list X)) : S -> list (list X) -> S -> Prop :=
| del_nil s : delivers gen s [] s
| del_cons s m s1 g s2 gs : gen s m = Ok (s1, g) -> delivers gen s1 gs s2 -> delivers gen s (g :: gs) s2.
