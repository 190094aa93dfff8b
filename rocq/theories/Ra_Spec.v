(** Specification vocabulary for rate adaptation. *)
From Coq Require Import Reals.
From Verif Require Import Base.
Local Open Scope R_scope.
(** Sample number i of a signal which is d before its start. *)
Definition before {A} (d : A) (x : list A) (i : Z) : A := if (i <? 0)%Z then d else nth (Z.to_nat i) x d.
(** The K last samples up to number i. *)
Definition last_samples {A} (d : A) (x : list A) (K : nat) (i : Z) : list A :=
  map (fun j => before d x (i - Z.of_nat K + 1 + Z.of_nat j)) (seq 0 K).
(** y is x resampled by r: output k is interpolated at the instant k / r, from the last K samples received at that instant and the
    fractional part of it; there is one output for each k with k / r < number of inputs. *)
Definition resampled {A} (d : A) (K : nat) (f : list A -> R -> A) (r : R) (x y : list A) : Prop :=
  (forall k, (k < length y)%nat <-> INR k / r < INR (length x)) /\
  forall k, (k < length y)%nat -> exists i phi, INR k / r = IZR i + phi /\ 0 <= phi < 1 /\ nth k y d = f (last_samples d x K i) phi.
