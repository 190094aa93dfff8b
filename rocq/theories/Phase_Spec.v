(** Specification of modulo and phase unwrapping (C40). *)
From Coq Require Import Reals.
From Verif Require Import Base.
Open Scope R_scope.

(** x and y differ by a whole number of periods m. *)
Definition congruent (m x y : R) : Prop := exists k : Z, x - y = IZR k * m.
(** Consecutive values never differ by more than h. *)
Fixpoint jumps_within (h : R) (y : list R) : Prop :=
  match y with
  | a :: ((b :: _) as t) => Rabs (b - a) <= h /\ jumps_within h t
  | _ => True
  end.
(** Consecutive values differ by strictly less than h. *)
Fixpoint slow (h : R) (y : list R) : Prop :=
  match y with
  | a :: ((b :: _) as t) => Rabs (b - a) < h /\ slow h t
  | _ => True
  end.
