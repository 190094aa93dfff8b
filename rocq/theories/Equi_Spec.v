(** Specification side of the linear-phase responses and of the equiripple design. *)
From Coq Require Import List Arith ZArith Reals.
From Verif Require Import Base ComplexSys Chn_Spec.
Import ListNotations.
Local Open Scope R_scope.

(** Frequency response sum_k h_k exp(-2 i pi f k). *)
Definition response (h : list R) (f : R) : C :=
  (total (length h) (fun k => nth k h 0 * cos (2 * PI * f * INR k)), - total (length h) (fun k => nth k h 0 * sin (2 * PI * f * INR k))).
(** exp(-i t) *)
Definition delay_phase (t : R) : C := (cos t, - sin t).
Definition middle (h : list R) : R := (INR (length h) - 1) / 2.
Definition symmetric (h : list R) : Prop := forall k, (k < length h)%nat -> nth (length h - 1 - k) h 0 = nth k h 0.
Definition antisymmetric (h : list R) : Prop := forall k, (k < length h)%nat -> nth (length h - 1 - k) h 0 = - nth k h 0.
(** A is the (real) amplitude of h at f, the phase being that of the delay of the middle tap:
    response = A exp(-2 i pi f middle), or i A exp(-2 i pi f middle) for antisymmetric taps. *)
Definition has_amplitude (h : list R) (f A : R) : Prop := response h f = Cmul (A, 0) (delay_phase (2 * PI * f * middle h)).
Definition has_amplitude_i (h : list R) (f A : R) : Prop := response h f = Cmul (0, A) (delay_phase (2 * PI * f * middle h)).
(** Amplitude of symmetric taps. *)
Definition amp (h : list R) (f : R) : R := total (length h) (fun k => nth k h 0 * cos (2 * PI * f * (middle h - INR k))).
(** Least squares: x (of m elements) minimises the sum of the squares of A x - b. *)
Definition residual (A : list (list R)) (b x : list R) (i : nat) : R :=
  total (length x) (fun k => nth k (nth i A []) 0 * nth k x 0) - nth i b 0.
Definition sq_error (A : list (list R)) (b x : list R) : R := total (length A) (fun i => residual A b x i ^ 2).
Definition least_squares (lsq : list (list R) -> list R -> list R) : Prop :=
  forall A b m, (0 < length A)%nat -> length b = length A -> Forall (fun r => length r = m) A ->
    length (lsq A b) = m /\ forall x, length x = m -> sq_error A b (lsq A b) <= sq_error A b x.

(** Bands placed on a grid of l frequencies: first point, last point, level, weight. *)
Definition gband : Type := nat * nat * R * R.
(** Increasing disjoint bands inside the l points, the first point not before p. *)
Fixpoint ordered (l p : nat) (g : list gband) : Prop :=
  match g with [] => True | (lo, hi, _, _) :: g' => (p <= lo <= hi)%nat /\ (hi < l)%nat /\ ordered l (S hi) g' end.
(** Level at the point j: that of its band; between two bands, linear from one to the other; before and after the bands, 1. *)
Fixpoint level_at (g : list gband) (j : nat) : R :=
  match g with
  | [] => 1
  | (lo, hi, a, _) :: g' =>
      if (lo <=? j)%nat && (j <=? hi)%nat then a else
      match g' with
      | (lo', _, a', _) :: _ => if (hi <? j)%nat && (j <? lo')%nat then a + (a' - a) * (INR (j - hi) / INR (lo' - hi)) else level_at g' j
      | [] => 1
      end
  end.
(** Weight at the point j: that of its band (plus 1e-10), 1e-10 outside the bands. *)
Fixpoint weight_at (g : list gband) (j : nat) : R :=
  match g with
  | [] => / 10 ^ 10
  | (lo, hi, _, w) :: g' => if (lo <=? j)%nat && (j <=? hi)%nat then w + / 10 ^ 10 else weight_at g' j
  end.
(** j is the integer nearest to r. *)
Definition nearest (r : R) (j : nat) : Prop := INR j - 1 / 2 <= r < INR j + 1 / 2.
(** The band from fb to fh (fractions of the sampling frequency) with level att and weight w occupies, on l points
    covering 0 to 1/2, the points nearest to its limits (at most the last point). *)
Definition on_grid (l : nat) (fb fh att w : R) (g : gband) : Prop :=
  let '(lo, hi, a, v) := g in
  0 <= fb /\ nearest (2 * fb * INR l) lo /\ (exists hi', 0 <= fh /\ nearest (2 * fh * INR l) hi' /\ hi = Nat.min hi' (l - 1)) /\ att = a /\ w = v.
