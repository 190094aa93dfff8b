(** Specification vocabulary for interpolation. *)
From Verif Require Import Base OField.
Local Open Scope cring_scope.

(** Value in t of the polynomial with coefficients p (constant term first). *)
Definition peval {K : cring} (p : list K) (t : K) : K := sum (length p) (fun i => samp p i * cpow t i).

(** The images of 0, ..., d in the field are distinct. *)
Definition distinct_ints (F : cring) (d : nat) : Prop :=
  forall i j, (i <= d)%nat -> (j <= d)%nat -> cnat (K := F) i = cnat j -> i = j.

(** Strictly increasing abscissae; queries in increasing order. *)
Definition increasing {F : ofield} (x : list F) : Prop :=
  forall i j, (i < j < length x)%nat -> olt (samp x i) (samp x j).
Definition sorted {F : ofield} (q : list F) : Prop :=
  forall i j, (i < j < length q)%nat -> ole (samp q i) (samp q j).

(** v is the value in q of the function that is constant before the first point
    and after the last one and is given by f k (q - x_k) on (x_k, x_(k+1)]. *)
Definition piecewise {F : ofield} (x y : list F) (f : nat -> F -> F) (q v : F) : Prop :=
  let n := length x in
  (ole q (samp x 0) -> v = samp y 0) /\
  (olt (samp x 0) q -> ole (samp x (n - 1)) q -> v = samp y (n - 1)) /\
  (forall k, (k + 1 < n)%nat -> olt (samp x k) q -> ole q (samp x (k + 1)) -> v = f k (q - samp x k)).

(** The segment through (x_k, y_k) and (x_(k+1), y_(k+1)). *)
Definition segment {F : ofield} (x y : list F) (k : nat) (t : F) : F :=
  samp y k + t * ((samp y (k + 1) - samp y k) / (samp x (k + 1) - samp x k)).

(** Natural cubic spline through the points: on piece k the cubic
    a + b t + c t^2 + d t^3 (t from x_k) joins the two points, first and second
    derivatives agree between consecutive pieces, the second derivative is zero
    at both ends. *)
Record cubic (F : cring) := mkcubic { q_a : F; q_b : F; q_c : F; q_d : F }.
Arguments mkcubic {F}. Arguments q_a {F}. Arguments q_b {F}. Arguments q_c {F}. Arguments q_d {F}.
Definition ceval {F : cring} (s : cubic F) (t : F) : F :=
  q_a s + q_b s * t + q_c s * t * t + q_d s * t * t * t.
Definition ceval1 {F : cring} (s : cubic F) (t : F) : F := q_b s + cnat 2 * q_c s * t + cnat 3 * q_d s * t * t.
Definition ceval2 {F : cring} (s : cubic F) (t : F) : F := cnat 2 * q_c s + cnat 6 * q_d s * t.
Definition natural_spline {F : ofield} (x y : list F) (s : nat -> cubic F) : Prop :=
  let n := (length x - 1)%nat in
  let h k := samp x (k + 1) - samp x k in
  (forall k, (k < n)%nat -> ceval (s k) 0 = samp y k /\ ceval (s k) (h k) = samp y (k + 1)) /\
  (forall k, (k + 1 < n)%nat -> ceval1 (s k) (h k) = ceval1 (s (k + 1)%nat) 0 /\
                                ceval2 (s k) (h k) = ceval2 (s (k + 1)%nat) 0) /\
  ((0 < n)%nat -> ceval2 (s 0%nat) 0 = 0 /\ ceval2 (s (n - 1)%nat) (h (n - 1)%nat) = 0).
