(** Model of core/src/reechan/itrp.cc (linear, Lagrange and cardinal-spline
    fractional interpolators; interpolation of tables) and of
    InterpolateurRIF::step (core/include/tsd/filtrage.hpp:1872-1881).
    Arithmetic is exact (any field, ordered for the tables). *)
From Verif Require Import Base OField Filters_Model.
Local Open Scope cring_scope.

(** Difference of two int, converted to the sample type (j - k may be negative). *)
Definition cint {F : cfield} (j k : nat) : F := cnat j - cnat k.

(** ** itrp.cc:79-92, InterpolateurLineaire::coefs *)
Definition lin_coefs {F : cfield} (tau : F) : list F := [1 - tau; tau].

(** ** itrp.cc:94-131, InterpolateurLagrange::coefs *)
Definition lagrange_t {F : cfield} (d : nat) (tau : F) : F := (cnat d - 1) / cnat 2 + tau.
(** inner loop, lines 121-125 *)
Fixpoint lagrange_prod {F : cfield} (t : F) (j n : nat) : F :=
  match n with
  | O => 1
  | S k => let p := lagrange_prod t j k in
           if (k =? j)%nat then p else p * ((t - cnat k) / cint j k)
  end.
Definition lagrange_coefs {F : cfield} (d : nat) (tau : F) : list F :=
  map (fun j => lagrange_prod (lagrange_t d tau) j (d + 1)) (seq 0 (d + 1)).

(** ** itrp.cc:288-313, cspline_calc and cspline_filtre, and the table of
    cspline_calc_lut (column i is for the fraction i/n) *)
Definition cspline_calc {F : cfield} (t : F) : list F :=
  [ (1 + cnat 2 * t) * (t - 1) * (t - 1); t * (t - 1) * (t - 1);
    t * t * (cnat 3 - cnat 2 * t); t * t * (t - 1) ].
Definition cspline_filtre {F : cfield} (t c : F) : list F :=
  let h := cspline_calc t in
  [ - (1 - c) * samp h 1 / cnat 2; samp h 0 - (1 - c) * samp h 3 / cnat 2;
    samp h 2 + (1 - c) * samp h 1 / cnat 2; (1 - c) * samp h 3 / cnat 2 ].
Definition cspline_lut {F : cfield} (n : nat) (c : F) : list (list F) :=
  map (fun i => cspline_filtre (cnat i / cnat n) c) (seq 0 (n + 1)).

(** ** filtrage.hpp:1872-1881, InterpolateurRIF::step, with h = coefs(tau) *)
Definition itrp_step {F : cfield} (h x : list F) (K k : nat) : res F :=
  if negb (length h =? K)%nat then Exc else
  loop K (fun i s => let* m := imod (i + k) K in let* v := vget x m in
                     let* c := vget h i in Ok (s + c * v)) 0.

(** ** itrp.cc:160-185, interp_lin *)
(** for(; x(j) < q; j++); the fuel is the number of points (an index beyond the
    last point throws). *)
Fixpoint seek {F : ofield} (x : list F) (fuel j : nat) (q : F) : res nat :=
  match fuel with
  | O => Exc
  | S f => let* v := vget x j in if oltb v q then seek x f (j + 1) q else Ok j
  end.
Definition lin_query {F : ofield} (x y : list F) (j : nat) (q : F) : res (nat * F) :=
  let n := Z.of_nat (length x) in
  let* x0 := vget x 0 in
  let* xl := vgetZ x (n - 1) in
  if oleb q x0 then let* v := vget y 0 in Ok (j, v)
  else if oleb xl q then let* v := vgetZ y (n - 1) in Ok (j, v)
  else
    let* j := seek x (S (length x)) j q in
    let* xa := vgetZ x (Z.of_nat j - 1) in
    let* xb := vget x j in
    let a := (q - xa) / (xb - xa) in
    let* ya := vgetZ y (Z.of_nat j - 1) in
    let* yb := vget y j in
    Ok (j, (1 - a) * ya + a * yb).
Definition interp_lin {F : ofield} (x y x2 : list F) : res (list F) :=
  let* (_, r) := map_st (lin_query x y) 0%nat x2 in Ok r.

(** ** itrp.cc:199-251, interp_cspline (at least one point).  The arrays are
    written as functions of the index; all indices are in range since x and y
    have n + 1 elements (checked by interp). *)
Section CSpline.
Context {F : ofield} (x y : list F).
Definition cs_n : nat := length x - 1.
(** line 214, H = diff(x) *)
Definition cs_H (i : nat) : F := samp x (i + 1) - samp x i.
(** lines 216-217 *)
Definition cs_Y (i : nat) : F :=
  cnat 3 / cs_H i * (samp y (i + 1) - samp y i) - cnat 3 / cs_H (i - 1) * (samp y i - samp y (i - 1)).
(** lines 219-225: U(i) and Z(i) *)
Fixpoint cs_fwd (i : nat) : F * F :=
  match i with
  | O => (0, 0)
  | S p =>
      let (u, z) := cs_fwd p in
      let l := cnat 2 * (samp x (i + 1) - samp x (i - 1)) - cs_H (i - 1) * u in
      (cs_H i / l, (cs_Y i - cs_H (i - 1) * z) / l)
  end.
(** lines 226-230: C(n - k) *)
Fixpoint cs_back (k : nat) : F :=
  match k with
  | O => 0
  | S p => let (u, z) := cs_fwd (cs_n - k) in z - u * cs_back p
  end.
Definition cs_C (i : nat) : F := cs_back (cs_n - i).
(** lines 231-232 *)
Definition cs_B (i : nat) : F :=
  (samp y (i + 1) - samp y i) / cs_H i - cs_H i * (cs_C (i + 1) + cnat 2 * cs_C i) / cnat 3.
Definition cs_D (i : nat) : F := (cs_C (i + 1) - cs_C i) / (cnat 3 * cs_H i).
(** lines 236-251 *)
Definition cs_query (j : nat) (q : F) : res (nat * F) :=
  let n := Z.of_nat (length x) in
  let* x0 := vget x 0 in
  let* xl := vgetZ x (n - 1) in
  if oleb q x0 then let* v := vget y 0 in Ok (j, v)
  else if oleb xl q then let* v := vgetZ y (n - 1) in Ok (j, v)
  else
    let* j := seek x (S (length x)) j q in
    let k := (Z.of_nat j - 1)%Z in
    let* xk := vgetZ x k in
    let* yk := vgetZ y k in
    let t := q - xk in
    let k := Z.to_nat k in
    Ok (j, yk + cs_B k * t + cs_C k * t * t + cs_D k * t * t * t).
End CSpline.
Definition interp_cspline {F : ofield} (x y x2 : list F) : res (list F) :=
  let* (_, r) := map_st (cs_query x y) 0%nat x2 in Ok r.

(** itrp.cc:257-268, interp *)
Definition interp {F : ofield} (lin : bool) (x y x2 : list F) : res (list F) :=
  if negb (length x =? length y)%nat then Exc
  else if lin then interp_lin x y x2 else interp_cspline x y x2.
