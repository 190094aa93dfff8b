(** Properties C21 and C22: interpolators and interpolation of tables. *)
From Coq Require Import QArith_base Qcanon. Close Scope Q_scope. Close Scope Qc_scope.
From Verif Require Import Base BaseLemmas Fields OField Interp_Model Interp_Spec Interp_Proofs Interp_Proofs2.

(** ** C21: reproduction of polynomials.  The window holds the samples of the
    polynomial p at 0, 1, ..., d (oldest at index k, circular).  The field must
    tell 0, ..., d apart (always true of ordered fields, see the next theorem). *)
Theorem C21_lagrange : forall (F : cfield) d (tau : F) (p x : list F) k,
  distinct_ints F d -> length p <= d + 1 -> d + 1 <= length x ->
  (forall i, i <= d -> samp x ((i + k) mod (d + 1)) = peval p (cnat i)) ->
  itrp_step (lagrange_coefs d tau) x (d + 1) k = Ok (peval p ((cnat d - c1) / cnat 2 + tau)%K).
Proof. exact lagrange_step. Qed.
Print Assumptions C21_lagrange.

Theorem C21_ordered_field_distinct : forall (F : ofield) d, distinct_ints F d.
Proof. exact ofield_distinct. Qed.
Print Assumptions C21_ordered_field_distinct.

Theorem C21_linear : forall (F : cfield) (tau a b : F) (x : list F) k, 2 <= length x ->
  (forall i, i <= 1 -> samp x ((i + k) mod 2) = (a + b * cnat i)%K) ->
  itrp_step (lin_coefs tau) x 2 k = Ok (a + b * tau)%K.
Proof. exact linear_step. Qed.
Print Assumptions C21_linear.

(** The cardinal spline coefficients: total weight one, exact at the two
    middle points for every tension, exact on parabolas for zero tension (the
    default); column i of the table of n phases is the filter for i/n. *)
Theorem C21_cspline : forall (F : cfield), cnat (K := F) 2 <> c0 ->
  (forall t c : F, sum 4 (samp (cspline_filtre t c)) = c1) /\
  (forall c : F, cspline_filtre c0 c = [c0; c1; c0; c0] /\ cspline_filtre c1 c = [c0; c0; c1; c0]) /\
  (forall (a b e t : F) (x : list F) k, 4 <= length x ->
    (forall i, i < 4 -> samp x ((i + k) mod 4) = (let u := cnat i - c1 in a + b * u + e * u * u)%K) ->
    itrp_step (cspline_filtre t c0) x 4 k = Ok (a + b * t + e * t * t)%K) /\
  (forall n (c : F) i, i <= n -> nth i (cspline_lut n c) [] = cspline_filtre (cnat i / cnat n)%K c).
Proof.
  intros F H. split; [intros; apply cspline_sum; exact H|]. split; [intros; apply cspline_knots; exact H|].
  split; [intros; apply cspline_quadratic; assumption|intros; apply cspline_lut_col; assumption].
Qed.
Print Assumptions C21_cspline.

Example C21_case : (* p = 1 + t^3 on 0..3, tau = 1/2: t = 3/2 *)
  let x := [qc 1 1; qc 2 1; qc 9 1; qc 28 1] in
  exists v, itrp_step (lagrange_coefs 3 (qc 1 2)) x 4 0 = Ok v /\ this (v : Qc) = (35 # 8)%Q.
Proof. eexists. split; [vm_compute; reflexivity|]. reflexivity. Qed.

(** ** C22: interpolation of a table *)

(** Linear mode: for strictly increasing abscissae and increasing queries, every
    result is the value of the segment that contains the query, clamped to the
    end values outside. *)
Theorem C22_linear : forall (F : ofield) (x y qs : list F), increasing x -> 0 < length x ->
  length y = length x -> sorted qs ->
  exists r, interp true x y qs = Ok r /\ length r = length qs /\
   forall i, i < length qs -> piecewise x y (segment x y) (samp qs i) (samp r i).
Proof.
  intros F x y qs H1 H2 H3 H4. unfold interp. rewrite H3, Nat.eqb_refl. apply interp_lin_ok; assumption.
Qed.
Print Assumptions C22_linear.

(** Spline mode: same, with the pieces of a natural cubic spline. *)
Theorem C22_cspline : forall (F : ofield) (x y qs : list F), increasing x -> 0 < length x ->
  length y = length x -> sorted qs ->
  exists s r, natural_spline x y s /\ interp false x y qs = Ok r /\ length r = length qs /\
   forall i, i < length qs -> piecewise x y (fun k => ceval (s k)) (samp qs i) (samp r i).
Proof.
  intros F x y qs H1 H2 H3 H4. unfold interp. rewrite H3, Nat.eqb_refl. apply interp_cspline_ok; assumption.
Qed.
Print Assumptions C22_cspline.

(** Every query falls in one of the cases of [piecewise], so the value is determined. *)
Theorem C22_value_determined : forall (F : ofield) (x y : list F) f q v w, 0 < length x ->
  piecewise x y f q v -> piecewise x y f q w -> v = w.
Proof. exact piecewise_fun. Qed.
Print Assumptions C22_value_determined.

Theorem C22_size_mismatch : forall (F : ofield) lin (x y qs : list F), length x <> length y -> interp lin x y qs = Exc.
Proof. intros F lin x y qs H. unfold interp. destruct (Nat.eqb_spec (length x) (length y)); [contradiction|reflexivity]. Qed.
Print Assumptions C22_size_mismatch.

(** Finding: the search position is never reset, so a query smaller than the
    previous one is extrapolated from the wrong segment: points (0,0), (1,1),
    (2,0), queries 3/2 then 1/2: the second value is 3/2 instead of 1/2. *)
Definition t_x : list Qcofield := [qc 0 1; qc 1 1; qc 2 1].
Definition t_y : list Qcofield := [qc 0 1; qc 1 1; qc 0 1].
Theorem C22_any_order_refuted :
  (let* r := interp true t_x t_y [qc 3 2; qc 1 2] in Ok (map (fun v : Qc => this v) r)) = Ok [1 # 2; 3 # 2]%Q /\
  (let* r := interp true t_x t_y [qc 1 2] in Ok (map (fun v : Qc => this v) r)) = Ok [1 # 2]%Q.
Proof. split; vm_compute; reflexivity. Qed.
Print Assumptions C22_any_order_refuted.

Example C22_case : increasing t_x /\ sorted ([qc 1 2; qc 3 2] : list Qcofield) /\
  (let* r := interp true t_x t_y [qc 1 2; qc 3 2] in Ok (map (fun v : Qc => this v) r)) = Ok [1 # 2; 1 # 2]%Q /\
  (let* r := interp false t_x t_y [qc 1 2; qc 3 2] in Ok (map (fun v : Qc => this v) r)) = Ok [11 # 16; 11 # 16]%Q.
Proof.
  split; [|split; [|split; vm_compute; reflexivity]].
  - intros i j H. cbn [length t_x] in H. destruct i as [|[|i]], j as [|[|[|j]]]; try lia; vm_compute; reflexivity.
  - intros i j H. cbn [length] in H. destruct i as [|i], j as [|[|j]]; try lia. vm_compute. reflexivity.
Qed.
