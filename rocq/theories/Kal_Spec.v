(** Specification side of the Kalman filter: random quantities, the linear system they follow, the arrays
    given to the filter. *)
From Coq Require Import List Arith Reals.
From Verif Require Import Base Kal_Model.
Import ListNotations.
Local Open Scope R_scope.

(** Expectation of real random variables on a set of outcomes: linear, normalised, positive. *)
Record expectation {Om : Type} (E : (Om -> R) -> R) : Prop := {
  E_add : forall f g, E (fun o => f o + g o) = E f + E g;
  E_scal : forall a f, E (fun o => a * f o) = a * E f;
  E_one : E (fun _ => 1) = 1;
  E_pos : forall f, (forall o, 0 <= f o) -> 0 <= E f }.

(** [b] is the inverse of the square matrix [a]; a routine which returns the inverse of every invertible matrix. *)
Definition inverse_of (n : nat) (a b : nat -> nat -> R) : Prop :=
  (forall i j, (i < n)%nat -> (j < n)%nat -> sg n (fun k => a i k * b k j) = if (i =? j)%nat then 1 else 0) /\
  (forall i j, (i < n)%nat -> (j < n)%nat -> sg n (fun k => b i k * a k j) = if (i =? j)%nat then 1 else 0).
Definition inverts (inv : nat -> (nat -> nat -> R) -> nat -> nat -> R) : Prop :=
  forall n a b, inverse_of n a b -> forall i j, (i < n)%nat -> (j < n)%nat -> inv n a i j = b i j.

(** An array of the given dimensions. *)
Definition dims (r c : nat) (a : mat) : Prop :=
  rows a = r /\ cols a = c /\ forall i j, (r <= i \/ c <= j)%nat -> el a i j = 0.

(** Column vector with the given entries. *)
Definition colv (n : nat) (f : nat -> R) : mat := mk n 1 (fun i _ => f i).

(** Dimensions of a linear model: the matrices of the inputs are absent or have the right size. *)
Record wf_lin (m : lin) : Prop := {
  wf_A : dims (ns m) (ns m) (mA m);
  wf_C : dims (no m) (ns m) (mC m);
  wf_B : dims (ns m) (ni m) (mB m) \/ dims 0 0 (mB m);
  wf_D : dims (no m) (ni m) (mD m) \/ dims 0 0 (mD m);
  wf_Q : dims (ns m) (ns m) (mQ m);
  wf_R : dims (no m) (no m) (mR m) }.

(** Quadratic form of a square array; positive definite matrix. *)
Definition quad (n : nat) (a : mat) (v : nat -> R) : R :=
  sg n (fun i => sg n (fun j => v i * el a i j * v j)).
Definition symmetric (a : mat) : Prop := forall i j, el a i j = el a j i.
Definition pos_def (n : nat) (a : mat) : Prop :=
  symmetric a /\ forall v, (exists i, (i < n)%nat /\ v i <> 0) -> 0 < quad n a v.
Definition pos_semi (n : nat) (a : mat) : Prop :=
  symmetric a /\ forall v, 0 <= quad n a v.

Section Process.
Context {Om : Type}.
Variable E : (Om -> R) -> R.

(** The system x_t = A x_{t-1} + B u_t + v_t,  y_t = C x_t + D u_t + w_t, from t = 1 on, for every outcome. *)
Record follows (m : lin) (x y : nat -> Om -> nat -> R) (u : nat -> nat -> R) (v w : nat -> Om -> nat -> R)
    : Prop := {
  f_state : forall t o i, (i < ns m)%nat ->
    x (S t) o i = sg (ns m) (fun k => el (mA m) i k * x t o k)
                  + sg (ni m) (fun k => el (mB m) i k * u (S t) k) + v (S t) o i;
  f_obs : forall t o i, (i < no m)%nat ->
    y (S t) o i = sg (ns m) (fun k => el (mC m) i k * x (S t) o k)
                  + sg (ni m) (fun k => el (mD m) i k * u (S t) k) + w (S t) o i }.

(** Noises of the instants 1 .. T: centred, white, mutually uncorrelated, with covariance matrices Q and R, and uncorrelated with the
    error on the initial state, which is centred with covariance matrix p0. *)
Record noises (T : nat) (m : lin) (x : nat -> Om -> nat -> R) (v w : nat -> Om -> nat -> R) (x0 p0 : mat) : Prop := {
  n_e0 : forall i, (i < ns m)%nat -> E (fun o => x 0%nat o i - el x0 i 0) = 0;
  n_p0 : forall i j, (i < ns m)%nat -> (j < ns m)%nat ->
    E (fun o => (x 0%nat o i - el x0 i 0) * (x 0%nat o j - el x0 j 0)) = el p0 i j;
  n_v : forall t i, (t < T)%nat -> (i < ns m)%nat -> E (fun o => v (S t) o i) = 0;
  n_w : forall t i, (t < T)%nat -> (i < no m)%nat -> E (fun o => w (S t) o i) = 0;
  n_vv : forall t i j, (t < T)%nat -> (i < ns m)%nat -> (j < ns m)%nat ->
    E (fun o => v (S t) o i * v (S t) o j) = el (mQ m) i j;
  n_ww : forall t i j, (t < T)%nat -> (i < no m)%nat -> (j < no m)%nat ->
    E (fun o => w (S t) o i * w (S t) o j) = el (mR m) i j;
  n_vv' : forall s t i j, (s < T)%nat -> (t < T)%nat -> s <> t -> (i < ns m)%nat -> (j < ns m)%nat ->
    E (fun o => v (S s) o i * v (S t) o j) = 0;
  n_ww' : forall s t i j, (s < T)%nat -> (t < T)%nat -> s <> t -> (i < no m)%nat -> (j < no m)%nat ->
    E (fun o => w (S s) o i * w (S t) o j) = 0;
  n_vw : forall s t i j, (s < T)%nat -> (t < T)%nat -> (i < ns m)%nat -> (j < no m)%nat ->
    E (fun o => v (S s) o i * w (S t) o j) = 0;
  n_ev : forall t i j, (t < T)%nat -> (i < ns m)%nat -> (j < ns m)%nat ->
    E (fun o => (x 0%nat o i - el x0 i 0) * v (S t) o j) = 0;
  n_ew : forall t i j, (t < T)%nat -> (i < ns m)%nat -> (j < no m)%nat ->
    E (fun o => (x 0%nat o i - el x0 i 0) * w (S t) o j) = 0 }.

(** The observations and inputs of the instants 1 .. T, as given to the successive steps of the filter. *)
Definition feed (m : lin) (y : nat -> Om -> nat -> R) (u : nat -> nat -> R) (T : nat) (o : Om)
    : list (mat * mat) :=
  map (fun t => (colv (no m) (y t o), colv (ni m) (u t))) (seq 1 T).

(** Affine function of the observations of the instants 1 .. T. *)
Definition affine (n : nat) (y : nat -> Om -> nat -> R) (T : nat) (c : R) (a : nat -> nat -> R) (o : Om) : R :=
  c + sg T (fun s => sg n (fun j => a s j * y (S s) o j)).
End Process.
