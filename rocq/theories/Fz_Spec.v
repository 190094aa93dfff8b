(** Specification vocabulary for filter responses (C78). *)
From Coq Require Import Reals.
From Verif Require Import Base RField DftSys ComplexSys Poly_Model Poly_Spec Rii_Model Fz_Model.
Local Open Scope R_scope.
(** Sum of a real sequence over n terms. *)
Definition rsumn (n : nat) (f : nat -> R) : R := sum (K := Rring) n f.
(** Response of taps h at frequency f: sum of h_k exp(-2 pi i f k). *)
Definition resp (h : list R) (f : R) : C :=
  (rsumn (length h) (fun k => nth k h 0 * cos (2 * PI * f * INR k)), - rsumn (length h) (fun k => nth k h 0 * sin (2 * PI * f * INR k))).
(** Response of a design: that of its taps, or the value of its rational function at exp(2 pi i f). *)
Definition response (d : design) (f : R) : C :=
  match d with D_rif h => resp h f | D_real g => fvalue (f_cplx g) (eit (2 * PI * f)) | D_cplx g => fvalue g (eit (2 * PI * f)) end.
(** Designs which are not an empty list of taps. *)
Definition proper (d : design) : Prop := match d with D_rif [] => False | _ => True end.
(** On the grid i / (2 n), the response is a real amplitude g_i times the response of a delay of D samples. *)
Definition linear_phase (d : design) (n : nat) (D : R) (g : nat -> R) : Prop :=
  forall i, (i < n)%nat -> let f := INR i / (2 * INR n) in response d f = (g i * cos (2 * PI * f * D), - (g i * sin (2 * PI * f * D))).
(** Real amplitude of symmetric taps at frequency f, around their centre (n - 1) / 2. *)
Definition amplitude (h : list R) (f : R) : R := rsumn (length h) (fun k => nth k h 0 * cos (2 * PI * f * ((INR (length h) - 1) / 2 - INR k))).
(** Symmetric taps. *)
Definition sym (h : list R) : Prop := forall k, (k < length h)%nat -> nth (length h - 1 - k) h 0 = nth k h 0.
(** Samples of the complex exponential a exp(2 pi i f n). *)
Definition ctone (a : Complex) (f : R) (N : nat) : list Complex := map (fun n => (a * (eit (2 * PI * f * INR n) : Complex))%K) (seq 0 N).
