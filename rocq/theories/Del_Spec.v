(** Specification for the delay estimation.  The linear correlation [xcorr_at] is in Fourier_Spec.v. *)
From Coq Require Import Reals ZArith.
From Verif Require Import Base RField DftSys ComplexSys Fourier_Spec.
Local Open Scope R_scope.

(** sum of the squared moduli *)
Definition energy (x : list Complex) : R := sum (K := Rring) (List.length x) (fun i => Cnorm2 (samp x i)).
(** modulus of the correlation at lag l *)
Definition xabs (x y : list Complex) (l : Z) : R := sqrt (Cnorm2 (xcorr_at x y l)).
(** y is x delayed by d samples (advanced when d < 0) and multiplied by c; null samples outside the vectors *)
Definition delayed (x y : list Complex) (d : Z) (c : Complex) : Prop := forall a : Z, sampZ y a = (c * sampZ x (a - d))%K.
(** a signal which is not null *)
Definition not_null (x : list Complex) : Prop := exists a : Z, sampZ x a <> c0.
