(** Specification vocabulary for frequency estimation and spectra. *)
From Coq Require Import Reals ZArith.
From Verif Require Import Base DftSys ComplexSys Rii_Model.
Local Open Scope R_scope.

(** The pure tone A exp(2 i pi f j), j = 0 ... N-1. *)
Definition tone (A : Complex) (f : R) (N : nat) : list Complex := map (fun j => (A * eit (2 * PI * f * INR j))%K) (seq 0 N).
(** r is the frequency f, up to a whole number of cycles per sample, with an error of at most e. *)
Definition near (r f e : R) : Prop := exists m : Z, Rabs (r - f - IZR m) <= e.
(** Fourier transform of a finite signal at the frequency f. *)
Definition ft (x : list Complex) (f : R) : Complex := sum (List.length x) (fun j => (samp x j * eit (- (2 * PI * f * INR j)))%K).
(** Power of the signal x, multiplied by the window w, at the frequency f. *)
Definition power (x : list Complex) (w : list R) (f : R) : R :=
  Cnorm2 (sum (List.length x) (fun j => (samp x j * re (nth j w 0%R) * eit (- (2 * PI * f * INR j)))%K : Complex)) / INR (List.length x).
