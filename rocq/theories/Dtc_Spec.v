(** Specification of the pattern detector. *)
From Coq Require Import Reals ZArith.
From Verif Require Import Base RField DftSys ComplexSys Rii_Model Del_Spec Dtc_Model.
Local Open Scope R_scope.

(** the pattern used by the correlator: its real part if it is considered as real *)
Definition pattern (m : list Complex) : list Complex := if est_reel m then map (fun z => re (fst z)) m else m.
(** the M samples of X ending at the index n (null before the first) *)
Definition window (X : list Complex) (M n k : nat) : Complex := sampZ X (Z.of_nat n - Z.of_nat M + 1 + Z.of_nat k).
(** scalar product with the pattern, and energy *)
Definition product (m X : list Complex) (n : nat) : Complex := sum (List.length m) (fun k => window X (List.length m) n k * conj (samp (pattern m) k))%K.
Definition wenergy (M : nat) (X : list Complex) (n : nat) : R := sum (K := Rring) M (fun k => Cnorm2 (window X M n k)).
(** normalised correlation of the pattern with the samples ending at n *)
Definition score (m X : list Complex) (n : nat) : R :=
  let c := sqrt (Cnorm2 (product m X n)) in let nm := sqrt (energy m) in
  if Rle_dec c (/ 10 ^ 6 * nm) then 0 else c / (nm * sqrt (wenergy (List.length m) X n + INR (List.length m) * / 10 ^ 20)).
(** the parabola of values a0, a1, a2 at -1, 0, 1 *)
Definition parab (a0 a1 a2 t : R) : R := a1 + (a2 - a0) / 2 * t + (a2 + a0 - 2 * a1) / 2 * (t * t).
(** output of the correlator: scalar product with the pattern of norm 1, replaced by 0 under 1e-6 *)
Definition corr_out (m X : list Complex) (n : nat) : Complex :=
  let z := (product m X n / re (sqrt (energy m)))%K in if Rle_dec (sqrt (Cnorm2 z)) (/ 10 ^ 6) then c0 else z.
