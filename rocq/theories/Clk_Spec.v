(** Specification of the clock recovery: the instants at which the signal is read, in input samples, and the values read. *)
From Coq Require Import Reals ZArith.
From Verif Require Import Base RField DftSys ComplexSys Rii_Model Clk_Model.
Local Open Scope R_scope.

(** smallest integer above r *)
Definition ceilZ (r : R) : Z := (- Int_part (- r))%Z.
(** Interpolation of X (null outside) at the instant T > 0: K points ending at the sample i, ceil(T) - 1 = i, with the coefficients h(T - i), 0 < T - i <= 1. *)
Definition read (h : R -> list R) (K : nat) (X : list Complex) (T : R) : Complex :=
  let i := (ceilZ T - 1)%Z in
  sum K (fun m => ((nth m (h (T - IZR i)%R) 0%R, 0%R) : Complex) * sampZ X (i - Z.of_nat K + 1 + Z.of_nat m)%Z)%K.
(** Instant of the k-th reading (K2 readings per symbol of K1 samples), with the values read at k-1 and k-2 (null before the first).
    One reading out of K2 is an output, and the following instants are then moved by at most a quarter of a symbol. *)
Fixpoint reading (h : R -> list R) (K : nat) (K1 : R) (K2 : nat) (g : R) (X : list Complex) (k : nat) : R * Complex * Complex :=
  match k with
  | O => (K1 / 2 - 1, c0, c0)
  | S j =>
      let '(T, a, b) := reading h K K1 K2 g X j in
      let v := read h K X T in
      (T + K1 / INR K2 - (if (j mod K2 =? K2 - 1)%nat then clamp (g * fst ((v - b) * conj a)%K) (- K1 / 4) (K1 / 4) else 0), v, a)
  end.
Definition instant h K K1 K2 g X k : R := fst (fst (reading h K K1 K2 g X k)).
Definition value h K K1 K2 g X k : Complex := read h K X (instant h K K1 K2 g X k).
