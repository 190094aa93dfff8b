(** Specification of the Fourier properties.  The transforms [dft] and [DFT] are in
    DftSys.v: bin k of DFT(e, x) is (1/sqrt n) sum_j x_j w^(e j k), w = exp(-2 i pi/n). *)
From Verif Require Import Base DftSys.
Local Open Scope cring_scope.

(** Circular convolution and correlation at index k / lag l. *)
Definition cconv {F : cring} (x y : list F) (k : nat) : F :=
  let n := length x in sum n (fun j => samp x j * samp y ((k + n - j) mod n)).
Definition ccorr_at {F : dsys} (x y : list F) (l : nat) : F :=
  let n := length x in sum n (fun a => samp x a * conj (samp y ((a + l) mod n))).
(** Linear correlation at the signed lag l (null samples outside the vectors). *)
Definition xcorr_at {F : dsys} (x y : list F) (l : Z) : F :=
  sum (length x) (fun a => samp x a * conj (sampZ y (Z.of_nat a + l))).
(** Linear convolution at index i. *)
Definition conv_at {F : cring} (h x : list F) (i : Z) : F :=
  sum (length h) (fun k => samp h k * sampZ x (i - Z.of_nat k)).
Definition is_real {F : dsys} (x : list F) : Prop := forall i, conj (samp x i) = samp x i.
