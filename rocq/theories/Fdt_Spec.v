(** Specification side of the frequency-domain tools. *)
From Coq Require Import List Arith ZArith Reals.
From Verif Require Import Base ComplexSys Chn_Spec.
Import ListNotations.
Local Open Scope R_scope.

(** A sum of sinusoids: each tone has an amplitude, a whole number of periods f over the n samples
    of the vector, and a phase. *)
Definition tone_at (n i : nat) (t : R * nat * R) : R :=
  let '(a, f, phi) := t in a * cos (2 * PI * INR f * INR i / INR n + phi).
Fixpoint tones (l : list (R * nat * R)) (n i : nat) : R :=
  match l with [] => 0 | t :: l' => tone_at n i t + tones l' n i end.
Definition freq (t : R * nat * R) : nat := snd (fst t).
(** A real signal given by its samples. *)
Definition real_signal (n : nat) (f : nat -> R) : list C := map (fun i => (f i, 0)) (seq 0 n).

(** Power of a block of N samples at the frequency k/N, in a unitary transform:
    |sum_j x_j exp(-2 i pi k j / N)|^2 / N. *)
Definition periodogram (N : nat) (x : nat -> C) (k : Z) : R :=
  let th j := 2 * PI * IZR k * INR j / INR N in
  ((total N (fun j => fst (x j) * cos (th j) + snd (x j) * sin (th j))) ^ 2 +
   (total N (fun j => snd (x j) * cos (th j) - fst (x j) * sin (th j))) ^ 2) / INR N.
(** Product by a window. *)
Definition windowed (f : nat -> R) (x : nat -> C) (j : nat) : C := (f j * fst (x j), f j * snd (x j)).
(** Window scaled so that the sum of its squares is its length. *)
Definition unit_window (N : nat) (w : nat -> R) (j : nat) : R := sqrt (INR N / total N (fun i => w i ^ 2)) * w j.
(** Bin number k of a displayed spectrum (null frequency in the middle): power of the sub-block number i of a block. *)
Definition sub_power (N : nat) (f : nat -> R) (x : list C) (i k : nat) : R :=
  periodogram N (windowed f (fun j => smp x (i * N + j)%nat)) (Z.of_nat k - Z.of_nat (N / 2)).
(** Mask of a frequency sweep: bins at both edges and around the middle. *)
Definition mask_at (N bf hf j : nat) : R :=
  if (hf <=? j)%nat && (j <? N - hf)%nat && negb ((N / 2 - bf <=? j)%nat && (j <? N / 2 + bf)%nat) then 1 else 0.
(** Bin k of the assembled spectrum of a sweep: the sub-block i covers the bins i*step .. i*step + N - 1. *)
Definition covers (N step i k : nat) : bool := (i * step <=? k)%nat && (k <? i * step + N)%nat.
Definition sweep_power (N step bf hf nsubs : nat) (f : nat -> R) (x : list C) (k : nat) : R :=
  total nsubs (fun i => if covers N step i k then mask_at N bf hf (k - i * step) * sub_power N f x i (k - i * step) else 0).
Definition sweep_count (N step bf hf nsubs k : nat) : R :=
  total nsubs (fun i => if covers N step i k then mask_at N bf hf (k - i * step) else 0).
(** Successive spectra of a stream of blocks: one for each group of nm blocks. *)
Definition groups {A} (nm : nat) (l : list A) : list (list A) :=
  map (fun q => firstn nm (skipn (q * nm) l)) (seq 0 (length l / nm)).
(** Decibels of a power. *)
Definition dB (x : R) : R := 10 * (ln x / ln 10).

(** z-transform of a finite sequence, evaluated at z, with positive powers. *)
Fixpoint zpow (z : C) (k : nat) : C := match k with O => (1, 0) | S k' => Cmul z (zpow z k') end.
Fixpoint Ctotal (n : nat) (f : nat -> C) : C := match n with O => (0, 0) | S n' => Cadd (Ctotal n' f) (f n') end.
Definition ztransform (x : list C) (z : C) : C := Ctotal (length x) (fun k => Cmul (smp x k) (zpow z k)).

(** Cost per sample of a block filter made of two transforms of size 2^k (5 N log2 N each) for Ne new samples. *)
Definition fft_cost (k Ne : nat) : R := 10 * INR (2 ^ k) * INR k / INR Ne.
