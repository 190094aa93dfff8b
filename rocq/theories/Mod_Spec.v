(** Specification vocabulary for digital modulation (C76). *)
From Coq Require Import Reals ZArith.
From Verif Require Import Base RField DftSys ComplexSys BitStream_Model BitStream_Spec TeleBits_Spec Demod_Model Mod_Model.
Local Open Scope R_scope.

(** Sum of the squares of a list of real numbers. *)
Definition energy (h : list R) : R := sum (K := Rring) (length h) (fun i => nth i h 0 * nth i h 0).
(** Total energy of a complex signal. *)
Definition cenergy (y : list C) : R := sum (K := Rring) (length y) (fun i => Cnorm2 (nth i y (0, 0))).
(** The documented emission pulse for taps h and r samples per symbol: the taps, last
    one first, scaled to energy r, after the zeros that make their number a multiple
    of r. *)
Definition pulse (h : list R) (r : nat) : list R :=
  repeat 0 ((r - length h mod r) mod r) ++ map (fun v => v * sqrt (INR r / energy h)) (rev h).
(** Product of a real number and a complex number. *)
Definition rscale (a : R) (z : C) : C := (a * fst z, a * snd z).
(** Linear modulation: sum over the symbols k of s_k g(n - k r), g being zero outside
    its list. *)
Definition pam (g : list R) (r : nat) (s : list C) (n : nat) : C :=
  sum (K := Cring) (length s) (fun k => rscale (sampZ (K := Rring) g (Z.of_nat n - Z.of_nat (k * r))) (nth k s (0, 0))).
(** Multiplication by the carrier exp(2 i pi f n). *)
Definition on_carrier (f : R) (n : nat) (z : C) : C :=
  let t := 2 * PI * f * INR n in (fst z * cos t - snd z * sin t, fst z * sin t + snd z * cos t).
(** Output stage: fi = 0 leaves the sample, otherwise it is put on the carrier fi / fe
    and, for a real output, its real part is taken. *)
Definition rf_out (fi fe : R) (real : bool) (n : nat) (z : C) : C :=
  if Req_EM_T fi 0 then z else let v := on_carrier (fi / fe) n z in if real then (fst v, 0) else v.
(** Each symbol held for r samples. *)
Definition hold (r : nat) (s : list C) : list C := flat_map (fun v => repeat v r) s.
(** Real convolution-like autocorrelation of the taps at lag l. *)
Definition acor (h : list R) (l : Z) : R := sum (K := Rring) (length h) (fun i => nth i h 0 * sampZ (K := Rring) h (Z.of_nat i + l)).

(** Bits followed by the zeros that complete the last group of k bits. *)
Definition pad_bits (k : nat) (l : list bool) : list bool := l ++ repeat false (ngroups (length l) k * k - length l).
(** Partial sum of the real parts of the symbols before symbol k. *)
Definition before (s : list C) (k : nat) : R := sum (K := Rring) k (fun i => fst (nth i s (0, 0))).

(** The taps h are those of the shaping filter, for r samples per symbol, and are not
    all zero. *)
Definition good_coefs (f : forme) (ncoefs : Z) (r : nat) (h : list R) : Prop :=
  get_coefs f ncoefs (Z.of_nat r) = Ok h /\ 0 < energy h.
(** A usable configuration: r = fe / fsymb truncated is positive (C76_accepts gives
    explicit conditions). *)
Definition accepted (c : mconf) (r : nat) (h : list R) : Prop :=
  (0 < r)%nat /\ osf_of (mc_fe c) (mc_fsymb c) = Ok (Z.of_nat r) /\ good_coefs (mc_forme c) (mc_ncoefs c) r h.
(** The symbols S stand for the bits l in the waveform v: one symbol per group of bits,
    and decode_symboles recovers the bits, completed by zeros. *)
Definition says (v : wave) (S : list C) (l : list bool) : Prop := length S = ngroups (length l) (w_k v) /\
  exists s, decode_symboles v bs_empty S = Ok s /\ shows s (pad_bits (w_k v) l).
