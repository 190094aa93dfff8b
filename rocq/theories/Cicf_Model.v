(** Transfer function of the CIC filters and capacity of a channel: reechan/cic.cc, telecom/limits.cc, and the
    theoretical responses of a linear array of sensors: apps/doa.cc.  Numbers are exact (rounding is not modelled). *)
From Coq Require Import List Arith ZArith Reals.
From Verif Require Import Base RField ComplexSys Poly_Model Rii_Model Fz_Model.
Import ListNotations.

(** cic.cc:108-117 design_cic *)
Definition design_cic {K : cfield} (R M N : Z) : res (frat K) :=
  if negb ((0 <? R) && (0 <=? N) && (0 <? M))%Z then Exc else
  let RM := Z.to_nat (R * M) in
  Ok (f_pow (f_inv_z (mkfrat (p_of (repeat (fdiv c1 (cnat RM)) RM)) (p_of [c1]))) (Z.to_nat N)).
Local Open Scope R_scope.
(** cic.cc:217-229 cic_freq *)
Definition cic_freq (r m n : nat) (fr : list R) : list R :=
  map (fun f => let d := INR (r * m) * sin (PI * f) in
    if Req_EM_T d 0 then 1 else Rabs (sin (INR (r * m) * PI * f) / d) ^ n) fr.
(** limits.cc:7-10 capacite_canal_awgn; log2 of a negative or null number is not a number *)
Definition capacite (snr B : R) : res R :=
  if Rlt_dec 0 (1 + snr) then Ok (B * (ln (1 + snr) / ln 2)) else UB.

(** doa.cc:16-24 steervec_1d: the list of the rows (one row per antenna, one column per source) *)
Definition steervec (pos angle : list R) : list (list C) :=
  map (fun p => map (fun a => (cos (p * cos a), sin (p * cos a)) : C) angle) pos.
(** doa.cc:27-35 sensorcov_1d.  The product of two arrays is element by element and requires equal
    dimensions (tableau.cc:1429-1449); [noise] is the multiple of the identity (10^(SNR/10)). *)
Definition transpose_conj (cols : nat) (A : list (list C)) : list (list C) :=
  map (fun j => map (fun r => let z := nth j r (0, 0) in (fst z, - snd z) : C) A) (seq 0 cols).
Definition mat_times (A B : list (list C)) (ca cb : nat) : res (list (list C)) :=
  if ((length A =? length B)%nat && (ca =? cb)%nat)%bool
  then Ok (map (fun p => map (fun q => Cmul (fst q) (snd q)) (combine (fst p) (snd p))) (combine A B)) else Exc.
Definition sensorcov (pos angle : list R) (snr : R) : res (list (list C)) :=
  let A := steervec pos angle in
  let* P := mat_times A (transpose_conj (length angle) A) (length angle) (length pos) in
  let noise := exp (snr / 10 * ln 10) in
  Ok (map (fun i => map (fun j => let z := nth j (nth i P []) (0, 0) in (fst z + (if (i =? j)%nat then noise else 0), snd z) : C) (seq 0 (length pos))) (seq 0 (length pos))).
