(** C87: transfer function of CIC filters and channel capacity; C88: theoretical responses of a linear array. *)
From Coq Require Import List Arith ZArith Reals Lia Lra.
From Verif Require Import Base BaseLemmas RField DftSys ComplexSys Poly_Model Poly_Spec Poly_Proofs Fourier_Proofs Rii_Model But_Proofs Fz_Model Fz_Proofs Cicf_Model Cicf_Spec Cicf_Proofs.
Import ListNotations.

(** design_cic is the N-th power of the moving average of R M samples. *)
Theorem C87_transfer : forall (K : cfield) R M N (z : K), (0 < R)%Z -> (0 < M)%Z -> (0 <= N)%Z -> z <> c0 ->
  exists h, design_cic (K := K) R M N = Ok h /\ f_horner h z = cpow (moving_average (Z.to_nat (R * M)) z) (Z.to_nat N).
Proof. intros K R M N z. apply design_ok. Qed.
Print Assumptions C87_transfer.
Theorem C87_invalid : forall (K : cfield) R M N, (R <= 0 \/ M <= 0 \/ N < 0)%Z -> design_cic (K := K) R M N = Exc.
Proof.
  intros K R M N H. unfold design_cic. destruct (Z.ltb_spec 0 R); destruct (Z.leb_spec 0 N); destruct (Z.ltb_spec 0 M); cbn [andb negb]; try reflexivity. lia.
Qed.
Print Assumptions C87_invalid.
Local Open Scope R_scope.

(** cic_freq is the modulus of that transfer function at exp(2 i pi f), for every frequency (the zeros of sin (pi f) included). *)
Theorem C87_magnitude : forall r m n fr, (0 < r)%nat -> (0 < m)%nat ->
  exists h, design_cic (K := Cfield) (Z.of_nat r) (Z.of_nat m) (Z.of_nat n) = Ok h /\ cic_freq r m n fr = map (fun f => cmod (f_horner h (eit (2 * PI * f)))) fr.
Proof.
  intros r m n fr Hr Hm. assert (A : (0 < Z.of_nat r)%Z) by lia. assert (B : (0 < Z.of_nat m)%Z) by lia. assert (D : (0 <= Z.of_nat n)%Z) by lia.
  destruct (design_ok Cfield _ _ _ (eit (2 * PI * 0)) A B D (eit_ne0 _)) as (h & E & _). exists h. split; [exact E|]. rewrite freq_ok by assumption. apply map_ext. intros f.
  destruct (design_ok Cfield _ _ _ (eit (2 * PI * f)) A B D (eit_ne0 _)) as (h' & E' & V). rewrite E in E'. injection E' as <-. rewrite V. rewrite <- Nat2Z.inj_mul, !Nat2Z.id. reflexivity.
Qed.
Print Assumptions C87_magnitude.

(** The magnitudes are between 0 and 1; 1 at the integer frequencies; 0 (N > 0) at the other multiples of 1 / (R M). *)
Theorem C87_bounds : forall r m n fr i, (0 < r)%nat -> (0 < m)%nat -> (i < length fr)%nat ->
  0 <= nth i (cic_freq r m n fr) 0 <= 1 /\
  (forall k, nth i fr 0 = IZR k -> nth i (cic_freq r m n fr) 0 = 1) /\
  (forall k, (0 < n)%nat -> (0 < k < r * m)%nat -> nth i fr 0 = INR k / INR (r * m) -> nth i (cic_freq r m n fr) 0 = 0).
Proof.
  intros r m n fr i Hr Hm Hi. assert (P : 0 < INR (r * m)) by (apply lt_0_INR; nia). set (d := (r * m)%nat) in *.
  assert (E : nth i (cic_freq r m n fr) 0 = if Req_EM_T (INR d * sin (PI * nth i fr 0)) 0 then 1 else Rabs (sin (INR d * PI * nth i fr 0) / (INR d * sin (PI * nth i fr 0))) ^ n).
  { unfold cic_freq. rewrite (Fourier_Proofs.map_nth0 _ fr i 0) by exact Hi. reflexivity. }
  rewrite E. set (f := nth i fr 0) in *. clear E. split; [|split].
  - destruct (Req_EM_T _ 0) as [|NZ]; [lra|]. assert (N1 : sin (PI * f) <> 0) by (intros Q; apply NZ; rewrite Q; ring). pose proof (Rabs_pos_lt _ N1) as PA.
    assert (B : 0 <= Rabs (sin (INR d * PI * f) / (INR d * sin (PI * f))) <= 1).
    { split; [apply Rabs_pos|]. unfold Rdiv. rewrite Rabs_mult, Rabs_inv, Rabs_mult, (Rabs_pos_eq (INR d)) by lra. pose proof (sin_mult d (PI * f)) as S. rewrite <- Rmult_assoc in S. assert (PD : 0 < INR d * Rabs (sin (PI * f))) by nra.
      apply (Rmult_le_reg_r (INR d * Rabs (sin (PI * f)))); [exact PD|]. rewrite Rmult_assoc, Rinv_l by lra. lra. }
    split; [apply pow_le; lra|]. rewrite <- (pow1 n). apply pow_incr. exact B.
  - intros k Hk. rewrite Hk. assert (S0 : sin (PI * IZR k) = 0) by (apply sin_eq_0_1; exists k; ring). rewrite S0, Rmult_0_r. destruct (Req_EM_T 0 0); [reflexivity|lra].
  - intros k Hn Hk Hf. rewrite Hf. assert (Lk : INR k < INR d) by (apply lt_INR; lia). assert (L0 : 0 < INR k) by (apply lt_0_INR; lia). pose proof PI_RGT_0 as PP.
    assert (Q0 : 0 < INR k / INR d) by (apply Rdiv_lt_0_compat; lra). assert (Q1 : INR k / INR d < 1) by (apply (Rmult_lt_reg_r (INR d)); [exact P|]; unfold Rdiv; rewrite Rmult_assoc, Rinv_l by lra; lra).
    assert (SP : 0 < sin (PI * (INR k / INR d))) by (apply sin_gt_0; nra). destruct (Req_EM_T _ 0) as [Z|_]; [exfalso; nra|].
    replace (INR d * PI * (INR k / INR d)) with (IZR (Z.of_nat k) * PI) by (rewrite <- INR_IZR_INZ; field; lra). rewrite (sin_eq_0_1 (IZR (Z.of_nat k) * PI)) by (exists (Z.of_nat k); reflexivity).
    unfold Rdiv at 1. rewrite Rmult_0_l, Rabs_R0. apply pow_i. exact Hn.
Qed.
Print Assumptions C87_bounds.

(** Capacity of a channel: the c with 2^(c / B) = 1 + snr. *)
Theorem C87_capacity : forall snr B, -1 < snr -> B <> 0 -> exists c, capacite snr B = Ok c /\ Rpower 2 (c / B) = 1 + snr.
Proof.
  intros snr B H HB. unfold capacite. destruct (Rlt_dec 0 (1 + snr)) as [P|]; [|lra]. eexists. split; [reflexivity|]. unfold Rpower. assert (L2 : ln 2 <> 0) by (pose proof ln_lt_2; lra).
  replace (B * (ln (1 + snr) / ln 2) / B * ln 2) with (ln (1 + snr)) by (field; split; assumption). apply exp_ln. exact P.
Qed.
Print Assumptions C87_capacity.

(** Steering vectors: one row per antenna, one column per source, entries of modulus 1 and of phase pos cos(angle). *)
Theorem C88_steering : forall pos angle, length (steervec pos angle) = length pos /\ forall i j, (i < length pos)%nat -> (j < length angle)%nat ->
  length (nth i (steervec pos angle) []) = length angle /\ nth j (nth i (steervec pos angle) []) (0, 0) = eit (nth i pos 0 * cos (nth j angle 0)) /\
  cmod (nth j (nth i (steervec pos angle) []) (0, 0)) = 1.
Proof.
  intros pos angle. split; [apply map_length|]. intros i j Hi Hj. unfold steervec. rewrite (Fourier_Proofs.map_nth0 _ pos i 0) by exact Hi. split; [apply map_length|].
  rewrite (Fourier_Proofs.map_nth0 (fun a => (cos (nth i pos 0 * cos a), sin (nth i pos 0 * cos a)) : C) angle j 0) by exact Hj. split; [reflexivity|].
  unfold cmod. change (sqrt (Cnorm2 (eit (nth i pos 0 * cos (nth j angle 0)))) = 1). rewrite eit_norm. apply sqrt_1.
Qed.
Print Assumptions C88_steering.

(** Finding: positions are in wavelengths, but the phase is not multiplied by 2 pi: two antennas one wavelength apart, a source in
    their line: the phases should be equal. *)
Theorem C88_phase_refuted : exists pos angle i j, nth i pos 0 = 1 /\ nth j angle 0 = 0 /\ (i < length pos)%nat /\ (j < length angle)%nat /\
  nth j (nth i (steervec pos angle) []) (0, 0) <> eit (2 * PI * nth i pos 0 * cos (nth j angle 0)).
Proof.
  exists [0; 1], [0], 1%nat, 0%nat. split; [reflexivity|]. split; [reflexivity|]. split; [cbn; lia|]. split; [cbn; lia|]. cbn [nth]. 
  destruct (C88_steering [0; 1] [0]) as [_ S]. destruct (S 1%nat 0%nat ltac:(cbn; lia) ltac:(cbn; lia)) as (_ & E & _). rewrite E. cbn [nth]. rewrite cos_0, !Rmult_1_r, eit_2PI.
  apply eit_ne1. split; [lra|]. pose proof PI2_1. lra.
Qed.
Print Assumptions C88_phase_refuted.

(** Finding: the covariance is computed with a product element by element: rejected unless there are as many sources
    as antennas. *)
Theorem C88_covariance_refuted : forall pos angle snr, length pos <> length angle -> sensorcov pos angle snr = Exc.
Proof.
  intros pos angle snr H. unfold sensorcov, mat_times, steervec, transpose_conj. cbv zeta. rewrite !map_length, seq_length. destruct (Nat.eqb_spec (length pos) (length angle)); [contradiction|reflexivity].
Qed.
Print Assumptions C88_covariance_refuted.

(** Finding: with one antenna and one source, the power is 1 + 10^(SNR / 10): the noise grows with the signal to noise ratio. *)
Theorem C88_noise_refuted : forall p a snr1 snr2, snr1 < snr2 -> exists v1 v2, sensorcov [p] [a] snr1 = Ok [[(v1, 0)]] /\ sensorcov [p] [a] snr2 = Ok [[(v2, 0)]] /\ 1 < v1 < v2.
Proof.
  intros p a snr1 snr2 H. assert (G : forall s, sensorcov [p] [a] s = Ok [[(1 + exp (s / 10 * ln 10), 0)]]).
  { intros s. unfold sensorcov, mat_times, steervec, transpose_conj. cbn. do 4 f_equal.
    - pose proof (sin2_cos2 (p * cos a)) as Q. unfold Rsqr in Q. lra.
    - ring. }
  exists (1 + exp (snr1 / 10 * ln 10)), (1 + exp (snr2 / 10 * ln 10)). split; [apply G|]. split; [apply G|]. pose proof (exp_pos (snr1 / 10 * ln 10)). assert (L : 0 < ln 10) by (rewrite <- ln_1; apply ln_increasing; lra).
  assert (exp (snr1 / 10 * ln 10) < exp (snr2 / 10 * ln 10)) by (apply exp_increasing; nra). lra.
Qed.
Print Assumptions C88_noise_refuted.

(** ** The hypotheses can be met: moving average of 2 samples, squared, at f = 1/2 and 0. *)
Example C87_ex : cic_freq 2 1 2 [0; 1 / 2] = [1; 0].
Proof.
  destruct (C87_bounds 2 1 2 [0; 1 / 2] 0 ltac:(lia) ltac:(lia) ltac:(cbn; lia)) as (_ & A & _). destruct (C87_bounds 2 1 2 [0; 1 / 2] 1 ltac:(lia) ltac:(lia) ltac:(cbn; lia)) as (_ & _ & B).
  apply (list_ext 0); [reflexivity|]. intros [|[|i]] Hi; [apply (A 0%Z); reflexivity|apply (B 1%nat); [lia|cbn; lia|cbn; field]|cbn in Hi; lia].
Qed.
