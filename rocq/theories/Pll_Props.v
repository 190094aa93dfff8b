(** Properties C67 (carrier recovery loops) and C68 (phase error detectors). *)
From Coq Require Import Reals Lra Lia.
From Verif Require Import Base BaseLemmas Design_Model Geo_Model Geo_Proofs2 Demod_Model Demod_Spec Demod_Props Sig_Model Pll_Model Pll_Spec Pll_Proofs Pll_Proofs2 Pll_Proofs3.
Local Open Scope R_scope.

(** ** C68: phase error detectors *)
(** The default detector of a PLL (std::arg) returns the phase of a carrier in (-pi, pi). *)
Theorem C68_default c s : p_ped c = None -> cpll_init c = s -> detects (l_ped s) PI (fun psi => psi = 0).
Proof.
  intros H <- a t psi Ha Ht ->. unfold cpll_init. rewrite H. cbn [l_ped]. rewrite Rplus_0_r, arg_angle; [reflexivity|exact Ha|].
  apply Rabs_def2 in Ht. lra.
Qed.
Print Assumptions C68_default.
Lemma symbol_pow M a t m : (1 <= M)%nat -> zpow (at_angle a (t + 2 * PI * IZR m / INR M)) M = at_angle (a ^ M) (INR M * t).
Proof.
  intros HM. assert (0 < INR M) by (apply lt_0_INR; lia). rewrite zpow_angle.
  replace (INR M * (t + 2 * PI * IZR m / INR M)) with (INR M * t + IZR m * (2 * PI)) by (field; lra). apply angle_period.
Qed.
(** The tan loop of order M returns the phase error of an M-PSK symbol, whatever the symbol and
    the amplitude, within pi/M. *)
Theorem C68_tan_loop M : (1 <= M)%nat -> detects (ped_tloop M) (PI / INR M) (fun psi => exists m, psi = 2 * PI * IZR m / INR M).
Proof.
  intros HM a t psi Ha Ht [m ->]. assert (HR : 0 < INR M) by (apply lt_0_INR; lia). unfold ped_tloop. rewrite angle_nz by exact Ha.
  rewrite symbol_pow by exact HM. apply Rabs_def2 in Ht. destruct Ht as [H1 H2]. rewrite arg_angle.
  - f_equal. field. lra.
  - apply pow_lt. exact Ha.
  - assert (E : PI = INR M * (PI / INR M)) by (field; lra). split; [|left]; rewrite E; nra.
Qed.
Print Assumptions C68_tan_loop.
(** The power loop returns (amplitude)^M sin(M t)/M: zero for no error, of the sign of a small
    error, whatever the symbol; its gain is the M-th power of the amplitude. *)
Theorem C68_power_loop M a t m : (1 <= M)%nat -> ped_ploop M (at_angle a (t + 2 * PI * IZR m / INR M)) = Ok (a ^ M * sin (INR M * t) / INR M).
Proof. intros HM. unfold ped_ploop. rewrite symbol_pow by exact HM. reflexivity. Qed.
Print Assumptions C68_power_loop.
(** The Costas detectors: M = 2, a^2 sin(2t)/2; M = 4, sqrt 2 a sin t around the symbols 0, pi/2, pi, 3pi/2;
    any other M is refused. *)
Theorem C68_costas2 : exists p, ped_costa 2 = Ok p /\ forall a t m, p (at_angle a (t + PI * IZR m)) = Ok (a * a * sin (2 * t) / 2).
Proof.
  eexists. split; [reflexivity|]. intros a t m. cbv beta.
  assert (E : zpow (at_angle a (t + PI * IZR m)) 2 = at_angle (a ^ 2) (INR 2 * t)).
  { rewrite <- (symbol_pow 2 a t m) by lia. f_equal. f_equal. cbn [INR]. field. }
  apply (f_equal snd) in E. unfold at_angle in *. cbn [zpow cmulr fst snd INR pow] in *. f_equal. replace (2 * t) with ((1 + 1) * t) by ring.
  replace (a * (a * 1) * sin ((1 + 1) * t)) with (a * a * sin ((1 + 1) * t)) in E by ring. rewrite <- E. field.
Qed.
Print Assumptions C68_costas2.
Definition costas4 (x : R * R) : R := let z := cmulr x (polar1 (PI / 4)) in snd z * signe (fst z) - fst z * signe (snd z).
Lemma signe_opp x : signe (- x) = - signe x.
Proof. unfold signe. destruct (Rlt_dec 0 x), (Rlt_dec x 0), (Rlt_dec 0 (- x)), (Rlt_dec (- x) 0); lra. Qed.
Lemma costas4_quarter a t : costas4 (at_angle a (t + PI / 2)) = costas4 (at_angle a t).
Proof.
  assert (C : cos (t + PI / 2) = - sin t) by (rewrite cos_plus, cos_PI2, sin_PI2; ring).
  assert (S1 : sin (t + PI / 2) = cos t) by (rewrite sin_plus, cos_PI2, sin_PI2; ring).
  unfold costas4, at_angle. rewrite C, S1. cbv zeta.
  assert (E : cmulr (a * - sin t, a * cos t) (polar1 (PI / 4)) = (- snd (cmulr (a * cos t, a * sin t) (polar1 (PI / 4))), fst (cmulr (a * cos t, a * sin t) (polar1 (PI / 4)))))
    by (unfold cmulr; cbn [fst snd]; f_equal; ring).
  rewrite E. cbn [fst snd]. rewrite signe_opp. ring.
Qed.
Lemma costas4_quarters a t n : costas4 (at_angle a (t + PI / 2 * INR n)) = costas4 (at_angle a t).
Proof.
  induction n as [|n IH]; [cbn [INR]; now rewrite Rmult_0_r, Rplus_0_r|].
  rewrite S_INR. replace (t + PI / 2 * (INR n + 1)) with (t + PI / 2 * INR n + PI / 2) by ring. rewrite costas4_quarter. exact IH.
Qed.
Theorem C68_costas4 : exists p, ped_costa 4 = Ok p /\ forall a t m, 0 < a -> Rabs t < PI / 4 ->
  p (at_angle a (t + PI / 2 * IZR m)) = Ok (sqrt 2 * a * sin t).
Proof.
  exists (fun x => Ok (costas4 x)). split; [reflexivity|]. intros a t m Ha Ht. f_equal.
  assert (E : costas4 (at_angle a (t + PI / 2 * IZR m)) = costas4 (at_angle a t)).
  { destruct (Z_le_dec 0 m) as [H|H].
    - rewrite <- (costas4_quarters a t (Z.to_nat m)), INR_IZR_INZ, Z2Nat.id by lia. reflexivity.
    - rewrite <- (costas4_quarters a (t + PI / 2 * IZR m) (Z.to_nat (- m))), INR_IZR_INZ, Z2Nat.id by lia. f_equal. f_equal. rewrite opp_IZR. ring. }
  rewrite E. unfold costas4. change (polar1 (PI / 4)) with (cos (PI / 4), sin (PI / 4)).
  replace (cos (PI / 4), sin (PI / 4)) with (at_angle 1 (PI / 4)) by (unfold at_angle; f_equal; ring). rewrite angle_mul. unfold at_angle. cbv zeta. cbn [fst snd].
  apply Rabs_def2 in Ht. pose proof PI_RGT_0.
  assert (P1 : 0 < cos (t + PI / 4)) by (apply cos_gt_0; lra). assert (P2 : 0 < sin (t + PI / 4)) by (apply sin_gt_0; lra).
  unfold signe. destruct (Rlt_dec 0 (a * 1 * cos (t + PI / 4))) as [Q|Q]; [|exfalso; apply Q; nra]. destruct (Rlt_dec 0 (a * 1 * sin (t + PI / 4))) as [Q'|Q']; [|exfalso; apply Q'; nra].
  rewrite sin_plus, cos_plus, sin_PI4, cos_PI4. assert (T : sqrt 2 * sqrt 2 = 2) by (apply sqrt_def; lra). assert (0 < sqrt 2) by (apply sqrt_lt_R0; lra).
  assert (I : 1 / sqrt 2 = sqrt 2 / 2) by (apply (Rmult_eq_reg_r (sqrt 2)); [|lra]; unfold Rdiv; rewrite Rmult_assoc, Rinv_l by lra; lra).
  rewrite !I. field.
Qed.
Print Assumptions C68_costas4.
Theorem C68_costas_sizes M : ped_costa M = Exc <-> M <> 2%nat /\ M <> 4%nat.
Proof.
  unfold ped_costa. destruct (Nat.eqb_spec M 2); [split; [discriminate|lia]|]. destruct (Nat.eqb_spec M 4); [split; [discriminate|lia]|]. split; [auto|reflexivity].
Qed.
Print Assumptions C68_costas_sizes.
(** The decision-directed detector on the PSK waveforms of the library: it returns the phase error
    within pi/M of every point of the constellation. *)
Definition psk_angle (M i : nat) : R := (if (M =? 2)%nat then PI else if (M =? 4)%nat then PI / 4 else 0) + 2 * PI * INR i / INR M.
Lemma psk_angle_ok M i : (i < M)%nat -> psk_point M i = at_angle 1 (psk_angle M i).
Proof.
  intros Hi. unfold psk_point, psk_angle, at_angle, polar1. destruct (Nat.eqb_spec M 2) as [-> |N].
  - destruct (Nat.eqb_spec i 0) as [-> |N0].
    + replace (PI + 2 * PI * INR 0 / INR 2) with PI by (cbn [INR]; field). rewrite cos_PI, sin_PI. f_equal; ring.
    + assert (i = 1)%nat as -> by lia. replace (PI + 2 * PI * INR 1 / INR 2) with (2 * PI) by (cbn [INR]; field). rewrite cos_2PI, sin_2PI. f_equal; ring.
  - destruct (M =? 4)%nat; f_equal; ring.
Qed.
Lemma cos_away M t j : 0 < INR M -> Rabs t < PI / INR M -> 0 < j < INR M -> 1 <= j <= INR M - 1 -> cos (t + 2 * PI * j / INR M) < cos t.
Proof.
  intros HM Ht Hj Hj1. apply Rabs_def2 in Ht. set (x := PI * j / INR M). pose proof PI_RGT_0 as Hpi.
  assert (U : 0 < PI / INR M) by (apply Rdiv_lt_0_compat; lra).
  assert (E : PI = INR M * (PI / INR M)) by (field; lra).
  assert (X : x = j * (PI / INR M)) by (unfold x; field; lra).
  assert (X1 : PI / INR M <= x) by (rewrite X; nra). assert (X2 : x <= PI - PI / INR M) by (rewrite X; rewrite E at 2; nra).
  assert (S1 : 0 < sin x) by (apply sin_gt_0; lra). assert (S2 : 0 < sin (t + x)) by (apply sin_gt_0; lra).
  assert (D : cos t - cos (t + 2 * PI * j / INR M) = 2 * sin (t + x) * sin x).
  { replace (t + 2 * PI * j / INR M) with ((t + x) + x) by (unfold x; field; lra). rewrite cos_plus. replace (cos t) with (cos ((t + x) - x)) by (f_equal; ring). rewrite cos_minus. ring. }
  assert (0 < 2 * sin (t + x) * sin x) by (apply Rmult_lt_0_compat; lra). lra.
Qed.
Lemma sqdist_angle a u v : sqdist (at_angle a u) (at_angle 1 v) = a * a + 1 - 2 * a * cos (u - v).
Proof.
  unfold sqdist, at_angle. cbn [fst snd]. rewrite cos_minus. pose proof (sin2_cos2 u) as A. pose proof (sin2_cos2 v) as B. unfold Rsqr in A, B.
  transitivity (a * a * (sin u * sin u + cos u * cos u) + (sin v * sin v + cos v * cos v) - 2 * a * (cos u * cos v + sin u * sin v)); [ring|rewrite A, B; ring].
Qed.
Theorem C68_decision M i a t : (2 <= M)%nat -> (Nat.log2 M <= 30)%nat -> (i < M)%nat -> 0 < a < 10 ^ 49 -> Rabs t < PI / INR M ->
  ped_decision (wave_psk M) (cmulr (at_angle a t) (psk_point M i)) = Ok t.
Proof.
  intros HM HL Hi Ha Ht. assert (HR : 2 <= INR M) by (apply (le_INR 2); exact HM). pose proof PI_RGT_0 as Hpi.
  rewrite psk_angle_ok by exact Hi. rewrite angle_mul, Rmult_1_r. set (x := at_angle a (t + psk_angle M i)).
  assert (DI : forall k, (k < M)%nat -> sqdist x (w_pt (wave_psk M) 0 k) = a * a + 1 - 2 * a * cos (t + 2 * PI * (INR i - INR k) / INR M)).
  { intros k Hk. cbn [wave_psk w_pt]. rewrite psk_angle_ok by exact Hk. unfold x. rewrite sqdist_angle. do 2 f_equal. f_equal. unfold psk_angle. field. lra. }
  assert (T0 : t + 2 * PI * (INR i - INR i) / INR M = t) by (field; lra).
  destruct (C42_nearest (wave_psk M) 0 x (LW_psk M HM HL)) as (r & Er & Hr & Cr).
  { exists i. split; [exact Hi|]. rewrite DI, T0 by exact Hi. pose proof (COS_bound t) as [C1 _]. unfold huge.
    apply Rle_lt_trans with ((a + 1) * (a + 1)); [nra|]. assert (E : IZR (10 ^ 100) = 10 ^ 50 * 10 ^ 50) by (rewrite <- pow_add; cbn [Nat.add]; rewrite pow_IZR; f_equal; reflexivity).
    rewrite E. assert (a + 1 < 10 ^ 50). { replace (10 ^ 50) with (10 * 10 ^ 49) by (rewrite tech_pow_Rmult; reflexivity). assert (1 <= 10 ^ 49) by (apply pow_R1_Rle; lra). lra. }
    apply Rmult_gt_0_lt_compat; lra. }
  cbn [wave_psk w_M] in Hr, Cr.
  assert (r = i).
  { destruct (Nat.eq_dec r i) as [E|N]; [exact E|exfalso]. specialize (Cr i Hi). change (w_pt _ 0%nat) with (w_pt (wave_psk M) 0%nat) in Cr. rewrite !DI, T0 in Cr by assumption.
    assert (W : cos (t + 2 * PI * (INR i - INR r) / INR M) < cos t).
    { assert (BR : forall p q, (p < q)%nat -> (q < M)%nat -> 1 <= INR q - INR p <= INR M - 1).
      { intros p q H1 H2. rewrite <- minus_INR by lia. split; [apply (le_INR 1); lia|]. replace (INR M - 1) with (INR (M - 1)) by (rewrite minus_INR by lia; reflexivity). apply le_INR. lia. }
      destruct (Nat.lt_trichotomy i r) as [L|[L|L]]; [|lia|].
      - pose proof (BR i r L Hr). rewrite <- (cos_neg (t + _)), <- (cos_neg t). replace (- (t + 2 * PI * (INR i - INR r) / INR M)) with (- t + 2 * PI * (INR r - INR i) / INR M) by (field; lra).
        apply cos_away; rewrite ?Rabs_Ropp; lra.
      - pose proof (BR r i L Hi). apply cos_away; try lra. }
    nra. }
  subst r. unfold ped_decision. rewrite Er. cbn [bind]. unfold lis_symbole. cbn [wave_psk w_M w_pt]. destruct (Nat.ltb_spec i M); [|lia]. cbn [bind].
  rewrite psk_angle_ok by exact Hi. replace (zconj (at_angle 1 (psk_angle M i))) with (at_angle 1 (- psk_angle M i)) by (unfold zconj, at_angle; cbn [fst snd]; rewrite cos_neg, sin_neg; f_equal; ring).
  unfold x. rewrite angle_mul, Rmult_1_r. replace (t + psk_angle M i + - psk_angle M i) with t by ring. rewrite angle_nz by lra. rewrite arg_angle; [reflexivity|lra|].
  apply Rabs_def2 in Ht. assert (PI / INR M <= PI). { apply (Rmult_le_reg_r (INR M)); [lra|]. unfold Rdiv. rewrite Rmult_assoc, Rinv_l by lra. nra. } lra.
Qed.
Print Assumptions C68_decision.

(** Automatic choice of the detector; an unknown type is refused. *)
Theorem C68_auto w psk ask : ped_init AUTO psk ask w =
  ped_init (if psk then POWER_LOOP else if ask then TAN_LOOP else DEC_LOOP) psk ask w /\ ped_init INCONNU psk ask w = Exc /\
  (ask = true -> ped_init TAN_LOOP psk ask w = Ok (ped_tloop 2)).
Proof. split; [|split; [reflexivity|intros ->; reflexivity]]. unfold ped_init. destruct psk, ask; reflexivity. Qed.
Print Assumptions C68_auto.
(** With the PSK constellations of the library, the detector chosen automatically is the power loop: it has the sign of a
    small error around the points of the constellation for every M but M = 4; for QPSK, whose points are at pi/4 + k pi/2,
    it has the opposite sign: a loop driven by it moves away from the constellation, and settles pi/4 off
    (as the demodulator, demod-ndec.cc:317-323, takes into account). *)
Theorem C68_auto_psk M i a t : (2 <= M)%nat -> (i < M)%nat -> exists p, ped_init AUTO true false (wave_psk M) = Ok p /\
  p (cmulr (at_angle a t) (psk_point M i)) = Ok ((if (M =? 4)%nat then -1 else 1) * (a ^ M * sin (INR M * t) / INR M)).
Proof.
  intros HM Hi. assert (HR : 2 <= INR M) by (apply (le_INR 2); exact HM). eexists. split; [reflexivity|]. cbn [wave_psk w_M]. rewrite psk_angle_ok by exact Hi. rewrite angle_mul, Rmult_1_r. unfold psk_angle.
  destruct (Nat.eqb_spec M 2) as [-> |N2].
  - cbn [Nat.eqb]. rewrite Rmult_1_l. rewrite <- (C68_power_loop 2 a t (1 + Z.of_nat i)) by lia. do 2 f_equal. rewrite plus_IZR, <- INR_IZR_INZ. cbn [INR]. field.
  - destruct (Nat.eqb_spec M 4) as [-> |N4].
    + pose proof (C68_power_loop 4 a (t + PI / 4) (Z.of_nat i) ltac:(lia)) as E. rewrite <- INR_IZR_INZ in E. rewrite <- Rplus_assoc, E. f_equal.
      replace (INR 4 * (t + PI / 4)) with (INR 4 * t + PI) by (cbn [INR]; field). rewrite neg_sin. field. lra.
    + rewrite Rmult_1_l. rewrite <- (C68_power_loop M a t (Z.of_nat i)) by lia. rewrite <- INR_IZR_INZ. do 2 f_equal. ring.
Qed.
Print Assumptions C68_auto_psk.
Theorem C68_qpsk_sign_refuted : exists p t, ped_init AUTO true false (wave_psk 4) = Ok p /\ 0 < t /\
  exists e, p (cmulr (at_angle 1 t) (psk_point 4 0)) = Ok e /\ e < 0.
Proof.
  destruct (C68_auto_psk 4 0 1 (PI / 8) ltac:(lia) ltac:(lia)) as (p & E & P). exists p, (PI / 8). pose proof PI_RGT_0. split; [exact E|]. split; [lra|].
  eexists. split; [exact P|]. cbn [Nat.eqb]. replace (INR 4 * (PI / 8)) with (PI / 2) by (cbn [INR]; field). rewrite sin_PI2. cbn [INR pow]. lra.
Qed.
Print Assumptions C68_qpsk_sign_refuted.

(** ** C67: the loops *)
(** The way a signal is cut into blocks does not matter. *)
Theorem C67_blocks osc s blocks : run (cpll_step osc) s blocks = cpll_step osc s (concat blocks).
Proof. apply run_map_st. Qed.
Print Assumptions C67_blocks.
(** The oscillator table of the PLL (1024 points, linear interpolation): angle within 4e-8 radians. *)
Theorem C67_oscillator : osc_within (/ 25000000) lut1024 /\
  forall N, (8 <= N)%nat -> osc_within ((2 * PI / INR N) ^ 3 / 12) (olut_step N).
Proof.
  assert (G : forall N, (8 <= N)%nat -> osc_within ((2 * PI / INR N) ^ 3 / 12) (olut_step N)).
  { intros N HN. replace ((2 * PI / INR N) ^ 3) with (2 * PI / INR N * (2 * PI / INR N) * (2 * PI / INR N)) by ring. apply lut_within. exact HN. }
  split; [|exact G]. intros t. destruct (G (Z.to_nat 1024) ltac:(lia) t) as (a & d & Ha & Hd & E). exists a, d. split; [exact Ha|]. split; [|exact E].
  eapply Rle_trans; [exact Hd|]. rewrite INR_IZR_INZ, Z2Nat.id by lia. pose proof PI_RGT_0. pose proof PI_4.
  assert (0 <= 2 * PI / 1024 <= 1 / 128) by lra. assert ((2 * PI / 1024) ^ 3 <= (1 / 128) ^ 3) by (apply pow_incr; lra).
  apply Rle_trans with ((1 / 128) ^ 3 / 12); [lra|]. cbn [pow]. lra.
Qed.
Print Assumptions C67_oscillator.

Lemma tc_coef tau : 0 < tau -> lexp_tc_vers_coef tau = 1 - exp (- / tau).
Proof. intros H. pose proof PI_RGT_0. unfold lexp_tc_vers_coef, lexp_coef. do 2 f_equal. field. lra. Qed.
Lemma exp_inv_range tau : 0 < tau -> 0 < exp (- / tau) < 1.
Proof. intros H. split; [apply exp_pos|]. rewrite <- exp_0. apply exp_increasing. assert (0 < / tau) by (apply Rinv_0_lt_compat; exact H). lra. Qed.
Lemma exp_pow x k : exp x ^ k = exp (INR k * x).
Proof. induction k as [|k IH]; [cbn; now rewrite Rmult_0_l, exp_0|]. cbn [pow]. rewrite IH, <- exp_plus, S_INR. f_equal. ring. Qed.
(** First-order loop of time constant tau, on a carrier of any positive amplitude bearing any sequence of symbols the
    detector sees through: the output is the input symbol, rotated by a residual phase which is within 2 eps (eps: error of
    the oscillator table) of w/alpha + (phi - w/alpha) exp(-k/tau), alpha = 1 - exp(-1/tau).
    So an initial phase error is cancelled with the time constant tau, and a frequency error
    w leaves a constant phase error w/alpha. *)
Theorem C67_order1 osc eps c p B symbol A phi w psi : p_order c = 1%Z -> l_ped (cpll_init c) = p -> 0 < p_tc c ->
  osc_within eps osc -> detects p B symbol -> B <= PI -> (forall k, 0 < A k) -> (forall k, symbol (psi k)) ->
  let alpha := 1 - exp (- / p_tc c) in
  Rmax (Rabs phi) (Rabs w / alpha) + 2 * eps < B ->
  exists a e : nat -> R, (forall k, 0 < a k <= 1) /\
    (forall k, Rabs (e k - (w / alpha + exp (- (INR k / p_tc c)) * (phi - w / alpha))) <= 2 * eps) /\
    forall n, exists s, cpll_step osc (cpll_init c) (modulated A phi w psi n) = Ok (s, map (fun k => at_angle (a k * A k) (e k + psi k)) (seq 0 n)).
Proof.
  intros Ho Hp Ht Hosc Hd HB HA Hs alpha Hr. pose proof (exp_inv_range _ Ht) as Hx. assert (Hal : 0 < alpha < 1) by (unfold alpha; lra).
  pose proof (Rmax_l (Rabs phi) (Rabs w / alpha)) as M1. pose proof (Rabs_pos phi) as M0.
  assert (He0 : 0 <= eps). { destruct (Hosc 0) as (_ & d & _ & D & _). pose proof (Rabs_pos d). lra. }
  assert (He : eps < PI) by lra.
  assert (I : cpll_init c = mkcpll (LF1 alpha 0) 0 p).
  { unfold cpll_init in *. cbn [l_ped] in Hp. rewrite Hp. rewrite Ho. cbn [Z.eqb Pos.eqb]. unfold filtre_boucle_ordre_1. rewrite tc_coef by exact Ht. reflexivity. }
  set (s0 := LF1 alpha 0) in *. set (E := err osc phi w s0).
  assert (EI : forall k, Rabs (E k - ideal1 phi w alpha k) <= 2 * eps).
  { intros k. unfold E, err. pose proof (order1 osc eps phi w He Hosc alpha Hal k) as O1. fold s0 in O1.
    pose proof (d_le osc eps He Hosc (lth osc phi w s0 k)) as D.
    replace (phi + w * INR k - lth osc phi w s0 k + osc_d osc (- lth osc phi w s0 k) - ideal1 phi w alpha k)
      with ((phi + w * INR k - lth osc phi w s0 k - ideal1 phi w alpha k) + osc_d osc (- lth osc phi w s0 k)) by ring.
    eapply Rle_trans; [apply Rabs_triang|]. lra. }
  assert (EB : forall k, Rabs (E k) < B).
  { intros k. pose proof (EI k). pose proof (ideal1_le phi w alpha Hal k).
    replace (E k) with ((E k - ideal1 phi w alpha k) + ideal1 phi w alpha k) by ring. eapply Rle_lt_trans; [apply Rabs_triang|]. lra. }
  exists (fun k => osc_a osc (- lth osc phi w s0 k)), E. split; [|split].
  - intros k. apply (osc_split osc eps _ He Hosc).
  - intros k. specialize (EI k). unfold ideal1 in EI. replace (1 - alpha) with (exp (- / p_tc c)) in EI by (unfold alpha; ring).
    rewrite exp_pow in EI. replace (INR k * - / p_tc c) with (- (INR k / p_tc c)) in EI by (unfold Rdiv; ring). exact EI.
  - intros n. eexists. rewrite I. apply (run_lin osc eps p B symbol A phi w psi He Hosc Hd HA Hs s0 n). intros k _. apply EB.
Qed.
Print Assumptions C67_order1.

(** Second-order loop of bandwidth bp < 1/4: there is a constant C such that for every carrier whose initial phase and
    frequency errors are small enough, the residual phase remains bounded, and ultimately is within C eps: with an exact
    oscillator (eps = 0) both errors are entirely cancelled.  Whatever the amplitudes and the symbols. *)
Theorem C67_order2 bp : 0 < bp < 1 / 4 -> exists K, 0 < K /\
  forall osc eps c p B symbol A phi w psi, p_order c <> 1%Z -> p_bp c = bp -> l_ped (cpll_init c) = p ->
  osc_within eps osc -> detects p B symbol -> B <= PI -> (forall k, 0 < A k) -> (forall k, symbol (psi k)) ->
  K * (Rabs phi + Rabs w + eps) < B ->
  exists a e : nat -> R, (forall k, 0 < a k <= 1) /\
    (forall k, Rabs (e k) <= K * (Rabs phi + Rabs w + eps)) /\ ultimately_within e 0 (K * eps) /\
    forall n, exists s, cpll_step osc (cpll_init c) (modulated A phi w psi n) = Ok (s, map (fun k => at_angle (a k * A k) (e k + psi k)) (seq 0 n)).
Proof.
  intros Hbp. set (g := 16 * 1 * 1 * bp / (1 * (1 + 4 * 1 * 1))). set (h := 4 * bp / (1 + 4 * 1 * 1)).
  assert (Hg : 0 < g) by (unfold g; lra). assert (Hh : 0 < h) by (unfold h; lra). assert (Hgh : g + h < 1) by (unfold g, h; lra).
  destruct (loop_stable g h Hg Hh Hgh) as (G & G1 & HG). set (K := G * (6 + 2 * (g * (2 + h))) + 1).
  assert (GH : 0 < g * (2 + h)) by (apply Rmult_lt_0_compat; lra).
  assert (KG : G * (6 + 2 * (g * (2 + h))) <= K) by (unfold K; lra).
  assert (K1 : 0 < G * (6 + 2 * (g * (2 + h)))) by (apply Rmult_lt_0_compat; lra).
  exists K. split; [unfold K; lra|].
  intros osc eps c p B symbol A phi w psi Ho Hb Hp Hosc Hd HB HA Hs Hr.
  assert (He0 : 0 <= eps). { destruct (Hosc 0) as (_ & d & _ & D & _). pose proof (Rabs_pos d). lra. }
  pose proof (Rabs_pos phi) as P0. pose proof (Rabs_pos w) as W0.
  assert (KP : eps <= K * eps) by (unfold K; nra).
  assert (He : eps < PI) by nra.
  assert (I : cpll_init c = mkcpll (LF2 g h 0 0 0) 0 p).
  { unfold cpll_init in *. cbn [l_ped] in Hp. rewrite Hp, Hb. destruct (Z.eqb_spec (p_order c) 1); [contradiction|]. reflexivity. }
  set (s0 := LF2 g h 0 0 0) in *. set (E := err osc phi w s0).
  pose proof (d_le osc eps He Hosc) as D.
  set (e k := phi + w * INR k - lth osc phi w s0 k).
  set (f k := g * osc_d osc (- lth osc phi w s0 k) - g * (1 + h) * osc_d osc (- lth osc phi w s0 (S k))).
  destruct (HG e f) as [HG1 HG2]. { intros k. unfold e, f. apply order2_rec. }
  assert (F : forall k, Rabs (f k) <= g * (2 + h) * eps).
  { intros k. unfold f. eapply Rle_trans; [apply Rabs_triang|]. rewrite Rabs_Ropp, !Rabs_mult, (Rabs_pos_eq g), (Rabs_pos_eq (1 + h)) by lra.
    pose proof (D (lth osc phi w s0 k)). pose proof (D (lth osc phi w s0 (S k))).
    assert (g * Rabs (osc_d osc (- lth osc phi w s0 k)) <= g * eps) by (apply Rmult_le_compat_l; lra).
    assert (g * (1 + h) * Rabs (osc_d osc (- lth osc phi w s0 (S k))) <= g * (1 + h) * eps) by (apply Rmult_le_compat_l; [nra|lra]). nra. }
  assert (EE : forall k, E k = e k + osc_d osc (- lth osc phi w s0 k)) by reflexivity.
  destruct (order2_init osc phi w g h) as (I0 & I1 & I2). fold s0 in I0, I1, I2. fold (e 0%nat) in I0. fold (e 1%nat) in I1. fold (e 2%nat) in I2. change (err osc phi w s0 0) with (E 0%nat) in I2.
  assert (EB0 : forall k, Rabs (e k) <= G * (6 + 2 * (g * (2 + h))) * (Rabs phi + Rabs w + eps)).
  { intros k. eapply Rle_trans; [apply (HG1 _ F)|]. rewrite (Rmult_assoc G (6 + 2 * (g * (2 + h)))). apply Rmult_le_compat_l; [lra|].
    rewrite I0, I1, I2. assert (Z0 : Rabs (E 0%nat) <= Rabs phi + eps).
    { rewrite EE, I0. eapply Rle_trans; [apply Rabs_triang|]. pose proof (D (lth osc phi w s0 0)). lra. }
    pose proof (Rabs_triang phi w). 
    assert (Rabs (phi + 2 * w - g * (1 + h) * E 0%nat) <= Rabs phi + 2 * Rabs w + g * (1 + h) * (Rabs phi + eps)).
    { eapply Rle_trans; [apply Rabs_triang|]. rewrite Rabs_Ropp, !Rabs_mult, (Rabs_pos_eq g), (Rabs_pos_eq (1 + h)) by lra.
      eapply Rle_trans; [apply Rplus_le_compat_r, Rabs_triang|]. rewrite Rabs_mult, (Rabs_pos_eq 2) by lra.
      assert (g * (1 + h) * Rabs (E 0%nat) <= g * (1 + h) * (Rabs phi + eps)) by (apply Rmult_le_compat_l; [nra|lra]). lra. }
    assert (g * (1 + h) <= g * (2 + h)) by nra. assert (0 <= g * (1 + h)) by nra.
    assert (g * (1 + h) * (Rabs phi + eps) <= g * (2 + h) * (Rabs phi + Rabs w + eps)) by (apply Rmult_le_compat; lra).
    assert (g * (2 + h) * eps <= g * (2 + h) * (Rabs phi + Rabs w + eps)) by (apply Rmult_le_compat_l; lra).
    replace ((6 + 2 * (g * (2 + h))) * (Rabs phi + Rabs w + eps)) with (6 * (Rabs phi + Rabs w + eps) + g * (2 + h) * (Rabs phi + Rabs w + eps) + g * (2 + h) * (Rabs phi + Rabs w + eps)) by ring. lra. }
  assert (EB : forall k, Rabs (E k) <= K * (Rabs phi + Rabs w + eps)).
  { intros k. rewrite EE. eapply Rle_trans; [apply Rabs_triang|]. pose proof (EB0 k). pose proof (D (lth osc phi w s0 k)). unfold K. lra. }
  exists (fun k => osc_a osc (- lth osc phi w s0 k)), E. split; [|split; [|split]].
  - intros k. apply (osc_split osc eps _ He Hosc).
  - exact EB.
  - intros eta Heta. destruct (HG2 (g * (2 + h) * eps) ltac:(apply Rmult_le_pos; lra) F eta Heta) as [n Hn]. exists n. intros k Hk. rewrite Rminus_0_r, EE.
    eapply Rle_trans; [apply Rabs_triang|]. pose proof (Hn k Hk). pose proof (D (lth osc phi w s0 k)).
    assert (G * (g * (2 + h) * eps) <= (K - 1) * eps). { unfold K. replace (G * (6 + 2 * (g * (2 + h))) + 1 - 1) with (G * (6 + 2 * (g * (2 + h)))) by ring. rewrite <- Rmult_assoc. apply Rmult_le_compat_r; [lra|]. apply Rmult_le_compat_l; lra. }
    lra.
  - intros n. eexists. rewrite I. apply (run_lin osc eps p B symbol A phi w psi He Hosc Hd HA Hs s0 n). intros k _. eapply Rle_lt_trans; [apply EB|exact Hr].
Qed.
Print Assumptions C67_order2.

(** The loop filters alone (FiltreBoucle), closed on an ideal linear detector: e k is the error given to the k-th step and
    target k the phase to follow. *)
Definition fed_back (s : lf) (target e : nat -> R) : Prop := exists (st : nat -> lf) (th : nat -> R),
  st 0%nat = s /\ th 0%nat = 0 /\ forall k, e k = target k - th k /\ lf_step (st k) (e k) = (st (S k), th (S k)).
Lemma fed_back_exists s target : exists e, fed_back s target e.
Proof.
  set (it := fix it k := match k with O => (s, 0) | S k => lf_step (fst (it k)) (target k - snd (it k)) end).
  exists (fun k => target k - snd (it k)), (fun k => fst (it k)), (fun k => snd (it k)). repeat split. apply surjective_pairing.
Qed.
Lemma fed_back2 g h target e : fed_back (LF2 g h 0 0 0) target e ->
  e 0%nat = target 0%nat /\ e 1%nat = target 1%nat /\ e 2%nat = target 2%nat - g * (1 + h) * e 0%nat /\
  forall k, e (S (S (S k))) = target (S (S (S k))) - 2 * target (S (S k)) + target (S k) + 2 * e (S (S k)) - (1 + g + g * h) * e (S k) + g * e k.
Proof.
  intros (st & th & S0 & T0 & H). assert (I : forall k, exists m l, st k = LF2 g h (th k) m l).
  { induction k as [|k (m & l & IH)]; [exists 0, 0; now rewrite S0, T0|]. destruct (H k) as [_ L]. rewrite IH in L. cbn in L. injection L as <- <-. eauto. }
  destruct (H 0%nat) as [E0 L0]. destruct (H 1%nat) as [E1 L1]. destruct (H 2%nat) as [E2 _]. rewrite S0 in L0. cbn [lf_step] in L0. injection L0 as L0 L0'. rewrite <- L0 in L1. cbn [lf_step] in L1. injection L1 as _ L1.
  split; [rewrite E0, T0; ring|]. split; [rewrite E1, <- L0'; ring|]. split; [rewrite E2, <- L1; ring|].
  intros k. destruct (I k) as (m & l & I0). destruct (H k) as [F0 K0]. destruct (H (S k)) as [F1 K1]. destruct (H (S (S k))) as [F2 K2]. destruct (H (S (S (S k)))) as [F3 _].
  rewrite I0 in K0. cbn [lf_step] in K0. injection K0 as K0 K0'. rewrite <- K0 in K1. cbn [lf_step] in K1. injection K1 as K1 K1'. rewrite <- K1 in K2. cbn [lf_step] in K2. injection K2 as _ K2'.
  clear H I I0 S0. set (a0 := e k) in *. set (a1 := e (S k)) in *. set (a2 := e (S (S k))) in *. lra.
Qed.
(** Order 1: the error is w/alpha + (phi - w/alpha) exp(-k/tau) on a phase ramp. *)
Theorem C67_filter1 tau phi w e : 0 < tau -> fed_back (filtre_boucle_ordre_1 tau) (fun k => phi + w * INR k) e ->
  let alpha := 1 - exp (- / tau) in forall k, e k = w / alpha + exp (- (INR k / tau)) * (phi - w / alpha).
Proof.
  intros Ht (st & th & S0 & T0 & H) alpha. pose proof (exp_inv_range _ Ht) as Hx. unfold filtre_boucle_ordre_1 in S0. rewrite tc_coef in S0 by exact Ht. fold alpha in S0.
  assert (I : forall k, st k = LF1 alpha (th k)).
  { induction k as [|k IH]; [now rewrite S0, T0|]. destruct (H k) as [_ L]. rewrite IH in L. cbn in L. injection L as <- <-. reflexivity. }
  assert (Q : forall k, exp (- (INR k / tau)) = (1 - alpha) ^ k). { intros k. unfold alpha. replace (1 - (1 - exp (- / tau))) with (exp (- / tau)) by ring. rewrite exp_pow. f_equal. unfold Rdiv. ring. }
  intros k. rewrite Q. induction k as [|k IH].
  - destruct (H 0%nat) as [E _]. rewrite E, T0. cbn [INR pow]. ring.
  - destruct (H k) as [E L]. destruct (H (S k)) as [E' _]. rewrite I in L. cbn in L. injection L as _ L. rewrite E', <- L, S_INR. cbn [pow].
    replace (phi + w * (INR k + 1) - (th k + alpha * e k)) with (e k + w - alpha * e k) by (rewrite E at 1; ring). rewrite IH. field. unfold alpha. lra.
Qed.
Print Assumptions C67_filter1.
(** Order 2: a phase ramp is followed without error, for every initial phase and slope, exactly when the bandwidth is
    below 1/4 (whatever the damping factor). *)
Theorem C67_filter2 BL eta : 0 < BL -> 0 < eta ->
  ((forall phi w e, fed_back (filtre_boucle_ordre_2 BL eta) (fun k => phi + w * INR k) e -> ultimately_within e 0 0) <-> BL < 1 / 4).
Proof.
  intros HB He. assert (E2 : 0 < eta * eta) by nra. assert (D : 0 < 1 + 4 * eta * eta) by lra.
  set (g := 16 * eta * eta * BL / (1 * (1 + 4 * eta * eta))). set (h := 4 * BL / (1 + 4 * eta * eta)).
  assert (Hg : 0 < g) by (unfold g; apply Rdiv_lt_0_compat; [|lra]; assert (0 < eta * eta * BL) by (apply Rmult_lt_0_compat; lra); lra).
  assert (Hh : 0 < h) by (unfold h; apply Rdiv_lt_0_compat; lra). assert (Hs : g + h = 4 * BL) by (unfold g, h; field; lra).
  change (filtre_boucle_ordre_2 BL eta) with (LF2 g h 0 0 0). split.
  - intros H. apply Rnot_le_lt. intros L. destruct (fed_back_exists (LF2 g h 0 0 0) (fun k => 0 + 1 * INR k)) as [e F]. specialize (H _ _ _ F).
    destruct (fed_back2 g h _ e F) as (I0 & I1 & I2 & R). cbn [INR] in I0, I1, I2.
    apply (loop_unstable g h e Hg Hh ltac:(lra)); [|lra|rewrite I2, I0, I1; ring|lra|].
    + intros k. rewrite R. rewrite !S_INR. ring.
    + intros eta' Heta. destruct (H eta' Heta) as [n Hn]. exists n. intros k Hk. specialize (Hn k Hk). rewrite Rminus_0_r, Rplus_0_l in Hn. exact Hn.
  - intros HL phi w e F. destruct (fed_back2 g h _ e F) as (I0 & I1 & I2 & R). destruct (loop_stable g h Hg Hh ltac:(lra)) as (G & _ & HG).
    destruct (HG e (fun _ => 0)) as [_ U]; [intros k; rewrite R, !S_INR; ring|].
    intros eta' Heta. destruct (U 0 ltac:(lra) ltac:(intros _; rewrite Rabs_R0; lra) eta' Heta) as [n Hn]. exists n. intros k Hk. specialize (Hn k Hk). rewrite Rminus_0_r. lra.
Qed.
Print Assumptions C67_filter2.
(** reset puts a loop filter back in its initial state, after any history. *)
Theorem C67_reset xs : (forall tau, lf_reset (fold_left (fun s x => fst (lf_step s x)) xs (filtre_boucle_ordre_1 tau)) = filtre_boucle_ordre_1 tau) /\
  (forall BL eta, lf_reset (fold_left (fun s x => fst (lf_step s x)) xs (filtre_boucle_ordre_2 BL eta)) = filtre_boucle_ordre_2 BL eta).
Proof.
  assert (G : forall s, lf_reset (fold_left (fun s x => fst (lf_step s x)) xs s) = lf_reset s).
  { induction xs as [|x t IH]; intros s; [reflexivity|]. cbn [fold_left]. rewrite IH. destruct s; reflexivity. }
  split; intros; rewrite G; reflexivity.
Qed.
Print Assumptions C67_reset.

(** The real PLL without its low-pass filter: every output sample is the input sample at the same instant times a factor of
    modulus at most 1 (the derotation): the PLL does not regenerate a carrier, and a null input gives a null output. *)
Lemma unit_sq t : fst (Sig_Spec.unit_at t) * fst (Sig_Spec.unit_at t) + snd (Sig_Spec.unit_at t) * snd (Sig_Spec.unit_at t) = 1.
Proof. unfold Sig_Spec.unit_at. cbn [fst snd]. pose proof (sin2_cos2 t) as H. unfold Rsqr in H. lra. Qed.
Lemma cpll_out osc s X s' Y : cpll_step osc s X = Ok (s', Y) -> Forall2 (fun x y => exists t w, osc t = Ok w /\ y = cmulr x w) X Y.
Proof.
  revert s Y. unfold cpll_step. induction X as [|x X IH]; intros s Y E; [injection E as <- <-; constructor|]. cbn [map_st] in E. unfold cpll_sample at 1 in E.
  destruct (osc (- l_theta s)) as [w| | |] eqn:W; try discriminate E. cbn [bind] in E. destruct (l_ped s (cmulr x w)) as [er| | |]; try discriminate E. cbn [bind] in E.
  destruct (lf_step (l_lf s) er) as [f t]. cbn [bind] in E. destruct (map_st (cpll_sample osc) _ X) as [[s2 Y2]| | |] eqn:M; try discriminate E. cbn [bind] in E. injection E as <- <-.
  constructor; [eauto|]. apply (IH _ _ M).
Qed.
Theorem C67_real_pll osc eps c freq blocks s y : osc_within eps osc -> run (rpll_step osc) (rpll_init c freq None) blocks = Ok (s, y) ->
  Forall2 (fun x y => exists q, Rabs q <= 1 /\ y = x * q) (concat blocks) y.
Proof.
  intros Ho. assert (G : forall blocks t cp s y, run (rpll_step osc) (mkrpll (Sig_Spec.unit_at t, Sig_Spec.unit_at (2 * PI * - freq)) None cp) blocks = Ok (s, y) ->
    Forall2 (fun x y => exists q, Rabs q <= 1 /\ y = x * q) (concat blocks) y).
  { clear blocks s y. induction blocks as [|x bs IH]; intros t cp s y E; [injection E as <- <-; constructor|]. cbn [run concat] in *. unfold rpll_step at 1 in E. cbn [r_osc r_re r_cpll] in E.
    rewrite Sig_Proofs.ohc_step_ok in E. cbn [bind] in E.
    destruct (cpll_step osc cp _) as [[c' x3]| | |] eqn:C1; try discriminate E. cbn [bind] in E.
    destruct (run (rpll_step osc) _ bs) as [[s2 y2]| | |] eqn:R2; try discriminate E. cbn [bind] in E. injection E as <- <-. apply IH in R2. apply Forall2_app; [|exact R2]. clear IH R2.
    apply cpll_out in C1. unfold Sig_Spec.tone in *. set (n := length x) in *. assert (L : length x = n) by reflexivity. clearbody n. revert t x x3 C1 L. generalize (- freq) as f. clear c' cp y2 bs.
    intros f t. enough (Q : forall k x x3, Forall2 (fun x y => exists t w, osc t = Ok w /\ y = cmulr x w)
        (map (fun p => (fst (fst p) * snd p, snd (fst p) * snd p)) (zip (map (fun k => Sig_Spec.unit_at (t + 2 * PI * f * INR k)) (seq k n)) x)) x3 -> length x = n ->
      Forall2 (fun x y => exists q, Rabs q <= 1 /\ y = x * q) x (map (fun p => fst (cmulr (zconj (fst p)) (snd p))) (zip (map (fun k => Sig_Spec.unit_at (t + 2 * PI * f * INR k)) (seq k n)) x3))) by (intros; apply Q; assumption).
    induction n as [|n IH]; intros k x x3 F L; destruct x as [|x0 x]; try discriminate L; cbn [seq map zip combine] in *; [constructor|].
    inversion F as [|a b la lb (u & wv & Hw & Hb) F' E1 E2]; subst. cbn [zip combine map]. constructor; [|apply IH; [exact F'|now injection L]].
    destruct (Ho u) as (a & d & Ha & _ & E). rewrite E in Hw. injection Hw as <-. exists (a * cos (u + d)). split.
    - rewrite Rabs_mult, (Rabs_pos_eq a) by lra. assert (Rabs (cos (u + d)) <= 1) by (apply Rabs_le; apply COS_bound). pose proof (Rabs_pos (cos (u + d))). nra.
    - cbn [fst snd]. set (v := Sig_Spec.unit_at (t + 2 * PI * f * INR k)). pose proof (unit_sq (t + 2 * PI * f * INR k)) as N. fold v in N. unfold cmulr, zconj, at_angle. cbn [fst snd].
      change (cos (t + 2 * PI * f * INR k)) with (fst v). change (sin (t + 2 * PI * f * INR k)) with (snd v). transitivity ((fst v * fst v + snd v * snd v) * (x0 * (a * cos (u + d)))); [ring|rewrite N; ring]. }
  intros E. unfold rpll_init, ohc_new, ohc_conf in E. rewrite Sig_Proofs.unit_0 in E. change (cos (2 * PI * - freq), sin (2 * PI * - freq)) with (Sig_Spec.unit_at (2 * PI * - freq)) in E.
  apply (G _ _ _ _ _ E).
Qed.
Print Assumptions C67_real_pll.

(** ** Non-vacuity *)
(** the default detector, the oscillator table of the library, time constant 100, initial phase 1 *)
Example C67_order1_case : let c := {| p_order := 1; p_bp := 0; p_tc := 100; p_ped := None |} in
  exists a e : nat -> R, (forall k, 0 < a k <= 1) /\
    (forall k, Rabs (e k - exp (- (INR k / 100))) <= 2 * / 25000000) /\
    forall n, exists s, cpll_step lut1024 (cpll_init c) (modulated (fun k => 1 + INR k) 1 0 (fun _ => 0) n) = Ok (s, map (fun k => at_angle (a k * (1 + INR k)) (e k + 0)) (seq 0 n)).
Proof.
  intros c. pose proof (C68_default c _ eq_refl eq_refl) as D.
  destruct (C67_order1 lut1024 (/ 25000000) c _ PI _ (fun k => 1 + INR k) 1 0 (fun _ => 0) eq_refl eq_refl ltac:(cbn; lra) (proj1 C67_oscillator) D ltac:(lra)) as (a & e & H1 & H2 & H3).
  - intros k. pose proof (pos_INR k). lra.
  - intros k. reflexivity.
  - rewrite Rabs_R0, Rabs_R1. unfold Rdiv. rewrite Rmult_0_l. rewrite Rmax_left by lra. pose proof PI2_3_2. lra.
  - exists a, e. split; [exact H1|]. split; [|exact H3]. intros k. specialize (H2 k). cbn [p_tc c] in H2.
    replace (0 / (1 - exp (- / 100)) + exp (- (INR k / 100)) * (1 - 0 / (1 - exp (- / 100)))) with (exp (- (INR k / 100))) in H2 by (unfold Rdiv; rewrite !Rmult_0_l; ring). exact H2.
Qed.
(** BPSK symbols, tan loop, second order, exact oscillator: locked for some non-zero phase and frequency errors *)
Example C67_order2_case : let c := {| p_order := 2; p_bp := 1 / 100; p_tc := 0; p_ped := Some (ped_tloop 2) |} in
  exists phi w, 0 < phi /\ 0 < w /\ exists e : nat -> R, ultimately_within e 0 0 /\
    forall n, exists a s, cpll_step (fun t => Ok (at_angle 1 t)) (cpll_init c) (modulated (fun _ => 1) phi w (fun k => PI * INR (k mod 2)) n) =
      Ok (s, map (fun k => at_angle (a k * 1) (e k + PI * INR (k mod 2))) (seq 0 n)).
Proof.
  intros c. destruct (C67_order2 (1 / 100) ltac:(lra)) as (K & HK & H). pose proof PI_RGT_0 as Hpi. set (x := PI / (2 * 4 * K)).
  assert (X : 0 < x) by (unfold x; apply Rdiv_lt_0_compat; lra). exists x, x. split; [exact X|]. split; [exact X|].
  destruct (H (fun t => Ok (at_angle 1 t)) 0 c (ped_tloop 2) (PI / INR 2) (fun psi => exists m, psi = 2 * PI * IZR m / INR 2) (fun _ => 1) x x (fun k => PI * INR (k mod 2))) as (a & e & H1 & H2 & H3 & H4).
  - discriminate.
  - reflexivity.
  - reflexivity.
  - intros t. exists 1, 0. rewrite Rabs_R0. repeat split; try lra. now rewrite Rplus_0_r.
  - apply C68_tan_loop. lia.
  - cbn [INR]. lra.
  - intros; lra.
  - intros k. exists (Z.of_nat (k mod 2)). rewrite <- INR_IZR_INZ. cbn [INR]. field.
  - rewrite Rabs_pos_eq by lra. replace (K * (x + x + 0)) with (PI / 4) by (unfold x; field; lra). cbn [INR]. lra.
  - exists e. split; [replace 0 with (K * 0) at 2 by ring; exact H3|]. intros n. destruct (H4 n) as [s Hs]. exists a, s. exact Hs.
Qed.
Example C67_real_pll_case : exists s y, run (rpll_step (fun t => Ok (at_angle 1 t))) (rpll_init {| p_order := 1; p_bp := 0; p_tc := 100; p_ped := None |} (1 / 8) None) [[1]; [0; 3]] = Ok (s, y).
Proof. do 2 eexists. cbn [run rpll_step rpll_init ohc_new ohc_conf ohc_step osc_loop zip combine map r_osc r_re r_cpll bind cpll_step map_st cpll_sample cpll_init p_ped p_order Z.eqb Pos.eqb l_ped l_lf lf_step filtre_boucle_ordre_1 length]. reflexivity. Qed.
