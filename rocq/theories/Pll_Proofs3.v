From Coq Require Import Reals Lra Lia.
From Verif Require Import Base BaseLemmas Geo_Model Geo_Proofs2 Demod_Model Sig_Model Pll_Model Pll_Spec Pll_Proofs2 Sig_Spec Sig_Proofs Sig_Props Phase_Spec.
Local Open Scope R_scope.

Lemma sincos_per_nat t n : cos (t + INR n * (2 * PI)) = cos t /\ sin (t + INR n * (2 * PI)) = sin t.
Proof. split; [rewrite <- (cos_period t n)|rewrite <- (sin_period t n)]; f_equal; ring. Qed.
Lemma angle_period a t z : at_angle a (t + IZR z * (2 * PI)) = at_angle a t.
Proof.
  unfold at_angle. destruct (Z_le_dec 0 z) as [H|H].
  - destruct (sincos_per_nat t (Z.to_nat z)) as [A B]. rewrite INR_IZR_INZ, Z2Nat.id in A, B by lia. now rewrite A, B.
  - destruct (sincos_per_nat (t + IZR z * (2 * PI)) (Z.to_nat (- z))) as [A B]. rewrite INR_IZR_INZ, Z2Nat.id in A, B by lia. rewrite opp_IZR in A, B.
    replace (t + IZR z * (2 * PI) + - IZR z * (2 * PI)) with t in A, B by ring. now rewrite A, B.
Qed.
Lemma zpow_angle a t M : zpow (at_angle a t) M = at_angle (a ^ M) (INR M * t).
Proof.
  induction M as [|M IH]; [cbn [zpow pow INR]; unfold at_angle; rewrite Rmult_0_l, cos_0, sin_0; f_equal; ring|].
  cbn [zpow]. rewrite IH, angle_mul, S_INR. cbn [pow]. f_equal. ring.
Qed.
Lemma angle_nz a t : 0 < a -> is0 (at_angle a t) = false.
Proof.
  intros Ha. unfold is0, at_angle. cbn [fst snd]. destruct (Req_EM_T (a * cos t) 0) as [C|C]; [|reflexivity]. destruct (Req_EM_T (a * sin t) 0) as [S0|S0]; [|reflexivity].
  exfalso. pose proof (sin2_cos2 t) as T. unfold Rsqr in T. apply Rmult_integral in C, S0. destruct C as [C|C]; [lra|]. destruct S0 as [S0|S0]; [lra|]. rewrite C, S0 in T. lra.
Qed.

(** ** The table of the oscillator *)
Lemma sin_cubic x : 0 <= x <= PI -> x - x * x * x / 6 <= sin x.
Proof.
  intros H. destruct (sin_bound x 0 ltac:(lra) ltac:(lra)) as [B _]. unfold sin_approx, sum_f_R0, sin_term in B. cbn [Nat.mul Nat.add] in B. cbn in B. lra.
Qed.
Lemma sin_le_x x : 0 <= x -> sin x <= x.
Proof. intros H. destruct (Rle_lt_or_eq_dec _ _ H) as [L| <-]; [left; apply sin_lt_x; exact L|rewrite sin_0; lra]. Qed.
Lemma atan_le_abs x : Rabs (atan x) <= Rabs x.
Proof.
  assert (P : forall x, 0 < x -> 0 <= atan x <= x).
  { intros y Hy. destruct (MVT_cor2 atan (fun c => / (1 + c ^ 2)) 0 y Hy) as (c & E & Hc).
    { intros c _. apply derivable_pt_lim_atan. }
    rewrite atan_0, Rminus_0_r in E. rewrite E. assert (Q : 0 < / (1 + c ^ 2) <= 1).
    { pose proof (pow2_ge_0 c). split; [apply Rinv_0_lt_compat; lra|]. apply Rle_trans with (/ 1); [apply Rinv_le_contravar; lra|rewrite Rinv_1; lra]. }
    rewrite Rminus_0_r. split; nra. }
  destruct (Rtotal_order x 0) as [L|[-> |L]].
  - pose proof (P (- x) ltac:(lra)) as Q. rewrite atan_opp in Q. rewrite Rabs_left1, (Rabs_left x) by lra. lra.
  - rewrite atan_0. lra.
  - pose proof (P x L). rewrite !Rabs_pos_eq by lra. lra.
Qed.
Lemma chord h f : 0 < h <= PI / 4 -> 0 <= f < 1 ->
  let u := (1 - f) * cos (f * h) + f * cos ((1 - f) * h) in let v := f * sin ((1 - f) * h) - (1 - f) * sin (f * h) in
  1 / 2 <= u /\ Rabs v <= h * h * h / 24.
Proof.
  intros Hh Hf u v. pose proof PI_RGT_0 as Hpi. assert (C4 : 1 / 2 < cos (PI / 3)  \/ 1 / 2 = cos (PI / 3)) by (right; rewrite cos_PI3; lra).
  assert (F1 : 0 <= f * h <= h) by nra. assert (F2 : 0 <= (1 - f) * h <= h) by nra.
  assert (C : forall x, 0 <= x <= h -> 1 / 2 <= cos x).
  { intros x Hx. rewrite <- cos_PI3. apply cos_decr_1; lra. }
  split.
  - unfold u. pose proof (C _ F1). pose proof (C _ F2). nra.
  - set (x := f * h) in *. set (y := (1 - f) * h) in *. unfold v.
    assert (Ux := sin_cubic x ltac:(lra)). assert (Uy := sin_cubic y ltac:(lra)).
    assert (Lx := sin_le_x x ltac:(lra)). assert (Ly := sin_le_x y ltac:(lra)).
    assert (E : f * y = (1 - f) * x) by (unfold x, y; ring).
    assert (Fq : f * (1 - f) <= 1 / 4) by (pose proof (Rle_0_sqr (2 * f - 1)) as Q; unfold Rsqr in Q; lra).
    assert (0 <= f * (1 - f)) by (apply Rmult_le_pos; lra).
    assert (H2 : 0 < h * h) by nra. assert (H3 : 0 < h * h * h) by nra.
    assert (X : (1 - f) * (x * x * x / 6) <= h * h * h / 24).
    { replace ((1 - f) * (x * x * x / 6)) with (f * (1 - f) * (x * x) * h / 6) by (unfold x; field).
      assert (x * x <= h * h) by nra. assert (0 <= x * x) by nra.
      assert (f * (1 - f) * (x * x) <= 1 / 4 * (h * h)) by (apply Rmult_le_compat; lra). nra. }
    assert (Y : f * (y * y * y / 6) <= h * h * h / 24).
    { replace (f * (y * y * y / 6)) with (f * (1 - f) * (y * y) * h / 6) by (unfold y; field).
      assert (y * y <= h * h) by nra. assert (0 <= y * y) by nra.
      assert (f * (1 - f) * (y * y) <= 1 / 4 * (h * h)) by (apply Rmult_le_compat; lra). nra. }
    apply Rabs_le.
    assert (f * (y - y * y * y / 6) <= f * sin y) by (apply Rmult_le_compat_l; lra).
    assert ((1 - f) * (x - x * x * x / 6) <= (1 - f) * sin x) by (apply Rmult_le_compat_l; lra).
    assert (f * sin y <= f * y) by (apply Rmult_le_compat_l; lra).
    assert ((1 - f) * sin x <= (1 - f) * x) by (apply Rmult_le_compat_l; lra). lra.
Qed.
Lemma lut_within N : (8 <= N)%nat -> let h := 2 * PI / INR N in osc_within (h * h * h / 12) (olut_step N).
Proof.
  intros HN h t. pose proof PI_RGT_0 as Hpi. assert (HNR : 8 <= INR N) by (replace 8 with (INR 8) by (cbn; ring); apply le_INR; exact HN).
  assert (Hh : 0 < h <= PI / 4).
  { unfold h. split; [apply Rdiv_lt_0_compat; lra|]. apply (Rmult_le_reg_r (INR N)); [lra|]. unfold Rdiv at 1. rewrite Rmult_assoc, Rinv_l by lra. nra. }
  destruct (C53_table_interpolates N t ltac:(lia)) as (k & f & Hk & Hf & [z Hz] & E). cbv zeta in E.
  destruct (C53_table_modulus N t ltac:(lia)) as (y & Ey & [_ My]). rewrite E in Ey.
  pose proof (chord h f Hh Hf) as [Cu Cv]. cbv zeta in Cu, Cv.
  set (u := (1 - f) * cos (f * h) + f * cos ((1 - f) * h)) in *. set (v := f * sin ((1 - f) * h) - (1 - f) * sin (f * h)) in *.
  set (r := sqrt (u * u + v * v)).
  destruct (atan_polar u v ltac:(lra)) as [P1 P2]. fold r in P1, P2.
  set (al := INR k * h).
  assert (Y : y = cmulr (at_angle 1 (al + f * h)) (u, v)).
  { assert (Y0 : y = (fst (unit_at al) * (1 - f) + fst (unit_at (al + h)) * f, snd (unit_at al) * (1 - f) + snd (unit_at (al + h)) * f)).
    { replace (2 * PI * INR k / INR N) with al in Ey by (unfold al, h; field; lra).
      replace (2 * PI * (INR k + 1) / INR N) with (al + h) in Ey by (unfold al, h; field; lra). congruence. }
    rewrite Y0. unfold unit_at, cmulr, at_angle, u, v. cbn [fst snd].
    set (b := al + f * h).
    assert (C1 : cos al = cos b * cos (f * h) + sin b * sin (f * h)) by (rewrite <- cos_minus; f_equal; unfold b; ring).
    assert (S1 : sin al = sin b * cos (f * h) - cos b * sin (f * h)) by (rewrite <- sin_minus; f_equal; unfold b; ring).
    assert (C2 : cos (al + h) = cos b * cos ((1 - f) * h) - sin b * sin ((1 - f) * h)) by (rewrite <- cos_plus; f_equal; unfold b; ring).
    assert (S2 : sin (al + h) = sin b * cos ((1 - f) * h) + cos b * sin ((1 - f) * h)) by (rewrite <- sin_plus; f_equal; unfold b; ring).
    rewrite C1, S1, C2, S2. f_equal; ring. }
  assert (R0 : 0 < r) by (apply sqrt_lt_R0; nra).
  assert (RR : r * r = u * u + v * v) by (apply sqrt_def; nra).
  exists r, (atan (v / u)). split; [|split].
  - split; [exact R0|]. assert (N2 : fst y * fst y + snd y * snd y = u * u + v * v).
    { rewrite Y. unfold cmulr, at_angle. cbn [fst snd]. pose proof (sin2_cos2 (al + f * h)) as T. unfold Rsqr in T.
      transitivity ((sin (al + f * h) * sin (al + f * h) + cos (al + f * h) * cos (al + f * h)) * (u * u + v * v)); [ring|rewrite T; ring]. }
    rewrite N2, <- RR in My. apply Rnot_lt_le. intros L. assert (1 * 1 < r * r) by (apply Rmult_gt_0_lt_compat; lra). lra.
  - eapply Rle_trans; [apply atan_le_abs|]. unfold Rdiv. rewrite Rabs_mult, Rabs_inv, (Rabs_pos_eq u) by lra.
    pose proof (Rabs_pos v).
    assert (/ u <= 2). { apply (Rmult_le_reg_r u); [lra|]. rewrite Rinv_l by lra. lra. }
    assert (0 < / u) by (apply Rinv_0_lt_compat; lra). assert (Rabs v * / u <= Rabs v * 2) by (apply Rmult_le_compat_l; lra). lra.
  - rewrite E. assert (T : at_angle r (t + atan (v / u)) = y).
    { replace (t + atan (v / u)) with ((al + f * h) + atan (v / u) + IZR z * (2 * PI)).
      2: { rewrite <- Hz. unfold al, h. field. lra. }
      rewrite angle_period, Y. replace r with (1 * r) by ring. rewrite <- angle_mul. f_equal. unfold at_angle. rewrite P1, P2. reflexivity. }
    rewrite T. exact Ey.
Qed.
