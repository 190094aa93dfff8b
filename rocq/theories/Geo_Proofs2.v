(** Proofs for C44: angles. *)
From Coq Require Import Reals Lra Lia Nsatz.
From Verif Require Import Geo_Model Geo_Spec Geo_Proofs Demod_Model Demod_Proofs.
Open Scope R_scope.

Lemma sqrt_sum_pos x y : 0 < x * x + y * y -> 0 < sqrt (x * x + y * y).
Proof. apply sqrt_lt_R0. Qed.
Lemma atan_polar x y : 0 < x -> let r := sqrt (x * x + y * y) in r * cos (atan (y / x)) = x /\ r * sin (atan (y / x)) = y.
Proof.
  intros Hx r. rewrite cos_atan, sin_atan.
  assert (Hp : 0 < x * x + y * y) by nra. assert (Hr : 0 < r) by (apply sqrt_lt_R0; exact Hp).
  assert (Hr2 : r * r = x * x + y * y) by (apply sqrt_def; lra).
  assert (E : sqrt (1 + (y / x)²) = r / x).
  { apply sqrt_lem_1; [unfold Rsqr; apply Rplus_le_le_0_compat; [lra|apply Rle_0_sqr]|apply Rlt_le, Rdiv_lt_0_compat; lra|].
    unfold Rsqr. transitivity ((r * r) / (x * x)); [field; lra|rewrite Hr2; field; lra]. }
  rewrite E. split; field; lra.
Qed.
Lemma atan2_polar x y : 0 < x * x + y * y -> let r := sqrt (x * x + y * y) in r * cos (atan2 y x) = x /\ r * sin (atan2 y x) = y.
Proof.
  intros H r. unfold atan2. destruct (Rlt_dec 0 x) as [P|P]; [apply (atan_polar x y P)|]. destruct (Rlt_dec x 0) as [N|N].
  - destruct (atan_polar (- x) (- y) ltac:(lra)) as [A B]. replace (- y / - x) with (y / x) in A, B by (field; lra).
    replace (- x * - x + - y * - y) with (x * x + y * y) in A, B by ring. fold r in A, B.
    destruct (Rle_dec 0 y).
    + rewrite neg_cos, neg_sin. lra.
    + replace (atan (y / x) - PI) with (- (PI - atan (y / x))) by ring. rewrite cos_neg, sin_neg, Rtrigo_facts.cos_pi_minus, Rtrigo_facts.sin_pi_minus. lra.
  - assert (x = 0) by lra. subst x. assert (Hr : r = Rabs y) by (unfold r; replace (0 * 0 + y * y) with (Rsqr y) by (unfold Rsqr; ring); apply sqrt_Rsqr_abs).
    destruct (Rlt_dec 0 y); [|destruct (Rlt_dec y 0); [|nra]].
    + rewrite cos_PI2, sin_PI2, Hr, Rabs_right by lra. lra.
    + rewrite cos_neg, sin_neg, cos_PI2, sin_PI2, Hr, Rabs_left by lra. lra.
Qed.
Lemma atan2_range y x : - PI < atan2 y x <= PI.
Proof.
  pose proof PI_RGT_0. unfold atan2. pose proof (atan_bound (y / x)) as B.
  destruct (Rlt_dec 0 x); [lra|]. destruct (Rlt_dec x 0) as [N|N].
  - destruct (Rle_dec 0 y).
    + assert (atan (y / x) <= 0); [|lra]. assert (y / x <= 0) by (unfold Rdiv; assert (/ x < 0) by (apply Rinv_lt_0_compat; lra); nra).
      destruct (Rle_lt_or_eq_dec _ _ H0) as [L| ->]; [apply Rlt_le; rewrite <- atan_0; apply atan_increasing; exact L|rewrite atan_0; lra].
    + assert (0 < y / x) by (unfold Rdiv; assert (/ x < 0) by (apply Rinv_lt_0_compat; lra); nra).
      assert (0 < atan (y / x)) by (rewrite <- atan_0; apply atan_increasing; assumption). lra.
  - destruct (Rlt_dec 0 y); [lra|]. destruct (Rlt_dec y 0); lra.
Qed.
Lemma atan2_of_polar r a : 0 < r -> - PI < a <= PI -> atan2 (r * sin a) (r * cos a) = a.
Proof.
  intros Hr Ha. assert (T : sin a * sin a + cos a * cos a = 1) by (pose proof (sin2_cos2 a) as T; unfold Rsqr in T; exact T).
  assert (E : r * cos a * (r * cos a) + r * sin a * (r * sin a) = r * r) by nsatz.
  destruct (atan2_polar (r * cos a) (r * sin a)) as [A B]; [rewrite E; nra|]. rewrite E in A, B. rewrite sqrt_square in A, B by lra.
  apply Rmult_eq_reg_l in A; [|lra]. apply Rmult_eq_reg_l in B; [|lra]. pose proof (atan2_range (r * sin a) (r * cos a)).
  apply polar_inj; [apply Rabs_def1; lra|]. unfold polar1. now rewrite A, B.
Qed.

Lemma mat_rotation_eq p t s : mat_rotation (Card p t s) =
  M3 (cos t * cos s) (cos t * sin s) (- sin t)
     (sin p * sin t * cos s - cos p * sin s) (sin p * sin t * sin s + cos p * cos s) (sin p * cos t)
     (cos p * sin t * cos s + sin p * sin s) (cos p * sin t * sin s - sin p * cos s) (cos p * cos t).
Proof. unfold mat_rotation, mulmm, rotR1, rotR2, rotR3. cbn. f_equal; ring. Qed.

Lemma cs2 a : cos a * cos a + sin a * sin a = 1.
Proof. pose proof (sin2_cos2 a) as T. unfold Rsqr in T. lra. Qed.
Lemma cardan_of_mat_rotation p t s : - PI < p <= PI -> - (PI / 2) < t < PI / 2 -> - PI < s <= PI ->
  cardan_of_mat (mat_rotation (Card p t s)) = Card p t s.
Proof.
  intros Hp Ht Hs. rewrite mat_rotation_eq. unfold cardan_of_mat. cbn [m00 m01 m02 m12 m22].
  assert (Hc : 0 < cos t) by (apply cos_gt_0; lra). rewrite <- sin_neg, asin_sin by lra.
  rewrite !(Rmult_comm _ (cos t)). rewrite !atan2_of_polar by assumption. f_equal. lra.
Qed.
Lemma mat_of_cardan A : rotation A -> -1 < m02 A < 1 -> mat_rotation (cardan_of_mat A) = A.
Proof.
  intros H Hs. pose proof (rotation_cof A H) as C. apply rotation_eqs in H. destruct A as [a b c d e f g h i]. cbn [m02] in Hs.
  destruct H as (H1 & H2 & H3 & H4 & H5 & H6 & D). destruct C as (C1 & C2 & C3 & C4 & C5 & C6 & C7 & C8 & C9 & R1 & R2 & R3 & R4 & R5 & R6).
  unfold cardan_of_mat. cbn [m00 m01 m02 m12 m22]. rewrite mat_rotation_eq.
  rewrite cos_neg, sin_neg, sin_asin, cos_asin by lra.
  assert (P : 0 < 1 - c * c) by nra.
  destruct (atan2_polar i f) as [A1 A2]; [nra|]. destruct (atan2_polar a b) as [B1 B2]; [nra|].
  replace (i * i + f * f) with (1 - c * c) in A1, A2 by lra. replace (a * a + b * b) with (1 - c * c) in B1, B2 by lra.
  unfold Rsqr. pose proof (sqrt_lt_R0 _ P) as K0. assert (K2 : sqrt (1 - c * c) * sqrt (1 - c * c) = 1 - c * c) by (apply sqrt_def; lra).
  set (k := sqrt (1 - c * c)) in *. set (cp := cos (atan2 f i)) in *. set (sp := sin (atan2 f i)) in *. set (cs := cos (atan2 b a)) in *. set (ss := sin (atan2 b a)) in *.
  clearbody k cp sp cs ss. assert (IK : / k * k = 1) by (apply Rinv_l; lra). set (ik := / k) in *. clearbody ik. clear Hs P K0.
  assert (cp = ik * i) by nsatz. assert (sp = ik * f) by nsatz. assert (cs = ik * a) by nsatz. assert (ss = ik * b) by nsatz. 
  clear A1 A2 B1 B2. subst cp sp cs ss. f_equal; try nsatz.
Qed.
