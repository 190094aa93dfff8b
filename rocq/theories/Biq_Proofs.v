From Coq Require Import Reals Lra Lia.
From Verif Require Import Base BaseLemmas RField DftSys ComplexSys Poly_Model Poly_Spec Poly_Proofs Rii_Model Biq_Spec.
Local Open Scope cring_scope.

Section Gen.
  Context {K : cfield} (isz : K -> bool) (Hz : forall v, isz v = true -> v = 0).
  Add Field Kf : (fth K).
  Let n10 : (1 : K) <> 0 := one_ne K.
  (** numerator and denominator before the simplification *)
  Lemma bq_part (b0 b1 b2 x : K) : let z := f_inv (f_z (K := K)) in let f := f_add (f_addc (f_scale z b1) b0) (f_scale (f_pow z 2) b2) in
    p_roots (f_num f) = false /\ p_roots (f_den f) = false /\ value (f_num f) x = x * (b0 * (x * x) + b1 * x + b2) /\ value (f_den f) x = x * x * x.
  Proof.
    intros z f. unfold f, z, f_add, f_addc, f_scale, f_pow, f_mul, f_inv, f_z. cbn [f_num f_den].
    split; [reflexivity|]. split; [reflexivity|].
    rewrite !add_ok. rewrite !mul_ok by (intros Q; discriminate Q). rewrite ?add_ok, ?scale_ok. rewrite ?mul_ok by (intros Q; discriminate Q). rewrite ?value_one, ?value_z. split; ring.
  Qed.
  Lemma bq_val (b0 b1 b2 a1 a2 x : K) : x <> 0 -> x * x + a1 * x + a2 <> 0 ->
    f_horner (biquad_frat isz b0 b1 b2 a1 a2) x = (b0 * (x * x) + b1 * x + b2) / (x * x + a1 * x + a2).
  Proof.
    intros Hx Hd. rewrite fhorner_ok. unfold biquad_frat. pose proof (bq_part b0 b1 b2 x) as (M1 & M2 & V1 & V2). pose proof (bq_part 1 a1 a2 x) as (M3 & M4 & V3 & V4).
    cbn zeta in *. set (N := f_add (f_addc (f_scale (f_inv f_z) b1) b0) _) in *. set (D := f_add (f_addc (f_scale (f_inv f_z) a1) 1) _) in *. clearbody N D.
    assert (X3 : x * x * x <> 0) by (apply mul_ne; [apply mul_ne|]; assumption).
    assert (DX : x * (1 * (x * x) + a1 * x + a2) <> 0) by (apply mul_ne; [exact Hx|]; intros E; apply Hd; rewrite <- E; ring).
    rewrite (fdiv_ok K isz Hz).
    - unfold fvalue. rewrite V1, V2, V3, V4. field. repeat split; assumption.
    - intros E. congruence.
    - intros E. congruence.
    - exact Hx.
    - rewrite V2. exact X3.
    - rewrite V4. exact X3.
    - rewrite V3. exact DX.
  Qed.
  (** roots of the denominator *)
  Lemma bq_poles (b0 b1 b2 a1 a2 x : K) : x <> 0 -> x * x + a1 * x + a2 <> 0 -> p_horner (f_den (biquad_frat isz b0 b1 b2 a1 a2)) x <> 0.
  Proof.
    intros Hx Hd. rewrite horner_ok. unfold biquad_frat. pose proof (bq_part b0 b1 b2 x) as (M1 & M2 & V1 & V2). pose proof (bq_part 1 a1 a2 x) as (M3 & M4 & V3 & V4).
    cbn zeta in *. set (N := f_add (f_addc (f_scale (f_inv f_z) b1) b0) _) in *. set (D := f_add (f_addc (f_scale (f_inv f_z) a1) 1) _) in *. clearbody N D.
    assert (X3 : x * x * x <> 0) by (apply mul_ne; [apply mul_ne|]; assumption).
    assert (DX : x * (1 * (x * x) + a1 * x + a2) <> 0) by (apply mul_ne; [exact Hx|]; intros E; apply Hd; rewrite <- E; ring).
    assert (DV : value (p_mul (f_den N) (f_num D)) x <> 0).
    { rewrite mul_ok by (intros E; congruence). rewrite V2, V3. apply mul_ne; assumption. }
    unfold f_div, f_simplifier. cbn [f_num f_den]. rewrite mul_mode_coefs by exact M1. cbn [f_den].
    intros E. apply DV. rewrite (drop_ok K isz Hz _ (Nat.min (nb_nuls isz (p_coefs (p_mul (f_num N) (f_den D)))) (nb_nuls isz (p_coefs (p_mul (f_den N) (f_num D)))))) by apply Nat.le_min_r.
    rewrite E. ring.
  Qed.
  (** the bilinear transform of the prototypes, with t = tan(w/2), cs = (1-t^2)/(1+t^2), sn = 2t/(1+t^2) *)
  Lemma warp_den (t q z : K) : t <> 0 -> z + 1 <> 0 -> let s := (z - 1) / (t * (z + 1)) in
    s * s + q * s + 1 = ((1 + t * t + t * q) * (z * z) - (1 + 1) * (1 - t * t) * z + (1 + t * t - t * q)) / (t * t * ((z + 1) * (z + 1))).
  Proof. intros Ht Hz1 s. unfold s. field. split; assumption. Qed.
End Gen.

(** ** embedding of the reals *)
Local Open Scope R_scope.
Lemma re_add a b : re (a + b) = (re a + re b)%K. Proof. apply C_ext; cbn; ring. Qed.
Lemma re_sub a b : re (a - b) = (re a - re b)%K. Proof. apply C_ext; cbn; ring. Qed.
Lemma re_opp a : re (- a) = (- re a)%K. Proof. apply C_ext; cbn; ring. Qed.
Lemma re_mul a b : re (a * b) = (re a * re b)%K. Proof. apply C_ext; cbn; ring. Qed.
Lemma re_ne a : a <> 0 -> re a <> (c0 : Cfield). Proof. intros H E. apply H. exact (f_equal fst E). Qed.
Lemma re_inv a : a <> 0 -> re (/ a) = finv (re a).
Proof. intros H. apply C_ext; cbn; unfold Cnorm2; cbn; field; [exact H|]. nra. Qed.
Lemma re_div a b : b <> 0 -> re (a / b) = (re a / re b)%K.
Proof. intros H. apply C_ext; cbn; unfold Cnorm2; cbn; field; nra. Qed.
Lemma re_1 : re 1 = (c1 : Cfield). Proof. reflexivity. Qed.
Lemma re_0 : re 0 = (c0 : Cfield). Proof. reflexivity. Qed.
Lemma re_2 : re 2 = (1 + 1 : Cfield)%K. Proof. apply C_ext; cbn; ring. Qed.
Lemma re_m2 : re (-2) = (- (1 + 1) : Cfield)%K. Proof. apply C_ext; cbn; ring. Qed.
Section CF.
Add Field Cf : (fth Cfield).
Lemma C0_dec (z : C) : {z = (0, 0)} + {z <> (0, 0)}.
Proof. destruct z as [a b]. destruct (Req_EM_T a 0) as [-> |N]; [|right; congruence]. destruct (Req_EM_T b 0) as [-> |N]; [left; reflexivity|right; congruence]. Qed.
Lemma C_mul0 (a b : Cfield) : (a * b = c0)%K -> a = c0 \/ b = c0.
Proof.
  intros E. destruct (C0_dec a) as [E0|N]; [left; exact E0|right].
  transitivity (finv a * (a * b))%K; [|rewrite E; ring]. field. exact N.
Qed.

(** half-angle formulas *)
Lemma half_angle f : 0 < f < 1 / 2 -> let t := tan (PI * f) in 0 < t /\ cos (2 * PI * f) = (1 - t * t) / (1 + t * t) /\ sin (2 * PI * f) = 2 * t / (1 + t * t).
Proof.
  intros Hf t. pose proof PI_RGT_0. assert (B : 0 < PI * f < PI / 2) by nra.
  assert (C0 : 0 < cos (PI * f)) by (apply cos_gt_0; lra). assert (S0 : 0 < sin (PI * f)) by (apply sin_gt_0; lra).
  pose proof (sin2_cos2 (PI * f)) as SC. unfold Rsqr in SC. unfold t, tan. replace (2 * PI * f) with (2 * (PI * f)) by ring.
  split; [apply Rdiv_lt_0_compat; assumption|]. rewrite cos_2a, sin_2a. set (s := sin (PI * f)) in *. set (c := cos (PI * f)) in *.
  assert (E : 1 + s / c * (s / c) = 1 / (c * c)). { transitivity ((s * s + c * c) / (c * c)); [field; lra|]. rewrite SC. reflexivity. }
  rewrite E. split; field; lra.
Qed.

(** real quadratic polynomials with complex argument *)
Lemma jury a0 a1 a2 (z : Cfield) : 0 < a0 -> - a0 < a2 < a0 -> - (a0 + a2) < a1 < a0 + a2 -> (re a0 * (z * z) + re a1 * z + re a2 = c0)%K -> Cnorm2 z < 1.
Proof.
  intros H0 H2 H1 E. destruct z as [x y]. pose proof (f_equal fst E) as E1. pose proof (f_equal snd E) as E2. cbn in E1, E2. unfold Cnorm2. cbn [fst snd].
  ring_simplify in E1. ring_simplify in E2.
  assert (Q : y * (2 * a0 * x + a1) = 0) by nra. apply Rmult_integral in Q. destruct Q as [-> |Q].
  - assert (X1 : x < 1). { apply Rnot_le_lt. intros L. assert (0 <= (x - 1) * (a0 * (x + 1) + a1)) by (apply Rmult_le_pos; nra). nra. }
    assert (X2 : -1 < x). { apply Rnot_le_lt. intros L. assert (0 <= (- x - 1) * (a0 * (- x + 1) - a1)) by (apply Rmult_le_pos; nra). nra. }
    nra.
  - assert (X : a1 = - (2 * a0 * x)) by lra. subst a1. assert (Y : a0 * (x * x + y * y) = a2) by nra.
    apply (Rmult_lt_reg_l a0); [exact H0|]. lra.
Qed.
Lemma quad_div a0 b0 b1 b2 a1 a2 (z : Cfield) : a0 <> 0 -> (re a0 * (z * z) + re a1 * z + re a2)%K <> (c0 : Cfield) ->
  (z * z + re (a1 / a0) * z + re (a2 / a0))%K <> (c0 : Cfield) /\
  ((re (b0 / a0) * (z * z) + re (b1 / a0) * z + re (b2 / a0)) / (z * z + re (a1 / a0) * z + re (a2 / a0)) =
  (re b0 * (z * z) + re b1 * z + re b2) / (re a0 * (z * z) + re a1 * z + re a2))%K.
Proof.
  intros Ha N. assert (RA := re_ne a0 Ha). rewrite !re_div by exact Ha.
  assert (N2 : (z * z + re a1 / re a0 * z + re a2 / re a0)%K <> (c0 : Cfield)).
  { intros E. apply N. transitivity (re a0 * (z * z + re a1 / re a0 * z + re a2 / re a0))%K; [|rewrite E]; [field; exact RA|ring]. }
  split; [exact N2|]. field. repeat split; try assumption.
Qed.
End CF.
