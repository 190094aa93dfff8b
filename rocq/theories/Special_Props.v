(** C48: theorems. *)
From Coq Require Import Reals Lra Lia ZArith.
From Coquelicot Require Import Coquelicot.
From Verif Require Import Base BaseLemmas RField Poly_Model Poly_Spec Poly_Proofs Phase_Model Phase_Spec Special_Model Special_Spec Special_Proofs.

(** T_n(cos t) = cos(n t), for every degree and angle. *)
Theorem C48_T_cos : forall (n : nat) (t : R), p_horner (K := Rring) (Chebychev_T (Z.of_nat n)) (cos t) = cos (INR n * t).
Proof. intros. rewrite horner_ok. change (Chebychev_T (K := Rring) (Z.of_nat n)) with (Chebychev_TU (K := Rring) (Z.of_nat n) true). rewrite TU_cpoly. apply T_cos. Qed.
Print Assumptions C48_T_cos.
Section Ring.
  Local Open Scope cring_scope.
  Lemma T_is (K : cring) n : Chebychev_T (K := K) (Z.of_nat n) = cpoly K true n.
  Proof. apply (TU_cpoly K true). Qed.
  (** Documented recurrence, at every point of any ring. *)
  Theorem C48_T_recurrence : forall (K : cring) (x : K),
    p_horner (Chebychev_T 0) x = 1 /\ p_horner (Chebychev_T 1) x = x /\
    forall n : nat, p_horner (Chebychev_T (Z.of_nat (n + 2))) x = (1 + 1) * x * p_horner (Chebychev_T (Z.of_nat (n + 1))) x - p_horner (Chebychev_T (Z.of_nat n)) x.
  Proof.
    intros K x. rewrite !horner_ok. split; [apply (v_0 K true)|]. split; [apply (v_1 K true)|]. intros n. rewrite !horner_ok, !T_is.
    replace (n + 2)%nat with (S (S n)) by lia. replace (n + 1)%nat with (S n) by lia. apply v_SS.
  Qed.
  Print Assumptions C48_T_recurrence.
  (** Degree n: n + 1 coefficients, the last one being 2^(n-1). *)
  Theorem C48_T_degree : forall (K : cring) (n : nat),
    p_roots (Chebychev_T (K := K) (Z.of_nat n)) = false /\
    length (p_coefs (Chebychev_T (K := K) (Z.of_nat n))) = (n + 1)%nat /\
    ((1 <= n)%nat -> nth n (p_coefs (Chebychev_T (K := K) (Z.of_nat n))) 0 = cpow (1 + 1) (n - 1)).
  Proof.
    intros K n. rewrite T_is. split; [apply cpoly_mode|]. split; [rewrite (proj1 (coefs_shape K true n)); lia|].
    intros H. destruct n as [|n]; [lia|]. rewrite (proj2 (proj2 (coefs_shape K true n))). replace (S n - 1)%nat with n by lia. apply (Rmul_1_l (cth K)).
  Qed.
  Print Assumptions C48_T_degree.
  (** Product formula and composition. *)
  Theorem C48_T_product : forall (K : cring) (x : K) (n m : nat), (n <= m)%nat ->
    (1 + 1) * (p_horner (Chebychev_T (Z.of_nat m)) x * p_horner (Chebychev_T (Z.of_nat n)) x) =
    p_horner (Chebychev_T (Z.of_nat (m + n))) x + p_horner (Chebychev_T (Z.of_nat (m - n))) x.
  Proof. intros. rewrite !horner_ok, !T_is. apply T_product. assumption. Qed.
  Print Assumptions C48_T_product.
  Theorem C48_T_compose : forall (K : cring) (x : K) (n m : nat),
    p_horner (Chebychev_T (Z.of_nat n)) (p_horner (Chebychev_T (Z.of_nat m)) x) = p_horner (Chebychev_T (Z.of_nat (n * m))) x.
  Proof. intros. rewrite !horner_ok, !T_is. apply T_compose. Qed.
  Print Assumptions C48_T_compose.
  (** Finding: Chebychev_U passes 2 to a bool parameter and gets the first kind. *)
  Theorem C48_U_refuted : forall (K : cring) (n : Z), Chebychev_U (K := K) n = Chebychev_T n.
  Proof. reflexivity. Qed.
  Print Assumptions C48_U_refuted.
  (** Finding: a negative degree is accepted and gives the polynomial z. *)
  Theorem C48_negative_refuted : forall (K : cring) (n : Z), (n < 0)%Z -> Chebychev_T (K := K) n = p_z.
  Proof.
    intros K n H. unfold Chebychev_T, Chebychev_TU. replace (n =? 0)%Z with false by (symmetry; apply Z.eqb_neq; lia).
    replace (n =? 1)%Z with false by (symmetry; apply Z.eqb_neq; lia). replace (Z.to_nat (n - 1)) with 0%nat by lia. reflexivity.
  Qed.
  Print Assumptions C48_negative_refuted.
End Ring.
Local Open Scope R_scope.
(** On [-1,1] the polynomial stays in [-1,1], beyond it grows with the degree. *)
Theorem C48_T_bound : forall (n : nat) (x : R), (-1 <= x <= 1 -> Rabs (p_horner (K := Rring) (Chebychev_T (Z.of_nat n)) x) <= 1) /\
  (1 <= x -> 1 <= p_horner (K := Rring) (Chebychev_T (Z.of_nat n)) x <= p_horner (K := Rring) (Chebychev_T (Z.of_nat (n + 1))) x).
Proof.
  intros n x. split; intros H.
  - rewrite <- (cos_acos x) by lra. rewrite C48_T_cos. apply Rabs_le. apply COS_bound.
  - rewrite !horner_ok, !T_is. replace (n + 1)%nat with (S n) by lia. apply T_ge1. exact H.
Qed.
Print Assumptions C48_T_bound.
(** The second kind, which Chebychev_U should compute, is what the shared routine gives for the other value of its flag. *)
Theorem C48_second_kind : forall (n : nat) (t : R), p_horner (K := Rring) (Chebychev_TU (Z.of_nat n) false) (cos t) * sin t = sin ((INR n + 1) * t).
Proof. intros. rewrite horner_ok, TU_cpoly. apply U_sin. Qed.
Print Assumptions C48_second_kind.
(** ... so that Chebychev_U is not the second kind: at degree 1 and t = pi/3, 1/2 instead of 1. *)
Theorem C48_U_value_refuted : p_horner (K := Rring) (Chebychev_U 1) (cos (PI / 3)) * sin (PI / 3) <> sin (2 * (PI / 3)).
Proof.
  rewrite C48_U_refuted. change 1%Z with (Z.of_nat 1). rewrite C48_T_cos. cbn [INR]. rewrite Rmult_1_l, sin_2a, cos_PI3, sin_PI3.
  assert (0 < sqrt 3) by (apply sqrt_lt_R0; lra). lra.
Qed.
Print Assumptions C48_U_value_refuted.
(** Dirichlet kernel: the imaginary part of the documented sum vanishes, the function returns the real part, except within
    1e-5 of a multiple of 2 pi where it returns the limit 2N+1, exceeding the sum by at most N(N+1)(2N+1)/6 1e-10. *)
Theorem C48_dirichlet : forall (N : nat) (W : R), dirichlet_im N W = 0 /\
  ((forall k : Z, / 10 ^ 5 <= Rabs (W - IZR k * (2 * PI))) -> Dirichlet (Z.of_nat N) W = dirichlet_re N W) /\
  0 <= Dirichlet (Z.of_nat N) W - dirichlet_re N W <= INR N * (INR N + 1) * (2 * INR N + 1) / 6 * / 10 ^ 10.
Proof.
  intros N W. split; [apply dir_im0|].
  assert (HN : 0 <= INR N * (INR N + 1) * (2 * INR N + 1) / 6) by (pose proof (pos_INR N); apply Rmult_le_pos; [|lra]; repeat apply Rmult_le_pos; lra).
  destruct (Dirichlet_ok N W) as [E|(E & k & Hk)].
  - rewrite E. split; [reflexivity|]. split; [lra|]. replace (dirichlet_re N W - dirichlet_re N W) with 0 by ring. apply Rmult_le_pos; [exact HN|]. left. apply Rinv_0_lt_compat. apply pow_lt. lra.
  - split; [intros H; specialize (H k); lra|]. rewrite E.
    rewrite <- (dir_period N W (- k)). set (w := W + IZR (- k) * (2 * PI)). pose proof (dir_near N w) as [A B]. cbn [INR] in A.
    assert (Hw : Rabs w < / 10 ^ 5) by (replace w with (W - IZR k * (2 * PI)) by (unfold w; rewrite opp_IZR; ring); exact Hk).
    split; [lra|]. assert (S : w * w <= / 10 ^ 10).
    { rewrite <- (Rabs_mult w w) || idtac. assert (Q : w * w = Rabs w * Rabs w) by (rewrite <- Rabs_mult; symmetry; apply Rabs_right; nra). rewrite Q.
      replace (/ 10 ^ 10) with (/ 10 ^ 5 * / 10 ^ 5) by field. pose proof (Rabs_pos w). apply Rmult_le_compat; lra. }
    apply Rle_trans with (INR N * (INR N + 1) * (2 * INR N + 1) / 6 * (w * w)); [lra|]. apply Rmult_le_compat_l; assumption.
Qed.
Print Assumptions C48_dirichlet.
(** sinc(T, f) is the Fourier transform of the gate of width T, exactly at f = 0 and as soon as |pi T f| >= 1e-7, and within
    relative error a^2/2 < 1e-14 elsewhere. *)
Theorem C48_sinc : forall T f : R,
  is_RInt (fun t => - sin (2 * PI * f * t)) (- T / 2) (T / 2) 0 /\
  (f = 0 \/ / 10 ^ 7 <= Rabs (PI * T * f) -> is_RInt (fun t => cos (2 * PI * f * t)) (- T / 2) (T / 2) (sinc_T T f)) /\
  exists v, is_RInt (fun t => cos (2 * PI * f * t)) (- T / 2) (T / 2) v /\ Rabs (sinc_T T f - v) <= Rabs T * / 10 ^ 14.
Proof.
  intros T f. split; [apply sin_int|].
  assert (E0 : forall x, 0 <= x * / 10 ^ 14 <-> 0 <= x) by (intros; split; intros; lra).
  assert (ZZ : sinc_T T 0 = T).
  { unfold sinc_T. rewrite Rmult_0_r, Rabs_R0. destruct (Rlt_dec 0 (/ 10 ^ 7)) as [_|H]; [reflexivity|]. destruct H. lra. }
  split.
  - intros [->|H]; [rewrite ZZ; apply sinc_zero|]. unfold sinc_T. destruct (Rlt_dec (Rabs (PI * T * f)) (/ 10 ^ 7)) as [G|G]; [lra|].
    apply cos_int. intros ->. rewrite Rmult_0_r, Rabs_R0 in H. lra.
  - destruct (Req_dec f 0) as [->|Hf].
    { exists T. split; [apply sinc_zero|]. rewrite ZZ, Rminus_eq_0, Rabs_R0. apply E0. apply Rabs_pos. }
    exists (sin (PI * T * f) / (PI * f)). split; [apply cos_int; exact Hf|]. unfold sinc_T.
    destruct (Rlt_dec (Rabs (PI * T * f)) (/ 10 ^ 7)) as [G|G]; [|rewrite Rminus_eq_0, Rabs_R0; apply E0; apply Rabs_pos].
    pose proof PI_RGT_0 as HP. set (a := PI * T * f) in *.
    assert (Q : Rabs (a - sin a) <= Rabs a * / 10 ^ 14).
    { assert (P : forall b, 0 <= b -> b < / 10 ^ 7 -> Rabs (b - sin b) <= b * / 10 ^ 14).
      { intros b [Hb|<-] H; [|rewrite sin_0, Rminus_0_r, Rabs_R0; lra]. destruct (sin_near b Hb) as [A B]. rewrite Rabs_right by lra.
        assert (b * b <= / 10 ^ 14) by (replace (/ 10 ^ 14) with (/ 10 ^ 7 * / 10 ^ 7) by field; apply Rmult_le_compat; lra). nra. }
      destruct (Rle_dec 0 a) as [H|H].
      - rewrite (Rabs_right a) in * by lra. apply P; assumption.
      - rewrite (Rabs_left a) in * by lra. specialize (P (- a) ltac:(lra) G). rewrite sin_neg in P. rewrite <- Rabs_Ropp. replace (- (a - sin a)) with (- a - - sin a) by ring. exact P. }
    replace (T - sin a / (PI * f)) with ((a - sin a) / (PI * f)) by (unfold a; field; split; lra).
    unfold Rdiv. rewrite Rabs_mult. rewrite Rabs_inv. apply Rle_trans with (Rabs a * / 10 ^ 14 * / Rabs (PI * f)).
    + apply Rmult_le_compat_r; [|exact Q]. left. apply Rinv_0_lt_compat. apply Rabs_pos_lt. nra.
    + right. unfold a. replace (PI * T * f) with (T * (PI * f)) by ring. rewrite Rabs_mult. field. apply Rgt_not_eq. apply Rabs_pos_lt. nra.
Qed.
Print Assumptions C48_sinc.
(** Normalised cardinal sine: 1 at 0, null at the other integers. *)
Theorem C48_sinc_integers : forall k : Z, sinc1 (IZR k) = if (k =? 0)%Z then 1 else 0.
Proof.
  intros k. unfold sinc1, sinc_T. destruct (Z.eqb_spec k 0) as [->|H].
  - rewrite Rmult_0_r, Rabs_R0. destruct (Rlt_dec 0 (/ 10 ^ 7)); [reflexivity|]. lra.
  - replace (PI * 1 * IZR k) with (IZR k * PI) by ring. rewrite sin_int_PI. unfold Rdiv. rewrite Rmult_0_l.
    destruct (Rlt_dec (Rabs (IZR k * PI)) (/ 10 ^ 7)) as [G|_]; [|reflexivity]. exfalso.
    rewrite Rabs_mult, (Rabs_right PI) in G by (pose proof PI_RGT_0; lra). assert (1 <= Rabs (IZR k)) by (rewrite <- abs_IZR; apply IZR_le; lia).
    pose proof PI2_1. assert (1 * 1 <= Rabs (IZR k) * PI) by (apply Rmult_le_compat; lra). lra.
Qed.
Print Assumptions C48_sinc_integers.
(** Non-vacuity: coefficients of T_5 and of the second kind polynomial of degree 3. *)
Example C48_case : p_coefs (Chebychev_T (K := Zring) 5) = [0; 5; 0; -20; 0; 16]%Z /\ p_coefs (Chebychev_TU (K := Zring) 3 false) = [0; -4; 0; 8]%Z /\
  p_coefs (Chebychev_U (K := Zring) 3) = [0; -3; 0; 4]%Z.
Proof. repeat split. Qed.
(** Non-vacuity: W = 1 is away from all multiples of 2 pi. *)
Example C48_dirichlet_case : forall k : Z, / 10 ^ 5 <= Rabs (1 - IZR k * (2 * PI)).
Proof.
  intros k. pose proof PI2_1. pose proof PI_4. destruct (Z_lt_le_dec k 1) as [H1|H1].
  - assert (IZR k <= 0) by (apply (IZR_le k 0); lia). rewrite Rabs_right by nra. nra.
  - assert (1 <= IZR k) by (apply (IZR_le 1 k); lia). rewrite Rabs_left1 by nra. nra.
Qed.
