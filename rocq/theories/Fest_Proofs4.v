From Coq Require Import Reals ZArith Lra Lia Field Psatz R_Ifp.
From Verif Require Import Base BaseLemmas RField DftSys ComplexSys Rii_Model Biq_Proofs Biq_Props But_Proofs Special_Proofs Fourier_Model Fourier_Spec Fourier_Props Fest_Model Fest_Spec Fest_Proofs Fest_Proofs2 Fest_Proofs3.
Local Open Scope R_scope.

Lemma norm0 (z : C) : Cnorm2 z = 0 -> z = (0, 0).
Proof. intros H. destruct (C0_dec z) as [|N]; [assumption|]. exfalso. exact (Cnorm2_ne z N H). Qed.
Lemma prev_ne k N : (2 <= N)%nat -> (k < N)%nat -> ((k + N - 1) mod N <> k)%nat.
Proof.
  intros H1 H2 C. destruct k as [|k].
  - rewrite Nat.mod_small in C by lia. lia.
  - replace (S k + N - 1)%nat with (k + 1 * N)%nat in C by lia. rewrite Nat.mod_add, Nat.mod_small in C by lia. lia.
Qed.
Lemma next_ne k N : (2 <= N)%nat -> (k < N)%nat -> ((k + 1) mod N <> k)%nat.
Proof.
  intros H1 H2 C. destruct (Nat.eq_dec (k + 1) N) as [E|E].
  - rewrite E, Nat.mod_same in C by lia. lia.
  - rewrite Nat.mod_small in C by lia. lia.
Qed.
Lemma rdiv_ok a b : b <> 0 -> rdiv a b = Ok (a / b).
Proof. intros H. unfold rdiv. destruct (Req_EM_T b 0); [easy|reflexivity]. Qed.
Lemma cdiv_ok (a b q : Complex) : b <> c0 -> a = (q * b)%K -> cdiv a b = Ok q.
Proof.
  intros H E. unfold cdiv. destruct (Req_EM_T (Cnorm2 b) 0) as [E0|_]; [exfalso; exact (Cnorm2_ne b H E0)|]. f_equal. rewrite E.
  assert (forall (s r : Cfield), r <> c0 -> (s * r / r)%K = s) as W. { clear. intros s r Nr. pose proof (fth Cfield) as FT. destruct FT as [RT _ DT IT]. rewrite DT.
      destruct RT. rewrite <- Rmul_assoc. rewrite (Rmul_comm r). rewrite (IT r Nr). rewrite Rmul_comm. apply Rmul_1_l. }
  apply (W q b H).
Qed.
Section F.
  Add Field Cf : (fth Cfield).
  Lemma div_eq (x r a z e : Cfield) : r <> c0 -> z <> c1 -> (x * r = a)%K -> ((z - 1) * a = e)%K -> x = ((e / r) / (z - 1))%K.
  Proof. intros H1 H2 E1 E2. assert (D1 : (z - 1 <> 0)%K) by (apply (sub_ne Complex); exact H2). rewrite <- E2, <- E1. field. split; assumption. Qed.
  Lemma div_ne (e r : Cfield) : r <> c0 -> e <> c0 -> (e / r)%K <> c0.
  Proof. intros H1 H2 C. apply H2. replace e with ((e / r) * r)%K by (field; exact H1). rewrite C. ring. Qed.
  Lemma mul_ne (a b : Cfield) : a <> c0 -> b <> c0 -> (a * b)%K <> c0.
  Proof. intros H1 H2 C. destruct (C_mul0 a b C); contradiction. Qed.
  Lemma cand_ratio (n d D q y : Cfield) : D <> c0 -> (n * D = y * q)%K -> (d * D = y)%K -> n = (q * d)%K.
  Proof. intros H E1 E2. replace n with (n * D / D)%K by (field; exact H). rewrite E1, <- E2. field. exact H. Qed.
  Lemma sum_two (w v : Cfield) : (re 2 - w - v = 1 + 1 - w - v)%K.
  Proof. apply C_ext; cbn; ring. Qed.
  Lemma mul_assoc4 (c z p q r : Cfield) : (p * q = r)%K -> (c * z * p * q = c * z * r)%K.
  Proof. intros <-. ring. Qed.
End F.

Section Can.
  Context (junk A : Complex) (f : R) (N : nat).
  Hypothesis HN : (3 <= N <= 2 ^ 29)%nat.
  Hypothesis HA : A <> c0.
  Let P : 3 <= INR N. Proof. replace 3 with (INR 3) by (cbn; ring). apply le_INR. lia. Qed.
  Lemma candan_ok : exists k u m, freq_estim_candan2 junk (tone A f N) = Ok ((INR k + u) / INR N) /\ (k < N)%nat /\ - (1 / 2) <= u <= 1 / 2 /\ f = (INR k + u) / INR N + IZR m.
  Proof using HN HA P.
    destruct (tone_peak junk A f N ltac:(lia) HA) as [X [k [u [m [E [L [K1 [_ [K2 [H [_ [Ef [Hu [H0 H1]]]]]]]]]]]]]].
    exists k, u, m. split; [|split; [exact K2|split; [exact Hu|exact Ef]]].
    unfold freq_estim_candan2. rewrite tone_length, E. cbn [bind]. rewrite K1. cbn [bind].
    set (k1 := ((k + N - 1) mod N)%nat). set (k3 := ((k + 1) mod N)%nat).
    assert (B1 : (k1 < N)%nat) by (apply Nat.mod_upper_bound; lia). assert (B3 : (k3 < N)%nat) by (apply Nat.mod_upper_bound; lia).
    rewrite !(vget_nth X _ c0) by lia. cbn [bind].
    change (nth k X c0) with (samp X k). change (nth k1 X c0) with (samp X k1). change (nth k3 X c0) with (samp X k3).
    pose proof PI_RGT_0 as PP. set (a := PI * u / INR N). set (b := PI / INR N).
    assert (Hb : 0 < b <= PI / 3). { unfold b. split; [apply Rdiv_lt_0_compat; lra|]. apply Rmult_le_compat_l; [lra|]. apply Rinv_le_contravar; lra. }
    assert (Ea : a = u * b) by (unfold a, b; field; lra).
    assert (Ha : - (PI / 6) <= a <= PI / 6) by (rewrite Ea; split; nra).
    assert (Sb : 0 < sin b) by (apply sin_gt_0; lra). assert (Cb : 0 < cos b) by (apply cos_gt_0; lra). assert (Ca : 0 < cos a) by (apply cos_gt_0; lra).
    (* the ratio *)
    assert (Q : cdiv (samp X k1 - samp X k3)%K (re 2 * samp X k - samp X k3 - samp X k1)%K = Ok (re (tan a * cos b / sin b))).
    { destruct (Req_dec u 0) as [U|U].
      - destruct (H0 U) as [Z0 Zk].
        assert (X1 : samp X k1 = c0). { apply norm0. rewrite (bin_norm A f N ltac:(lia) X k1 (H k1 B1)), (Z0 k1 B1 (prev_ne k N ltac:(lia) K2)). field. lra. }
        assert (X3 : samp X k3 = c0). { apply norm0. rewrite (bin_norm A f N ltac:(lia) X k3 (H k3 B3)), (Z0 k3 B3 (next_ne k N ltac:(lia) K2)). field. lra. }
        assert (X2 : Cnorm2 (samp X k) <> 0).
        { rewrite (bin_norm A f N ltac:(lia) X k (H k K2)), Zk. pose proof (A_pos A HA). apply Rgt_not_eq. apply Rdiv_lt_0_compat; [|lra]. apply Rmult_lt_0_compat; nra. }
        rewrite X1, X3. replace a with 0 by (rewrite Ea, U; ring). rewrite tan_0. replace (0 * cos b / sin b) with 0 by (field; lra).
        apply cdiv_ok.
        + intros C0. apply X2. assert (samp X k = (c0 : Cfield)) as ->; [|unfold Cnorm2; cbn; ring].
          apply C_ext; [apply (f_equal fst) in C0|apply (f_equal snd) in C0]; cbn in C0 |- *; lra.
        + apply C_ext; cbn; ring.
      - destruct (H1 U) as [GE NZ]. set (r := re (sqrt (INR N))) in *.
        assert (Nr : r <> (c0 : Cfield)) by (apply re_ne, Rgt_not_eq, sqrt_lt_R0; lra).
        set (z := eit (2 * a)). set (w := eit (2 * b)). set (v := eit (- (2 * b))).
        assert (Zk : zeta f N k = z).
        { unfold zeta. replace (f - INR k / INR N) with (u / INR N + IZR m) by (rewrite Ef; field; lra). rewrite eit_shift. unfold z, a. f_equal. field. lra. }
        assert (Z1 : zeta f N k1 = (z * w)%K).
        { unfold k1. rewrite zeta_mod by lia. rewrite minus_INR, plus_INR by lia. replace (f - (INR k + INR N - INR 1) / INR N) with ((u + 1) / INR N + IZR (m - 1)).
          2:{ rewrite Ef, minus_IZR. cbn. field. lra. }
          rewrite eit_shift. unfold z, w. rewrite <- eit_add. unfold a, b. f_equal. field. lra. }
        assert (Z3 : zeta f N k3 = (z * v)%K).
        { unfold k3. rewrite zeta_mod by lia. rewrite plus_INR. replace (f - (INR k + INR 1) / INR N) with ((u - 1) / INR N + IZR m).
          2:{ rewrite Ef. cbn. field. lra. }
          rewrite eit_shift. unfold z, v. rewrite <- eit_add. unfold a, b. f_equal. field. lra. }
        assert (WV : (w * v = c1)%K) by (unfold w, v; rewrite <- eit_add; replace (2 * b + - (2 * b)) with 0 by ring; apply eit_0).
        set (e := (A * (eit (2 * PI * (f * INR N)) - c1))%K : Cfield).
        assert (G : forall j, (j < N)%nat -> samp X j = ((e / r) / (zeta f N j - c1))%K).
        { intros j Hj. apply (div_eq (samp X j) r _ (zeta f N j) e Nr (NZ j Hj) (H j Hj)).
          transitivity (A * ((zeta f N j - c1) * sum N (cpow (zeta f N j))))%K; [apply C_ext; cbn; ring|]. rewrite geo, zeta_pow by lia. reflexivity. }
        rewrite (G k K2), (G k1 B1), (G k3 B3), Zk, Z1, Z3. set (c := (e / r)%K).
        assert (Nc : c <> c0).
        { apply div_ne; [exact Nr|]. apply mul_ne; [exact HA|]. intros C0. rewrite <- norm_eit_sub1 in GE. rewrite C0 in GE. unfold Cnorm2 in GE. cbn in GE. lra. }
        pose proof (NZ k K2) as N1. rewrite Zk in N1. pose proof (NZ k1 B1) as N2. rewrite Z1 in N2. pose proof (NZ k3 B3) as N3. rewrite Z3 in N3.
        destruct (cand_alg c z w v WV N1 N2 N3) as [A1 A2]. cbv zeta in A1, A2.
        set (D := ((z - c1) * (z * w - c1) * (z * v - c1))%K) in *.
        assert (ND : D <> c0). { apply mul_ne; [apply mul_ne|]; apply (sub_ne Complex); assumption. }
        pose proof (cand_trig a b ltac:(lra) ltac:(lra)) as T. fold z w v in T. rewrite sum_two in T.
        assert (NY : (c * z * (z + c1) * (c1 + c1 - w - v))%K <> c0).
        { apply mul_ne; [apply mul_ne; [apply mul_ne; [exact Nc|apply eit_ne0]|]|].
          - intros C0. apply (f_equal fst) in C0. cbn in C0. rewrite cos_2a_cos in C0. nra.
          - intros C0. apply (f_equal fst) in C0. cbn in C0. rewrite cos_neg, cos_2a_sin in C0. nra. }
        replace (re 2 * (c / (z - c1)) - c / (z * v - c1) - c / (z * w - c1))%K with ((c1 + c1) * (c / (z - c1)) - c / (z * v - c1) - c / (z * w - c1))%K.
        2:{ do 2 f_equal. f_equal. apply C_ext; cbn; ring. }
        apply cdiv_ok.
        + intros C0. apply NY. rewrite <- A2. rewrite C0. apply C_ext; cbn; ring.
        + apply (cand_ratio _ _ D _ (c * z * (z + c1) * (c1 + c1 - w - v))%K ND); [|exact A2]. etransitivity; [exact A1|].
          transitivity (c * z * ((v - w) * (z - c1)))%K; [apply C_ext; cbn; ring|]. rewrite T. apply C_ext; cbn; ring. }
    rewrite Q. cbn [bind fst re].
    fold b. assert (Nb : b <> 0) by lra. rewrite (rdiv_ok _ b Nb). cbn [bind]. rewrite (rdiv_ok _ b Nb). cbn [bind]. rewrite rdiv_ok by lra. do 2 f_equal. f_equal.
    match goal with |- atan ?y / b = u => replace y with (tan a) end.
    - rewrite atan_tan by lra. rewrite Ea. field. exact Nb.
    - replace (tan b) with (sin b / cos b) by reflexivity. replace PI with (b * INR N) by (unfold b; field; lra). field. repeat split; lra.
  Qed.
End Can.
