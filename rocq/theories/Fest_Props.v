(** C69: frequency estimation (freqestim, localise_pic_frequence). *)
From Coq Require Import Reals ZArith Lra Lia Field Psatz R_Ifp.
From Verif Require Import Base BaseLemmas RField DftSys ComplexSys Rii_Model Biq_Proofs Biq_Props But_Proofs Special_Proofs Fourier_Model Fourier_Spec Fourier_Proofs2 Fourier_Props Fest_Model Fest_Spec Fest_Proofs Fest_Proofs2 Fest_Proofs3 Fest_Proofs4 Fest_Proofs5.
Local Open Scope R_scope.

Lemma pos_le_1 k N (p : R) : (k < N)%nat -> (2 <= N)%nat -> - (1 / 2) <= p <= 1 / 2 -> - (1 / 2) < (INR k + p) / INR N <= 1.
Proof.
  intros H HN Hp. assert (P : 2 <= INR N) by (change 2 with (INR 2); apply le_INR; lia).
  assert (K : INR k + 1 <= INR N) by (rewrite <- S_INR; apply le_INR; lia). pose proof (pos_INR k).
  split; (apply Rmult_lt_reg_r with (INR N) || apply Rmult_le_reg_r with (INR N)); try lra; unfold Rdiv; rewrite Rmult_assoc, Rinv_l by lra; lra.
Qed.
Lemma frac_range k N : (k < N)%nat -> - (1 / 2) < INR k / INR N <= 1.
Proof.
  intros H. assert (P : 0 < INR N) by (apply lt_0_INR; lia). apply lt_INR in H. pose proof (pos_INR k).
  split; (apply Rmult_lt_reg_r with (INR N) || apply Rmult_le_reg_r with (INR N)); try lra; unfold Rdiv; rewrite Rmult_assoc, Rinv_l by lra; lra.
Qed.

(** The default method is exact on every pure tone. *)
Theorem C69_candan_exact : forall (junk A : Complex) f N, (3 <= N <= 2 ^ 29)%nat -> A <> c0 -> - (1 / 2) < f <= 1 / 2 ->
  freqestim junk (tone A f N) CANDAN2 = Ok f.
Proof.
  intros junk A f N HN HA Hf. destruct (candan_ok junk A f N HN HA) as [k [u [m [E [Hk [Hu Ef]]]]]].
  unfold freqestim. rewrite E. cbn [bind]. change (Ok (fold_half ((INR k + u) / INR N)) = Ok f). f_equal.
  apply (fold_exact f _ m Hf); [|exact Ef]. apply pos_le_1; [exact Hk|lia|exact Hu].
Qed.
Print Assumptions C69_candan_exact.

(** The index of the largest bin: within half a bin, modulo 1. *)
Theorem C69_fft_half_bin : forall (junk A : Complex) f N, (0 < N <= 2 ^ 29)%nat -> A <> c0 ->
  exists r, freqestim junk (tone A f N) FFT = Ok r /\ - (1 / 2) < r <= 1 / 2 /\ near r f (1 / (2 * INR N)).
Proof.
  intros junk A f N HN HA. destruct (tone_peak junk A f N HN HA) as [X [k [u [m [E [L [K1 [K1' [K2 [H [M3 [Ef [Hu _]]]]]]]]]]]]].
  assert (P : 0 < INR N) by (apply lt_0_INR; lia).
  destruct (near_tone f N k u m 0 ltac:(lia) K2 Ef) as [B1 B2].
  - rewrite Rminus_0_l, Rabs_Ropp. apply Rabs_le. lra.
  - rewrite Rplus_0_r. apply frac_range, K2.
  - rewrite Rplus_0_r in B1, B2. eexists. split; [|split; [exact B2|exact B1]].
    unfold freqestim. rewrite E. cbn [bind]. rewrite K1. cbn [bind]. rewrite tone_length, rdiv_ok by lra. reflexivity.
Qed.
Print Assumptions C69_fft_half_bin.

(** Quadratic interpolation: within half a bin, modulo 1; exact when the tone falls on a bin. *)
Theorem C69_quadratic : forall (junk A : Complex) f N, (3 <= N <= 2 ^ 29)%nat -> A <> c0 ->
  exists r, freqestim junk (tone A f N) QUADRATIC = Ok r /\ - (1 / 2) < r <= 1 / 2 /\ near r f (1 / (2 * INR N)) /\
  ((exists b : Z, f = IZR b / INR N) -> near r f 0).
Proof.
  intros junk A f N HN HA. destruct (tone_sides junk A f N HN HA) as [X [k [u [m [E [L [K1 [_ [K2 [Ef [Hu S]]]]]]]]]]]. cbv zeta in S.
  assert (P : 3 <= INR N) by (replace 3 with (INR 3) by (cbn; ring); apply le_INR; lia).
  set (k1 := ((k + N - 1) mod N)%nat) in *. set (k3 := ((k + 1) mod N)%nat) in *.
  assert (B1 : (k1 < N)%nat) by (apply Nat.mod_upper_bound; lia). assert (B3 : (k3 < N)%nat) by (apply Nat.mod_upper_bound; lia).
  set (y1 := Cnorm2 (samp X k1)) in *. set (y2 := Cnorm2 (samp X k)) in *. set (y3 := Cnorm2 (samp X k3)) in *.
  destruct S as [S1 [S2 [S3 [S4 S5]]]].
  set (a1 := sqrt y1). set (a2 := sqrt y2). set (a3 := sqrt y3).
  assert (T1 : 0 <= a1 <= a2) by (split; [apply sqrt_pos|apply sqrt_le_1; lra]).
  assert (T2 : 0 <= a3 <= a2) by (split; [apply sqrt_pos|apply sqrt_le_1; lra]).
  assert (D : 0 < 2 * a2 - a3 - a1).
  { destruct (Rle_dec 0 u) as [U|U].
    - destruct (S3 U) as [_ Q]. assert (a1 < a2) by (apply sqrt_lt_1; lra). lra.
    - destruct (S4 ltac:(lra)) as [_ Q]. assert (a3 < a2) by (apply sqrt_lt_1; lra). lra. }
  set (p := 1 / 2 * (a3 - a1) / (2 * a2 - a3 - a1)).
  assert (Ep : p * (2 * a2 - a3 - a1) = 1 / 2 * (a3 - a1)) by (unfold p; field; lra).
  assert (Hp : - (1 / 2) <= p <= 1 / 2) by (split; apply Rmult_le_reg_r with (2 * a2 - a3 - a1); lra).
  assert (Hs : (0 <= u -> 0 <= p) /\ (u <= 0 -> p <= 0)).
  { split; intros U; apply Rmult_le_reg_r with (2 * a2 - a3 - a1); try lra; rewrite Ep.
    - destruct (S3 U) as [Q _]. assert (a1 <= a3) by (apply sqrt_le_1; lra). lra.
    - destruct (S4 U) as [Q _]. assert (a3 <= a1) by (apply sqrt_le_1; lra). lra. }
  assert (Hpu : Rabs (p - u) <= 1 / 2). { apply Rabs_le. destruct Hs as [Hs1 Hs2]. destruct (Rle_dec 0 u); [specialize (Hs1 ltac:(lra)); lra|specialize (Hs2 ltac:(lra)); lra]. }
  pose proof (pos_le_1 k N p K2 ltac:(lia) Hp) as Rr. destruct (near_tone f N k u m p ltac:(lia) K2 Ef Hpu Rr) as [N1 N2].
  exists (fold_half ((INR k + p) / INR N)). split; [|split; [exact N2|split; [exact N1|]]].
  - unfold freqestim, freq_estim_quadratique. rewrite tone_length, E. cbn [bind]. rewrite K1. cbn [bind].
    fold k1 k3. rewrite !(vget_nth (vabs X) _ 0) by (rewrite vabs_length; lia). rewrite !nth_vabs by lia. cbn [bind].
    change (sqrt (Cnorm2 (samp X k))) with a2. change (sqrt (Cnorm2 (samp X k1))) with a1. change (sqrt (Cnorm2 (samp X k3))) with a3.
    rewrite rdiv_ok by lra. cbn [bind]. fold p. rewrite rdiv_ok by lra. cbn [bind]. reflexivity.
  - intros [b Eb]. assert (U : u = 0).
    { assert (I : u = IZR (b - Z.of_nat k - m * Z.of_nat N)).
      { rewrite !minus_IZR, mult_IZR, <- !INR_IZR_INZ. assert (EN : f * INR N = IZR b) by (rewrite Eb; field; lra). rewrite <- EN, Ef. field. lra. }
      rewrite I in Hu |- *. destruct Hu as [h1 h2]. replace (b - Z.of_nat k - m * Z.of_nat N)%Z with 0%Z; [reflexivity|].
      assert (-1 < b - Z.of_nat k - m * Z.of_nat N < 1)%Z; [|lia]. split; apply lt_IZR; lra. }
    destruct (S3 ltac:(lra)) as [Q1 _]. destruct (S4 ltac:(lra)) as [Q2 _]. assert (a1 = a3) by (unfold a1, a3; f_equal; lra).
    assert (p0 : p = 0) by (unfold p; rewrite H; field; lra). destruct (fold_near _ Rr) as [_ [z Ez]]. rewrite Ez, p0, Ef, U. exists (z - m)%Z.
    rewrite minus_IZR. match goal with |- Rabs ?t <= 0 => replace t with 0 by ring end. rewrite Rabs_R0. lra.
Qed.
Print Assumptions C69_quadratic.

(** Any signal: the first and third methods give a frequency of (-1/2, 1/2]; the quadratic method fails (0/0) exactly when
    the largest bin and its two neighbours are equal. *)
Theorem C69_range : forall (junk : Complex) (x : list Complex), (0 < List.length x <= 2 ^ 29)%nat ->
  (exists r, freqestim junk x FFT = Ok r /\ - (1 / 2) < r <= 1 / 2) /\
  ((exists r, freqestim junk x QUADRATIC = Ok r /\ - (1 / 2) < r <= 1 / 2) \/
   freqestim junk x QUADRATIC = UB /\ exists X k, fft junk x = Ok X /\ (k < List.length x)%nat /\
     (forall j, (j < List.length x)%nat -> Cnorm2 (samp X j) <= Cnorm2 (samp X k)) /\
     Cnorm2 (samp X ((k + List.length x - 1) mod List.length x)) = Cnorm2 (samp X k) /\ Cnorm2 (samp X ((k + 1) mod List.length x)) = Cnorm2 (samp X k)).
Proof.
  intros junk x HN. set (N := List.length x) in *. assert (P : 0 < INR N) by (apply lt_0_INR; lia).
  destruct (C24_fft Complex junk x HN) as [X [E [L _]]]. fold N in L.
  destruct (index_max_ok (vabs X)) as [k [K1 [K2 K3]]]; [intros C; apply (f_equal (@List.length R)) in C; rewrite vabs_length, L in C; cbn in C; lia|].
  rewrite vabs_length, L in K2, K3.
  split.
  - destruct (fold_near _ (frac_range k N K2)) as [B _]. eexists. split; [|exact B]. unfold freqestim. rewrite E. cbn [bind]. rewrite K1. cbn [bind]. fold N. rewrite rdiv_ok by lra. reflexivity.
  - set (k1 := ((k + N - 1) mod N)%nat). set (k3 := ((k + 1) mod N)%nat).
    assert (B1 : (k1 < N)%nat) by (apply Nat.mod_upper_bound; lia). assert (B3 : (k3 < N)%nat) by (apply Nat.mod_upper_bound; lia).
    pose proof (K3 k1 B1) as L1. pose proof (K3 k3 B3) as L3.
    unfold freqestim, freq_estim_quadratique. fold N. rewrite E. cbn [bind]. rewrite K1. cbn [bind]. fold k1 k3.
    rewrite !(vget_nth (vabs X) _ 0) by (rewrite vabs_length; lia). cbn [bind].
    set (a2 := nth k (vabs X) 0) in *. set (a1 := nth k1 (vabs X) 0) in *. set (a3 := nth k3 (vabs X) 0) in *.
    destruct (Req_dec (2 * a2 - a3 - a1) 0) as [Z|Z].
    + right. split; [unfold rdiv; destruct (Req_EM_T (2 * a2 - a3 - a1) 0); [reflexivity|contradiction]|].
      exists X, k. split; [reflexivity|]. split; [exact K2|].
      assert (Q : forall j, (j < N)%nat -> nth j (vabs X) 0 = sqrt (Cnorm2 (samp X j))) by (intros; apply nth_vabs; lia).
      split.
      * intros j Hj. specialize (K3 j Hj). unfold a2 in K3. rewrite !Q in K3 by assumption. apply sqrt_le_0; try apply Cnorm2_nonneg. exact K3.
      * assert (e1 : a1 = a2) by lra. assert (e3 : a3 = a2) by lra. unfold a1, a2, a3 in e1, e3. rewrite !Q in e1, e3 by assumption.
        split; apply sqrt_inj; try apply Cnorm2_nonneg; assumption.
    + left. rewrite rdiv_ok by exact Z. cbn [bind]. rewrite rdiv_ok by lra. cbn [bind].
      assert (HN2 : (2 <= N)%nat). { destruct (Nat.eq_dec N 1) as [e|]; [|lia]. exfalso. apply Z. assert (h1 : k1 = k) by lia. assert (h3 : k3 = k) by lia. unfold a1, a2, a3. rewrite h1, h3. ring. }
      set (p := 1 / 2 * (a3 - a1) / (2 * a2 - a3 - a1)). assert (Ep : p * (2 * a2 - a3 - a1) = 1 / 2 * (a3 - a1)) by (unfold p; field; lra).
      assert (Hp : - (1 / 2) <= p <= 1 / 2) by (split; apply Rmult_le_reg_r with (2 * a2 - a3 - a1); lra).
      destruct (fold_near _ (pos_le_1 k N p K2 HN2 Hp)) as [B _]. eexists. split; [|exact B]. reflexivity.
Qed.
Print Assumptions C69_range.

(** Finding: on a unit impulse the quadratic method computes 0/0. *)
Theorem C69_quadratic_impulse_refuted : forall (junk : Complex) n, (n < 2 ^ 29)%nat -> freqestim junk (c1 :: repeat c0 n) QUADRATIC = UB.
Proof.
  intros junk n Hn. set (x := (c1 :: repeat c0 n : list Complex)).
  assert (Lx : List.length x = S n) by (cbn; rewrite repeat_length; reflexivity).
  destruct (C24_fft Complex junk x ltac:(rewrite Lx; lia)) as [X [E [L H]]]. rewrite Lx in L, H.
  assert (HX : forall k, (k < S n)%nat -> samp X k = (c1 / rt (S n))%K).
  { intros k Hk. rewrite (H k Hk). f_equal. rewrite sum_S_l.
    assert (Z : forall m, sum m (fun j => samp x (S j) * wz (S n) (Z.of_nat (S j) * Z.of_nat k))%K = (c0 : Complex)).
    { induction m as [|m IH]; [reflexivity|]. cbn [sum]. rewrite IH. unfold x, samp. cbn [nth].
      replace (nth m (repeat c0 n) c0) with (c0 : Complex) by (clear; revert m; induction n as [|p IH]; intros [|m]; cbn; auto). apply C_ext; cbn; ring. }
    rewrite Z. unfold x. change (Z.of_nat 0 * Z.of_nat k)%Z with 0%Z. unfold samp. cbn [nth]. unfold wz. rewrite Z.mod_0_l by lia. cbn [Z.to_nat cpow]. apply C_ext; cbn; ring. }
  destruct (C69_range junk x ltac:(rewrite Lx; lia)) as [_ [[r [Q _]]|[Q _]]]; [|exact Q].
  exfalso. revert Q. unfold freqestim, freq_estim_quadratique. rewrite E. cbn [bind]. rewrite Lx.
  destruct (index_max_ok (vabs X)) as [k [K1 [K2 K3]]]; [intros C; apply (f_equal (@List.length R)) in C; rewrite vabs_length, L in C; cbn in C; lia|].
  rewrite vabs_length, L in K2. rewrite K1. cbn [bind].
  assert (B1 : ((k + S n - 1) mod S n < S n)%nat) by (apply Nat.mod_upper_bound; lia). assert (B3 : ((k + 1) mod S n < S n)%nat) by (apply Nat.mod_upper_bound; lia).
  rewrite !(vget_nth (vabs X) _ 0) by (rewrite vabs_length; lia). rewrite !nth_vabs by lia. rewrite !HX by assumption. cbn [bind].
  unfold rdiv at 1. match goal with |- context [Req_EM_T ?a ?b] => destruct (Req_EM_T a b) as [e|e]; [cbn; discriminate|exfalso; apply e; ring] end.
Qed.
Print Assumptions C69_quadratic_impulse_refuted.

(** Finding: on other signals the default method can leave the interval (-1/2, 1/2]: here a result larger than 1. *)
Theorem C69_candan_range_refuted : forall junk : Complex, exists x r, List.length x = 3%nat /\ freqestim junk x CANDAN2 = Ok r /\ 1 < r.
Proof.
  intros junk. set (X := [(80 / 100, 58 / 100); (80 / 100, - (30 / 100)); (1, 0)] : list Complex).
  destruct (C25_ifft_fft Complex junk junk X) as [_ [x [E1 E2]]].
  { cbn [List.length X]. split; [lia|]. apply Nat.le_trans with (2 ^ 2)%nat; [cbn; lia|apply Nat.pow_le_mono_r; lia]. }
  exists x. assert (Lx : List.length x = 3%nat).
  { rewrite ifft_ok in E1. - injection E1 as <-. rewrite DFT_length. reflexivity.
    - cbn [List.length X]. split; [lia|]. apply Nat.le_trans with (2 ^ 2)%nat; [cbn; lia|apply Nat.pow_le_mono_r; lia]. }
  unfold freqestim, freq_estim_candan2. rewrite E2, Lx. cbn [bind].
  rewrite (index_max_unique (vabs X) 2).
  2:{ cbn. lia. }
  2:{ intros j Hj Nj. cbn in Hj. destruct j as [|[|[|j]]]; try lia; cbn [vabs X map nth]; apply sqrt_lt_1; unfold Cnorm2; cbn; lra. }
  cbn [bind]. change (vget X 2) with (Ok ((1, 0) : Complex)). change (vget X ((2 + 3 - 1) mod 3)) with (Ok ((80 / 100, - (30 / 100)) : Complex)). change (vget X ((2 + 1) mod 3)) with (Ok ((80 / 100, 58 / 100) : Complex)).
  cbn [bind].
  rewrite (cdiv_ok _ _ (2464 / 2384, - (44 / 100 * (80 / 100)) / (2384 / 10000))).
  2:{ intros C. apply (f_equal fst) in C. cbn in C. lra. }
  2:{ apply C_ext; cbn; field. }
  cbn [bind fst]. replace (INR 3) with 3 by (cbn; ring). pose proof PI_RGT_0 as PP. rewrite (rdiv_ok _ (PI / 3)) by (apply Rgt_not_eq; lra). cbn [bind]. rewrite (rdiv_ok _ (PI / 3)) by (apply Rgt_not_eq; lra). cbn [bind]. rewrite rdiv_ok by lra. cbn [bind].
  match goal with |- context [atan ?y] => set (t := atan y); assert (T : PI / 3 < t) end.
  { unfold t. apply Rle_lt_trans with (atan (tan (PI / 3))); [rewrite atan_tan by lra; lra|]. apply atan_increasing. assert (Tp : 0 < tan (PI / 3)) by (apply tan_gt_0; lra).
    replace (2464 / 2384 * (tan (PI / 3) / (PI / 3)) * PI / 3) with (2464 / 2384 * tan (PI / 3)) by (field; apply Rgt_not_eq; lra). lra. }
  assert (1 < (INR 2 + t / (PI / 3)) / 3).
  { assert (1 < t / (PI / 3)). { apply Rmult_lt_reg_r with (PI / 3); [lra|]. replace (t / (PI / 3) * (PI / 3)) with t by (field; apply Rgt_not_eq; lra). lra. } replace (INR 2) with 2 by (cbn; ring). lra. }
  eexists. split; [reflexivity|]. split; [reflexivity|].
  change (1 < fold_half ((INR 2 + t / (PI / 3)) / 3)). unfold fold_half. repeat match goal with |- context [if ?d then _ else _] => destruct d end; lra.
Qed.
Print Assumptions C69_candan_range_refuted.
