(** Fractional delays: proofs. *)
From Coq Require Import Reals ZArith Lra Lia Field.
From Verif Require Import Base BaseLemmas RField DftSys ComplexSys Rii_Model Biq_Proofs But_Proofs Filters_Proofs Fourier_Model Fourier_Spec Fourier_Proofs Fourier_Proofs2 Fourier_Proofs3 Special_Proofs Fest_Model Fest_Proofs2 Freq_Proofs2 Dly_Model Dly_Spec.
Local Open Scope R_scope.

(** ** Multiplication of the spectrum by G *)
Section Filter.
  Context (F : dsys).
  Add Field Fd : (fth F).
  Local Open Scope cring_scope.
  Lemma rt_ne n : (0 < n)%nat -> rt n <> 0 :> F.
  Proof. intros H E. destruct n as [|n]; [lia|]. apply (char0 F n). rewrite <- rt_sq, E. ring. Qed.
  Lemma cnat_ne n : (0 < n)%nat -> cnat (K := F) n <> 0.
  Proof. intros H. destruct n as [|n]; [lia|]. apply (char0 F n). Qed.
  Lemma freq_filter (x G : list F) a : let n := List.length x in (0 < n)%nat -> List.length G = n -> (a < n)%nat ->
    samp (DFT (-1) (zipmul (DFT 1 x) G)) a = sum n (fun b => samp x b * (sum n (fun k => samp G k * wz n (- (Z.of_nat a - Z.of_nat b) * Z.of_nat k)) / cnat n)).
  Proof.
    intros n Hn LG Ha. assert (LZ : List.length (zipmul (DFT 1 x) G) = n) by (rewrite zipmul_length, DFT_length, LG; apply Nat.min_id).
    rewrite DFT_nth by (rewrite LZ; exact Ha). unfold dft. rewrite LZ. pose proof (rt_ne n Hn) as RN. pose proof (cnat_ne n Hn) as CN.
    transitivity (sum n (fun k => sum n (fun b => samp x b * (samp G k * wz n (- (Z.of_nat a - Z.of_nat b) * Z.of_nat k)))) / cnat n).
    - rewrite <- rt_sq. transitivity (sum n (fun k => sum n (fun b => samp x b * (samp G k * wz n (- (Z.of_nat a - Z.of_nat b) * Z.of_nat k))) / rt n) / rt n).
      + f_equal. apply sum_ext. intros k Hk. rewrite zipmul_nth by (rewrite DFT_length, LG; reflexivity). rewrite DFT_nth by exact Hk. unfold dft. fold n.
        transitivity (sum n (fun b => samp x b * wz n (1 * Z.of_nat b * Z.of_nat k)) * (samp G k * wz n (-1 * Z.of_nat k * Z.of_nat a)) / rt n); [field; exact RN|]. f_equal. rewrite <- sum_mul_r. apply sum_ext. intros b _.
        replace (- (Z.of_nat a - Z.of_nat b) * Z.of_nat k)%Z with (1 * Z.of_nat b * Z.of_nat k + -1 * Z.of_nat k * Z.of_nat a)%Z by lia. rewrite wz_add by exact Hn. ring.
      + rewrite <- (sum_mul_r F n (1 / rt n)) || idtac. transitivity (sum n (fun k => sum n (fun b => samp x b * (samp G k * wz n (- (Z.of_nat a - Z.of_nat b) * Z.of_nat k))) * (1 / rt n)) / rt n); [f_equal; apply sum_ext; intros; field; exact RN|]. rewrite sum_mul_r. field. exact RN.
    - rewrite sum_swap. transitivity (sum n (fun b => sum n (fun k => samp x b * (samp G k * wz n (- (Z.of_nat a - Z.of_nat b) * Z.of_nat k)))) * (1 / cnat n)); [field; exact CN|]. rewrite <- sum_mul_r. apply sum_ext. intros b _. rewrite sum_mul_l. field. exact CN.
  Qed.
End Filter.

(** ** The complex kernel *)
Lemma wz_eit n z : (0 < n)%nat -> wz (F := Complex) n z = eit (- (2 * PI * IZR z / INR n)).
Proof. intros H. rewrite wz_complex by exact H. unfold eit. rewrite cos_neg, sin_neg. reflexivity. Qed.
Lemma rot_samp n tau k : (k < n)%nat -> samp (rot_c n tau) k = eit (- 2 * PI * INR k * tau / INR n + PI * tau).
Proof. intros H. unfold samp, rot_c. rewrite (nth_indep _ _ ((fun i => eit (- 2 * PI * INR i * tau / INR n + PI * tau)) 0%nat)) by (rewrite map_length, seq_length; exact H). rewrite (map_nth (fun i => eit (- 2 * PI * INR i * tau / INR n + PI * tau))). rewrite seq_nth by exact H. reflexivity. Qed.
Lemma two_h h : INR (2 * h) = 2 * INR h. Proof. rewrite mult_INR. reflexivity. Qed.
Lemma gain_samp h tau k : (0 < h)%nat -> (k < 2 * h)%nat -> samp (K := Cring) (fftshift (rot_c (2 * h) tau)) k = eit (- 2 * PI * (INR k - (if (k <? h)%nat then 0 else 2 * INR h)) * tau / (2 * INR h)).
Proof.
  intros Hh Hk. assert (HP : 0 < INR h) by (apply lt_0_INR; exact Hh). assert (L : List.length (rot_c (2 * h) tau) = (2 * h)%nat) by (unfold rot_c; rewrite map_length, seq_length; reflexivity).
  etransitivity; [apply (fftshift_ok Complex); rewrite L; exact Hk|]. rewrite L. replace ((2 * h + 1) / 2)%nat with h by (apply (Nat.div_unique _ 2 h 1)%nat; lia).
  destruct (Nat.ltb_spec k h) as [Q|Q].
  - rewrite Nat.mod_small by lia. etransitivity; [apply rot_samp; lia|]. rewrite two_h, plus_INR. f_equal. field. lra.
  - replace (k + h)%nat with ((k - h) + 1 * (2 * h))%nat by lia. rewrite Nat.mod_add, Nat.mod_small by lia. etransitivity; [apply rot_samp; lia|]. rewrite two_h, minus_INR by exact Q. f_equal. field. lra.
Qed.
Lemma kern_sum h tau d : (0 < h)%nat -> (sum (2 * h) (fun k => samp (fftshift (rot_c (2 * h) tau)) k * wz (2 * h) (- d * Z.of_nat k)) / cnat (2 * h))%K = kern (2 * h) (IZR d - tau).
Proof.
  intros Hh. assert (HP : 0 < INR h) by (apply lt_0_INR; exact Hh). unfold kern. f_equal.
  2:{ rewrite two_h. etransitivity; [apply (cnat_C (2 * h))|]. rewrite two_h. reflexivity. }
  replace (2 * h / 2)%nat with h by (apply (Nat.div_unique _ 2 h 0)%nat; lia). rewrite two_h.
  replace (2 * h)%nat with (h + h)%nat by lia. rewrite !(sum_split Cring). replace (h + h)%nat with (2 * h)%nat by lia.
  etransitivity; [|apply (Radd_comm (cth Cring))]. f_equal; apply (sum_ext Cring); intros k Hk.
  - rewrite gain_samp by lia. destruct (Nat.ltb_spec k h); [|lia]. rewrite wz_eit by lia. rewrite <- eit_add. f_equal. rewrite two_h, plus_INR, mult_IZR, opp_IZR, <- INR_IZR_INZ. field. lra.
  - rewrite gain_samp by lia. destruct (Nat.ltb_spec (h + k) h); [lia|]. rewrite wz_eit by lia. rewrite <- eit_add.
    transitivity (eit (2 * PI * (((INR k - INR h) * (IZR d - tau) / (2 * INR h)) + IZR d))).
    + f_equal. rewrite two_h, plus_INR, mult_IZR, opp_IZR, Nat2Z.inj_add, plus_IZR, <- !INR_IZR_INZ. field. lra.
    + rewrite eit_shift. f_equal. field. lra.
Qed.
(** ** Padding *)
Lemma samp_pad (K : cring) (x : list K) p q b : samp (repeat c0 p ++ x ++ repeat c0 q) b = if (p <=? b)%nat then samp x (b - p) else c0.
Proof.
  unfold samp. destruct (Nat.leb_spec p b) as [L|L].
  - rewrite app_nth2 by (rewrite repeat_length; exact L). rewrite repeat_length. destruct (Nat.lt_ge_cases (b - p) (List.length x)) as [Q|Q]; [apply app_nth1; exact Q|].
    rewrite app_nth2 by exact Q. rewrite (nth_overflow x) by exact Q. apply nth_repeat.
  - rewrite app_nth1 by (rewrite repeat_length; exact L). apply nth_repeat.
Qed.
Lemma sum_pad (K : cring) (x : list K) p q (f : nat -> K) : sum (p + (List.length x + q)) (fun b => samp (repeat c0 p ++ x ++ repeat c0 q) b * f b)%K = sum (List.length x) (fun l => samp x l * f (p + l)%nat)%K.
Proof.
  rewrite (sum_split K p), (sum_split K (List.length x)).
  assert (Z : forall t : K, (c0 * t = c0)%K) by (intros t; apply (Rmul_0_l (Eqsth K) (Eq_ext (@cadd K) (@cmul K) (@copp K)) (cth K))).
  rewrite (sum_zero K p). 2:{ intros i Hi. rewrite samp_pad. destruct (Nat.leb_spec p i); [lia|]. apply Z. }
  rewrite (sum_zero K q). 2:{ intros i Hi. rewrite samp_pad. destruct (Nat.leb_spec p (p + (List.length x + i))); [|lia]. unfold samp. rewrite (nth_overflow x) by lia. apply Z. }
  rewrite (Radd_0_l (cth K)), (Radd_comm (cth K)), (Radd_0_l (cth K)). apply (sum_ext K). intros i Hi. rewrite samp_pad. destruct (Nat.leb_spec p (p + i)); [|lia]. replace (p + i - p)%nat with i by lia. reflexivity.
Qed.
Lemma frac_c_ok junk (x : list Complex) tau : let N := List.length x in (0 < N)%nat -> (2 * N <= 2 ^ 29)%nat ->
  exists y, delais_frac_c junk x tau = Ok y /\ List.length y = N /\
  forall j, (j < N)%nat -> samp y j = sum N (fun l => samp x l * kern (2 * N) (IZR (Z.of_nat j - Z.of_nat l) - tau))%K.
Proof.
  intros N HN HM. unfold delais_frac_c. fold N. set (p := (2 * N / 4)%nat). assert (N2 : (2 * N / 2 = N)%nat) by (symmetry; apply (Nat.div_unique _ 2 N 0)%nat; lia). rewrite N2.
  assert (HP : (p + N <= 2 * N)%nat) by (unfold p; pose proof (Nat.div_mod (2 * N) 4 ltac:(lia)); pose proof (Nat.mod_upper_bound (2 * N) 4 ltac:(lia)); lia).
  set (q := (2 * N - p - N)%nat). set (x2 := repeat (c0 : Complex) p ++ x ++ repeat (c0 : Complex) q).
  assert (L2 : List.length x2 = (2 * N)%nat) by (unfold x2; rewrite !app_length, !repeat_length; unfold q; fold N; lia).
  assert (LR : List.length (fftshift (rot_c (2 * N) tau)) = (2 * N)%nat) by (etransitivity; [apply (fftshift_length Complex)|]; unfold rot_c; rewrite map_length, seq_length; reflexivity).
  rewrite (fft_ok Complex) by (rewrite L2; lia). cbn [bind].
  assert (LZ : List.length (zipmul (DFT 1 x2) (fftshift (rot_c (2 * N) tau))) = (2 * N)%nat) by (etransitivity; [apply (zipmul_length Complex)|]; rewrite DFT_length, L2; etransitivity; [apply f_equal; exact LR|]; apply Nat.min_id).
  rewrite (ifft_ok Complex); [|split; [eapply Nat.lt_le_trans; [|apply Nat.eq_le_incl; symmetry; exact LZ]; lia|eapply Nat.le_trans; [apply Nat.eq_le_incl; exact LZ|exact HM]]]. cbn [bind].
  set (Y := DFT (-1) (zipmul (DFT 1 x2) (fftshift (rot_c (2 * N) tau)))). assert (LY : List.length Y = (2 * N)%nat) by (unfold Y; rewrite DFT_length; exact LZ).
  eexists. split; [reflexivity|]. split; [rewrite firstn_length, skipn_length, LY; lia|]. intros j Hj.
  transitivity (samp Y (p + j)). { unfold samp. rewrite Filters_Proofs.nth_firstn' by exact Hj. apply Filters_Proofs.nth_skipn'. }
  unfold Y. etransitivity; [apply (freq_filter Complex x2 (fftshift (rot_c (2 * N) tau)) (p + j)); rewrite ?L2; try lia; exact LR|]. rewrite L2.
  transitivity (sum (p + (List.length x + q)) (fun b => samp x2 b * kern (2 * N) (IZR (Z.of_nat (p + j) - Z.of_nat b) - tau))%K).
  - replace (p + (List.length x + q))%nat with (2 * N)%nat by (unfold q; fold N; lia). apply (sum_ext Cring). intros b _. f_equal. apply kern_sum. exact HN.
  - unfold x2. etransitivity; [apply (sum_pad Cring)|]. apply (sum_ext Cring). intros l _. do 3 f_equal. f_equal. lia.
Qed.
