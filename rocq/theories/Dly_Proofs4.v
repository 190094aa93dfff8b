(** Delays: properties of the kernels, energy. *)
From Coq Require Import Reals ZArith Lra Lia Field.
From Verif Require Import Base BaseLemmas RField DftSys ComplexSys Rii_Model Biq_Proofs But_Proofs Filters_Proofs Fourier_Model Fourier_Spec Fourier_Proofs Fourier_Proofs2 Fourier_Proofs3 Special_Proofs Sig_Proofs Fest_Model Fest_Proofs2 Fest_Proofs3 Freq_Proofs2 Del_Spec Del_Proofs Dly_Model Dly_Spec Dly_Proofs Dly_Proofs2 Dly_Proofs3.
Local Open Scope R_scope.
Local Notation rs := (sum (K := Rring)).
Ltac eqR := match goal with |- ?a = ?b => change (@eq R a b) end.

(** ** Kernels *)
(** closed form: rkern n u = sin(pi u) / (n tan(pi u / n)) *)
Lemma tele n (f : nat -> R) : rs n (fun k => f (S k) - f k) = f n - f 0%nat.
Proof. induction n as [|n IH]; [change (@eq R 0 (f 0%nat - f 0%nat)); ring|]. rewrite rs_S, IH. eqR. ring. Qed.
Lemma rkern_closed N u : (0 < N)%nat -> rkern (2 * N) u * (INR (2 * N) * sin (PI * u / INR (2 * N))) = sin (PI * u) * cos (PI * u / INR (2 * N)).
Proof.
  intros HN. pose proof (lt_0_INR N HN) as NP. unfold rkern. rewrite half2, two_h. set (t := 2 * PI * u / (2 * INR N)).
  set (A := rs (2 * N) (fun k => cos (2 * PI * (INR k - INR N) * u / (2 * INR N)))). replace (PI * u / (2 * INR N)) with (t / 2) by (unfold t; field; lra).
  assert (E : 2 * sin (t / 2) * A = 2 * (sin (PI * u) * cos (t / 2))).
  { unfold A. rewrite <- rs_mul. transitivity (rs (2 * N) (fun k => sin ((INR (S k) - INR N - 1 / 2) * t) - sin ((INR k - INR N - 1 / 2) * t))).
    - apply rs_ext. intros k _. rewrite S_INR. replace (2 * PI * (INR k - INR N) * u / (2 * INR N)) with ((INR k - INR N) * t) by (unfold t; field; lra).
      replace ((INR k + 1 - INR N - 1 / 2) * t) with ((INR k - INR N) * t + t / 2) by field. replace ((INR k - INR N - 1 / 2) * t) with ((INR k - INR N) * t - t / 2) by field. rewrite sin_plus, sin_minus. eqR. ring.
    - rewrite (tele (2 * N) (fun k => sin ((INR k - INR N - 1 / 2) * t))). cbv beta. rewrite two_h. cbn [INR]. replace (PI * u) with (INR N * t) by (unfold t; field; lra).
      replace ((2 * INR N - INR N - 1 / 2) * t) with (INR N * t - t / 2) by field. replace ((0 - INR N - 1 / 2) * t) with (- (INR N * t + t / 2)) by field. rewrite sin_neg, sin_plus, sin_minus. eqR. ring. }
  transitivity (2 * sin (t / 2) * A / 2); [eqR; field; lra|]. rewrite E. field.
Qed.
Lemma kern_imag N u : (0 < N)%nat -> snd (kern (2 * N) u) = - sin (PI * u) / INR (2 * N).
Proof.
  intros HN. pose proof (lt_0_INR N HN) as NP. unfold kern. rewrite half2, two_h. set (t := 2 * PI * u / (2 * INR N)). set (A := sum (2 * N) (fun k => eit _)).
  assert (E : snd A = - sin (PI * u)).
  { unfold A. rewrite sum_snd. transitivity (rs (2 * N) (fun k => sin ((INR k - INR N) * t))); [apply rs_ext; intros k _; unfold eit; cbn [snd]; f_equal; unfold t; field; lra|].
    replace (2 * N)%nat with (N + N)%nat by lia. rewrite (sum_split Rring). pose proof (sin_pairs N t) as Q. destruct N as [|M]; [lia|].
    rewrite (sum_S_l Rring) in Q |- *. rewrite (sum_S_l Rring M (fun j => if (j =? 0)%nat then _ else _)) in Q. rewrite (sum_S_l Rring M (fun k => sin ((INR (S M + k) - INR (S M)) * t))).
    assert (Q2 : rs M (fun i => sin ((INR (S M + S i) - INR (S M)) * t)) = rs M (fun i => sin (INR (S i) * t))) by (apply rs_ext; intros; rewrite plus_INR; f_equal; ring).
    cbn [Nat.eqb] in Q. replace (INR 0 * t) with 0 in Q by (cbn [INR]; ring). rewrite sin_0 in Q.
    set (a := rs M (fun i => sin ((INR (S i) - INR (S M)) * t)) : R) in *. set (b := rs M (fun i => sin (INR (S i) * t)) : R) in *.
    assert (Q' : b + a = 0). { transitivity ((0 + b) + (0 + a)); [ring|exact Q]. }
    transitivity (sin ((INR 0 - INR (S M)) * t) + a + (sin ((INR (S M + 0) - INR (S M)) * t) + b)); [apply (f_equal2 Rplus); [reflexivity|apply (f_equal2 Rplus); [reflexivity|exact Q2]]|].
    rewrite Nat.add_0_r. replace ((INR (S M) - INR (S M)) * t) with 0 by ring. rewrite sin_0. replace (PI * u) with (INR (S M) * t) by (unfold t; field; lra). replace ((INR 0 - INR (S M)) * t) with (- (INR (S M) * t)) by (cbn [INR]; ring). rewrite sin_neg. lra. }
  rewrite <- E. clearbody A. destruct A. cbn. unfold Cnorm2, re; cbn. field. lra.
Qed.
Lemma sin_ne z n : (0 < n)%nat -> (0 < Z.abs z < Z.of_nat n)%Z -> sin (PI * IZR z / INR n) <> 0.
Proof.
  intros Hn Hz. assert (HP : 0 < INR n) by (apply lt_0_INR; exact Hn). pose proof PI_RGT_0.
  assert (K : forall w, (0 < w < Z.of_nat n)%Z -> 0 < sin (PI * IZR w / INR n)).
  { intros w Hw. assert (0 < IZR w) by (apply IZR_lt; lia). assert (IZR w < INR n) by (rewrite INR_IZR_INZ; apply IZR_lt; lia). apply sin_gt_0.
    - apply Rdiv_lt_0_compat; [apply Rmult_lt_0_compat; assumption|exact HP].
    - apply Rmult_lt_reg_r with (INR n); [exact HP|]. replace (PI * IZR w / INR n * INR n) with (PI * IZR w) by (field; lra). apply Rmult_lt_compat_l; assumption. }
  destruct (Z_lt_dec 0 z) as [L|L]; [apply Rgt_not_eq, K; lia|]. assert (Q := K (- z)%Z ltac:(lia)). rewrite opp_IZR in Q. replace (PI * - IZR z / INR n) with (- (PI * IZR z / INR n)) in Q by (unfold Rdiv; ring). rewrite sin_neg in Q. apply Rlt_not_eq. lra.
Qed.
Lemma rkern_0 N : (0 < N)%nat -> rkern (2 * N) 0 = 1.
Proof.
  intros HN. assert (0 < INR (2 * N)) by (apply lt_0_INR; lia). unfold rkern. rewrite (rs_ext (2 * N) _ (fun _ => 1 * 1)) by (intros; unfold Rdiv; rewrite Rmult_0_r, Rmult_0_l, cos_0; eqR; ring).
  rewrite rs_mul. assert (E : rs (2 * N) (fun _ => 1) = INR (2 * N)). { generalize (2 * N)%nat. intros m. induction m as [|m IH]; [reflexivity|]. rewrite rs_S, IH, S_INR. reflexivity. } rewrite E. field. lra.
Qed.
Lemma rkern_int N z : (0 < N)%nat -> (Z.abs z < Z.of_nat (2 * N))%Z -> rkern (2 * N) (IZR z) = if (z =? 0)%Z then 1 else 0.
Proof.
  intros HN Hz. destruct (Z.eqb_spec z 0) as [->|Nz]; [apply rkern_0; exact HN|]. assert (0 < INR (2 * N)) by (apply lt_0_INR; lia). pose proof (rkern_closed N (IZR z) HN) as Q.
  assert (sin (PI * IZR z / INR (2 * N)) <> 0) by (apply sin_ne; lia). assert (Sz : sin (PI * IZR z) = 0) by (rewrite Rmult_comm; apply sin_int_PI). rewrite Sz, Rmult_0_l in Q.
  apply Rmult_integral in Q. destruct Q as [Q|Q]; [exact Q|]. apply Rmult_integral in Q. destruct Q; [lra|contradiction].
Qed.
Lemma kern_int N z : (0 < N)%nat -> (Z.abs z < Z.of_nat (2 * N))%Z -> kern (2 * N) (IZR z) = if (z =? 0)%Z then (c1 : Complex) else c0.
Proof.
  intros HN Hz. assert (S0 : snd (kern (2 * N) (IZR z)) = 0). { rewrite kern_imag by exact HN. rewrite Rmult_comm, sin_int_PI. unfold Rdiv. ring. }
  assert (F0 : fst (kern (2 * N) (IZR z)) = if (z =? 0)%Z then 1 else 0) by (rewrite <- rkern_kern by lia; apply rkern_int; assumption).
  apply C_ext; [rewrite F0|rewrite S0]; destruct (z =? 0)%Z; reflexivity.
Qed.
(** ** Variations with the delay *)
Lemma cos_lip a b : Rabs (cos a - cos b) <= Rabs (a - b).
Proof.
  replace (cos a - cos b) with (-2 * sin ((a - b) / 2) * sin ((a + b) / 2)).
  2:{ symmetry. apply form2. }
  assert (SX : forall t, Rabs (sin t) <= Rabs t).
  { assert (P : forall t, 0 <= t -> Rabs (sin t) <= t). { intros t Ht. destruct (Rle_dec t 1) as [L|L].
      - assert (0 <= sin t) by (apply sin_ge_0; [exact Ht|pose proof PI_RGT_0; pose proof PI2_1; lra]). rewrite Rabs_pos_eq by assumption. destruct (Rle_lt_or_eq_dec _ _ Ht) as [Q|<-]; [left; apply sin_lt_x; exact Q|rewrite sin_0; lra].
      - apply Rle_trans with 1; [|lra]. pose proof (SIN_bound t). apply Rabs_le. lra. }
    intros t. destruct (Rle_dec 0 t) as [L|L]; [rewrite (Rabs_pos_eq t) by exact L; apply P; exact L|]. rewrite <- Rabs_Ropp, <- sin_neg, <- (Rabs_Ropp t), (Rabs_pos_eq (- t)) by lra. apply P. lra. }
  rewrite !Rabs_mult. pose proof (SX ((a - b) / 2)) as Q. replace (Rabs ((a - b) / 2)) with (Rabs (a - b) / 2) in Q by (unfold Rdiv; rewrite Rabs_mult, (Rabs_pos_eq (/ 2)) by lra; reflexivity).
  assert (R1 : Rabs (sin ((a + b) / 2)) <= 1) by (pose proof (SIN_bound ((a + b) / 2)); apply Rabs_le; lra). replace (Rabs (-2)) with 2 by (rewrite Rabs_left; lra).
  pose proof (Rabs_pos (sin ((a - b) / 2))). pose proof (Rabs_pos (sin ((a + b) / 2))). nra.
Qed.
Lemma rs_abs n (f : nat -> R) : Rabs (rs n f) <= rs n (fun i => Rabs (f i)).
Proof. induction n as [|n IH]; [change (Rabs 0 <= 0); rewrite Rabs_R0; lra|]. rewrite !rs_S. eapply Rle_trans; [apply Rabs_triang|]. lra. Qed.
Lemma rkern_lip N u v : (0 < N)%nat -> Rabs (rkern (2 * N) u - rkern (2 * N) v) <= PI * Rabs (u - v).
Proof.
  intros HN. pose proof (lt_0_INR N HN) as NP. pose proof PI_RGT_0 as PP. unfold rkern. rewrite half2, two_h. set (f := fun (w : R) (k : nat) => cos (2 * PI * (INR k - INR N) * w / (2 * INR N))). change (Rabs (rs (2 * N) (f u) / (2 * INR N) - rs (2 * N) (f v) / (2 * INR N)) <= PI * Rabs (u - v)).
  replace (rs (2 * N) (f u) / (2 * INR N) - rs (2 * N) (f v) / (2 * INR N)) with (rs (2 * N) (fun k => f u k + -1 * f v k) / (2 * INR N)) by (rewrite rs_add, rs_mul; field; lra).
  unfold Rdiv. rewrite Rabs_mult, (Rabs_pos_eq (/ (2 * INR N))) by (left; apply Rinv_0_lt_compat; lra). apply Rmult_le_reg_r with (2 * INR N); [lra|]. rewrite Rmult_assoc, Rinv_l, Rmult_1_r by lra.
  eapply Rle_trans; [apply rs_abs|]. apply Rle_trans with (rs (2 * N) (fun _ => PI * Rabs (u - v) * 1)).
  - apply rs_le. intros k Hk. unfold f. eapply Rle_trans; [|apply Req_le; symmetry; apply Rmult_1_r]. replace (cos (2 * PI * (INR k - INR N) * u / (2 * INR N)) + -1 * cos (2 * PI * (INR k - INR N) * v / (2 * INR N))) with (cos (2 * PI * (INR k - INR N) * u / (2 * INR N)) - cos (2 * PI * (INR k - INR N) * v / (2 * INR N))) by ring.
    eapply Rle_trans; [apply cos_lip|]. replace (2 * PI * (INR k - INR N) * u / (2 * INR N) - 2 * PI * (INR k - INR N) * v / (2 * INR N)) with (PI * ((INR k - INR N) / INR N) * (u - v)) by (field; lra). rewrite !Rabs_mult, (Rabs_pos_eq PI) by lra.
    apply Rmult_le_compat_r; [apply Rabs_pos|]. rewrite <- (Rmult_1_r PI) at 2. apply Rmult_le_compat_l; [lra|]. assert (INR k <= 2 * INR N) by (rewrite <- two_h; apply le_INR; lia). pose proof (pos_INR k). apply Rabs_le. split; apply Rmult_le_reg_r with (INR N); try lra; replace ((INR k - INR N) / INR N * INR N) with (INR k - INR N) by (field; lra); lra.
  - rewrite rs_mul. assert (E : rs (2 * N) (fun _ => 1) = 2 * INR N). { rewrite <- two_h. generalize (2 * N)%nat. intros m. induction m as [|m IH]; [reflexivity|]. rewrite rs_S, IH, S_INR. reflexivity. } rewrite E. apply Rle_refl.
Qed.
(** ** Energy *)
Lemma energy_C (x : list Complex) : sum (List.length x) (fun j => samp x j * conj (samp x j))%K = re (energy x).
Proof. unfold energy. rewrite <- sum_re. apply (sum_ext Complex). intros j _. destruct (samp x j). unfold Cnorm2. apply C_ext; cbn; ring. Qed.
Lemma energy_DFT (x : list Complex) : (0 < List.length x)%nat -> energy (DFT 1 x) = energy x.
Proof.
  intros H. pose proof (parseval Complex x H) as Q. assert (L : List.length (DFT 1 x) = List.length x) by apply (DFT_length Complex).
  assert (E1 := energy_C (DFT 1 x)). rewrite L in E1. rewrite energy_C in Q. assert (E2 := eq_trans (eq_sym E1) Q). exact (f_equal fst E2).
Qed.
Lemma filter_energy (x G : list Complex) : (0 < List.length x)%nat -> List.length G = List.length x -> (forall k, (k < List.length x)%nat -> Cnorm2 (samp G k) = 1) -> energy (DFT (-1) (zipmul (DFT 1 x) G)) = energy x.
Proof.
  intros H LG HG. set (Z := zipmul (DFT 1 x) G). assert (LZ : List.length Z = List.length x) by (etransitivity; [apply (zipmul_length Complex)|]; rewrite DFT_length; etransitivity; [apply f_equal; exact LG|]; apply Nat.min_id).
  assert (LY : List.length (DFT (-1) Z) = List.length x) by (etransitivity; [apply (DFT_length Complex)|exact LZ]).
  transitivity (energy (DFT 1 (DFT (-1) Z))); [symmetry; apply energy_DFT; rewrite LY; exact H|]. pose proof (DFT_inverse Complex (-1) Z (or_intror eq_refl)) as W. change (- (-1))%Z with 1%Z in W. rewrite W.
  transitivity (energy (DFT 1 x)); [|apply energy_DFT; exact H]. unfold energy. rewrite LZ. assert (L : List.length (DFT 1 x) = List.length x) by apply (DFT_length Complex). rewrite L. apply rs_ext. intros k Hk.
  assert (E : samp Z k = (samp (DFT 1 x) k * samp G k)%K) by (apply (zipmul_nth Complex); rewrite L; symmetry; exact LG). rewrite E. rewrite <- !nrm_sq, nrm_mul.
  assert (N1 : nrm (samp G k) = 1). { unfold nrm. rewrite HG by exact Hk. apply sqrt_1. } rewrite N1. eqR. ring.
Qed.
Lemma energy_app (a b : list Complex) : energy (a ++ b) = energy a + energy b.
Proof.
  unfold energy. rewrite app_length. etransitivity; [apply (sum_split Rring)|]. match goal with |- ?l = ?r => change (@eq R l r) end. apply (f_equal2 Rplus); apply rs_ext; intros i Hi; f_equal; unfold samp.
  - apply app_nth1. exact Hi.
  - rewrite app_nth2 by lia. f_equal. lia.
Qed.
Lemma energy_nonneg (a : list Complex) : 0 <= energy a. Proof. apply rs_nonneg. intros. apply Cnorm2_nonneg. Qed.
Lemma energy_zeros n : energy (repeat (c0 : Complex) n) = 0.
Proof. apply rs_0. intros i _. unfold samp. rewrite nth_repeat. unfold Cnorm2. cbn. ring. Qed.
Lemma energy_seg (Y : list Complex) a b : energy (firstn a (skipn b Y)) <= energy Y.
Proof.
  rewrite <- (firstn_skipn b Y) at 2. rewrite energy_app. rewrite <- (firstn_skipn a (skipn b Y)) at 2. rewrite energy_app. pose proof (energy_nonneg (firstn b Y)). pose proof (energy_nonneg (skipn a (skipn b Y))). lra.
Qed.
Lemma frac_c_energy junk (x y : list Complex) tau : (0 < List.length x)%nat -> (2 * List.length x <= 2 ^ 29)%nat -> delais_frac_c junk x tau = Ok y -> energy y <= energy x.
Proof.
  set (N := List.length x). intros HN HM. unfold delais_frac_c. fold N. set (p := (2 * N / 4)%nat). rewrite half2.
  assert (HP : (p + N <= 2 * N)%nat) by (unfold p; pose proof (Nat.div_mod (2 * N) 4 ltac:(lia)); pose proof (Nat.mod_upper_bound (2 * N) 4 ltac:(lia)); lia).
  set (q := (2 * N - p - N)%nat). set (x2 := repeat (c0 : Complex) p ++ x ++ repeat (c0 : Complex) q).
  assert (L2 : List.length x2 = (2 * N)%nat) by (unfold x2; rewrite !app_length, !repeat_length; unfold q; fold N; lia).
  assert (LR : List.length (fftshift (rot_c (2 * N) tau)) = (2 * N)%nat) by (etransitivity; [apply (fftshift_length Complex)|]; unfold rot_c; rewrite map_length, seq_length; reflexivity).
  rewrite (fft_ok Complex) by (rewrite L2; lia). cbn [bind].
  assert (LZ : List.length (zipmul (DFT 1 x2) (fftshift (rot_c (2 * N) tau))) = (2 * N)%nat) by (etransitivity; [apply (zipmul_length Complex)|]; rewrite DFT_length, L2; etransitivity; [apply f_equal; exact LR|]; apply Nat.min_id).
  rewrite (ifft_ok Complex); [|split; [eapply Nat.lt_le_trans; [|apply Nat.eq_le_incl; symmetry; exact LZ]; lia|eapply Nat.le_trans; [apply Nat.eq_le_incl; exact LZ|exact HM]]]. cbn [bind].
  intros E. injection E as <-. eapply Rle_trans; [apply energy_seg|]. rewrite filter_energy.
  - unfold x2. rewrite !energy_app, !energy_zeros. lra.
  - rewrite L2. lia.
  - rewrite L2. exact LR.
  - intros k Hk. rewrite L2 in Hk. etransitivity; [apply f_equal; apply (gain_samp N tau k HN Hk)|]. apply eit_norm.
Qed.
