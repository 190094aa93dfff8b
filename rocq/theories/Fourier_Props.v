(** Properties C23-C27 and C49: Fourier transforms, correlations, FFT filtering,
    integer delays.  [dsys] is a field with conjugation, roots of unity and square
    roots of the integers; [Complex] (ComplexSys.v) is the instance of the complex
    numbers with exp(-2 i pi/n).  [junk] is the unknown content of the buffers the
    code does not initialise. *)
From Coq Require Import Reals.
From Coq Require Import Field.
From Verif Require Import Base BaseLemmas DftSys ComplexSys Filters_Model Filters_Proofs Fourier_Model Fourier_Spec
  Fourier_Proofs Fourier_Proofs2 Fourier_Proofs3 Fourier_Proofs4.
Local Open Scope nat_scope.


(** ** C23 *)
(** The transform of direction +1 or -1, bin k, is (1/sqrt n) sum_j x_j w^(+-j k). *)
Theorem C23_radix2 : forall (F : dsys) (junk : F) avant (x : list F) p, p <= 30 -> length x = 2 ^ p ->
  exists X, radix2 junk avant x (rotation (length x)) = Ok X /\ length X = length x /\
  forall k, k < length x ->
    samp X k = (sum (length x) (fun j => samp x j * wz (length x) ((if avant then 1 else -1) * Z.of_nat j * Z.of_nat k)) / rt (length x))%K.
Proof.
  intros F junk avant x p Hp Lx. exists (DFT (sg avant) x). split; [apply (radix2_ok F junk avant x p Hp Lx)|].
  split; [apply DFT_length|]. intros k Hk. rewrite DFT_nth by exact Hk. unfold dft, sg. destruct avant; reflexivity.
Qed.
Print Assumptions C23_radix2.
Example C23_case : forall a b c d : C,
  exists X, radix2 (F := Complex) a true [a; b; c; d] (rotation 4) = Ok X /\ length X = 4.
Proof.
  intros a b c d. destruct (C23_radix2 Complex a true [a; b; c; d] 2 ltac:(lia) eq_refl) as [X [E [L _]]].
  exists X. split; [exact E|exact L].
Qed.

(** ** C24: every length from 1 to 2^29 (above, the padded length overflows the int) *)
Theorem C24_fft : forall (F : dsys) (junk : F) (x : list F), 0 < length x <= 2 ^ 29 ->
  exists X, fft junk x = Ok X /\ length X = length x /\
  forall k, k < length x ->
    samp X k = (sum (length x) (fun j => samp x j * wz (length x) (Z.of_nat j * Z.of_nat k)) / rt (length x))%K.
Proof.
  intros F junk x H. exists (DFT 1 x). split; [apply fft_ok; exact H|]. split; [apply DFT_length|].
  intros k Hk. rewrite DFT_nth by exact Hk. unfold dft. cbv zeta. f_equal. apply sum_ext. intros j _. do 2 f_equal. lia.
Qed.
Print Assumptions C24_fft.
(** The same over the complex numbers, spelled out: X_k = (1/sqrt n) sum_j x_j exp(-2 i pi j k / n). *)
Theorem C24_fft_complex : forall (junk : C) (x : list Complex), 0 < length x <= 2 ^ 29 ->
  exists X, fft (F := Complex) junk x = Ok X /\ length X = length x /\
  forall k, k < length x ->
    samp X k = (sum (length x) (fun j => samp x j *
       ((cos (2 * PI * INR (j * k) / INR (length x)), - sin (2 * PI * INR (j * k) / INR (length x)))%R : Complex))
       / ((sqrt (INR (length x)), 0)%R : Complex))%K.
Proof.
  intros junk x H. destruct (C24_fft Complex junk x H) as [X [E [L HX]]]. exists X. split; [exact E|]. split; [exact L|].
  intros k Hk. rewrite HX by exact Hk.
  set (n := length x) in *. change (rt n) with ((sqrt (INR n), 0)%R : Complex). f_equal. apply sum_ext. intros j _. f_equal.
  rewrite <- Nat2Z.inj_mul, wz_nat by lia. change (root n) with (Croot n). unfold Croot.
  etransitivity; [apply (cis_pow (2 * PI / INR n) (j * k))|].
  replace (INR (j * k) * (2 * PI / INR n))%R with (2 * PI * INR (j * k) / INR n)%R by (unfold Rdiv; ring). reflexivity.
Qed.
Print Assumptions C24_fft_complex.
(** The transform of real vectors (half-length complex transform, then symmetry). *)
Theorem C24_rfft : forall (F : dsys) (junk : F) (x : list F), 0 < length x <= 2 ^ 29 -> is_real x ->
  exists X, rfft junk x = Ok X /\ length X = length x /\
  forall k, k < length x ->
    samp X k = (sum (length x) (fun j => samp x j * wz (length x) (Z.of_nat j * Z.of_nat k)) / rt (length x))%K.
Proof.
  intros F junk x H R. exists (DFT 1 x). split; [apply rfft_ok; assumption|]. split; [apply DFT_length|].
  intros k Hk. rewrite DFT_nth by exact Hk. unfold dft. cbv zeta. f_equal. apply sum_ext. intros j _. do 2 f_equal. lia.
Qed.
Print Assumptions C24_rfft.
(** An empty vector throws. *)
Theorem C24_empty : forall (F : dsys) (junk : F), fft junk [] = Exc /\ ifft junk [] = Exc.
Proof. intros. split; reflexivity. Qed.
Print Assumptions C24_empty.
(** fftshift: rotation that brings bin 0 to the middle. *)
Theorem C24_fftshift : forall (F : dsys) (X : list F), length (fftshift X) = length X /\
  forall i, i < length X -> samp (fftshift X) ((i + length X / 2) mod length X) = samp X i.
Proof.
  intros F X. split; [apply fftshift_length|]. intros i Hi. set (n := length X) in *.
  rewrite fftshift_ok by (fold n; apply Nat.mod_upper_bound; lia). fold n. f_equal.
  rewrite Nat.add_mod_idemp_l by lia. replace (i + n / 2 + (n + 1) / 2) with (i + 1 * n).
  - rewrite Nat.mod_add by lia. apply Nat.mod_small, Hi.
  - pose proof (Nat.div_mod (n + 1) 2 ltac:(lia)). pose proof (Nat.mod_upper_bound (n + 1) 2 ltac:(lia)).
    pose proof (Nat.div_mod n 2 ltac:(lia)). pose proof (Nat.mod_upper_bound n 2 ltac:(lia)). lia.
Qed.
Print Assumptions C24_fftshift.
Example C24_case : forall a b c d e f g : C,
  (exists X, fft (F := Complex) a [a; b; c; d; e; f; g] = Ok X /\ length X = 7) /\
  (exists X, fft (F := Complex) a [a; b; c; d; e; f] = Ok X /\ length X = 6).
Proof.
  intros a b c d e f g. assert (W : 7 <= 2 ^ 29) by (apply Nat.le_trans with (2 ^ 3); [cbn; lia|apply Nat.pow_le_mono_r; lia]).
  split.
  - destruct (C24_fft Complex a [a; b; c; d; e; f; g]) as [X [E [L _]]]; [cbn [length]; lia|]. exists X. split; [exact E|exact L].
  - destruct (C24_fft Complex a [a; b; c; d; e; f]) as [X [E [L _]]]; [cbn [length]; lia|]. exists X. split; [exact E|exact L].
Qed.
Example C24_real_case : is_real (F := Complex) [(1, 0)%R; (2, 0)%R; (-5, 0)%R].
Proof. intros [|[|[|[|i]]]]; cbn; apply C_ext; cbn; ring. Qed.

(** ** C25 *)
Theorem C25_ifft_fft : forall (F : dsys) (junk junk' : F) (x : list F), 0 < length x <= 2 ^ 29 ->
  (exists X, fft junk x = Ok X /\ ifft junk' X = Ok x) /\ (exists y, ifft junk x = Ok y /\ fft junk' y = Ok x).
Proof.
  intros F junk junk' x H. split.
  - exists (DFT 1 x). split; [apply fft_ok; exact H|]. rewrite ifft_ok by (rewrite DFT_length; exact H). f_equal.
    apply (DFT_inverse F 1 x). left. reflexivity.
  - exists (DFT (-1) x). split; [apply ifft_ok; exact H|]. rewrite fft_ok by (rewrite DFT_length; exact H). f_equal.
    apply (DFT_inverse F (-1) x). right. reflexivity.
Qed.
Print Assumptions C25_ifft_fft.
(** The reordering used for odd lengths turns the transform into its inverse. *)
Theorem C25_reorder : forall (F : dsys) (junk : F) (x X : list F), 0 < length x <= 2 ^ 29 ->
  fft junk x = Ok X -> ifft junk x = Ok (tfr2itfr c0 X).
Proof.
  intros F junk x X H E. rewrite fft_ok in E by exact H. injection E as <-.
  rewrite tfr2itfr_DFT by lia. apply ifft_ok, H.
Qed.
Print Assumptions C25_reorder.
(** Energy is preserved (the transform is unitary). *)
Theorem C25_parseval : forall (F : dsys) (junk : F) (x X : list F), 0 < length x <= 2 ^ 29 -> fft junk x = Ok X ->
  sum (length x) (fun k => samp X k * conj (samp X k))%K = sum (length x) (fun j => samp x j * conj (samp x j))%K.
Proof.
  intros F junk x X H E. rewrite fft_ok in E by exact H. injection E as <-. apply parseval. lia.
Qed.
Print Assumptions C25_parseval.
(** Linearity, and the spectrum of a circular convolution. *)
Theorem C25_convolution : forall (F : dsys) (junk : F) (x y X Y : list F), 0 < length x <= 2 ^ 29 -> length y = length x ->
  fft junk x = Ok X -> fft junk y = Ok Y ->
  ifft junk (zipmul X Y) = Ok (map (fun k => (cconv x y k / rt (length x))%K) (seq 0 (length x))).
Proof.
  intros F junk x y X Y H L E1 E2. rewrite fft_ok in E1 by exact H. rewrite fft_ok in E2 by lia.
  injection E1 as <-. injection E2 as <-. rewrite ifft_ok by (rewrite zipmul_length, !DFT_length; lia). f_equal. apply conv_theorem; lia.
Qed.
Print Assumptions C25_convolution.

(** ** C26 *)
Theorem C26_ccorr : forall (F : dsys) (junk : F) (x y : list F), 0 < length x <= 2 ^ 29 -> length y = length x ->
  ccorr junk x y = Ok (map (fun l => (ccorr_at x y l / cnat (length x))%K) (seq 0 (length x))).
Proof.
  intros F junk x y H L. unfold ccorr. rewrite correlateur_ok by assumption. cbn [bind]. rewrite map_map. reflexivity.
Qed.
Print Assumptions C26_ccorr.
(** Linear correlation, lags -(m-1) ... m-1: biased and unbiased estimates. *)
Theorem C26_xcorr : forall (F : dsys) (junk : F) (x y : list F) m, 0 < length x -> length y = length x -> 0 < m ->
  length x + 2 * m <= 2 ^ 29 ->
  xcorrb junk x y m = Ok (map (fun i => (xcorr_at x y (Z.of_nat i - (Z.of_nat m - 1)) / cnat (length x))%K) (seq 0 (2 * m - 1))) /\
  (m <= length x -> xcorr junk x y m = Ok (map (fun i => let l := (Z.of_nat i - (Z.of_nat m - 1))%Z in
     (xcorr_at x y l / cnat (length x - Z.to_nat (Z.abs l)))%K) (seq 0 (2 * m - 1)))).
Proof.
  intros F junk x y m H1 H2 H3 H4. split; [apply xcorrb_ok; assumption|]. intros H5. apply xcorr_ok; try assumption. lia.
Qed.
Print Assumptions C26_xcorr.
(** Finding: a second vector of another length is not rejected, the result is null. *)
Theorem C26_mismatch_refuted : forall (F : dsys) (junk : F) (x y : list F) m, 0 < length y -> length y <> length x ->
  0 < m -> 0 < length x -> length x + 2 * m <= 2 ^ 29 -> xcorrb junk x y m = Ok (repeat c0 (2 * m - 1)).
Proof. intros. apply xcorrb_mismatch; assumption. Qed.
Print Assumptions C26_mismatch_refuted.
Example C26_case : forall a b c : C, exists r, xcorrb (F := Complex) a [a; b; c] [c; b; a] 2 = Ok r /\ length r = 3 /\
  samp r 1 = (xcorr_at (F := Complex) [a; b; c] [c; b; a] 0 / cnat 3)%K.
Proof.
  intros a b c. assert (W : 7 <= 2 ^ 29) by (apply Nat.le_trans with (2 ^ 3); [cbn; lia|apply Nat.pow_le_mono_r; lia]).
  destruct (C26_xcorr Complex a [a; b; c] [c; b; a] 2) as [E _]; try reflexivity; try (cbn [length]; lia).
  eexists. split; [exact E|]. split; reflexivity.
Qed.

(** ** C27 *)
(** Real coefficients (1 to 512), any input cut into any blocks: the output is the real
    part of the convolution delayed by 512 - length h, on the complete packets of 512. *)
Theorem C27_filter : forall (F : dsys) (junk : F) (h : list F) blocks, 1 <= length h <= 512 -> is_real h ->
  is_real (concat blocks) ->
  exists H s, rif_fft_H junk h = Ok H /\
    run (rif_fft_step junk H) (ola_init 0 (length h)) blocks = Ok (s,
      map (fun t => conv_at h (concat blocks) (Z.of_nat t - (512 - Z.of_nat (length h)))) (seq 0 (length (concat blocks) / 512 * 512))).
Proof. intros F junk h blocks H1 H2 H3. exact (rif_fft_ok F junk h blocks H1 H2 H3). Qed.
Print Assumptions C27_filter.
(** Finding: with complex inputs (the cfloat instance) only the real part comes out. *)
Theorem C27_complex_input : forall (F : dsys) (junk : F) (h : list F) blocks, 1 <= length h <= 512 -> is_real h ->
  exists H s, rif_fft_H junk h = Ok H /\
    run (rif_fft_step junk H) (ola_init 0 (length h)) blocks = Ok (s,
      map (fun t => re_only (conv_at h (concat blocks) (Z.of_nat t - (512 - Z.of_nat (length h))))) (seq 0 (length (concat blocks) / 512 * 512))).
Proof. intros F junk h blocks H1 H2. exact (rif_fft_gen F junk h blocks H1 H2). Qed.
Print Assumptions C27_complex_input.
(** Any block size: the general filter with an unchanged spectrum is a delay of one block. *)
Theorem C27_identity : forall (F : dsys) (junk : F) Ne nz blocks, 0 < Ne -> np2 (Ne + nz) <= 2 * Ne -> np2 (Ne + nz) <= 2 ^ 29 ->
  exists s, run (ola_step junk (fun X => Ok X)) (ola_init Ne nz) blocks = Ok (s,
    map (fun t => sampZ (concat blocks) (Z.of_nat t - Z.of_nat Ne)) (seq 0 (length (concat blocks) / Ne * Ne))).
Proof. intros F junk Ne nz blocks H1 H2 H3. exact (ola_identity F junk Ne nz blocks H1 H2 H3). Qed.
Print Assumptions C27_identity.
(** Finding: more than 512 coefficients: access outside a vector at the first block. *)
Theorem C27_long_refuted : forall (F : dsys) (junk : F) (h H x : list F), 512 < length h <= 2 ^ 28 -> length x = 512 ->
  length H = ol_N (ola_init (F := F) 0 (length h)) -> rif_fft_step junk H (ola_init 0 (length h)) x = UB.
Proof. intros F junk h H x H1 H2 H3. exact (rif_fft_long F junk h H x H1 H2 H3). Qed.
Print Assumptions C27_long_refuted.
Example C27_case : 1 <= length [(3, 0)%R; (-1, 0)%R] <= 512 /\ is_real (F := Complex) [(3, 0)%R; (-1, 0)%R] /\ np2 (5 + 3) <= 2 * 5.
Proof.
  split; [cbn [length]; lia|]. split; [|cbn; lia]. intros [|[|[|i]]]; cbn; apply C_ext; cbn; ring.
Qed.

(** ** C49 *)
Theorem C49_delay : forall (K : cring) (x : list K) tau, (Z.abs tau <= Z.of_nat (length x))%Z ->
  exists y, delais_entier x tau = Ok y /\ length y = length x /\
    forall i, i < length x -> samp y i = sampZ x (Z.of_nat i - tau).
Proof. exact delais_ok. Qed.
Print Assumptions C49_delay.
Theorem C49_back : forall (K : cring) (x : list K) tau, (Z.abs tau <= Z.of_nat (length x))%Z ->
  exists y z, delais_entier x tau = Ok y /\ delais_entier y (- tau) = Ok z /\ length z = length x /\
    forall i, i < length x -> samp z i = if (0 <=? Z.of_nat i + tau)%Z && (Z.of_nat i + tau <? Z.of_nat (length x))%Z then samp x i else c0.
Proof.
  intros K x tau H. destruct (delais_ok K x tau H) as [y [Ey [Ly Hy]]].
  destruct (delais_ok K y (- tau)) as [z [Ez [Lz Hz]]]; [rewrite Ly; lia|].
  exists y, z. split; [exact Ey|]. split; [exact Ez|]. split; [lia|]. intros i Hi. rewrite Hz by lia.
  replace (Z.of_nat i - - tau)%Z with (Z.of_nat i + tau)%Z by lia.
  destruct (Z.leb_spec 0 (Z.of_nat i + tau)) as [A|A]; cbn [andb].
  - replace (Z.of_nat i + tau)%Z with (Z.of_nat (Z.to_nat (Z.of_nat i + tau))) at 1 by lia. rewrite sampZ_nat.
    destruct (Z.ltb_spec (Z.of_nat i + tau) (Z.of_nat (length x))) as [B|B].
    + rewrite Hy by lia. replace (Z.of_nat (Z.to_nat (Z.of_nat i + tau)) - tau)%Z with (Z.of_nat i) by lia. apply sampZ_nat.
    + unfold samp. apply nth_overflow. lia.
  - unfold sampZ. destruct (Z.ltb_spec (Z.of_nat i + tau) 0); [reflexivity|lia].
Qed.
Print Assumptions C49_back.
Theorem C49_too_far : forall (K : cring) (x : list K) tau, (Z.abs tau > Z.of_nat (length x))%Z -> delais_entier x tau = Exc.
Proof.
  intros K x tau H. unfold delais_entier. destruct (Z.eqb_spec tau 0); [lia|]. rewrite Z.gtb_ltb.
  destruct (Z.ltb_spec (Z.of_nat (length x)) (Z.abs tau)); [reflexivity|lia].
Qed.
Print Assumptions C49_too_far.
Example C49_case : delais_entier (F := Zring) [1; 2; 3; 4; 5]%Z 2 = Ok [0; 0; 1; 2; 3]%Z /\
                   delais_entier (F := Zring) [1; 2; 3; 4; 5]%Z (-2) = Ok [3; 4; 5; 0; 0]%Z.
Proof. split; reflexivity. Qed.
