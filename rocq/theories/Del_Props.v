(** C71: estimation of the delay between two signals, alignment, coherence. *)
From Coq Require Import Reals ZArith Lra Lia Psatz Field.
From Verif Require Import Base BaseLemmas RField DftSys ComplexSys Rii_Model Biq_Proofs Biq_Props But_Proofs Filters_Proofs Sig_Proofs Vec_Model Fourier_Model Fourier_Spec Fourier_Proofs2 Fourier_Props Fest_Model Fest_Proofs Fest_Proofs3 Fest_Proofs4 Del_Model Del_Spec Del_Proofs Del_Proofs2 Del_Proofs3.
Local Open Scope R_scope.

(** Any two signals, not both empty: the estimator answers (no division by zero, no fallback), its score is in [0, 1), and the delay is within one half of
    a lag where the modulus of the correlation is the largest of all the lags. *)
Theorem C71_peak : forall (junk : Complex) (x y : list Complex), let N := Nat.max (List.length x) (List.length y) in (0 < N)%nat -> (3 * N <= 2 ^ 29)%nat ->
  exists t s l, estimation_delais junk x y = Ok (t, s) /\ 0 <= s < 1 /\ (Z.abs l < Z.of_nat N)%Z /\ Rabs (t - IZR l) <= 1 / 2 /\ Rabs t <= INR N - 1 /\
    s = xabs x y l / INR N / (sqrt (energy x / INR N) * sqrt (energy y / INR N) + / 10 ^ 50) /\
    forall m, xabs x y m <= xabs x y l.
Proof.
  intros junk x y N HN HM. destruct (est_peak junk x y HN HM) as [t [s [l [E [A [B [D [S1 M]]]]]]]]. fold N in A, D, S1, M.
  exists t, s, l. split; [exact E|]. split; [rewrite S1; apply score_range; exact HN|]. split; [exact A|]. split; [exact B|]. split; [exact D|]. split; [exact S1|].
  intros m. destruct (Z_lt_dec (Z.abs m) (Z.of_nat N)) as [L|L]; [apply M, L|]. apply Rle_trans with 0; [|apply xabs_pos]. right.
  unfold xabs. assert (Q : xcorr_at x y m = c0).
  { unfold xcorr_at. apply (sum_zero Cring). intros i Hi. rewrite (sampZ_out y) by (unfold N in *; lia). apply C_ext; cbn; ring. }
  rewrite Q. apply nrm_0.
Qed.
Print Assumptions C71_peak.

(** y is x delayed by d samples (either sign) and multiplied by c <> 0: the delay found is exactly d, and the score is 1 up to the 1e-50 of the code. *)
Theorem C71_exact : forall (junk : Complex) (x y : list Complex) (d : Z) (c : Complex), delayed x y d c -> not_null x -> c <> c0 ->
  let N := Nat.max (List.length x) (List.length y) in (3 * N <= 2 ^ 29)%nat ->
  let s := sqrt (Cnorm2 c) * energy x / INR N in
  0 < s /\ estimation_delais junk x y = Ok (IZR d, s / (s + / 10 ^ 50)).
Proof.
  intros junk x y d c Dl Nn Hc N HM s. split; [|apply (est_exact x y d c Dl Nn Hc junk HM)].
  assert (HN : (0 < N)%nat) by (pose proof (d_range x y d c Dl Nn Hc); unfold N; lia). unfold s. apply Rmult_lt_0_compat; [|apply Rinv_0_lt_compat, lt_0_INR; exact HN].
  apply Rmult_lt_0_compat; [apply (nrm_ne c Hc)|apply energy_pos_nn, Nn].
Qed.
Print Assumptions C71_exact.

Lemma roundZ_IZR d : roundZ (IZR d) = d.
Proof.
  assert (I : forall k : Z, Int_part (IZR k + 1 / 2) = k).
  { intros k. unfold Int_part. assert (E : up (IZR k + 1 / 2) = (k + 1)%Z); [|rewrite E; lia]. symmetry. apply tech_up; rewrite plus_IZR; lra. }
  unfold roundZ. destruct (Rle_dec 0 (IZR d)); [apply I|]. rewrite <- opp_IZR, I. lia.
Qed.
Theorem C71_integer : forall (junk : Complex) (x y : list Complex) (d : Z) (c : Complex), delayed x y d c -> not_null x -> c <> c0 ->
  (3 * Nat.max (List.length x) (List.length y) <= 2 ^ 29)%nat -> exists s, estimation_delais_entier junk x y = Ok (d, s) /\ 0 <= s < 1.
Proof.
  intros junk x y d c Dl Nn Hc HM. destruct (C71_exact junk x y d c Dl Nn Hc HM) as [P E]. unfold estimation_delais_entier. rewrite E. cbn [bind fst snd]. rewrite roundZ_IZR.
  eexists. split; [reflexivity|]. set (s := sqrt (Cnorm2 c) * energy x / INR (Nat.max (List.length x) (List.length y))) in *. pose proof eps_pos. split.
  - apply Rmult_le_pos; [lra|apply Rlt_le, Rinv_0_lt_compat; lra].
  - apply (Rmult_lt_reg_r (s + / 10 ^ 50)); [lra|]. unfold Rdiv. rewrite Rmult_assoc, Rinv_l by lra. lra.
Qed.
Print Assumptions C71_integer.

Lemma np2_ge n : (n <= np2 n)%nat.
Proof. unfold np2. destruct n as [|[|n]]; [cbn; lia|cbn; lia|]. apply Nat.log2_up_spec. lia. Qed.
Lemma tail_samp (x : list Complex) k j : (k <= List.length x)%nat -> samp (vtail k x) j = sampZ x (Z.of_nat (List.length x - k + j)).
Proof. intros H. unfold vtail, samp. rewrite nth_skipn'. fold (samp x (List.length x - k + j)). apply samp_Z. Qed.
Lemma head_samp (x : list Complex) k j : (j < k)%nat -> samp (vhead k x) j = samp x j.
Proof.
  unfold vhead, samp. revert x j. induction k as [|k IH]; intros x j H; [lia|]. destruct x as [|a x]; [destruct j; reflexivity|]. destruct j as [|j]; [reflexivity|]. cbn. apply IH. lia.
Qed.
(** Alignment of a delayed copy: the two vectors returned have the same length and the second is c times the first, sample by sample; nothing is lost:
    the length is that of the part common to the two. *)
Theorem C71_align : forall (junk : Complex) (x y : list Complex) (d : Z) (c : Complex), delayed x y d c -> not_null x -> c <> c0 ->
  (3 * np2 (Nat.max (List.length x) (List.length y)) <= 2 ^ 29)%nat ->
  exists xa ya s, aligne_entier junk x y = Ok (xa, ya, d, s) /\ 0 <= s < 1 /\
    Z.of_nat (List.length xa) = Z.min (Z.of_nat (List.length x) - Z.max 0 (- d)) (Z.of_nat (List.length y) - Z.max 0 d) /\ List.length ya = List.length xa /\
    forall j, (j < List.length xa)%nat -> samp xa j = sampZ x (Z.of_nat j + Z.max 0 (- d)) /\ samp ya j = (c * samp xa j)%K.
Proof.
  intros junk x y d c Dl Nn Hc HM. set (n := np2 (Nat.max (List.length x) (List.length y))) in *.
  pose proof (np2_ge (Nat.max (List.length x) (List.length y))) as G. fold n in G.
  set (xp := x ++ repeat c0 (n - List.length x)). set (yp := y ++ repeat c0 (n - List.length y)).
  assert (LX : List.length xp = n) by (unfold xp; rewrite app_length, repeat_length; lia). assert (LY : List.length yp = n) by (unfold yp; rewrite app_length, repeat_length; lia).
  assert (Dp : delayed xp yp d c) by (intros a; unfold xp, yp; rewrite !sampZ_pad; apply Dl).
  assert (Np : not_null xp) by (destruct Nn as [z Hz]; exists z; unfold xp; rewrite sampZ_pad; exact Hz).
  destruct (C71_integer junk xp yp d c Dp Np Hc) as [s [E Hs]]; [rewrite LX, LY; lia|].
  pose proof (d_range x y d c Dl Nn Hc) as DR. unfold aligne_entier, pad_zeros_p2. fold n xp yp. rewrite E. cbn [bind fst snd].
  assert (W : exists xa ya, (if (d =? 0)%Z then Ok (x, y) else if (d <? 0)%Z then let* xa := tailZ x (Z.of_nat (List.length x) + d) in Ok (xa, y) else let* ya := tailZ y (Z.of_nat (List.length y) - d) in Ok (x, ya)) = Ok (xa, ya) /\
    Z.of_nat (List.length xa) = (Z.of_nat (List.length x) - Z.max 0 (- d))%Z /\ Z.of_nat (List.length ya) = (Z.of_nat (List.length y) - Z.max 0 d)%Z /\
    (forall j, samp xa j = sampZ x (Z.of_nat j + Z.max 0 (- d))) /\ (forall j, samp ya j = sampZ y (Z.of_nat j + Z.max 0 d))).
  { destruct (Z.eqb_spec d 0) as [D0|D0]; [|destruct (Z.ltb_spec d 0) as [D1|D1]].
    - exists x, y. split; [reflexivity|]. split; [lia|]. split; [lia|]. split; intros j; rewrite samp_Z; f_equal; lia.
    - unfold tailZ. destruct (Z.ltb_spec (Z.of_nat (List.length x) + d) 0); [lia|]. cbn [orb]. destruct (Z.ltb_spec (Z.of_nat (List.length x)) (Z.of_nat (List.length x) + d)); [lia|]. cbn [bind].
      eexists _, y. split; [reflexivity|]. split; [unfold vtail; rewrite skipn_length; lia|]. split; [lia|]. split; intros j; [rewrite tail_samp by lia|rewrite samp_Z]; f_equal; lia.
    - unfold tailZ. destruct (Z.ltb_spec (Z.of_nat (List.length y) - d) 0); [lia|]. cbn [orb]. destruct (Z.ltb_spec (Z.of_nat (List.length y)) (Z.of_nat (List.length y) - d)); [lia|]. cbn [bind].
      eexists x, _. split; [reflexivity|]. split; [lia|]. split; [unfold vtail; rewrite skipn_length; lia|]. split; intros j; [rewrite samp_Z|rewrite tail_samp by lia]; f_equal; lia. }
  destruct W as [xa [ya [EW [L1 [L2 [S1 S2]]]]]]. rewrite EW. cbn [bind]. clear EW.
  assert (Pt : forall j, samp ya j = (c * samp xa j)%K). { intros j. rewrite S1, S2, (Dl (Z.of_nat j + Z.max 0 d)%Z). do 2 f_equal. lia. }
  set (m := Nat.min (List.length xa) (List.length ya)).
  exists (vhead m xa), (vhead m ya), s.
  assert (HX : (if (List.length ya <? List.length xa)%nat then vhead (List.length ya) xa else xa) = vhead m xa).
  { unfold m, vhead. destruct (Nat.ltb_spec (List.length ya) (List.length xa)); [rewrite Nat.min_r by lia; reflexivity|rewrite Nat.min_l, firstn_all by lia; reflexivity]. }
  assert (HY : (if (List.length xa <? List.length ya)%nat then vhead (List.length xa) ya else ya) = vhead m ya).
  { unfold m, vhead. destruct (Nat.ltb_spec (List.length xa) (List.length ya)); [rewrite Nat.min_l by lia; reflexivity|rewrite Nat.min_r, firstn_all by lia; reflexivity]. }
  rewrite HX, HY. assert (M1 : List.length (vhead m xa) = m) by (unfold vhead; rewrite firstn_length; unfold m; lia). assert (M2 : List.length (vhead m ya) = m) by (unfold vhead; rewrite firstn_length; unfold m; lia).
  rewrite M1, M2, Nat.eqb_refl. split; [reflexivity|]. split; [exact Hs|]. split; [unfold m; lia|]. split; [reflexivity|]. intros j Hj. rewrite !head_samp by exact Hj. split; [apply S1|apply Pt].
Qed.
Print Assumptions C71_align.

Lemma nz (a : R) : a <> 0 -> ((a, 0) : Complex) <> c0. Proof. intros H E. injection E. exact H. Qed.
Lemma small29 : (3 * 16 <= 2 ^ 29)%nat. Proof. apply Nat.le_trans with (2 ^ 6)%nat; [cbn; lia|apply Nat.pow_le_mono_r; lia]. Qed.
Example C71_case : let x : list Complex := [(1, 0); (2, 0)] in let y : list Complex := [(0, 0); (0, 0); (3, 0); (6, 0)] in
  delayed x y 2 (3, 0) /\ not_null x /\ (exists s, estimation_delais_entier c0 x y = Ok (2%Z, s) /\ 0 <= s < 1) /\ exists xa ya s, aligne_entier c0 x y = Ok (xa, ya, 2%Z, s) /\ List.length xa = 2%nat.
Proof.
  intros x y. assert (D : delayed x y 2 (3, 0)).
  { intros a. destruct (Z_lt_dec a 0) as [L|L]; [rewrite !sampZ_out by lia; apply C_ext; cbn; ring|]. destruct (Z_lt_dec a 4) as [L4|L4]; [|rewrite !sampZ_out by (cbn [List.length x y]; lia); apply C_ext; cbn; ring].
    assert (K : (a = 0 \/ a = 1 \/ a = 2 \/ a = 3)%Z) by lia. destruct K as [-> | [-> | [-> | ->]]].
    - change (((0, 0) : C) = Cmul (3, 0) (0, 0)). apply C_ext; cbn; ring.
    - change (((0, 0) : C) = Cmul (3, 0) (0, 0)). apply C_ext; cbn; ring.
    - change (((3, 0) : C) = Cmul (3, 0) (1, 0)). apply C_ext; cbn; ring.
    - change (((6, 0) : C) = Cmul (3, 0) (2, 0)). apply C_ext; cbn; ring. }
  assert (Nn : not_null x) by (exists 0%Z; apply (nz 1); lra). assert (Hc : ((3, 0) : Complex) <> c0) by (apply nz; lra).
  split; [exact D|]. split; [exact Nn|]. pose proof small29 as S. split; [apply (C71_integer c0 x y 2 (3, 0) D Nn Hc); apply Nat.le_trans with (3 * 16)%nat; [cbn; lia|exact S]|].
  destruct (C71_align c0 x y 2 (3, 0) D Nn Hc) as [xa [ya [s [E [_ [L _]]]]]]; [change (3 * 4 <= 2 ^ 29)%nat; lia|]. exists xa, ya, s. split; [exact E|]. cbn [List.length x y] in L. lia.
Qed.

(** Finding: for two null signals, instead of an error the most extreme lag is returned, with a score of 0. *)
Lemma xabs_null x y l : (forall z, sampZ x z = c0) -> xabs x y l = 0.
Proof.
  intros H. unfold xabs. assert (Q : xcorr_at x y l = c0); [|rewrite Q; apply nrm_0].
  unfold xcorr_at. apply (sum_zero Cring). intros i Hi. change (samp (K := Cring) x) with (samp (K := Complex) x). rewrite samp_Z, H. apply Cmul_0_l.
Qed.
Theorem C71_null_refuted : forall (junk : Complex) (x y : list Complex), (forall z, sampZ x z = c0) ->
  let N := Nat.max (List.length x) (List.length y) in (0 < N)%nat -> (3 * N <= 2 ^ 29)%nat -> estimation_delais junk x y = Ok (- (INR N - 1), 0).
Proof.
  intros junk x y H N HN HM. assert (SZ : forall l, score x y N l = 0) by (intros l; unfold score; rewrite (xabs_null x y l H); unfold Rdiv; ring).
  assert (IM : index_max (cnv x y N) = Ok 0%nat).
  { destruct (index_max_ok (cnv x y N)) as [k [E [Hk M]]]; [intros EZ; apply (f_equal (@List.length R)) in EZ; rewrite cnv_length in EZ; cbn in EZ; lia|].
    destruct k as [|k]; [exact E|]. pose proof (index_max_first _ _ E 0%nat ltac:(lia)) as F. rewrite cnv_length in Hk. rewrite !cnv_nth, !SZ in F by lia. lra. }
  assert (I : interp (cnv x y N) 0 = Ok 0) by (unfold interp; rewrite (vget_nth _ 0 0) by (rewrite cnv_length; lia); reflexivity).
  rewrite (estimation_unfold junk x y 0 0 HN HM IM ltac:(lia) I). fold N. rewrite SZ. do 2 f_equal. rewrite minus_IZR, minus_IZR, <- !INR_IZR_INZ. cbn [INR]. lra.
Qed.
Print Assumptions C71_null_refuted.
(** Finding: the alignment of two silent vectors reads out of bounds (tail of a negative length) unless the length is a power of two or one less. *)
Lemma null_repeat n (z : Z) : sampZ (repeat (c0 : Complex) n) z = c0.
Proof. unfold sampZ. destruct (z <? 0)%Z; [reflexivity|]. apply nth_repeat. Qed.
Theorem C71_align_silence_refuted : forall (junk : Complex) (x y : list Complex), (forall z, sampZ x z = c0) -> let n := Nat.max (List.length x) (List.length y) in
  (List.length x + 1 < np2 n)%nat -> (3 * np2 n <= 2 ^ 29)%nat -> aligne_entier junk x y = UB.
Proof.
  intros junk x y H n HL HM. unfold aligne_entier, pad_zeros_p2. fold n. pose proof (np2_ge n) as G. assert (Gy : (List.length y <= n)%nat) by (unfold n; lia). clearbody n.
  assert (LX : List.length (x ++ repeat c0 (np2 n - List.length x)) = np2 n) by (rewrite app_length, repeat_length; lia).
  assert (LY : List.length (y ++ repeat c0 (np2 n - List.length y)) = np2 n) by (rewrite app_length, repeat_length; lia).
  unfold estimation_delais_entier. rewrite C71_null_refuted; [|intros z; rewrite sampZ_pad; apply H|rewrite LX, LY; lia|rewrite LX, LY; lia].
  rewrite LX, LY, Nat.max_id. cbn [bind fst snd]. replace (- (INR (np2 n) - 1)) with (IZR (1 - Z.of_nat (np2 n))) by (rewrite minus_IZR, <- INR_IZR_INZ; ring). rewrite roundZ_IZR.
  destruct (Z.eqb_spec (1 - Z.of_nat (np2 n)) 0); [lia|]. destruct (Z.ltb_spec (1 - Z.of_nat (np2 n)) 0); [|lia]. unfold tailZ. destruct (Z.ltb_spec (Z.of_nat (List.length x) + (1 - Z.of_nat (np2 n))) 0); [reflexivity|lia].
Qed.
Print Assumptions C71_align_silence_refuted.
Example C71_silence_case : aligne_entier c0 (repeat (c0 : Complex) 5) (repeat (c0 : Complex) 5) = UB.
Proof.
  apply C71_align_silence_refuted; [intros z; apply null_repeat| |]; rewrite !repeat_length; change (np2 (Nat.max 5 5)) with 8%nat; [lia|]. pose proof small29. lia.
Qed.

(** Finding: the coherence does not measure anything: without averaging it is 1 in every bin, whatever the signals, and 0/0 as soon as a bin of one of the two spectra is null. *)
Lemma coh_one (a b : Complex) : a <> c0 -> b <> c0 -> rdiv (sqrt (Cnorm2 (a * conj b)%K)) (sqrt (Cnorm2 a) * sqrt (Cnorm2 b)) = Ok 1.
Proof.
  intros Ha Hb. pose proof (nrm_ne a Ha) as A. pose proof (nrm_ne b Hb) as B. change (sqrt (Cnorm2 (a * conj b)%K)) with (nrm (a * conj b)%K). rewrite nrm_mul, nrm_conj.
  change (rdiv (nrm a * nrm b) (nrm a * nrm b) = Ok 1). rewrite rdiv_ok by nra. f_equal. field. lra.
Qed.
Lemma coh_zero (a b : Complex) : a = c0 \/ b = c0 -> rdiv (sqrt (Cnorm2 (a * conj b)%K)) (sqrt (Cnorm2 a) * sqrt (Cnorm2 b)) = UB.
Proof.
  intros H. unfold rdiv. destruct (Req_EM_T (sqrt (Cnorm2 a) * sqrt (Cnorm2 b)) 0) as [_|N]; [reflexivity|]. exfalso. apply N. change (nrm a * nrm b = 0). destruct H as [-> | ->]; rewrite nrm_0; ring.
Qed.
Theorem C71_coherence_refuted : forall (junk : Complex) (x y X Y : list Complex), (0 < List.length x <= 2 ^ 29)%nat -> List.length y = List.length x ->
  fft junk x = Ok X -> fft junk y = Ok Y ->
  ((forall k, (k < List.length x)%nat -> samp X k <> c0 /\ samp Y k <> c0) -> coherence junk x y = Ok (repeat 1 (List.length x))) /\
  (forall k, (k < List.length x)%nat -> samp X k = c0 \/ samp Y k = c0 -> coherence junk x y = UB).
Proof.
  intros junk x y X Y Hn Hy EX EY. unfold coherence. rewrite EX, EY. cbn [bind].
  assert (LX : List.length X = List.length x). { destruct (C24_fft_complex junk x Hn) as [X' [E [L _]]]. assert (X' = X) by congruence. subst. exact L. }
  assert (LY : List.length Y = List.length x). { destruct (C24_fft_complex junk y ltac:(lia)) as [Y' [E [L _]]]. assert (Y' = Y) by congruence. subst. lia. }
  rewrite LX, LY, Nat.eqb_refl. clear EX EY Hn. revert X Y LX LY. generalize (List.length x). clear. intros n X. revert n.
  induction X as [|a X IH]; intros n Y LX LY; destruct Y as [|b Y]; cbn in LX, LY; try lia; subst n; [split; [reflexivity|intros; lia]|].
  cbn [combine map_res fst snd]. injection LY as LY. specialize (IH (List.length X) Y eq_refl LY). destruct IH as [I1 I2]. split.
  - intros H. destruct (H 0%nat ltac:(lia)) as [Ha Hb]. rewrite coh_one by assumption. cbn [bind]. rewrite I1; [reflexivity|]. intros k Hk. apply (H (S k)). apply (proj1 (Nat.succ_lt_mono _ _)). exact Hk.
  - intros k Hk H. destruct (C0_dec a) as [Ea|Ea]; [rewrite coh_zero by (left; exact Ea); reflexivity|]. destruct (C0_dec b) as [Eb|Eb]; [rewrite coh_zero by (right; exact Eb); reflexivity|].
    rewrite coh_one by assumption. cbn [bind]. destruct k as [|k]; [exfalso; destruct H; contradiction|]. rewrite (I2 k); [reflexivity|apply (proj2 (Nat.succ_lt_mono _ _)); exact Hk|exact H].
Qed.
Print Assumptions C71_coherence_refuted.
