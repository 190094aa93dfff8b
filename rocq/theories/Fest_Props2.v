(** C69 (continued): localise_pic_frequence. *)
From Coq Require Import Reals ZArith Lra Lia Field Psatz R_Ifp.
From Verif Require Import Base BaseLemmas RField DftSys ComplexSys Rii_Model Biq_Proofs Biq_Props But_Proofs Special_Proofs Fourier_Model Fourier_Spec Fourier_Proofs2 Fourier_Props Fest_Model Fest_Spec Fest_Proofs Fest_Proofs2 Fest_Proofs3 Fest_Proofs4 Fest_Proofs5 Fest_Props.
Local Open Scope R_scope.

Lemma rsum_bounds n g M : (forall i, (i < n)%nat -> 0 <= g i <= M) -> 0 <= sum (K := Rring) n g <= INR n * M.
Proof.
  induction n as [|n IH]; intros H; [cbn; lra|]. cbn [sum]. rewrite S_INR. destruct IH as [A B]; [intros; apply H; lia|]. specialize (H n ltac:(lia)).
  change (0 <= sum (K := Rring) n g + g n <= (INR n + 1) * M). lra.
Qed.
Lemma rsum_ge n g k : (forall i, (i < n)%nat -> 0 <= g i) -> (k < n)%nat -> g k <= sum (K := Rring) n g.
Proof.
  induction n as [|n IH]; intros H Hk; [lia|]. cbn [sum]. change (g k <= sum (K := Rring) n g + g n).
  destruct (Nat.eq_dec k n) as [-> |Nk].
  - assert (0 <= sum (K := Rring) n g). { clear - H. induction n as [|n IH]; [cbn; lra|]. cbn [sum]. change (0 <= sum (K := Rring) n g + g n). pose proof (H n ltac:(lia)). assert (0 <= sum (K := Rring) n g) by (apply IH; intros; apply H; lia). lra. }
    lra.
  - specialize (IH ltac:(intros; apply H; lia) ltac:(lia)). pose proof (H n ltac:(lia)). lra.
Qed.
Lemma rsum_one n g k : (k < n)%nat -> (forall i, (i < n)%nat -> i <> k -> g i = 0) -> sum (K := Rring) n g = g k.
Proof.
  induction n as [|n IH]; intros Hk H; [lia|]. cbn [sum]. change (sum (K := Rring) n g + g n = g k). destruct (Nat.eq_dec k n) as [-> |Nk].
  - assert (sum (K := Rring) n g = 0). { clear IH. assert (G : forall j, (j < n)%nat -> g j = 0) by (intros; apply H; lia). clear H Hk. induction n as [|n IH]; [reflexivity|]. cbn [sum]. change (sum (K := Rring) n g + g n = 0). rewrite IH, G by (intros; auto with arith; lia). ring. }
    lra.
  - rewrite IH by (try lia; intros; apply H; lia). rewrite (H n) by lia. ring.
Qed.

(** what the function computes, for any non-null signal *)
Lemma pic_gen (junk : Complex) x X : (0 < List.length x <= 2 ^ 29)%nat -> fft junk x = Ok X -> (exists j, (j < List.length x)%nat /\ samp X j <> c0) ->
  let N := List.length x in exists k d snr, index_max (vabs2 X) = Ok k /\ (k < N)%nat /\ Rabs d <= 1 / 2 /\ 1 <= snr <= INR N /\
  snr = Cnorm2 (samp X k) / (sum (K := Rring) N (fun i => nth i (vabs2 X) 0) / INR N) /\
  (forall j, (j < N)%nat -> Cnorm2 (samp X j) <= Cnorm2 (samp X k)) /\ 0 < Cnorm2 (samp X k) /\
  d = (Cnorm2 (samp X ((k + 1) mod N)) - Cnorm2 (samp X ((k + N - 1) mod N))) / (Cnorm2 (samp X ((k + N - 1) mod N)) + Cnorm2 (samp X k) + Cnorm2 (samp X ((k + 1) mod N)) + / 10 ^ 30) /\
  localise_pic_frequence junk x =
    let i2 := if (N / 2 <=? k)%nat then (Z.of_nat k - Z.of_nat N)%Z else Z.of_nat k in
    if Rle_dec (Rabs (IZR i2 / INR N)) (1 / 2) then Ok (IZR i2 / INR N + d / INR N, snr) else Exc.
Proof.
  intros HN E [j0 [Hj0 Nj0]] N. fold N in HN, Hj0. assert (P : 0 < INR N) by (apply lt_0_INR; lia).
  assert (L : List.length X = N). { rewrite fft_ok in E by exact HN. injection E as <-. apply DFT_length. }
  destruct (index_max_ok (vabs2 X)) as [k [K1 [K2 K3]]]; [intros C; apply (f_equal (@List.length R)) in C; rewrite vabs2_length, L in C; cbn in C; lia|].
  rewrite vabs2_length, L in K2, K3.
  assert (Q : forall j, (j < N)%nat -> nth j (vabs2 X) 0 = Cnorm2 (samp X j)) by (intros; apply nth_vabs2; lia).
  assert (M : forall j, (j < N)%nat -> Cnorm2 (samp X j) <= Cnorm2 (samp X k)) by (intros j Hj; specialize (K3 j Hj); rewrite !Q in K3 by assumption; exact K3).
  assert (Pk : 0 < Cnorm2 (samp X k)). { pose proof (Cnorm2_nonneg (samp X j0)). pose proof (Cnorm2_ne (samp X j0) Nj0). specialize (M j0 Hj0). lra. }
  set (k1 := ((k + N - 1) mod N)%nat). set (k3 := ((k + 1) mod N)%nat).
  assert (B1 : (k1 < N)%nat) by (apply Nat.mod_upper_bound; lia). assert (B3 : (k3 < N)%nat) by (apply Nat.mod_upper_bound; lia).
  set (s := sum (K := Rring) N (fun i => nth i (vabs2 X) 0)).
  assert (Hs : Cnorm2 (samp X k) <= s <= INR N * Cnorm2 (samp X k)).
  { split.
    - rewrite <- (Q k K2). apply (rsum_ge N (fun i => nth i (vabs2 X) 0) k); [intros i Hi; rewrite Q by exact Hi; apply Cnorm2_nonneg|exact K2].
    - apply (rsum_bounds N (fun i => nth i (vabs2 X) 0)). intros i Hi. rewrite Q by exact Hi. split; [apply Cnorm2_nonneg|apply M, Hi]. }
  set (y1 := Cnorm2 (samp X k1)). set (y2 := Cnorm2 (samp X k)) in *. set (y3 := Cnorm2 (samp X k3)).
  assert (Y1 : 0 <= y1 <= y2) by (split; [apply Cnorm2_nonneg|apply M, B1]). assert (Y3 : 0 <= y3 <= y2) by (split; [apply Cnorm2_nonneg|apply M, B3]).
  assert (Ee : 0 < / 10 ^ 30) by (apply Rinv_0_lt_compat, pow_lt; lra). set (eps := / 10 ^ 30) in *.
  set (d := (y3 - y1) / (y1 + y2 + y3 + eps)). assert (Ed : d * (y1 + y2 + y3 + eps) = y3 - y1) by (unfold d; field; lra).
  assert (Hd : Rabs d <= 1 / 2) by (apply Rabs_le; split; apply Rmult_le_reg_r with (y1 + y2 + y3 + eps); lra).
  assert (Ps : 0 < s / INR N) by (apply Rdiv_lt_0_compat; lra).
  exists k, d, (y2 / (s / INR N)). split; [exact K1|]. split; [exact K2|]. split; [exact Hd|]. split.
  { assert (EQ : y2 / (s / INR N) = INR N * y2 / s) by (field; lra). rewrite EQ. split; apply Rmult_le_reg_r with s; try lra; unfold Rdiv; rewrite Rmult_assoc, Rinv_l by lra; nra. }
  split; [reflexivity|]. split; [exact M|]. split; [exact Pk|]. split; [reflexivity|].
  unfold localise_pic_frequence. fold N. rewrite E. cbn [bind]. rewrite K1. cbn [bind]. rewrite !(vget_nth (vabs2 X) _ 0) by (rewrite vabs2_length; fold k1 k3; lia). fold k1 k3. cbn [bind].
  rewrite !Q by assumption. change (Cnorm2 (samp X k)) with y2. change (Cnorm2 (samp X k1)) with y1. change (Cnorm2 (samp X k3)) with y3. fold s eps.
  rewrite (rdiv_ok y2) by lra. cbn [bind]. rewrite (rdiv_ok (y3 - y1)) by lra. cbn [bind]. fold d. cbv zeta.
  destruct (Rle_dec (Rabs (IZR _ / INR N)) (1 / 2)); cbn [negb]; [|reflexivity].
  destruct (Rle_dec (Rabs d) 1); [reflexivity|lra].
Qed.

(** A non-null signal of even length: no exception, |f| <= 1/2 + 1/(2N), and a ratio peak / mean of 1 to N. *)
Theorem C69_peak_even : forall (junk : Complex) x, (0 < List.length x <= 2 ^ 29)%nat -> Nat.even (List.length x) = true -> (exists j, (j < List.length x)%nat /\ samp x j <> c0) ->
  exists f snr, localise_pic_frequence junk x = Ok (f, snr) /\ Rabs f <= 1 / 2 + 1 / (2 * INR (List.length x)) /\ 1 <= snr <= INR (List.length x).
Proof.
  intros junk x HN Ev [j0 [Hj0 Nj0]]. set (N := List.length x) in *. assert (P : 0 < INR N) by (apply lt_0_INR; lia).
  destruct (C25_ifft_fft Complex junk junk x HN) as [[X [E E2]] _].
  assert (L : List.length X = N). { rewrite fft_ok in E by exact HN. injection E as <-. apply DFT_length. }
  assert (NZ : exists j, (j < N)%nat /\ samp X j <> c0).
  { (* otherwise x, the inverse transform of X, would be null *)
    destruct (List.Forall_dec (fun z : C => z = (0, 0)) C0_dec X) as [A|A].
    - exfalso. apply Nj0. rewrite ifft_ok in E2 by lia. injection E2 as E2. rewrite <- E2. unfold N in Hj0.
      assert (X0 : forall i, samp X i = (c0 : Complex)). { intros i. unfold samp. destruct (Nat.lt_ge_cases i (List.length X)) as [h|h]; [|apply nth_overflow, h]. rewrite Forall_forall in A. apply A, nth_In, h. }
      rewrite DFT_nth by (rewrite L; exact Hj0). unfold dft. cbv zeta.
      assert (Z : forall m g, sum m (fun j => samp X j * g j)%K = (c0 : Complex)). { induction m as [|m IH]; intros g; [reflexivity|]. cbn [sum]. rewrite IH, X0. apply C_ext; cbn; ring. }
      rewrite Z. apply C_ext; cbn; unfold Cdiv; cbn; ring.
    - apply List.Exists_Forall_neg in A; [|intros z; destruct (C0_dec z); tauto]. apply Exists_exists in A. destruct A as [z [Iz Nz]]. apply In_nth with (d := (0, 0)) in Iz. destruct Iz as [i [Hi <-]].
      exists i. split; [rewrite <- L; exact Hi|exact Nz]. }
  destruct (pic_gen junk x X HN E NZ) as [k [d [snr [K1 [K2 [Hd [Hs [_ [_ [_ [_ Eq]]]]]]]]]]]. fold N in K2, Hs, Eq. cbv zeta in Eq.
  apply Nat.even_spec in Ev. destruct Ev as [h Eh]. assert (Dh : (N / 2)%nat = h) by (rewrite Eh, Nat.mul_comm; apply Nat.div_mul; lia). rewrite Dh in Eq.
  set (i2 := if (h <=? k)%nat then (Z.of_nat k - Z.of_nat N)%Z else Z.of_nat k) in *.
  assert (B : Rabs (IZR i2 / INR N) <= 1 / 2).
  { assert (I : (- Z.of_nat h <= i2 <= Z.of_nat h)%Z) by (unfold i2; destruct (Nat.leb_spec h k); lia).
    destruct I as [I1 I2]. apply IZR_le in I1, I2. rewrite opp_IZR in I1. rewrite <- INR_IZR_INZ in I1, I2. assert (EN : INR N = 2 * INR h) by (rewrite Eh, mult_INR; reflexivity).
    apply Rabs_le. split; apply Rmult_le_reg_r with (INR N); try lra; unfold Rdiv; rewrite ?Rmult_assoc, ?Rinv_l by lra; lra. }
  destruct (Rle_dec _ (1 / 2)) as [_|C]; [|contradiction].
  exists (IZR i2 / INR N + d / INR N), snr. split; [exact Eq|]. split; [|exact Hs].
  eapply Rle_trans; [apply Rabs_triang|]. apply Rplus_le_compat; [exact B|]. unfold Rdiv. rewrite Rabs_mult, (Rabs_right (/ INR N)) by (apply Rle_ge, Rlt_le, Rinv_0_lt_compat; exact P).
  replace (1 * / (2 * INR N)) with (1 / 2 * / INR N) by (field; lra). apply Rmult_le_compat_r; [apply Rlt_le, Rinv_0_lt_compat; exact P|exact Hd].
Qed.
Print Assumptions C69_peak_even.

Lemma tone_nz junk A f N X : (0 < N <= 2 ^ 29)%nat -> A <> c0 -> fft junk (tone A f N) = Ok X -> exists j, (j < N)%nat /\ samp X j <> c0.
Proof.
  intros HN HA E. destruct (tone_peak junk A f N HN HA) as [X' [k [u [m [E' [L [K1 [K1' [K2 [H [M3 [Ef [Hu [H0 H1]]]]]]]]]]]]]]. rewrite E' in E. injection E as <-.
  exists k. split; [exact K2|]. intros C. pose proof (bin_norm A f N HN X' k (H k K2)) as B. assert (P : 0 < INR N) by (apply lt_0_INR; lia).
  assert (Z : binpow f N k = 0).
  { pose proof (A_pos A HA). assert (B0 : Cnorm2 A * binpow f N k / INR N = 0) by (rewrite <- B; change (Cnorm2 (samp X' k) = 0); rewrite C; unfold Cnorm2; cbn; ring).
    apply Rmult_eq_reg_l with (Cnorm2 A / INR N); [|apply Rgt_not_eq, Rdiv_lt_0_compat; lra]. unfold Rdiv in *. lra. }
  destruct (Req_dec u 0) as [U|U].
  - destruct (H0 U) as [_ Q]. rewrite Q in Z. nra.
  - destruct (H1 U) as [G _]. rewrite <- (binpow_geo f N k ltac:(lia)), Z in G. lra.
Qed.

(** Pure tones: within half a bin, modulo 1 (even length). *)
Theorem C69_peak_tone : forall (junk A : Complex) f N, (4 <= N <= 2 ^ 29)%nat -> Nat.even N = true -> A <> c0 ->
  exists r snr, localise_pic_frequence junk (tone A f N) = Ok (r, snr) /\ near r f (1 / (2 * INR N)) /\
  ((exists b : Z, f = IZR b / INR N) -> near r f 0 /\ snr = INR N).
Proof.
  intros junk A f N HN Ev HA. destruct (tone_sides junk A f N ltac:(lia) HA) as [X [k [u [m [E [L [_ [K1 [K2 [Ef [Hu S]]]]]]]]]]]. cbv zeta in S. destruct S as [S1 [S2 [S3 [S4 S5]]]].
  assert (P : 4 <= INR N) by (replace 4 with (INR 4) by (cbn; ring); apply le_INR; lia).
  assert (E' : fft junk (tone A f N) = Ok X) by exact E.
  destruct (pic_gen junk (tone A f N) X) as [k' [d [snr [K1' [K2' [Hd [Hs [Esnr [M [Pk [Ed Eq]]]]]]]]]]]; rewrite ?tone_length; [lia|exact E|apply (tone_nz junk A f N X ltac:(lia) HA E)|].
  rewrite K1 in K1'. injection K1' as <-. rewrite ?tone_length in *. cbv zeta in Eq.
  set (y1 := Cnorm2 (samp X ((k + N - 1) mod N))) in *. set (y2 := Cnorm2 (samp X k)) in *. set (y3 := Cnorm2 (samp X ((k + 1) mod N))) in *.
  assert (Ee : 0 < / 10 ^ 30) by (apply Rinv_0_lt_compat, pow_lt; lra). set (eps := / 10 ^ 30) in *.
  assert (Ed' : d * (y1 + y2 + y3 + eps) = y3 - y1) by (rewrite Ed; field; lra). assert (Hd2 : - (1 / 2) <= d <= 1 / 2) by (clear - Hd; unfold Rabs in Hd; destruct (Rcase_abs d); lra).
  assert (Hdu : Rabs (d - u) <= 1 / 2).
  { apply Rabs_le. destruct (Rle_dec 0 u) as [U|U].
    - destruct (S3 U) as [Q _]. assert (0 <= d) by (apply Rmult_le_reg_r with (y1 + y2 + y3 + eps); lra). lra.
    - destruct (S4 ltac:(lra)) as [Q _]. assert (d <= 0) by (apply Rmult_le_reg_r with (y1 + y2 + y3 + eps); lra). lra. }
  apply Nat.even_spec in Ev. destruct Ev as [h Eh]. assert (Dh : (N / 2)%nat = h) by (rewrite Eh, Nat.mul_comm; apply Nat.div_mul; lia). rewrite Dh in Eq.
  set (i2 := if (h <=? k)%nat then (Z.of_nat k - Z.of_nat N)%Z else Z.of_nat k) in *.
  assert (I3 : exists z : Z, IZR i2 = INR k + IZR z * INR N).
  { unfold i2. destruct (Nat.leb_spec h k); [exists (-1)%Z; rewrite minus_IZR, <- !INR_IZR_INZ; ring|exists 0%Z; rewrite <- INR_IZR_INZ; ring]. }
  assert (B : Rabs (IZR i2 / INR N) <= 1 / 2).
  { assert (I : (- Z.of_nat h <= i2 <= Z.of_nat h)%Z) by (unfold i2; destruct (Nat.leb_spec h k); lia).
    destruct I as [I1 I2]. apply IZR_le in I1, I2. rewrite opp_IZR in I1. rewrite <- INR_IZR_INZ in I1, I2. assert (EN : INR N = 2 * INR h) by (rewrite Eh, mult_INR; reflexivity).
    apply Rabs_le. split; apply Rmult_le_reg_r with (INR N); try lra; unfold Rdiv; rewrite ?Rmult_assoc, ?Rinv_l by lra; lra. }
  destruct (Rle_dec _ (1 / 2)) as [_|C]; [|contradiction]. destruct I3 as [z Ez].
  exists (IZR i2 / INR N + d / INR N), snr. split; [exact Eq|].
  assert (Er : IZR i2 / INR N + d / INR N - f - IZR (z - m) = (d - u) / INR N) by (rewrite Ez, Ef, minus_IZR; field; lra).
  split.
  - exists (z - m)%Z. rewrite Er. unfold Rdiv at 1. rewrite Rabs_mult, (Rabs_right (/ INR N)) by (apply Rle_ge, Rlt_le, Rinv_0_lt_compat; lra).
    replace (1 / (2 * INR N)) with (1 / 2 * / INR N) by (field; lra). apply Rmult_le_compat_r; [apply Rlt_le, Rinv_0_lt_compat; lra|exact Hdu].
  - intros [b Eb]. assert (U : u = 0).
    { assert (I : u = IZR (b - Z.of_nat k - m * Z.of_nat N)).
      { rewrite !minus_IZR, mult_IZR, <- !INR_IZR_INZ. assert (EN : f * INR N = IZR b) by (rewrite Eb; field; lra). rewrite <- EN, Ef. field. lra. }
      rewrite I in Hu |- *. destruct Hu as [h1 h2]. replace (b - Z.of_nat k - m * Z.of_nat N)%Z with 0%Z; [reflexivity|].
      assert (-1 < b - Z.of_nat k - m * Z.of_nat N < 1)%Z; [|lia]. split; apply lt_IZR; lra. }
    destruct (S5 U) as [Y2 Y0]. split.
    + exists (z - m)%Z. rewrite Er. assert (y1 = 0) by (apply Y0; [apply Nat.mod_upper_bound; lia|apply prev_ne; lia]). assert (y3 = 0) by (apply Y0; [apply Nat.mod_upper_bound; lia|apply next_ne; lia]).
      assert (d = 0). { apply Rmult_eq_reg_r with (y1 + y2 + y3 + eps); [|lra]. lra. }
      replace ((d - u) / INR N) with 0 by (rewrite U, H1; field; lra). rewrite Rabs_R0. lra.
    + rewrite Esnr. rewrite (rsum_one N _ k K2).
      * rewrite nth_vabs2 by lia. change (Cnorm2 (samp X k)) with y2. field. split; lra.
      * intros i Hi Ni. rewrite nth_vabs2 by lia. apply Y0; assumption.
Qed.
Print Assumptions C69_peak_tone.

(** Finding: with an odd length, a tone on the bin (N-1)/2, a positive frequency, makes the function throw. *)
Theorem C69_peak_odd_refuted : forall (junk A : Complex) h, (2 * h + 1 <= 2 ^ 29)%nat -> A <> c0 ->
  localise_pic_frequence junk (tone A (INR h / INR (2 * h + 1)) (2 * h + 1)) = Exc.
Proof.
  intros junk A h HN HA. set (N := (2 * h + 1)%nat) in *. assert (P : 0 < INR N) by (apply lt_0_INR; unfold N; lia).
  destruct (tone_peak junk A (INR h / INR N) N ltac:(unfold N in *; lia) HA) as [X [k [u [m [E [L [K1 [K1' [K2 [H [M3 [Ef [Hu [H0 H1]]]]]]]]]]]]]].
  destruct (pic_gen junk (tone A (INR h / INR N) N) X) as [k' [d [snr [K1'' [K2' [Hd [Hs [Esnr [M [Pk [Ed Eq]]]]]]]]]]]; rewrite ?tone_length; [unfold N in *; lia|exact E|apply (tone_nz junk A _ N X ltac:(unfold N in *; lia) HA E)|].
  rewrite K1' in K1''. injection K1'' as <-. rewrite ?tone_length in *. cbv zeta in Eq.
  assert (Kh : k = h).
  { assert (I : IZR (Z.of_nat h - Z.of_nat k - m * Z.of_nat N) = u).
    { rewrite !minus_IZR, mult_IZR, <- !INR_IZR_INZ. assert (EN : INR h / INR N * INR N = INR h) by (field; lra). rewrite <- EN at 1. rewrite Ef at 1. field. lra. }
    rewrite <- I in Hu. assert (-1 < Z.of_nat h - Z.of_nat k - m * Z.of_nat N < 1)%Z by (split; apply lt_IZR; lra).
    assert (m = 0)%Z by (unfold N in *; nia). subst m. lia. }
  subst k. assert (D2 : (N / 2 = h)%nat) by (unfold N; rewrite Nat.mul_comm, Nat.div_add_l by lia; cbn; lia). rewrite D2, Nat.leb_refl in Eq.
  rewrite Eq. destruct (Rle_dec _ (1 / 2)) as [C|_]; [|reflexivity]. exfalso.
  rewrite minus_IZR, <- !INR_IZR_INZ in C. assert (EN : INR N = 2 * INR h + 1) by (unfold N; rewrite plus_INR, mult_INR; cbn; ring).
  rewrite Rabs_left in C.
  - apply Rmult_le_compat_r with (r := INR N) in C; [|lra]. replace (- ((INR h - INR N) / INR N) * INR N) with (INR N - INR h) in C by (field; lra). lra.
  - apply Rmult_lt_reg_r with (INR N); [exact P|]. unfold Rdiv. rewrite Rmult_assoc, Rinv_l by lra. pose proof (pos_INR h). lra.
Qed.
Print Assumptions C69_peak_odd_refuted.
Example C69_case : forall junk : Complex, freqestim junk (tone c1 (3 / 10) 7) CANDAN2 = Ok (3 / 10) /\
  (exists r snr, localise_pic_frequence junk (tone c1 (1 / 4) 8) = Ok (r, snr) /\ near r (1 / 4) 0 /\ snr = 8).
Proof.
  assert (W : (8 <= 2 ^ 29)%nat) by (apply Nat.le_trans with (2 ^ 3)%nat; [cbn; lia|apply Nat.pow_le_mono_r; lia]).
  assert (N1 : (c1 : Complex) <> c0) by (intros C; apply (f_equal fst) in C; cbn in C; lra).
  intros junk. split.
  - apply C69_candan_exact; [lia|exact N1|lra].
  - destruct (C69_peak_tone junk c1 (1 / 4) 8) as [r [snr [E [_ H]]]]; [lia|reflexivity|exact N1|]. exists r, snr. split; [exact E|].
    destruct H as [H1 H2]; [exists 2%Z; replace (INR 8) with 8 by (cbn; ring); lra|]. split; [exact H1|]. rewrite H2. cbn; ring.
Qed.
