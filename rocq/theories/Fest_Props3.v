(** C70: frequency axes and power spectra (tfd_freqs, psd_freqs, psd, psd_welch). *)
From Coq Require Import Reals ZArith Lra Lia Field Psatz R_Ifp String.
From Verif Require Import Base BaseLemmas RField DftSys ComplexSys Rii_Model Biq_Proofs Biq_Props But_Proofs Special_Proofs Vec_Model Vec_Proofs Win_Model Win_Props Fourier_Model Fourier_Spec Fourier_Proofs2 Fourier_Proofs3 Fourier_Props Fest_Model Fest_Spec Fest_Proofs Fest_Proofs2 Fest_Proofs3.
Local Open Scope R_scope.

Ltac rf := match goal with |- @eq _ ?a ?b => change (@eq R a b) end; field.
Ltac rg := match goal with |- @eq _ ?a ?b => change (@eq R a b) end; ring.
Lemma lin_nth (a b : R) n i : (2 <= n)%nat -> (i < n)%nat -> nth i (linspace (K := Rfield) a b n) 0 = a + (b - a) / (INR n - 1) * INR i.
Proof.
  intros Hn Hi. destruct (linspace_spec (K := Rfield) a b n) as (_ & E & _). etransitivity; [apply (E i Hi Hn)|].
  change (a + (b - a) / cnat (K := Rring) (n - 1) * cnat (K := Rring) i = a + (b - a) / (INR n - 1) * INR i). rewrite !cnat_R, minus_INR by lia. reflexivity.
Qed.
Lemma lin_first (a b : R) n : (1 <= n)%nat -> nth 0 (linspace (K := Rfield) a b n) 0 = a.
Proof. destruct n; [lia|reflexivity]. Qed.
Lemma lin_length (a b : R) n : List.length (linspace (K := Rfield) a b n) = n.
Proof. apply (linspace_spec (K := Rfield) a b n). Qed.

Lemma even_half n : Nat.even n = true -> exists h, n = (2 * h)%nat /\ (n / 2)%nat = h.
Proof. intros H. apply Nat.even_spec in H. destruct H as [h E]. exists h. split; [exact E|]. rewrite E, Nat.mul_comm. apply Nat.div_mul. lia. Qed.
Lemma odd_half n : Nat.even n = false -> exists h, n = (2 * h + 1)%nat /\ (n / 2)%nat = h.
Proof.
  intros H. assert (O : Nat.odd n = true) by (rewrite <- Nat.negb_even, H; reflexivity). apply Nat.odd_spec in O. destruct O as [h E]. exists h. split; [exact E|].
  rewrite E, Nat.mul_comm, Nat.div_add_l by lia. cbn. lia.
Qed.

Lemma axis_even n i : (2 <= n)%nat -> Nat.even n = true -> (i < n)%nat -> nth i (linspace (K := Rfield) (- (1 / 2)) (1 / 2 - 1 / INR n) n) 0 = INR i / INR n - 1 / 2.
Proof.
  intros Hn Ev Hi. rewrite lin_nth by lia. assert (P : 2 <= INR n) by (change 2 with (INR 2); apply le_INR; lia). rf. lra.
Qed.
(** Even sizes: entry i of the axis is the frequency of bin i, in [0, 1/2) then in [-1/2, 0); or, after fftshift, in increasing order. *)
Theorem C70_axis_even : forall n, (2 <= n)%nat -> Nat.even n = true ->
  (List.length (tfd_freqs n false) = n /\ forall i, (i < n)%nat -> nth i (tfd_freqs n false) 0 = if (i <? n / 2)%nat then INR i / INR n else INR i / INR n - 1) /\
  (List.length (tfd_freqs n true) = n /\ forall i, (i < n)%nat -> nth i (tfd_freqs n true) 0 = INR i / INR n - 1 / 2) /\
  psd_freqs n true = tfd_freqs n true.
Proof.
  intros n Hn Ev. assert (P : 2 <= INR n) by (change 2 with (INR 2); apply le_INR; lia).
  unfold tfd_freqs, psd_freqs. rewrite Ev. split; [|split; [|reflexivity]].
  - destruct (even_half n Ev) as [h [Eh Dh]]. rewrite Dh. split; [rewrite app_length, !lin_length; lia|]. intros i Hi.
    assert (EN : INR n = 2 * INR h) by (rewrite Eh, mult_INR; reflexivity). assert (Hh : 1 <= INR h) by lra.
    destruct (Nat.ltb_spec i h) as [L|L].
    + rewrite app_nth1 by (rewrite lin_length; exact L). destruct (Nat.eq_dec h 1) as [->|N1].
      * replace i with 0%nat by lia. rewrite lin_first by lia. cbn [INR]. unfold Rdiv. rg.
      * rewrite lin_nth by lia. assert (2 <= INR h) by (change 2 with (INR 2); apply le_INR; lia). rewrite EN. rf. split; lra.
    + rewrite app_nth2 by (rewrite lin_length; exact L). rewrite lin_length. destruct (Nat.eq_dec h 1) as [->|N1].
      * replace i with 1%nat by lia. cbn [Nat.sub]. rewrite lin_first by lia. rewrite EN. cbn [INR]. rf.
      * rewrite lin_nth by lia. assert (2 <= INR h) by (change 2 with (INR 2); apply le_INR; lia). rewrite minus_INR by lia. rewrite EN. rf. split; lra.
  - split; [apply lin_length|]. intros i Hi. apply axis_even; assumption.
Qed.
Print Assumptions C70_axis_even.
(** Findings, odd sizes n = 2h+1 >= 3: the non-negative bins have their frequency i/n, but the axis of the negative ones starts at -1/2, the frequency
    of no bin; with fftshift every entry is half a bin too high (bin i of the shifted spectrum is at (i - h)/n), so that 0 is not on the axis. *)
Theorem C70_axis_odd_refuted : forall h, (1 <= h)%nat -> let n := (2 * h + 1)%nat in
  (forall i, (i <= h)%nat -> nth i (tfd_freqs n false) 0 = INR i / INR n) /\
  nth (h + 1) (tfd_freqs n false) 0 = - (1 / 2) /\
  (forall i, (i < n)%nat -> nth i (tfd_freqs n true) 0 = (INR i - INR h) / INR n + 1 / (2 * INR n)) /\
  psd_freqs n true = tfd_freqs n true.
Proof.
  intros h Hh n. assert (P : 1 <= INR h) by (change 1 with (INR 1); apply le_INR; lia). assert (EN : INR n = 2 * INR h + 1) by (unfold n; rewrite plus_INR, mult_INR; cbn; ring).
  assert (Od : Nat.even n = false) by (unfold n; rewrite Nat.even_add, Nat.even_mul; reflexivity).
  assert (Dh : (n / 2)%nat = h) by (unfold n; rewrite Nat.mul_comm, Nat.div_add_l by lia; cbn; lia).
  unfold tfd_freqs, psd_freqs. rewrite Od, Dh. split; [|split; [|split; [|reflexivity]]].
  - intros i Hi. rewrite app_nth1 by (rewrite lin_length; lia). rewrite lin_nth by lia. rewrite plus_INR, EN. cbn [INR]. rf. split; lra.
  - rewrite app_nth2 by (rewrite lin_length; lia). rewrite lin_length. replace (h + 1 - (h + 1))%nat with 0%nat by lia. apply lin_first. lia.
  - intros i Hi. rewrite lin_nth by (unfold n in *; lia). rewrite EN. rf. split; lra.
Qed.
Print Assumptions C70_axis_odd_refuted.

(** ** Spectra *)
Lemma vfen_ok x w : List.length w = List.length x -> exists xf, vfen x w = Ok xf /\ List.length xf = List.length x /\
  forall j, (j < List.length x)%nat -> samp xf j = (samp x j * re (nth j w 0%R))%K.
Proof.
  intros L. unfold vfen. rewrite L, Nat.eqb_refl. eexists. split; [reflexivity|]. split; [rewrite map_length, combine_length, L; lia|].
  intros j Hj. unfold samp. rewrite nth_indep with (d' := (fun p => (fst p * (re (snd p) : Complex))%K) ((c0 : Complex), 0)) by (rewrite map_length, combine_length, L; lia).
  rewrite (map_nth (fun p : Complex * R => (fst p * (re (snd p) : Complex))%K)). rewrite combine_nth by lia. reflexivity.
Qed.
(** the bin k of the transform of a windowed signal, at the frequency k/n + z, z any integer *)
Lemma bin_power junk x w xf : (0 < List.length x <= 2 ^ 29)%nat -> vfen x w = Ok xf -> List.length w = List.length x ->
  exists X, fft (F := Complex) junk xf = Ok X /\ List.length X = List.length x /\
  forall k (z : Z), (k < List.length x)%nat -> Cnorm2 (samp X k) = power x w (INR k / INR (List.length x) + IZR z).
Proof.
  intros HN E Lw. destruct (vfen_ok x w Lw) as [xf' [E' [L H]]]. rewrite E in E'. injection E' as <-.
  destruct (C24_fft_complex junk xf ltac:(lia)) as [X [E1 [L1 H1]]]. exists X. split; [exact E1|]. split; [lia|].
  intros k z Hk. rewrite (H1 k) by lia. rewrite L. set (n := List.length x) in *. assert (P : 0 < INR n) by (apply lt_0_INR; lia).
  assert (Q : sqrt (INR n) <> 0) by (apply Rgt_not_eq, sqrt_lt_R0, P).
  change ((sqrt (INR n), 0) : Complex) with (re (sqrt (INR n))). unfold power. fold n.
  change (dfd Complex) with Cfield. rewrite (Cnorm2_div _ _ (re_ne _ Q)). replace (Cnorm2 (re (sqrt (INR n)))) with (INR n) by (unfold Cnorm2, re; cbn; rewrite sqrt_sqrt by lra; ring).
  f_equal. f_equal. apply sum_ext. intros j Hj. etransitivity; [apply (f_equal (fun t => (t * _)%K)), (H j Hj)|]. apply (f_equal (fun t => (_ * t)%K)).
  replace (- (2 * PI * (INR k / INR n + IZR z) * INR j)) with (2 * PI * (- (INR (j * k) / INR n) + IZR (- (z * Z.of_nat j)))).
  2:{ rewrite opp_IZR, mult_IZR, <- INR_IZR_INZ, mult_INR. field. lra. }
  rewrite eit_shift. replace (2 * PI * - (INR (j * k) / INR n)) with (- (2 * PI * INR (j * k) / INR n)) by (field; lra).
  unfold eit. rewrite cos_neg, sin_neg. reflexivity.
Qed.
Lemma shift_map {A B} (g : A -> B) X : fftshift (map g X) = map g (fftshift X).
Proof. unfold fftshift, vtail, vhead. rewrite map_length, map_app, firstn_map, skipn_map. reflexivity. Qed.
Lemma shift_nth (X : list Complex) i : (i < List.length X)%nat -> nth i (fftshift (vabs2 X)) 0 = Cnorm2 (samp X ((i + (List.length X + 1) / 2) mod List.length X)).
Proof.
  intros H. unfold vabs2. rewrite shift_map. change (map (fun z => Cnorm2 z) (fftshift X)) with (vabs2 (fftshift X)).
  assert (L : List.length (fftshift X) = List.length X) by apply (fftshift_length Complex X).
  rewrite nth_vabs2 by (rewrite L; exact H). f_equal. apply (fftshift_ok Complex X i H).
Qed.
(** position of a bin after fftshift, even size *)
Lemma shift_freq n i : (2 <= n)%nat -> Nat.even n = true -> (i < n)%nat -> exists z : Z, INR i / INR n - 1 / 2 = INR ((i + (n + 1) / 2) mod n) / INR n + IZR z.
Proof.
  intros Hn Ev Hi. destruct (even_half n Ev) as [h [Eh Dh]]. assert (D1 : ((n + 1) / 2 = h)%nat) by (rewrite Eh, Nat.mul_comm, Nat.div_add_l by lia; cbn; lia). rewrite D1.
  assert (EN : INR n = 2 * INR h) by (rewrite Eh, mult_INR; reflexivity). assert (0 < INR h) by (apply lt_0_INR; lia).
  destruct (Nat.lt_ge_cases (i + h) n) as [L|L].
  - exists (-1)%Z. rewrite Nat.mod_small by exact L. rewrite plus_INR, EN. cbn [IZR]. field. lra.
  - exists 0%Z. replace (i + h)%nat with (i - h + 1 * n)%nat by lia. rewrite Nat.mod_add, Nat.mod_small by lia. rewrite minus_INR by lia. rewrite EN. cbn [IZR]. field. lra.
Qed.

(** Complex signals of even length: each value of the spectrum is the power of the windowed signal at the frequency written next to it. *)
Theorem C70_psd_even : forall (junk : Complex) x, (2 <= List.length x <= 2 ^ 29)%nat -> Nat.even (List.length x) = true ->
  exists f s, psd_c junk x = Ok (f, s) /\ List.length f = List.length x /\ List.length s = List.length x /\
  forall i, (i < List.length x)%nat -> nth i f 0 = INR i / INR (List.length x) - 1 / 2 /\ nth i s 0 = power x (fen HANN (List.length x) false) (nth i f 0).
Proof.
  intros junk x HN Ev. set (n := List.length x) in *. unfold psd_c. fold n.
  destruct (C57_length_range HANN n false) as [Lw _]. change (List.length (fen HANN n false) = n) in Lw.
  change (fen_nom "hn" n false) with (Ok (fen HANN n false)). cbn [bind].
  destruct (vfen_ok x (fen HANN n false) Lw) as [xf [E [L _]]]. rewrite E. cbn [bind].
  destruct (bin_power junk x (fen HANN n false) xf ltac:(fold n; lia) E Lw) as [X [E1 [L1 H1]]]. rewrite E1. cbn [bind]. fold n in L1, H1.
  destruct (C70_axis_even n ltac:(lia) Ev) as [_ [[A1 A2] A3]].
  eexists. eexists. split; [reflexivity|]. rewrite A3. split; [exact A1|].
  split; [unfold vabs2; rewrite shift_map, map_length; etransitivity; [apply (fftshift_length Complex X)|exact L1]|].
  intros i Hi. split; [apply A2, Hi|]. rewrite A2 by exact Hi. rewrite shift_nth by lia. rewrite L1.
  destruct (shift_freq n i ltac:(lia) Ev Hi) as [z Ez]. rewrite Ez. apply H1. apply Nat.mod_upper_bound. lia.
Qed.
Print Assumptions C70_psd_even.

(** Finding: for a real signal of even length n >= 4 the value i of the spectrum is the power at i/n, but the axis says i/(n-2): the frequencies are
    stretched, up to 1/2 for the last one. *)
Theorem C70_psd_real_refuted : forall (junk : Complex) x, (4 <= List.length x <= 2 ^ 29)%nat -> Nat.even (List.length x) = true ->
  exists f s, psd_r junk x = Ok (f, s) /\ List.length f = (List.length x / 2)%nat /\ List.length s = (List.length x / 2)%nat /\
  forall i, (i < List.length x / 2)%nat -> nth i s 0 = power (map (fun v => (re v : Complex)) x) (fen HANN (List.length x) false) (INR i / INR (List.length x)) /\
    nth i f 0 = INR i / (INR (List.length x) - 2).
Proof.
  intros junk x HN Ev. set (n := List.length x) in *. unfold psd_r. fold n.
  destruct (C57_length_range HANN n false) as [Lw _]. change (List.length (fen HANN n false) = n) in Lw.
  change (fen_nom "hn" n false) with (Ok (fen HANN n false)). cbn [bind]. set (y := map (fun v => (re v : Complex)) x).
  assert (Ly : List.length y = n) by (unfold y; rewrite map_length; reflexivity).
  destruct (vfen_ok y (fen HANN n false) ltac:(rewrite Ly; exact Lw)) as [xf [E [L H]]]. rewrite E. cbn [bind].
  destruct (bin_power junk y (fen HANN n false) xf ltac:(rewrite Ly; lia) E ltac:(rewrite Ly; exact Lw)) as [X [E1 [L1 H1]]]. rewrite Ly in *.
  assert (Rl : is_real xf).
  { intros i. destruct (Nat.lt_ge_cases i n) as [h|h].
    - rewrite (H i h). unfold y, samp. rewrite nth_indep with (d' := (re 0 : Complex)) by (fold y; rewrite Ly; exact h). rewrite (map_nth (fun v => (re v : Complex))). apply C_ext; cbn; ring.
    - unfold samp. rewrite nth_overflow by lia. apply C_ext; cbn; ring. }
  rewrite rfft_ok by (try exact Rl; lia). rewrite fft_ok in E1 by lia. injection E1 as E1. rewrite E1. cbn [bind].
  assert (Lf : List.length (psd_freqs n false) = (n / 2)%nat) by apply lin_length.
  eexists. eexists. split; [reflexivity|]. split; [exact Lf|]. assert (D2 : (n / 2 < n)%nat) by (apply Nat.div_lt; lia).
  split; [rewrite firstn_length, vabs2_length, L1; lia|]. intros i Hi. split.
  - transitivity (nth i (vabs2 X) 0).
    + rewrite <- (firstn_skipn (n / 2) (vabs2 X)) at 2. rewrite app_nth1 by (rewrite firstn_length, vabs2_length, L1; lia). reflexivity.
    + rewrite nth_vabs2 by lia. rewrite (H1 i 0%Z) by lia. cbn [IZR]. f_equal. ring.
  - unfold psd_freqs. rewrite <- Nat.negb_even, Ev. cbn [negb]. destruct (even_half n Ev) as [h [Eh Dh]]. rewrite Dh in *. rewrite lin_nth by lia.
    assert (EN : INR n = 2 * INR h) by (rewrite Eh, mult_INR; reflexivity). assert (2 <= INR h) by (change 2 with (INR 2); apply le_INR; lia).
    rewrite EN. rf. split; lra.
Qed.
Print Assumptions C70_psd_real_refuted.

(** ** Welch *)
Definition nwin (len N i : nat) : nat := ((len - N - i + N / 2 - 1) / (N / 2))%nat.
Lemma nwin_S len N i : (2 <= N)%nat -> (i + N < len)%nat -> nwin len N i = S (nwin len N (i + N / 2)).
Proof.
  intros HN H. unfold nwin. set (h := (N / 2)%nat). assert (Hh : (1 <= h)%nat) by (apply (Nat.div_le_mono 2 N 2); lia).
  set (a := (len - N - i)%nat). replace (len - N - (i + h))%nat with (a - h)%nat by (unfold a; lia). assert (Ha : (1 <= a)%nat) by (unfold a; lia).
  destruct (Nat.le_gt_cases h a) as [L|L].
  - replace (a + h - 1)%nat with ((a - h + h - 1) + 1 * h)%nat by lia. rewrite Nat.div_add by lia. lia.
  - replace (a - h)%nat with 0%nat by lia. rewrite (Nat.div_small (0 + h - 1)) by lia. symmetry. apply (Nat.div_unique _ h 1 (a - 1)); lia.
Qed.
Lemma nwin_0 len N i : (2 <= N)%nat -> (len <= i + N)%nat -> nwin len N i = 0%nat.
Proof. intros HN H. unfold nwin. assert (Hh : (1 <= N / 2)%nat) by (apply (Nat.div_le_mono 2 N 2); lia). apply Nat.div_small. lia. Qed.
Lemma rsum_S_l n (g : nat -> R) : sum (K := Rring) (S n) g = g 0%nat + sum (K := Rring) n (fun m => g (S m)).
Proof. apply (sum_S_l Rring). Qed.

Lemma welch_ok junk x N w : (2 <= N <= 2 ^ 29)%nat -> Nat.even N = true -> List.length w = N -> forall fuel i s, (List.length x <= fuel + i)%nat -> List.length s = N ->
  exists s', welch_loop junk fuel x N w i s = Ok s' /\ List.length s' = N /\
  forall k, (k < N)%nat -> nth k s' 0 = nth k s 0 + sum (K := Rring) (nwin (List.length x) N i) (fun m => power (firstn N (skipn (i + m * (N / 2)) x)) w (INR k / INR N - 1 / 2)).
Proof.
  intros HN Ev Lw. assert (Hh : (1 <= N / 2)%nat) by (apply (Nat.div_le_mono 2 N 2); lia).
  induction fuel as [|fuel IH]; intros i s Hf Ls; cbn [welch_loop]; destruct (Nat.ltb_spec (i + N) (List.length x)) as [L|L]; try lia.
  1, 3: exists s; split; [reflexivity|]; split; [exact Ls|]; intros k Hk; rewrite nwin_0 by lia; cbn [sum]; change (nth k s 0 = nth k s 0 + 0); ring.
  set (seg := firstn N (skipn i x)). assert (Lseg : List.length seg = N) by (unfold seg; rewrite firstn_length, skipn_length; lia).
  destruct (vfen_ok seg w ltac:(lia)) as [xf [E [Lxf _]]]. rewrite E. cbn [bind].
  destruct (bin_power junk seg w xf ltac:(lia) E ltac:(lia)) as [X [E1 [L1 H1]]]. rewrite E1. cbn [bind]. rewrite Lseg in *.
  assert (Lsh : List.length (fftshift (vabs2 X)) = N) by (unfold vabs2; rewrite shift_map, map_length; etransitivity; [apply (fftshift_length Complex X)|exact L1]).
  set (s1 := map (fun p => fst p + snd p) (combine s (fftshift (vabs2 X)))). assert (Ls1 : List.length s1 = N) by (unfold s1; rewrite map_length, combine_length, Ls, Lsh; lia).
  destruct (IH (i + N / 2)%nat s1 ltac:(lia) Ls1) as [s' [Es' [Ls' H']]]. exists s'. split; [exact Es'|]. split; [exact Ls'|].
  intros k Hk. rewrite H' by exact Hk. rewrite (nwin_S (List.length x) N i) by lia. rewrite rsum_S_l.
  assert (V : nth k s1 0 = nth k s 0 + power seg w (INR k / INR N - 1 / 2)).
  { unfold s1. rewrite nth_indep with (d' := (fun p => fst p + snd p) (0, 0)) by (rewrite map_length, combine_length, Ls, Lsh; lia).
    rewrite (map_nth (fun p => fst p + snd p)), combine_nth by lia. cbn [fst snd]. f_equal. rewrite shift_nth by lia. rewrite L1.
    destruct (shift_freq N k ltac:(lia) Ev Hk) as [z Ez]. rewrite Ez. apply H1. apply Nat.mod_upper_bound. lia. }
  rewrite V, Rplus_assoc. f_equal. f_equal.
  - replace (i + 0 * (N / 2))%nat with i by lia. reflexivity.
  - apply sum_ext. intros m Hm. replace (i + N / 2 + m * (N / 2))%nat with (i + S m * (N / 2))%nat by lia. reflexivity.
Qed.
(** Even window sizes: the sum, over the windows that start at 0, N/2, 2 (N/2), ... and end strictly before the end of the signal, of the powers at the
    frequency written next to each value. *)
Theorem C70_welch : forall (junk : Complex) x N nom type, (2 <= N <= 2 ^ 29)%nat -> Nat.even N = true -> parse_fenetre nom = Ok type ->
  exists f s, psd_welch junk x N nom = Ok (f, s) /\ List.length f = N /\ List.length s = N /\
  forall i, (i < N)%nat -> nth i f 0 = INR i / INR N - 1 / 2 /\
    nth i s 0 = sum (K := Rring) ((List.length x - N + N / 2 - 1) / (N / 2)) (fun m => power (firstn N (skipn (m * (N / 2)) x)) (fen type N false) (nth i f 0)).
Proof.
  intros junk x N nom type HN Ev Pn. destruct (C57_length_range type N false) as [Lw _].
  unfold psd_welch, fen_nom. rewrite Pn. cbn [bind].
  destruct (welch_ok junk x N (fen type N false) HN Ev Lw (List.length x) 0 (repeat 0 N) ltac:(lia) (repeat_length 0 N)) as [s [E [L H]]]. rewrite E. cbn [bind].
  destruct (C70_axis_even N ltac:(lia) Ev) as [_ [[A1 A2] A3]]. eexists. eexists. split; [reflexivity|]. rewrite A3. split; [exact A1|]. split; [exact L|].
  intros i Hi. split; [apply A2, Hi|]. rewrite H, A2 by exact Hi. unfold nwin. rewrite Nat.sub_0_r.
  replace (nth i (repeat 0 N) 0) with 0 by (clear; revert i; induction N as [|n IH]; intros [|i]; cbn; auto). rewrite Rplus_0_l. reflexivity.
Qed.
Print Assumptions C70_welch.
(** Finding: a signal of exactly one window (or less) gives a null spectrum (minus infinity in decibels): the last complete window is never used. *)
Theorem C70_welch_last_refuted : forall (junk : Complex) x N nom type, (2 <= N <= 2 ^ 29)%nat -> Nat.even N = true -> parse_fenetre nom = Ok type ->
  (List.length x <= N)%nat -> psd_welch junk x N nom = Ok (psd_freqs N true, repeat 0 N).
Proof.
  intros junk x N nom type HN Ev Pn Hl. unfold psd_welch, fen_nom. rewrite Pn. cbn [bind].
  destruct (List.length x) as [|n] eqn:Ln; cbn [welch_loop]; rewrite Ln; match goal with |- context [(?a <? ?b)%nat] => destruct (Nat.ltb_spec a b) end; try lia; reflexivity.
Qed.
Print Assumptions C70_welch_last_refuted.
(** Finding: with N = 1 the loop does not advance: the call never returns (two samples or more). *)
Theorem C70_welch_one_refuted : forall (junk : Complex) x nom type, (2 <= List.length x)%nat -> parse_fenetre nom = Ok type -> psd_welch junk x 1 nom = Diverge.
Proof.
  intros junk x nom type Hl Pn. unfold psd_welch, fen_nom. rewrite Pn. cbn [bind]. destruct (C57_length_range type 1 false) as [Lw _]. change (List.length (fen type 1 false) = 1%nat) in Lw.
  assert (G : forall fuel s, welch_loop junk fuel x 1 (fen type 1 false) 0 s = Diverge).
  { induction fuel as [|fuel IH]; intros s; cbn [welch_loop]; destruct (Nat.ltb_spec (0 + 1) (List.length x)); try lia; [reflexivity|].
    cbn [skipn]. assert (L1 : List.length (firstn 1 x) = 1%nat) by (rewrite firstn_length; lia).
    destruct (vfen_ok (firstn 1 x) (fen type 1 false) ltac:(lia)) as [xf [E [Lxf _]]]. rewrite E. cbn [bind].
    assert (W : (1 <= 2 ^ 29)%nat) by (apply (Nat.pow_le_mono_r 2 0 29); lia).
    rewrite fft_ok by (rewrite Lxf; lia). cbn [bind]. change (0 + 1 / 2)%nat with 0%nat. apply IH. }
  rewrite G. reflexivity.
Qed.
Print Assumptions C70_welch_one_refuted.
Example C70_case : forall junk a b c d e : Complex, exists f s, psd_welch junk [a; b; c; d; e] 4 "hn" = Ok (f, s) /\ nth 2 f 0 = 0 /\
  nth 2 s 0 = power [a; b; c; d] (fen HANN 4 false) 0.
Proof.
  intros. assert (W : (4 <= 2 ^ 29)%nat) by (apply Nat.le_trans with (2 ^ 2)%nat; [cbn; lia|apply Nat.pow_le_mono_r; lia]).
  destruct (C70_welch junk [a; b; c; d; e] 4 "hn" HANN ltac:(lia) eq_refl eq_refl) as [f [s [E [_ [_ H]]]]]. exists f, s. split; [exact E|].
  destruct (H 2%nat ltac:(lia)) as [F0 S0]. assert (F1 : nth 2 f 0 = 0) by (rewrite F0; cbn [INR]; lra). split; [exact F1|]. rewrite S0, F1.
  change ((List.length [a; b; c; d; e] - 4 + 4 / 2 - 1) / (4 / 2))%nat with 1%nat. rewrite (rsum_S_l 0). cbn [sum]. change (0 * (4 / 2))%nat with 0%nat. cbn [skipn firstn]. 
  match goal with |- ?t + _ = _ => change (t + 0 = t) end. ring.
Qed.
