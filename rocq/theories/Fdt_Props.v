(** C83: frequency-domain resampling and chirp-z transform; see DESIGN.md. *)
From Coq Require Import List Arith ZArith Reals Lia Lra Field.
From Verif Require Import Base BaseLemmas DftSys ComplexSys Filters_Model Fourier_Model Fourier_Proofs Fourier_Proofs2 Fourier_Spec
  Freq_Proofs2 Del_Model Chn_Spec Fdt_Model Fdt_Spec Fdt_Proofs Fdt_Proofs2 Fdt_Proofs3.
Import ListNotations.
Local Open Scope R_scope.

(** ** rééchan_freq.
    Any sum of sinusoids with whole numbers of periods in the vector (phases and amplitudes arbitrary): the
    components below half of the new size come out with the same frequency (in Hz), phase and amplitude, those above are
    removed.  n2 is the nearest integer to n * lom; when n * lom is an integer the factor in front is one. *)
Theorem C83_resampling : forall reel junk (l : list (R * nat * R)) n n2 lom,
  (0 < n <= 2 ^ 29)%nat -> (0 < n2 <= 2 ^ 29)%nat -> 0 < lom -> INR n2 - 1 / 2 <= INR n * lom < INR n2 + 1 / 2 ->
  Forall (fun o => (2 * freq o + 2 <= n)%nat /\ ((2 * freq o + 2 <= n2)%nat \/ (n2 < 2 * freq o)%nat)) l ->
  refreq reel junk (real_signal n (tones l n)) lom =
  Ok (real_signal n2 (fun t => sqrt (INR n * lom / INR n2) * tones (filter (fun o => 2 * freq o <? n2)%nat l) n2 t)).
Proof.
  intros reel junk l n n2 lom Hn Hn2 Hl Hnear HF.
  assert (Pn : 0 < INR n) by (apply lt_0_INR; lia). assert (Pn2 : 0 < INR n2) by (apply lt_0_INR; lia).
  destruct (Req_EM_T lom 1) as [->|H1].
  - rewrite refreq_1. assert (n2 = n).
    { rewrite Rmult_1_r in Hnear. apply INR_eq. destruct (Nat.lt_trichotomy n2 n) as [A|[A|A]]; [|rewrite A; reflexivity|];
        apply le_INR in A; rewrite S_INR in A; lra. }
    subst n2. f_equal. unfold real_signal. apply map_ext_in. intros t _. f_equal. rewrite Rmult_1_r. replace (INR n / INR n) with 1 by (field; lra). rewrite sqrt_1, Rmult_1_l.
    induction l as [|o l IH]; [reflexivity|]. inversion_clear HF as [|? ? A B]. cbn [filter]. destruct (Nat.ltb_spec (2 * freq o) n); [|lia]. cbn [tones]. rewrite IH by exact B. reflexivity.
  - assert (E2 : n2 = Z.to_nat (roundZ (INR n * lom))) by (symmetry; apply roundZ_near; [exact Hnear|nra]).
    rewrite (refreq_tones reel junk l n n2 lom) by (first [assumption|eapply Forall_impl; [|exact HF]; cbv beta; intros o Ho; lia]).
    f_equal. unfold real_signal. apply map_ext_in. intros t _. f_equal. f_equal. clear E2 Hnear.
    induction l as [|o l IH]; [reflexivity|]. inversion_clear HF as [|? ? A B]. cbn [filter fold_right]. rewrite IH by exact B. unfold kept.
    destruct (Nat.ltb_spec (2 * freq o) n2) as [C|C].
    + pose proof (bw_lt n n2 (freq o) ltac:(lia) ltac:(lia)) as Q. apply Nat.ltb_lt in Q. rewrite Q. cbn [tones]. ring.
    + pose proof (bw_ge n n2 (freq o) ltac:(lia)) as Q. destruct (Nat.ltb_spec (freq o) (bw n n2)); [lia|]. destruct (Nat.eqb_spec (freq o) (bw n n2)); [lia|]. cbn [andb]. ring.
Qed.
Print Assumptions C83_resampling.
(** Integer ratio: exact interpolation of a sum of sinusoids. *)
Theorem C83_integer_ratio : forall reel junk (l : list (R * nat * R)) n L,
  (0 < n)%nat -> (0 < L)%nat -> (n * L <= 2 ^ 29)%nat -> Forall (fun o => (2 * freq o + 2 <= n)%nat) l ->
  refreq reel junk (real_signal n (tones l n)) (INR L) = Ok (real_signal (n * L) (tones l (n * L))).
Proof.
  intros reel junk l n L Hn HL Hmax HF. assert (Pn : 0 < INR n) by (apply lt_0_INR; lia). assert (PL : 0 < INR L) by (apply lt_0_INR; lia).
  assert (n <= n * L)%nat by nia.
  rewrite (C83_resampling reel junk l n (n * L) (INR L)); [|lia|nia|lra|rewrite mult_INR; lra|].
  2:{ eapply Forall_impl; [|exact HF]. cbv beta. intros o Ho. split; [exact Ho|left; lia]. }
  f_equal. unfold real_signal. apply map_ext_in. intros t _. f_equal. rewrite mult_INR. replace (INR n * INR L / (INR n * INR L)) with 1 by (field; lra). rewrite sqrt_1, Rmult_1_l.
  clear Hmax. induction l as [|o l IH]; [reflexivity|]. inversion_clear HF as [|? ? A B]. cbn [filter]. destruct (Nat.ltb_spec (2 * freq o) (n * L)); [|lia]. cbn [tones]. rewrite IH by exact B. reflexivity.
Qed.
Print Assumptions C83_integer_ratio.
Example C83_case : let l := [(3, 1%nat, PI / 4); (2, 3%nat, 0)] in
  Forall (fun o => (2 * freq o + 2 <= 8)%nat) l /\
  (forall junk, refreq true junk (real_signal 8 (tones l 8)) 3 = Ok (real_signal 24 (tones l 24))) /\
  forall junk, refreq true junk (real_signal 8 (tones l 8)) (1 / 2) = Ok (real_signal 4 (tones [(3, 1%nat, PI / 4)] 4)).
Proof.
  cbv zeta. assert (F : Forall (fun o => (2 * freq o + 2 <= 8)%nat) [(3, 1%nat, PI / 4); (2, 3%nat, 0)]) by (repeat constructor).
  assert (B : (24 <= 2 ^ 29)%nat) by (apply Nat.le_trans with (2 ^ 5)%nat; [cbn; lia|apply Nat.pow_le_mono_r; lia]).
  split; [exact F|]. split; intros junk.
  - replace 3 with (INR 3) by (cbn; ring). apply (C83_integer_ratio true junk _ 8 3); [lia|lia|exact B|]. replace (INR 3) with 3 by (cbn; ring). exact F.
  - rewrite (C83_resampling true junk _ 8 4 (1 / 2)); [|lia|lia|lra|cbn; lra|].
    + f_equal. unfold real_signal. apply map_ext_in. intros t _. f_equal. cbn [filter freq fst snd].
      replace (2 * 1 <? 4)%nat with true by reflexivity. replace (2 * 3 <? 4)%nat with false by reflexivity.
      replace (INR 8 * (1 / 2) / INR 4) with 1 by (cbn; field). rewrite sqrt_1. ring.
    + constructor; [split; [cbn; lia|left; cbn; lia]|]. constructor; [split; [cbn; lia|right; cbn; lia]|]. constructor.
Qed.
(** Any real vector of even length, integer ratio: the original samples are found again (no delay). *)
Theorem C83_interpolates : forall reel junk n L (f : nat -> R), (0 < n)%nat -> Nat.even n = true -> (0 < L)%nat -> (n * L <= 2 ^ 29)%nat ->
  exists y, refreq reel junk (real_signal n f) (INR L) = Ok y /\ length y = (n * L)%nat /\ forall i, (i < n)%nat -> nth (L * i) y (0, 0) = (f i, 0).
Proof.
  intros reel junk n L f Hn He HL Hmax. destruct (Nat.eq_dec L 1) as [->|H1].
  - exists (real_signal n f). split; [apply refreq_1|]. split; [rewrite real_length; lia|]. intros i Hi. rewrite Nat.mul_1_l. apply (samp_real n f i Hi).
  - apply Nat.even_spec in He. destruct He as [h He]. subst n.
    assert (2 <= INR L) by (change 2 with (INR 2); apply le_INR; lia).
    pose proof (refreq_ok reel junk (real_signal (2 * h) f) (INR L)) as K. cbv zeta in K. rewrite real_length in K.
    rewrite <- mult_INR, roundZ_INR, Nat2Z.id in K.
    eexists. assert (E := K ltac:(nia) ltac:(nia) ltac:(lra) ltac:(lra) (fun _ => real_real _ _)). split; [exact E|].
    destruct (refreq_grid reel junk (real_signal (2 * h) f) h L _ (real_length _ _) ltac:(lia) ltac:(lia) ltac:(lia) (fun _ => real_real _ _) E) as [A B].
    split; [exact A|]. intros i Hi. rewrite (B i Hi). change (nth i (real_signal (2 * h) f) (0, 0)) with (samp (K := Complex) (real_signal (2 * h) f) i).
    rewrite (samp_real (2 * h) f i Hi). reflexivity.
Qed.
Print Assumptions C83_interpolates.
(** Ratio one: unchanged; empty complex vector: exception. *)
Theorem C83_unchanged : forall reel junk x, refreq reel junk x 1 = Ok x.
Proof. exact refreq_1. Qed.
Print Assumptions C83_unchanged.
Theorem C83_empty : forall junk lom, lom <> 1 -> refreq false junk [] lom = Exc.
Proof.
  intros junk lom H. unfold refreq. destruct (Req_EM_T lom 1); [lra|]. reflexivity.
Qed.
Print Assumptions C83_empty.
(** Finding: with an odd length, the highest frequency of the input, which is representable, loses half of its amplitude. *)
Theorem C83_odd_refuted : forall reel junk f L phi, (0 < f)%nat -> (2 <= L)%nat -> ((2 * f + 1) * L <= 2 ^ 29)%nat ->
  refreq reel junk (real_signal (2 * f + 1) (tones [(1, f, phi)] (2 * f + 1))) (INR L) =
  Ok (real_signal ((2 * f + 1) * L) (tones [(1 / 2, f, phi)] ((2 * f + 1) * L))).
Proof.
  intros reel junk f L phi Hf HL Hmax. set (n := (2 * f + 1)%nat) in *. assert (Pn : 0 < INR n) by (apply lt_0_INR; lia).
  assert (2 <= INR L) by (change 2 with (INR 2); apply le_INR; lia). assert (P : (n <= n * L)%nat) by nia.
  rewrite (refreq_tones reel junk _ n (n * L) (INR L)); [|nia|lra|lra|rewrite <- mult_INR, roundZ_INR, Nat2Z.id; reflexivity|nia|].
  2:{ constructor; [cbn; lia|constructor]. }
  f_equal. unfold real_signal. apply map_ext_in. intros t _. f_equal. rewrite mult_INR. replace (INR n * INR L / (INR n * INR L)) with 1 by (field; lra).
  rewrite sqrt_1. cbn [fold_right]. change (freq (1, f, phi)) with f.
  assert (B : bw n (n * L) = f). { unfold bw. rewrite Nat.min_l by exact P. unfold n. rewrite Nat.mul_comm, Nat.add_comm. rewrite Nat.div_add by lia. reflexivity. }
  unfold kept. rewrite B, Nat.ltb_irrefl, Nat.eqb_refl. destruct (Nat.ltb_spec 0 f); [|lia]. cbn [andb tones tone_at]. ring.
Qed.
Print Assumptions C83_odd_refuted.
(** Finding: a vector of one sample becomes null. *)
Theorem C83_single_refuted : forall reel junk a L, (2 <= L)%nat -> (L <= 2 ^ 29)%nat ->
  refreq reel junk [(a, 0)] (INR L) = Ok (repeat (0, 0) L).
Proof.
  intros reel junk a L HL Hmax. assert (2 <= INR L) by (change 2 with (INR 2); apply le_INR; lia).
  assert (ES : [(a, 0)] = real_signal 1 (tones [(a, 0%nat, 0)] 1)).
  { unfold real_signal. cbn [seq map tones tone_at]. replace (2 * PI * INR 0 * INR 0 / INR 1 + 0) with 0 by (cbn; field). rewrite cos_0. replace (a * 1 + 0) with a by ring. reflexivity. }
  etransitivity; [apply (f_equal (fun v => refreq reel junk v (INR L))); exact ES|].
  rewrite (refreq_tones reel junk _ 1 L (INR L)); [|split; [lia|apply Nat.le_trans with L; lia]|lra|lra|change (INR 1) with 1; rewrite Rmult_1_l, roundZ_INR, Nat2Z.id; reflexivity|lia|].
  2:{ constructor; [cbn; lia|constructor]. }
  f_equal. apply (list_ext ((0, 0) : C)); [rewrite real_length, repeat_length; reflexivity|]. intros i Hi. rewrite real_length in Hi.
  rewrite nth_repeat. unfold real_signal. rewrite (map_nth0 _ (seq 0 L) i 0%nat) by (rewrite seq_length; exact Hi). f_equal. cbn [fold_right].
  unfold kept. assert (B : bw 1 L = 0%nat) by (unfold bw; rewrite Nat.min_l by lia; reflexivity). rewrite B. cbn [freq fst snd Nat.ltb Nat.leb Nat.eqb andb]. ring.
Qed.
Print Assumptions C83_single_refuted.
(** Finding: the instance on complex vectors drops the imaginary part. *)
Theorem C83_complex_refuted : forall junk x h L y, length x = (2 * h)%nat -> (0 < h)%nat -> (2 <= L)%nat -> (2 * h * L <= 2 ^ 29)%nat ->
  refreq false junk x (INR L) = Ok y -> Forall (fun v => snd v = 0) y /\
  forall i, (i < 2 * h)%nat -> nth (L * i) y (0, 0) = (fst (nth i x (0, 0)), 0).
Proof.
  intros junk x h L y Lx Hh HL Hmax E. assert (2 <= INR L) by (change 2 with (INR 2); apply le_INR; lia). split.
  - apply (refreq_snd false junk x (INR L) y); [lra|exact E].
  - apply (refreq_grid false junk x h L y); try assumption. discriminate.
Qed.
Print Assumptions C83_complex_refuted.

(** ** czt.  The documentation announces X(z0 W^k) = sum_j x_j (z0 W^k)^j for k = 0 .. m-1. *)
(** Finding: a number of points different from the length of the vector always throws. *)
Theorem C83_czt_size_refuted : forall junk x m s z0, (0 < length x)%nat -> (0 < m)%nat -> (length x + 2 * m <= 2 ^ 29)%nat -> length x <> m ->
  czt junk x m s z0 = Exc.
Proof. exact czt_size. Qed.
Print Assumptions C83_czt_size_refuted.
(** Finding: at the point 1 (W = z0 = 1, where every value is the sum of the samples) the result is divided by sqrt(2n-1). *)
Theorem C83_czt_scale_refuted : forall junk x, (0 < length x)%nat -> (3 * length x <= 2 ^ 29)%nat ->
  czt junk x (length x) (1, 0) (1, 0) = Ok (repeat (Cdiv (ztransform x (1, 0)) (sqrt (INR (2 * length x - 1)), 0)) (length x)).
Proof.
  intros junk x Hn Hmax. set (n := length x) in *. pose proof (czt_sq junk x (1, 0) (1, 0) Hn Hmax) as K. cbv zeta in K. fold n in K. rewrite K. clear K.
  assert (Inv1 : Cinv (1, 0) = (1, 0)) by (apply C_ext; cbn; unfold Cnorm2; cbn; field).
  set (h0 := map (fun i : nat => Cinv (Cpw (1, 0) (i * i))) (seq 0 n)).
  assert (H0 : forall i, (i < n)%nat -> nth i h0 (0, 0) = (1, 0)).
  { intros i Hi. unfold h0. rewrite (map_nth0 _ (seq 0 n) i 0%nat) by (rewrite seq_length; exact Hi). rewrite Cpw_1. exact Inv1. }
  set (h := h0 ++ map (fun i : nat => nth (n - 1 - (i - n)) h0 (0, 0)) (seq n (n - 1))).
  assert (L0 : length h0 = n) by (unfold h0; rewrite map_length, seq_length; reflexivity).
  assert (H1 : forall i, (i < 2 * n - 1)%nat -> nth i h (0, 0) = (1, 0)).
  { intros i Hi. unfold h. destruct (Nat.lt_ge_cases i n) as [A|A]; [rewrite app_nth1 by lia; apply H0; exact A|].
    rewrite app_nth2 by lia. rewrite L0, (map_nth0 _ (seq n (n - 1)) (i - n) 0%nat) by (rewrite seq_length; lia). rewrite seq_nth by lia. apply H0. lia. }
  assert (Lh : length h = (2 * n - 1)%nat) by (unfold h; rewrite app_length, map_length, seq_length, L0; lia).
  set (g := map (fun i : nat => Cdiv (Cmul (nth i x (0, 0)) (Cinv (Cpw (1, 0) i))) (nth (n + i - 1) h (0, 0))) (seq 0 n)).
  assert (G : g = x).
  { apply (list_ext ((0, 0) : C)); [unfold g; rewrite map_length, seq_length; reflexivity|]. intros i Hi. unfold g in Hi |- *. rewrite map_length, seq_length in Hi.
    rewrite (map_nth0 _ (seq 0 n) i 0%nat) by (rewrite seq_length; exact Hi). rewrite seq_nth, Nat.add_0_l, Cpw_1, Inv1, H1 by lia.
    unfold Cdiv. rewrite Inv1. apply C_ext; cbn; ring. }
  rewrite G. clear G g. f_equal. set (hc := firstn n (skipn (n - 1) h) ++ firstn (n - 1) h). set (gc := x ++ repeat ((0, 0) : C) (n - 1)).
  assert (Lhc : length hc = (2 * n - 1)%nat) by (unfold hc; rewrite app_length, !firstn_length, skipn_length; lia).
  assert (HC : forall j, (j < 2 * n - 1)%nat -> samp (K := Complex) hc j = ((1, 0) : Complex)).
  { intros j Hj. unfold samp, hc. destruct (Nat.lt_ge_cases j n) as [A|A].
    - rewrite app_nth1 by (rewrite firstn_length, skipn_length; lia). rewrite Filters_Proofs.nth_firstn' by exact A. rewrite Filters_Proofs.nth_skipn'. apply H1. lia.
    - rewrite app_nth2 by (rewrite firstn_length, skipn_length; lia). rewrite firstn_length, skipn_length. rewrite Filters_Proofs.nth_firstn' by lia. apply H1. lia. }
  assert (CV : forall k, cconv (F := Complex) hc gc k = ztransform x (1, 0)).
  { intros k. unfold cconv. cbv zeta. change (@length (car (dfd Complex)) hc) with (@length C hc). rewrite Lhc.
    transitivity (sum (K := Complex) (2 * n - 1) (fun j => samp (K := Complex) gc ((k + (2 * n - 1) - j) mod (2 * n - 1)))).
    { apply sum_ext. intros j Hj. rewrite HC by exact Hj. apply C_ext; cbn; ring. }
    transitivity (sum (K := Complex) (2 * n - 1) (samp (K := Complex) gc)).
    { rewrite <- (sum_shift Complex (2 * n - 1) k (samp (K := Complex) gc)).
      rewrite <- (sum_neg Complex (2 * n - 1) (fun i => samp (K := Complex) gc ((i + k) mod (2 * n - 1)))).
      apply sum_ext. intros j Hj. f_equal. rewrite Nat.add_mod_idemp_l by lia. f_equal. lia. }
    replace (2 * n - 1)%nat with (n + (n - 1))%nat by lia. rewrite (sum_split Complex n (n - 1)).
    rewrite (sum_zero Complex (n - 1)).
    2:{ intros i Hi. unfold gc. change (samp (K := Complex) (x ++ repeat (0, 0) (n - 1)) (n + i) = (0, 0)). unfold samp. rewrite app_nth2 by (fold n; lia). apply nth_repeat. }
    unfold ztransform. fold n. transitivity (sum (K := Complex) n (samp (K := Complex) x)).
    { transitivity (cadd (c := Complex) (sum (K := Complex) n (samp (K := Complex) gc)) (0, 0)); [reflexivity|].
      transitivity (sum (K := Complex) n (samp (K := Complex) gc)); [apply C_ext; cbn; ring|]. apply sum_ext. intros i Hi. unfold gc, samp. apply app_nth1. exact Hi. }
    clear. assert (Z1 : forall q, zpow (1, 0) q = (1, 0)) by (induction q as [|q IH]; [reflexivity|]; cbn [zpow]; rewrite IH; apply C_ext; cbn; ring).
    induction n as [|q IH]; [reflexivity|]. cbn [sum Ctotal]. rewrite <- IH, Z1. change (samp (K := Complex) x q) with (smp x q).
    change (Cadd (sum (K := Complex) q (samp (K := Complex) x)) (smp x q) = Cadd (sum (K := Complex) q (samp (K := Complex) x)) (Cmul (smp x q) (1, 0))).
    f_equal. destruct (smp x q) as [u v]. apply C_ext; cbn; ring. }
  apply (list_ext ((0, 0) : C)); [rewrite map_length, seq_length, repeat_length; reflexivity|]. rewrite map_length, seq_length. intros k Hk.
  rewrite (map_nth0 _ (seq 0 n) k 0%nat) by (rewrite seq_length; exact Hk). rewrite seq_nth, Nat.add_0_l by exact Hk. rewrite CV, H1 by lia.
  set (v := Cdiv (ztransform x (1, 0)) (sqrt (INR (2 * n - 1)), 0)).
  assert (E : nth k (repeat v n) ((0, 0) : C) = v) by (rewrite (nth_indep _ _ v) by (rewrite repeat_length; exact Hk); apply nth_repeat).
  rewrite E. clearbody v.
  unfold Cdiv at 1. rewrite Inv1. apply C_ext; cbn; ring.
Qed.
Print Assumptions C83_czt_scale_refuted.
(** Finding: on two points (W = -1, z0 = 1, the transform of size 2 of [1; 1], which is [2; 0]) the values are wrong whatever the scale. *)
Theorem C83_czt_values_refuted : forall junk, let W := Cmul (0, 1) (0, 1) in
  W = (-1, 0) /\ ztransform [(1, 0); (1, 0)] (1, 0) = (2, 0) /\ ztransform [(1, 0); (1, 0)] W = (0, 0) /\
  exists r, czt junk [(1, 0); (1, 0)] 2 (0, 1) (1, 0) = Ok r /\ r = [(- 1 / sqrt 3, 1 / sqrt 3); (0, 2 / sqrt 3)].
Proof.
  intros junk W. split; [apply C_ext; cbn; ring|]. split; [apply C_ext; cbn; ring|]. split; [apply C_ext; cbn; ring|].
  eexists. split; [|reflexivity]. pose proof (czt_sq junk [(1, 0); (1, 0)] (0, 1) (1, 0)) as K. cbv zeta in K. cbn [length] in K.
  rewrite K; [|lia|apply Nat.le_trans with (2 ^ 3)%nat; [cbn; lia|apply Nat.pow_le_mono_r; lia]]. clear K. f_equal.
  assert (S : sqrt 3 <> 0) by (pose proof (sqrt_lt_R0 3 ltac:(lra)); lra).
  cbn [seq map Nat.sub app firstn skipn nth repeat Nat.mul Nat.add]. replace (INR 3) with 3 by (cbn; ring).
  unfold cconv. cbn [length app sum]. cbn [Nat.add Nat.sub]. change (3 mod 3)%nat with 0%nat. change (2 mod 3)%nat with 2%nat. change (1 mod 3)%nat with 1%nat. change (4 mod 3)%nat with 1%nat.
  unfold samp. cbn [nth Cpw]. unfold Cdiv.
  assert (P1 : Cmul (1, 0) (0, 1) = (0, 1)) by (apply C_ext; cbn; ring). assert (P2 : Cmul (1, 0) (1, 0) = (1, 0)) by (apply C_ext; cbn; ring).
  assert (I1 : Cinv (1, 0) = (1, 0)) by (apply C_ext; cbn; unfold Cnorm2; cbn; field).
  assert (I2 : Cinv (0, 1) = (0, -1)) by (apply C_ext; cbn; unfold Cnorm2; cbn; field).
  assert (I3 : Cinv (0, -1) = (0, 1)) by (apply C_ext; cbn; unfold Cnorm2; cbn; field).
  assert (I4 : Cinv (sqrt 3, 0) = (/ sqrt 3, 0)) by (apply C_ext; cbn; unfold Cnorm2; cbn; field; assumption).
  rewrite !P1, !I1, !P2, !I1, !I2, !I3, !I4. f_equal; [|f_equal]; apply C_ext; cbn; field; assumption.
Qed.
Print Assumptions C83_czt_values_refuted.
(** One sample, one point: correct. *)
Theorem C83_czt_one : forall junk a s z0, czt junk [a] 1 s z0 = Ok [ztransform [a] z0].
Proof.
  intros junk a s z0. pose proof (czt_sq junk [a] s z0) as K. cbv zeta in K. cbn [length] in K.
  rewrite K; [|lia|apply Nat.le_trans with (2 ^ 3)%nat; [cbn; lia|apply Nat.pow_le_mono_r; lia]]. clear K. f_equal.
  cbn [seq map Nat.sub app firstn skipn nth repeat Nat.mul Nat.add]. replace (INR 1) with 1 by reflexivity. rewrite sqrt_1.
  unfold cconv. cbn [length app sum]. cbn [Nat.add Nat.sub]. change (1 mod 1)%nat with 0%nat.
  unfold samp. cbn [nth Cpw]. unfold Cdiv.
  assert (I1 : Cinv (1, 0) = (1, 0)) by (apply C_ext; cbn; unfold Cnorm2; cbn; field).
  rewrite !I1. f_equal. destruct a as [u v]. apply C_ext; cbn; ring.
Qed.
Print Assumptions C83_czt_one.
