From Coq Require Import List Arith ZArith Reals Lia Lra Field.
From Verif Require Import Base BaseLemmas DftSys ComplexSys Filters_Model Filters_Proofs Fourier_Model Fourier_Proofs Fourier_Proofs2 Fourier_Proofs3 Fourier_Spec
  Freq_Proofs2 Chn_Spec Chn_Proofs Fdt_Model Fdt_Spec Fdt_Proofs Fdt_Proofs2 Fdt_Proofs3 Fdt_Proofs4 Fdt_Proofs5.
Import ListNotations.
Local Open Scope R_scope.

(** ** Powers *)
Lemma dB_inv p : 0 < p -> Rpower 10 (dB p / 10) = p.
Proof.
  intros H. unfold dB, Rpower. replace (10 * (ln p / ln 10) / 10 * ln 10) with (ln p); [apply exp_ln; exact H|].
  assert (0 < ln 10) by (rewrite <- ln_1; apply ln_increasing; lra). field. lra.
Qed.
Lemma flt_min_pos : 0 < flt_min.
Proof. unfold flt_min. apply Rinv_0_lt_compat, pow_lt. lra. Qed.
Lemma periodogram_pos N x k : (0 < N)%nat -> 0 <= periodogram N x k.
Proof.
  intros HN. assert (0 < INR N) by (apply lt_0_INR; exact HN). unfold periodogram. apply Rmult_le_pos; [|left; apply Rinv_0_lt_compat; assumption].
  apply Rplus_le_le_0_compat; apply pow2_ge_0.
Qed.
Lemma total_add n f g : total n (fun k => f k + g k) = total n f + total n g.
Proof. induction n as [|n IH]; cbn [total]; [ring|]. rewrite IH. ring. Qed.
Lemma total_swap n m f : total n (fun i => total m (fun j => f i j)) = total m (fun j => total n (fun i => f i j)).
Proof. induction n as [|n IH]; cbn [total]; [rewrite total_const; ring|]. rewrite IH, <- total_add. reflexivity. Qed.
Lemma total_prod q N h : total q (fun i => total N (fun j => h (i * N + j)%nat)) = total (q * N) h.
Proof.
  assert (S : forall a b f, total (a + b) f = total a f + total b (fun j => f (a + j)%nat)).
  { intros a b f. induction b as [|b IH]; [rewrite Nat.add_0_r; cbn [total]; ring|]. rewrite Nat.add_succ_r. cbn [total]. rewrite IH. ring. }
  induction q as [|q IH]; [reflexivity|]. cbn [total]. rewrite IH. replace (Datatypes.S q * N)%nat with (q * N + N)%nat by lia. rewrite S. reflexivity.
Qed.
Lemma total_shift_mod N c (f : Z -> R) : (forall k, f (k + Z.of_nat N)%Z = f k) -> total N (fun k => f (Z.of_nat k - Z.of_nat c)%Z) = total N (fun k => f (Z.of_nat k)).
Proof.
  intros P. induction c as [|c IH]; [apply total_ext; intros; f_equal; lia|]. rewrite <- IH. destruct N as [|N]; [reflexivity|].
  assert (SL : forall n g, total (S n) g = g 0%nat + total n (fun k => g (S k))).
  { induction n as [|n IHn]; intros g; [cbn; ring|]. cbn [total] in *. rewrite IHn. ring. }
  rewrite SL. cbn [total]. rewrite Rplus_comm. f_equal; [apply total_ext; intros; f_equal; lia|]. rewrite <- P. f_equal. lia.
Qed.
Definition seqC (N : nat) (x : nat -> C) : list C := map x (seq 0 N).
Lemma seqC_length N x : length (seqC N x) = N.
Proof. unfold seqC. rewrite map_length, seq_length. reflexivity. Qed.
Lemma seqC_nth N x j : (j < N)%nat -> smp (seqC N x) j = x j.
Proof. intros H. unfold smp, seqC. rewrite (map_nth0 x (seq 0 N) j 0%nat) by (rewrite seq_length; exact H). rewrite seq_nth by exact H. reflexivity. Qed.
Lemma periodogram_dftZ N x k : (0 < N)%nat -> periodogram N x k = Cnorm2 (dftZ Complex 1 (seqC N x) k).
Proof.
  intros HN. rewrite norm2_dftZ by (rewrite seqC_length; exact HN). rewrite seqC_length. apply periodogram_ext. intros j Hj. rewrite seqC_nth by exact Hj. reflexivity.
Qed.
Lemma periodogram_period N x k : (0 < N)%nat -> periodogram N x (k + Z.of_nat N) = periodogram N x k.
Proof.
  intros HN. rewrite !periodogram_dftZ by exact HN. f_equal. apply (dftZ_mod Complex 1 _ _ _ 1).
  change (@length (car (dfd Complex)) (seqC N x)) with (length (seqC N x)). rewrite seqC_length. lia.
Qed.
Lemma parseval_total N x : (0 < N)%nat -> total N (fun k => periodogram N x (Z.of_nat k)) = total N (fun j => Cnorm2 (x j)).
Proof.
  intros HN. pose proof (parseval Complex (seqC N x)) as P. change (@length (car (dfd Complex)) (seqC N x)) with (length (seqC N x)) in P. rewrite seqC_length in P. specialize (P HN).
  apply (f_equal fst) in P. rewrite !fst_sum in P.
  assert (N2 : forall z : Complex, fst (cmul z (conj z)) = Cnorm2 z) by (intros [a b]; unfold Cnorm2; cbn; ring).
  rewrite (total_ext N (fun k => periodogram N x (Z.of_nat k)) (fun k => fst (cmul (samp (K := Complex) (DFT (F := Complex) 1 (seqC N x)) k) (conj (samp (K := Complex) (DFT (F := Complex) 1 (seqC N x)) k))))).
  - rewrite P. apply total_ext. intros j Hj. rewrite N2. f_equal. apply (seqC_nth N x j Hj).
  - intros k Hk. rewrite N2, periodogram_dftZ by exact HN. f_equal. symmetry. apply (samp_DFT Complex 1 _ k (Z.of_nat k) 0).
    + change (k < length (seqC N x))%nat. rewrite seqC_length. exact Hk.
    + lia.
Qed.
Lemma sub_power_total N f x i : (0 < N)%nat -> total N (sub_power N f x i) = total N (fun j => f j ^ 2 * Cnorm2 (smp x (i * N + j))).
Proof.
  intros HN. unfold sub_power. rewrite (total_shift_mod N (N / 2) (periodogram N (windowed f (fun j => smp x (i * N + j)%nat)))) by (intros k; apply periodogram_period; exact HN).
  rewrite parseval_total by exact HN. apply total_ext. intros j _. unfold windowed, Cnorm2. cbn [fst snd]. ring.
Qed.
Lemma unit_rect N j : (0 < N)%nat -> unit_window N (fun _ => 1) j = 1.
Proof.
  intros H. assert (0 < INR N) by (apply lt_0_INR; exact H). unfold unit_window. rewrite (total_ext N _ (fun _ => 1)) by (intros; ring). rewrite total_const, Rmult_1_r, Rmult_1_r.
  replace (INR N / INR N) with 1 by (field; lra). apply sqrt_1.
Qed.
Lemma unit_ext N w w' j : (j < N)%nat -> (forall i, (i < N)%nat -> w i = w' i) -> unit_window N w j = unit_window N w' j.
Proof. intros Hj H. unfold unit_window. rewrite (H j Hj). f_equal. f_equal. f_equal. apply total_ext. intros i Hi. rewrite (H i Hi). reflexivity. Qed.
Lemma sub_power_ext N f f' x i k : (forall j, (j < N)%nat -> f j = f' j) -> sub_power N f x i k = sub_power N f' x i k.
Proof. intros H. unfold sub_power. apply periodogram_ext. intros j Hj. unfold windowed. rewrite (H j Hj). reflexivity. Qed.

(** ** A pure tone *)
Lemma tone_periodogram N A f phi k : (0 < N)%nat ->
  periodogram N (fun j => (A * cos (2 * PI * IZR f * INR j / INR N + phi), A * sin (2 * PI * IZR f * INR j / INR N + phi))) k =
  if ((k - f) mod Z.of_nat N =? 0)%Z then A ^ 2 * INR N else 0.
Proof.
  intros HN. assert (P : 0 < INR N) by (apply lt_0_INR; exact HN). rewrite periodogram_dftZ by exact HN. set (x := fun j : nat => _).
  unfold dftZ. change (@length (car (dfd Complex)) (seqC N x)) with (length (seqC N x)). rewrite seqC_length.
  set (c := ((A * cos phi, A * sin phi) : Complex)).
  rewrite (sum_ext Complex N _ (fun j => cmul c (wz (F := Complex) N ((k - f) * Z.of_nat j)))).
  2:{ intros j Hj. change (samp (K := Complex) (seqC N x) j) with (smp (seqC N x) j). rewrite seqC_nth by exact Hj.
      replace ((k - f) * Z.of_nat j)%Z with (- (f * Z.of_nat j) + 1 * Z.of_nat j * k)%Z by ring. rewrite (wz_add Complex) by exact HN.
      assert (E : (x j : Complex) = cmul c (wz (F := Complex) N (- (f * Z.of_nat j)))).
      { rewrite wz_complex by exact HN. replace (2 * PI * IZR (- (f * Z.of_nat j)) / INR N) with (- (2 * PI * IZR f * INR j / INR N)) by (rewrite opp_IZR, mult_IZR, <- INR_IZR_INZ; field; lra).
        rewrite cos_neg, sin_neg. unfold x. rewrite cos_plus, sin_plus. apply C_ext; cbn; ring. }
      rewrite E. generalize (wz (F := Complex) N (- (f * Z.of_nat j))) (wz (F := Complex) N (1 * Z.of_nat j * k)). intros u v. apply C_ext; cbn; ring. }
  rewrite (sum_mul_l Complex N), (ortho Complex N (k - f) HN).
  change (rt (d := Complex) N) with ((sqrt (INR N), 0) : C). pose proof (sqrt_sqrt (INR N) ltac:(lra)) as Q. assert (Hs : sqrt (INR N) <> 0) by (pose proof (sqrt_lt_R0 _ P); lra).
  destruct (_ =? 0)%Z.
  - assert (EN : (cnat (K := Complex) N : C) = (INR N, 0)) by exact (cnat_C N). pose proof (sin2_cos2 phi) as SC. unfold Rsqr in SC. unfold c.
    change (Cnorm2 (Cdiv (Cmul (A * cos phi, A * sin phi) (cnat (K := Complex) N : C)) (sqrt (INR N), 0)) = A ^ 2 * INR N). etransitivity; [exact (f_equal (fun z : C => Cnorm2 (Cdiv (Cmul (A * cos phi, A * sin phi) z) (sqrt (INR N), 0))) EN)|].
    set (r := sqrt (INR N)) in *. clearbody r. rewrite <- Q. unfold Cdiv, Cinv, Cmul, Cnorm2. cbn [fst snd].
    transitivity (A * A * (sin phi * sin phi + cos phi * cos phi) * (r * r)); [field; exact Hs|]. rewrite SC. ring.
  - change (Cnorm2 (Cdiv (Cmul c (0, 0)) (sqrt (INR N), 0)) = 0). unfold Cdiv, Cinv, Cmul, Cnorm2. cbn [fst snd]. field. exact Hs.
Qed.
(** ** Cost of the block filter *)
Lemma np2_spec i : (0 < i)%nat -> exists k, np2 i = (2 ^ k)%nat /\ (i <= 2 ^ k)%nat /\ (k = 0%nat \/ (2 ^ (k - 1) < i)%nat) /\ k = Nat.log2_up i.
Proof.
  intros H. exists (Nat.log2_up i). unfold np2. split; [reflexivity|]. destruct (Nat.eq_dec i 1) as [->|H1].
  - split; [cbn; lia|]. split; [left; reflexivity|reflexivity].
  - destruct (Nat.log2_up_spec i) as [A B]; [lia|]. split; [exact B|]. split; [|reflexivity]. right. rewrite Nat.sub_1_r. exact A.
Qed.
Lemma ln_pow2 k : ln (INR (2 ^ k)) / ln 2 = INR k.
Proof.
  assert (0 < ln 2) by (rewrite <- ln_1; apply ln_increasing; lra). rewrite pow_INR. change (INR 2) with 2. rewrite ln_pow by lra. field. lra.
Qed.
Lemma ola_c_ok M Ne : (0 < M)%nat -> (0 < Ne)%nat -> let k := Nat.log2_up (Ne + M - 1) in
  ola_complexite M Ne = (fft_cost k Ne, (2 ^ k)%nat, (2 ^ k - Ne)%nat).
Proof.
  cbv zeta. intros HM HN. unfold ola_complexite, np2. f_equal. f_equal. unfold fft_cost. rewrite <- (ln_pow2 (Nat.log2_up (Ne + M - 1))).
  assert (0 < INR Ne) by (apply lt_0_INR; exact HN). assert (0 < ln 2) by (rewrite <- ln_1; apply ln_increasing; lra). field. split; lra.
Qed.
Definition cand (M k : nat) : R := fft_cost k (2 ^ k - (M - 1)).
Lemma pow2_M M k : (0 < M)%nat -> (Nat.log2_up M <= k)%nat -> (M <= 2 ^ k)%nat.
Proof.
  intros HM Hk. destruct (np2_spec M HM) as [k0 [_ [B [_ ->]]]]. apply Nat.le_trans with (1 := B). apply Nat.pow_le_mono_r; lia.
Qed.
Lemma ola_fold M : (0 < M)%nat -> let kmin := Nat.log2_up M in forall n o,
  exists k, (kmin <= k < kmin + S n)%nat /\
  fold_left (fun (o : R * nat * nat * nat) k =>
      let Ne := (2 ^ k - (M - 1))%nat in
      let '(c, Nf, _) := ola_complexite M Ne in
      if ((k =? kmin)%nat || (if Rlt_dec c (fst (fst (fst o))) then true else false))%bool
      then (c, Nf, (Nf - Ne)%nat, Ne) else o) (seq kmin (S n)) o = (cand M k, (2 ^ k)%nat, (M - 1)%nat, (2 ^ k - (M - 1))%nat) /\
  forall k', (kmin <= k' < kmin + S n)%nat -> cand M k <= cand M k'.
Proof.
  intros HM kmin n o.
  assert (C : forall k, (kmin <= k)%nat -> ola_complexite M (2 ^ k - (M - 1)) = (cand M k, (2 ^ k)%nat, (M - 1)%nat)).
  { intros k Hk. pose proof (pow2_M M k HM Hk) as B. rewrite ola_c_ok by lia. replace (2 ^ k - (M - 1) + M - 1)%nat with (2 ^ k)%nat by lia. rewrite Nat.log2_up_pow2 by lia.
    unfold cand. f_equal. lia. }
  assert (Z : forall k, (kmin <= k)%nat -> (2 ^ k - (2 ^ k - (M - 1)) = M - 1)%nat) by (intros k Hk; pose proof (pow2_M M k HM Hk); lia).
  induction n as [|n IH].
  - exists kmin. split; [lia|]. split; [|intros k' Hk'; replace k' with kmin by lia; lra]. cbn [seq fold_left]. cbv zeta. rewrite C by lia. rewrite Nat.eqb_refl. cbn [orb]. rewrite Z by lia. reflexivity.
  - destruct IH as [k [Hk [E Hm]]]. rewrite seq_S, fold_left_app, E. cbn [fold_left]. cbv zeta. rewrite C by lia.
    destruct (Nat.eqb_spec (kmin + S n) kmin) as [Q|_]; [lia|]. cbn [orb fst].
    destruct (Rlt_dec (cand M (kmin + S n)) (cand M k)) as [L|L].
    + exists (kmin + S n)%nat. split; [lia|]. split; [rewrite Z by lia; reflexivity|]. intros k' Hk'. destruct (Nat.eq_dec k' (kmin + S n)) as [->|Q]; [lra|]. specialize (Hm k' ltac:(lia)). lra.
    + exists k. split; [lia|]. split; [reflexivity|]. intros k' Hk'. destruct (Nat.eq_dec k' (kmin + S n)) as [->|Q]; [lra|]. apply Hm. lia.
Qed.
Lemma fft_cost_anti k a b : (0 < a <= b)%nat -> fft_cost k b <= fft_cost k a.
Proof.
  intros H. unfold fft_cost. apply Rmult_le_compat_l; [apply Rmult_le_pos; [apply Rmult_le_pos; [lra|apply pos_INR]|apply pos_INR]|].
  apply Rinv_le_contravar; [apply lt_0_INR; lia|apply le_INR; lia].
Qed.
Lemma fft_cost_lower k Ne : (0 < Ne <= 2 ^ k)%nat -> 10 * INR k <= fft_cost k Ne.
Proof.
  intros H. apply Rle_trans with (fft_cost k (2 ^ k)); [|apply fft_cost_anti; exact H]. unfold fft_cost. right. field. apply not_0_INR. lia.
Qed.
Lemma cand_upper M : (0 < M)%nat -> (Nat.log2_up M <= 10)%nat -> cand M (Nat.log2_up M + 5) <= 10 * INR (Nat.log2_up M + 20).
Proof.
  intros HM Hk. set (q := Nat.log2_up M) in *. pose proof (pow2_M M q HM ltac:(reflexivity)) as B. unfold cand, fft_cost.
  set (p := (2 ^ q)%nat) in *. assert (E : (2 ^ (q + 5) = 32 * p)%nat) by (rewrite Nat.pow_add_r; unfold p; change (2 ^ 5)%nat with 32%nat; lia). rewrite E.
  assert (Pp : (0 < p)%nat) by lia. assert (0 < INR p) by (apply lt_0_INR; exact Pp).
  apply Rle_trans with (10 * INR (32 * p) * INR (q + 5) / INR (31 * p)).
  - apply Rmult_le_compat_l; [apply Rmult_le_pos; [apply Rmult_le_pos; [lra|apply pos_INR]|apply pos_INR]|]. apply Rinv_le_contravar; [apply lt_0_INR; lia|apply le_INR; lia].
  - rewrite !mult_INR, !plus_INR. assert (INR q <= 10) by (replace 10 with (INR 10) by (cbn; ring); apply le_INR; exact Hk). pose proof (pos_INR q).
    replace (INR 32) with 32 by (cbn; ring). replace (INR 31) with 31 by (cbn; ring). replace (INR 5) with 5 by (cbn; ring). replace (INR 20) with 20 by (cbn; ring).
    replace (10 * (32 * INR p) * (INR q + 5) / (31 * INR p)) with (320 / 31 * (INR q + 5)) by (field; lra). lra.
Qed.
