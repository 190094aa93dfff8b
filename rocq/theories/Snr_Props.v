(** C73: SNR estimation. *)
From Coq Require Import Reals ZArith Lra Lia Psatz.
From Verif Require Import Base BaseLemmas RField DftSys ComplexSys Fest_Proofs3 Snr_Model Snr_Spec.
Local Open Scope R_scope.

Lemma add_up_ext n f g : (forall i, (i < n)%nat -> f i = g i) -> add_up n f = add_up n g.
Proof. induction n as [|n IH]; intros H; [reflexivity|]. cbn [add_up]. rewrite IH by (intros; apply H; lia). rewrite H by lia. reflexivity. Qed.
Lemma add_up_mul n c f : add_up n (fun i => c * f i) = c * add_up n f.
Proof. induction n as [|n IH]; cbn [add_up]; [ring|]. rewrite IH. ring. Qed.
(** before the first sample *)
Definition mom (g : R) (p : nat) (X : list Complex) (n : nat) : R := match n with O => 0 | S m => moment g p X m end.
Lemma mom_S g p X n : mom g p X (S n) = g * Cnorm2 (samp X n) ^ p + (1 - g) * mom g p X n.
Proof.
  destruct n as [|n]; [unfold mom, moment; cbn; ring|]. unfold mom, moment. set (f := fun j => g * (1 - g) ^ (S n - j) * Cnorm2 (samp X j) ^ p).
  change (add_up (S (S n)) f) with (add_up (S n) f + f (S n)). rewrite Rplus_comm. f_equal; [unfold f; rewrite Nat.sub_diag, pow_O; ring|].
  rewrite <- add_up_mul. apply add_up_ext. intros i Hi. unfold f. rewrite (Nat.sub_succ_l i n) by lia. cbn [pow]. ring.
Qed.
Definition out (g : R) (X : list Complex) (n : nat) : option R * option R :=
  let v := 2 * moment g 1 X n * moment g 1 X n - moment g 2 X n in
  if Rlt_dec v 0 then (None, None) else (Some (sqrt v), Some (moment g 1 X n - sqrt v)).
Lemma one_ok g X n : matz_one g (mom g 1 X n, mom g 2 X n) (samp X n) = Ok ((mom g 1 X (S n), mom g 2 X (S n)), out g X n).
Proof.
  unfold matz_one. rewrite !(mom_S _ _ _ n). replace (Cnorm2 (samp X n) ^ 1) with (Cnorm2 (samp X n)) by ring. replace (Cnorm2 (samp X n) ^ 2) with (Cnorm2 (samp X n) * Cnorm2 (samp X n)) by ring.
  set (e2 := g * _ + (1 - g) * mom g 1 X n). set (e4 := g * _ + (1 - g) * mom g 2 X n). do 2 f_equal. unfold out, fsqrt.
  assert (E2 : moment g 1 X n = e2) by (change (moment g 1 X n) with (mom g 1 X (S n)); rewrite mom_S; unfold e2; f_equal; ring).
  assert (E4 : moment g 2 X n = e4) by (change (moment g 2 X n) with (mom g 2 X (S n)); rewrite mom_S; unfold e4; f_equal; ring). rewrite E2, E4. destruct (Rlt_dec _ 0); reflexivity.
Qed.
Lemma steps_ok g X b : forall n, (forall i, (i < List.length b)%nat -> samp b i = samp X (n + i)) ->
  map_st (matz_one g) (mom g 1 X n, mom g 2 X n) b = Ok ((mom g 1 X (n + List.length b), mom g 2 X (n + List.length b)), map (out g X) (seq n (List.length b))).
Proof.
  induction b as [|v b IH]; intros n H; cbn [map_st List.length].
  - rewrite Nat.add_0_r. reflexivity.
  - assert (E : v = samp X n) by (specialize (H 0%nat (Nat.lt_0_succ _)); rewrite Nat.add_0_r in H; exact H). rewrite E, one_ok. cbn [bind].
    assert (H' : forall i, (i < List.length b)%nat -> samp b i = samp X (S n + i)). { intros i Hi. specialize (H (S i) (proj1 (Nat.succ_lt_mono _ _) Hi)). rewrite Nat.add_succ_r in H. exact H. }
    rewrite (IH (S n) H'). cbn [bind seq map]. rewrite Nat.add_succ_r. reflexivity.
Qed.

(** For every forgetting coefficient, signal and cutting into blocks: the n-th outputs are S = sqrt(2 M2^2 - M4) and N = M2 - S with the exponential moments M2, M4 of the samples received so far,
    or NaN when 2 M2^2 < M4. *)
Theorem C73_formula : forall (g : R) (blocks : list (list Complex)), let X := concat blocks in
  exists st y, run (matz_step g) matz_init blocks = Ok (st, y) /\ List.length y = List.length X /\
  forall n, (n < List.length X)%nat -> let M2 := moment g 1 X n in let M4 := moment g 2 X n in
    (2 * M2 * M2 < M4 -> nth n y (None, None) = (None, None)) /\
    (M4 <= 2 * M2 * M2 -> nth n y (None, None) = (Some (sqrt (2 * M2 * M2 - M4)), Some (M2 - sqrt (2 * M2 * M2 - M4)))).
Proof.
  intros g blocks X. pose proof (steps_ok g X X 0 (fun i _ => eq_refl)) as Q. eexists. eexists. split; [etransitivity; [apply (run_map_st (matz_one g))|exact Q]|].
  split; [rewrite map_length, seq_length; reflexivity|]. intros n Hn M2 M4. rewrite (Sig_Proofs.nth_map_seq (X := option R * option R)) by exact Hn. unfold out. fold M2 M4. cbn [Nat.add].
  split; intros H; destruct (Rlt_dec (2 * M2 * M2 - M4) 0); try reflexivity; lra.
Qed.
Print Assumptions C73_formula.

Lemma mom_bounds g X n : 0 < g <= 1 -> 0 <= mom g 1 X n /\ 0 <= mom g 2 X n /\ mom g 1 X n * mom g 1 X n <= (1 - (1 - g) ^ n) * mom g 2 X n.
Proof.
  intros Hg. induction n as [|n [A [B C]]]; [cbn [mom pow]; split; [lra|split; lra]|]. rewrite !mom_S. assert (P : 0 <= (1 - g) ^ n <= 1) by (split; [apply pow_le; lra|pose proof (pow_incr (1 - g) 1 n ltac:(lra)) as Q; rewrite pow1 in Q; exact Q]).
  replace (Cnorm2 (samp X n) ^ 1) with (Cnorm2 (samp X n)) by ring. replace (Cnorm2 (samp X n) ^ 2) with (Cnorm2 (samp X n) * Cnorm2 (samp X n)) by ring. cbn [pow]. pose proof (Cnorm2_nonneg (samp X n)) as NN.
  revert A B C NN P. set (a := mom g 1 X n). set (b := mom g 2 X n). set (v := Cnorm2 (samp X n)). set (q := (1 - g) ^ n). intros A B C NN P. split; [nra|]. split; [nra|].
  assert (CV : 2 * (a * v) <= b + (1 - q) * (v * v)).
  { destruct (Rlt_dec q 1) as [L|L].
    - assert (0 <= ((1 - q) * v - a) * ((1 - q) * v - a)) by apply Rle_0_sqr. assert (0 <= (1 - q) * (b + (1 - q) * (v * v) - 2 * (a * v))) by nra. nra.
    - assert (q = 1) by lra. assert (a * a <= 0) by nra. assert (a = 0) by nra. subst a. nra. }
  assert (0 <= g * (1 - g) * (b + (1 - q) * (v * v) - 2 * (a * v))) by (apply Rmult_le_pos; nra). assert (0 <= (1 - g) * (1 - g) * ((1 - q) * b - a * a)) by (apply Rmult_le_pos; nra). nra.
Qed.
(** The noise power is never negative, nor more than the total power. *)
Theorem C73_noise : forall (g : R) (X : list Complex) n, 0 < g <= 1 -> let M2 := moment g 1 X n in let M4 := moment g 2 X n in
  0 <= M2 /\ M2 * M2 <= (1 - (1 - g) ^ S n) * M4 /\ 0 <= sqrt (2 * M2 * M2 - M4) <= M2.
Proof.
  intros g X n Hg M2 M4. destruct (mom_bounds g X (S n) Hg) as [A [B C]]. fold M2 M4 in A, B, C. change (mom g 1 X (S n)) with M2 in *. change (mom g 2 X (S n)) with M4 in *. split; [exact A|]. split; [exact C|]. split; [apply sqrt_pos|].
  rewrite <- (sqrt_square M2) at 3 by exact A. apply sqrt_le_1_alt. assert (P : 0 <= (1 - g) ^ S n) by (apply pow_le; lra). nra.
Qed.
Print Assumptions C73_noise.

(** Constant modulus without noise: S tends to the power of the signal and N to zero, geometrically. *)
Lemma mom_const g P (X : list Complex) n : (forall j, (j < n)%nat -> Cnorm2 (samp X j) = P) -> mom g 1 X n = P * (1 - (1 - g) ^ n) /\ mom g 2 X n = P * P * (1 - (1 - g) ^ n).
Proof.
  induction n as [|n IH]; intros H; [cbn; split; ring|]. destruct IH as [A B]; [intros; apply H; lia|]. rewrite !mom_S, A, B, (H n) by lia. cbn [pow]. split; ring.
Qed.
Theorem C73_constant : forall (g P : R) (X : list Complex) n, 0 < g <= 1 -> 0 < P -> (forall j, (j <= n)%nat -> Cnorm2 (samp X j) = P) ->
  let M2 := moment g 1 X n in let M4 := moment g 2 X n in let q := (1 - g) ^ S n in
  (2 * M2 * M2 < M4 <-> 1 / 2 < q) /\
  (q <= 1 / 2 -> P * (1 - 3 * q) <= sqrt (2 * M2 * M2 - M4) <= P /\ 0 <= M2 - sqrt (2 * M2 * M2 - M4) <= 3 * P * q).
Proof.
  intros g P X n Hg HP H M2 M4 q. destruct (mom_const g P X (S n)) as [A B]; [intros; apply H; lia|]. change (mom g 1 X (S n)) with M2 in A. change (mom g 2 X (S n)) with M4 in B. fold q in A, B.
  assert (Q0 : 0 <= q) by (apply pow_le; lra). assert (Q1 : q < 1).
  { unfold q. cbn [pow]. pose proof (pow_incr (1 - g) 1 n ltac:(lra)) as Q. rewrite pow1 in Q. pose proof (pow_le (1 - g) n ltac:(lra)). nra. }
  assert (E : 2 * M2 * M2 - M4 = P * P * ((1 - q) * (1 - 2 * q))) by (rewrite A, B; ring). split.
  - assert (PP : 0 < P * P) by nra. split; intros L.
    + assert (N0 : P * P * ((1 - q) * (1 - 2 * q)) < 0) by lra. destruct (Rlt_dec (1 / 2) q); [assumption|]. exfalso. assert (0 <= (1 - q) * (1 - 2 * q)) by nra. nra.
    + assert ((1 - q) * (1 - 2 * q) < 0) by nra. nra.
  - intros L. rewrite E. set (v := (1 - q) * (1 - 2 * q)). assert (V : 0 <= v <= 1) by (unfold v; nra).
    rewrite sqrt_mult by nra. rewrite sqrt_square by lra. assert (S0 : v <= sqrt v).
    { rewrite <- (sqrt_square v) at 1 by lra. apply sqrt_le_1_alt. nra. }
    assert (S1 : sqrt v <= 1) by (rewrite <- sqrt_1; apply sqrt_le_1_alt; lra). assert (SQ : sqrt v * sqrt v = v) by (apply sqrt_sqrt; lra). pose proof (sqrt_pos v) as S3.
    assert (V2 : 1 - 3 * q <= v) by (unfold v; nra). assert (S4 : sqrt v <= 1 - q).
    { rewrite <- (sqrt_square (1 - q)) by lra. apply sqrt_le_1_alt. unfold v. nra. }
    rewrite A. repeat split; nra.
Qed.
Print Assumptions C73_constant.

(** Multiplying the signal by a complex constant multiplies both powers by its squared modulus: the ratio does not change. *)
Theorem C73_scale : forall (g : R) (z : Complex) (X : list Complex) n, 0 < g <= 1 ->
  let M2 := moment g 1 X n in let M4 := moment g 2 X n in let Y := map (fun x => (z * x)%K) X in
  moment g 1 Y n = Cnorm2 z * M2 /\ moment g 2 Y n = Cnorm2 z * Cnorm2 z * M4 /\
  (M4 <= 2 * M2 * M2 -> sqrt (2 * moment g 1 Y n * moment g 1 Y n - moment g 2 Y n) = Cnorm2 z * sqrt (2 * M2 * M2 - M4)).
Proof.
  intros g z X n Hg M2 M4 Y. assert (NM : forall j, Cnorm2 (samp Y j) = Cnorm2 z * Cnorm2 (samp X j)).
  { intros j. unfold Y, samp. destruct (Nat.lt_ge_cases j (List.length X)) as [L|L].
    - rewrite (nth_indep _ _ ((fun x => (z * x)%K) (c0 : Complex))) by (rewrite map_length; exact L). rewrite (map_nth (fun x : Complex => (z * x)%K)). generalize (nth j X (c0 : Complex)). destruct z as [z1 z2]. intros [a b]. unfold Cnorm2. cbn. ring.
    - rewrite !nth_overflow by (try rewrite map_length; exact L). unfold Cnorm2. cbn. ring. }
  assert (A : moment g 1 Y n = Cnorm2 z * M2). { unfold M2, moment. rewrite <- add_up_mul. apply add_up_ext. intros j Hj. rewrite NM. ring. }
  assert (B : moment g 2 Y n = Cnorm2 z * Cnorm2 z * M4). { unfold M4, moment. rewrite <- add_up_mul. apply add_up_ext. intros j Hj. rewrite NM. ring. }
  split; [exact A|]. split; [exact B|]. intros H. rewrite A, B. pose proof (Cnorm2_nonneg z) as NZ.
  replace (2 * (Cnorm2 z * M2) * (Cnorm2 z * M2) - Cnorm2 z * Cnorm2 z * M4) with (Cnorm2 z * Cnorm2 z * (2 * M2 * M2 - M4)) by ring.
  rewrite sqrt_mult by nra. rewrite sqrt_square by exact NZ. reflexivity.
Qed.
Print Assumptions C73_scale.

(** Finding: the estimator starts with NaN for every non-null signal as soon as the coefficient is less than 1/2; with the default 1/10, the first 6 outputs for a noiseless constant modulus signal. *)
Theorem C73_start_refuted : forall (g : R) (x : Complex) (X : list Complex), 0 < g < 1 / 2 -> x <> c0 ->
  exists st y, matz_step g matz_init (x :: X) = Ok (st, y) /\ nth 0 y (Some 0, Some 0) = (None, None).
Proof.
  intros g x X Hg Hx. destruct (C73_formula g [x :: X]) as [st [y [E [L F]]]]. cbn [run concat] in E, L, F. rewrite app_nil_r in *. cbn [bind] in E.
  destruct (matz_step g matz_init (x :: X)) as [[s1 y1]| | |]; cbn [bind] in E; try discriminate. rewrite app_nil_r in E. injection E as -> ->. exists st, y. split; [reflexivity|].
  specialize (F 0%nat (Nat.lt_0_succ _)). cbv zeta in F. destruct F as [F _]. rewrite (nth_indep y _ (None, None)) by (rewrite L; apply Nat.lt_0_succ). apply F.
  unfold moment. cbn [add_up Nat.sub pow samp nth]. assert (P : 0 < Cnorm2 x).
  { pose proof (Cnorm2_nonneg x). destruct (Req_dec (Cnorm2 x) 0) as [Z|Z]; [|lra]. exfalso. apply Hx. destruct x as [a b]. unfold Cnorm2 in Z. cbn in Z. apply C_ext; cbn; nra. }
  unfold samp. cbn [nth]. set (v := Cnorm2 x) in *. assert (0 < v * v) by nra. assert (0 < g * (1 - 2 * g) * (v * v)) by (apply Rmult_lt_0_compat; [nra|lra]). nra.
Qed.
Print Assumptions C73_start_refuted.
Example C73_default : forall P (X : list Complex), 0 < P -> (forall j, (j <= 5)%nat -> Cnorm2 (samp X j) = P) -> forall n, (n <= 5)%nat -> 2 * moment (1 / 10) 1 X n * moment (1 / 10) 1 X n < moment (1 / 10) 2 X n.
Proof.
  intros P X HP H n Hn. apply (C73_constant (1 / 10) P X n); [lra|exact HP|intros; apply H; lia|]. do 6 (destruct n as [|n]; [cbn; lra|]). lia.
Qed.
(** a case where the outputs are numbers: 7 samples of modulus 1 *)
Example C73_case : let X := repeat ((1, 0) : Complex) 7 in (1 - 1 / 10) ^ 7 <= 1 / 2 /\ forall j, (j <= 6)%nat -> Cnorm2 (samp X j) = 1.
Proof. split; [cbn; lra|]. intros j Hj. do 7 (destruct j as [|j]; [unfold Cnorm2; cbn; ring|]). lia. Qed.
