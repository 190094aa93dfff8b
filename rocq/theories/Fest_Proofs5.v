From Coq Require Import Reals ZArith Lra Lia Field Psatz R_Ifp.
From Verif Require Import Base BaseLemmas RField DftSys ComplexSys Rii_Model Biq_Proofs Biq_Props But_Proofs Special_Proofs Fourier_Model Fourier_Spec Fourier_Proofs2 Fourier_Props Fest_Model Fest_Spec Fest_Proofs Fest_Proofs2 Fest_Proofs3 Fest_Proofs4.
Local Open Scope R_scope.

(** the neighbours of the peak of a tone *)
Section Side.
  Context (f : R) (N k : nat) (u : R) (m : Z).
  Hypothesis HN : (3 <= N)%nat.
  Hypothesis Hk : (k < N)%nat.
  Hypothesis Hu : - (1 / 2) <= u <= 1 / 2.
  Hypothesis Ef : f = (INR k + u) / INR N + IZR m.
  Hypothesis GE : 2 - 2 * cos (2 * PI * (f * INR N)) > 0.
  Let P : 3 <= INR N. Proof. replace 3 with (INR 3) by (cbn; ring). apply le_INR. lia. Qed.
  Let gap (s : R) : R := 2 - 2 * cos (2 * PI * (s / INR N)).
  Lemma geo_k : gap u * binpow f N k = 2 - 2 * cos (2 * PI * (f * INR N)).
  Proof using HN Ef P.
    rewrite <- (binpow_geo f N k) by lia. f_equal. unfold gap. do 2 f_equal.
    pose proof (eit_shift (u / INR N) m) as E. replace (u / INR N + IZR m) with (f - INR k / INR N) in E by (rewrite Ef; field; lra). symmetry. exact (f_equal fst E).
  Qed.
  Lemma geo_1 : gap (u + 1) * binpow f N ((k + N - 1) mod N) = 2 - 2 * cos (2 * PI * (f * INR N)).
  Proof using HN Ef P.
    rewrite <- (binpow_geo f N ((k + N - 1) mod N)) by lia. f_equal. unfold gap. do 2 f_equal.
    pose proof (zeta_mod f N (k + N - 1) ltac:(lia)) as E. rewrite minus_INR, plus_INR in E by lia.
    replace (f - (INR k + INR N - INR 1) / INR N) with ((u + 1) / INR N + IZR (m - 1)) in E.
    2:{ rewrite Ef, minus_IZR. cbn. field. lra. }
    rewrite eit_shift in E. symmetry. exact (f_equal fst E).
  Qed.
  Lemma geo_3 : gap (u - 1) * binpow f N ((k + 1) mod N) = 2 - 2 * cos (2 * PI * (f * INR N)).
  Proof using HN Ef P.
    rewrite <- (binpow_geo f N ((k + 1) mod N)) by lia. f_equal. unfold gap. do 2 f_equal.
    pose proof (zeta_mod f N (k + 1) ltac:(lia)) as E. rewrite plus_INR in E by lia.
    replace (f - (INR k + INR 1) / INR N) with ((u - 1) / INR N + IZR m) in E.
    2:{ rewrite Ef. cbn. field. lra. }
    rewrite eit_shift in E. symmetry. exact (f_equal fst E).
  Qed.
  Lemma gap_even s : gap (- s) = gap s.
  Proof using P. unfold gap. do 2 f_equal. replace (2 * PI * (- s / INR N)) with (- (2 * PI * (s / INR N))) by (field; lra). apply cos_neg. Qed.
  Lemma ang s : 0 <= s <= 3 / 2 -> 0 <= 2 * PI * (s / INR N) <= PI.
  Proof using P.
    intros H. pose proof PI_RGT_0. assert (0 <= s / INR N <= 1 / 2).
    { split; [apply Rmult_le_pos; [lra|apply Rlt_le, Rinv_0_lt_compat; lra]|]. apply Rmult_le_reg_r with (INR N); [lra|]. unfold Rdiv. rewrite Rmult_assoc, Rinv_l by lra. lra. }
    split; nra.
  Qed.
  Lemma gap_lt s t : 0 <= s < t -> t <= 3 / 2 -> gap s < gap t.
  Proof using P.
    intros H1 H2. unfold gap. pose proof (ang s ltac:(lra)). pose proof (ang t ltac:(lra)).
    assert (cos (2 * PI * (t / INR N)) < cos (2 * PI * (s / INR N))); [|lra]. apply cos_decreasing_1; try lra.
    pose proof PI_RGT_0. apply Rmult_lt_compat_l; [lra|]. apply Rmult_lt_compat_r; [apply Rinv_0_lt_compat|]; lra.
  Qed.
  Lemma bp_lt a b g1 g2 c : 0 < c -> g1 < g2 -> 0 <= a -> 0 <= b -> g1 * a = c -> g2 * b = c -> 0 <= g1 -> b < a.
  Proof. intros. destruct (Rlt_dec b a); [assumption|]. exfalso. assert (0 < b). { destruct (Rlt_dec 0 b); [assumption|]. assert (b = 0) by lra. nra. } nra. Qed.
  Lemma gap_pos s : 0 <= gap s. Proof. unfold gap. pose proof (COS_bound (2 * PI * (s / INR N))). lra. Qed.
  Lemma bp_pos j : 0 <= binpow f N j. Proof. apply Cnorm2_nonneg. Qed.
  Lemma side_pos : 0 <= u -> binpow f N ((k + N - 1) mod N) <= binpow f N ((k + 1) mod N) /\ binpow f N ((k + N - 1) mod N) < binpow f N k.
  Proof using HN Hk Hu Ef GE P.
    intros U. pose proof geo_k as G2. pose proof geo_1 as G1. pose proof geo_3 as G3. rewrite <- (gap_even (u - 1)) in G3. split.
    - destruct (Req_dec u 0) as [E|E].
      + rewrite E in G1, G3. replace (- (0 - 1)) with (0 + 1) in G3 by ring. rewrite <- G1 in G3. rewrite <- G1 in GE. 
        pose proof (gap_pos (0 + 1)). apply Req_le. apply Rmult_eq_reg_l with (gap (0 + 1)); [lra|]. intros C. rewrite C in GE. lra.
      + apply Rlt_le. eapply (bp_lt _ _ (gap (- (u - 1))) (gap (u + 1)) _ GE); try apply bp_pos; try apply gap_pos; try assumption. apply gap_lt; lra.
    - eapply (bp_lt _ _ (gap u) (gap (u + 1)) _ GE); try apply bp_pos; try apply gap_pos; try assumption. apply gap_lt; lra.
  Qed.
  Lemma side_neg : u <= 0 -> binpow f N ((k + 1) mod N) <= binpow f N ((k + N - 1) mod N) /\ binpow f N ((k + 1) mod N) < binpow f N k.
  Proof using HN Hk Hu Ef GE P.
    intros U. pose proof geo_k as G2. pose proof geo_1 as G1. pose proof geo_3 as G3. rewrite <- (gap_even (u - 1)) in G3. rewrite <- (gap_even u) in G2. split.
    - destruct (Req_dec u 0) as [E|E].
      + rewrite E in G1, G3. replace (- (0 - 1)) with (0 + 1) in G3 by ring. rewrite <- G1 in G3. rewrite <- G1 in GE. 
        pose proof (gap_pos (0 + 1)). apply Req_le. apply Rmult_eq_reg_l with (gap (0 + 1)); [lra|]. intros C. rewrite C in GE. lra.
      + apply Rlt_le. eapply (bp_lt _ _ (gap (u + 1)) (gap (- (u - 1))) _ GE); try apply bp_pos; try apply gap_pos; try assumption. apply gap_lt; lra.
    - eapply (bp_lt _ _ (gap (- u)) (gap (- (u - 1))) _ GE); try apply bp_pos; try apply gap_pos; try assumption. apply gap_lt; lra.
  Qed.
End Side.

(** the neighbours, in every case *)
Lemma tone_sides junk A f N : (3 <= N <= 2 ^ 29)%nat -> A <> c0 -> exists X k u m, fft junk (tone A f N) = Ok X /\ List.length X = N /\
  index_max (vabs X) = Ok k /\ index_max (vabs2 X) = Ok k /\ (k < N)%nat /\
  f = (INR k + u) / INR N + IZR m /\ - (1 / 2) <= u <= 1 / 2 /\
  let y1 := Cnorm2 (samp X ((k + N - 1) mod N)) in let y2 := Cnorm2 (samp X k) in let y3 := Cnorm2 (samp X ((k + 1) mod N)) in
  0 <= y1 <= y2 /\ 0 <= y3 <= y2 /\ (0 <= u -> y1 <= y3 /\ y1 < y2) /\ (u <= 0 -> y3 <= y1 /\ y3 < y2) /\
  (u = 0 -> y2 = Cnorm2 A * INR N /\ forall j, (j < N)%nat -> j <> k -> Cnorm2 (samp X j) = 0).
Proof.
  intros HN HA. destruct (tone_peak junk A f N ltac:(lia) HA) as [X [k [u [m [E [L [K1 [K1' [K2 [H [M3 [Ef [Hu [H0 H1]]]]]]]]]]]]]].
  assert (P : 3 <= INR N) by (replace 3 with (INR 3) by (cbn; ring); apply le_INR; lia).
  exists X, k, u, m. do 7 (split; [assumption|]). cbv zeta.
  set (k1 := ((k + N - 1) mod N)%nat). set (k3 := ((k + 1) mod N)%nat).
  assert (B1 : (k1 < N)%nat) by (apply Nat.mod_upper_bound; lia). assert (B3 : (k3 < N)%nat) by (apply Nat.mod_upper_bound; lia).
  pose proof (bin_norm A f N ltac:(lia) X k1 (H k1 B1)) as Q1. pose proof (bin_norm A f N ltac:(lia) X k (H k K2)) as Q2. pose proof (bin_norm A f N ltac:(lia) X k3 (H k3 B3)) as Q3.
  pose proof (A_pos A HA) as AP. set (g := Cnorm2 A / INR N). assert (G : 0 < g) by (apply Rdiv_lt_0_compat; lra).
  assert (W : forall t, Cnorm2 A * t / INR N = g * t) by (intros t; unfold g; field; lra).
  rewrite W in Q1, Q2, Q3.
  assert (Z1 : 0 <= Cnorm2 (samp X k1)) by apply Cnorm2_nonneg. assert (Z3 : 0 <= Cnorm2 (samp X k3)) by apply Cnorm2_nonneg.
  pose proof (M3 k1 B1) as L1. pose proof (M3 k3 B3) as L3.
  assert (MON : forall a b, a <= b -> g * a <= g * b) by (intros; apply Rmult_le_compat_l; lra).
  assert (MONs : forall a b, a < b -> g * a < g * b) by (intros; apply Rmult_lt_compat_l; lra).
  rewrite Q1, Q2, Q3 in *. split; [split; [exact Z1|apply MON, L1]|]. split; [split; [exact Z3|apply MON, L3]|].
  destruct (Req_dec u 0) as [U|U].
  - destruct (H0 U) as [Z0 Zk]. rewrite (Z0 k1 B1 (prev_ne k N ltac:(lia) K2)), (Z0 k3 B3 (next_ne k N ltac:(lia) K2)), Zk.
    assert (0 < INR N * INR N) by nra.
    split; [intros _; split; [lra|apply MONs; lra]|]. split; [intros _; split; [lra|apply MONs; lra]|]. intros _. split; [unfold g; field; lra|].
    intros j Hj Nj. pose proof (bin_norm A f N ltac:(lia) X j (H j Hj)) as Qj. rewrite (Z0 j Hj Nj) in Qj. etransitivity; [exact Qj|]. field. lra.
  - destruct (H1 U) as [GE _]. split; [|split; [|intros; contradiction]].
    + intros Up. destruct (side_pos f N k u m ltac:(lia) K2 Hu Ef GE Up) as [S1 S2]. split; [apply MON, S1|apply MONs, S2].
    + intros Up. destruct (side_neg f N k u m ltac:(lia) K2 Hu Ef GE Up) as [S1 S2]. split; [apply MON, S1|apply MONs, S2].
Qed.

Lemma near_tone f N k u m p : (0 < N)%nat -> (k < N)%nat -> f = (INR k + u) / INR N + IZR m -> Rabs (p - u) <= 1 / 2 -> - (1 / 2) < (INR k + p) / INR N <= 1 ->
  let r := fold_half ((INR k + p) / INR N) in near r f (1 / (2 * INR N)) /\ - (1 / 2) < r <= 1 / 2.
Proof.
  intros HN Hk Ef Hp Hr r. destruct (fold_near _ Hr) as [B [z Ez]]. fold r in B, Ez. split; [|exact B].
  assert (P : 0 < INR N) by (apply lt_0_INR; lia).
  exists (z - m)%Z. replace (r - f - IZR (z - m)) with ((p - u) / INR N) by (rewrite Ez, Ef, minus_IZR; field; lra).
  unfold Rdiv at 1. rewrite Rabs_mult, (Rabs_right (/ INR N)) by (apply Rle_ge, Rlt_le, Rinv_0_lt_compat; exact P).
  replace (1 / (2 * INR N)) with (1 / 2 * / INR N) by (field; lra). apply Rmult_le_compat_r; [apply Rlt_le, Rinv_0_lt_compat; exact P|exact Hp].
Qed.
