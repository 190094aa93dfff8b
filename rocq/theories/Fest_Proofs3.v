From Coq Require Import Reals ZArith Lra Lia Field Psatz R_Ifp.
From Verif Require Import Base BaseLemmas RField DftSys ComplexSys Rii_Model Biq_Proofs Biq_Props But_Proofs Special_Proofs Fourier_Model Fourier_Spec Fourier_Props Fest_Model Fest_Spec Fest_Proofs Fest_Proofs2.
Local Open Scope R_scope.

Lemma Cnorm2_nonneg (z : C) : 0 <= Cnorm2 z.
Proof. unfold Cnorm2. nra. Qed.
Lemma nth_vabs X j : (j < List.length X)%nat -> nth j (vabs X) 0 = sqrt (Cnorm2 (samp X j)).
Proof. intros H. unfold vabs. rewrite nth_indep with (d' := sqrt (Cnorm2 (c0 : Complex))) by (rewrite map_length; exact H). rewrite (map_nth (fun z => sqrt (Cnorm2 z))). reflexivity. Qed.
Lemma nth_vabs2 X j : (j < List.length X)%nat -> nth j (vabs2 X) 0 = Cnorm2 (samp X j).
Proof. intros H. unfold vabs2. rewrite nth_indep with (d' := Cnorm2 (c0 : Complex)) by (rewrite map_length; exact H). rewrite (map_nth (fun z => Cnorm2 z)). reflexivity. Qed.
Lemma vabs_length X : List.length (vabs X) = List.length X. Proof. apply map_length. Qed.
Lemma vabs2_length X : List.length (vabs2 X) = List.length X. Proof. apply map_length. Qed.
Lemma vget_nth {A} (l : list A) i d : (i < List.length l)%nat -> vget l i = Ok (nth i l d).
Proof. revert i. induction l as [|a l IH]; intros [|i] H; cbn in *; try lia; [reflexivity|]. apply IH. lia. Qed.

(** ** Folding the estimate into (-1/2, 1/2] *)
Definition fold_half (r : R) : R := if Rlt_dec (1 / 2) r then if Rle_dec r 1 then r - 1 else r else r.
Lemma fold_exact f r m : - (1 / 2) < f <= 1 / 2 -> - (1 / 2) < r <= 1 -> f = r + IZR m -> fold_half r = f.
Proof.
  intros Hf Hr E. unfold fold_half.
  assert (M : (m = 0 \/ m = -1)%Z).
  { assert (-2 < m < 1)%Z; [|lia]. split; apply lt_IZR; cbn; lra. }
  destruct (Rlt_dec (1 / 2) r) as [L|L]; [destruct (Rle_dec r 1); [|lra]|]; destruct M; subst m; cbn in E; lra.
Qed.
Lemma fold_near r : - (1 / 2) < r <= 1 -> - (1 / 2) < fold_half r <= 1 / 2 /\ exists m : Z, fold_half r = r + IZR m.
Proof.
  intros H. unfold fold_half. destruct (Rlt_dec (1 / 2) r); [destruct (Rle_dec r 1); [|lra]|]; (split; [lra|]).
  - exists (-1)%Z. cbn. ring.
  - exists 0%Z. cbn. ring.
Qed.

Section T.
  Context (junk A : Complex) (f : R) (N : nat).
  Hypothesis HN : (0 < N <= 2 ^ 29)%nat.
  Hypothesis HA : A <> c0.
  Let P : 0 < INR N. Proof. apply lt_0_INR. lia. Qed.
  Lemma A_pos : 0 < Cnorm2 A.
  Proof using HA. pose proof (Cnorm2_nonneg A). pose proof (Cnorm2_ne A HA). lra. Qed.
  Lemma bin_norm (X : list Complex) k : (samp X k * re (sqrt (INR N)) = A * sum N (cpow (zeta f N k)))%K -> Cnorm2 (samp X k) = Cnorm2 A * binpow f N k / INR N.
  Proof using HN.
    intros E. apply (f_equal Cnorm2) in E. rewrite !Cnorm2_mul in E. fold (binpow f N k) in E.
    replace (Cnorm2 (re (sqrt (INR N)))) with (INR N) in E by (unfold Cnorm2, re; cbn; rewrite sqrt_sqrt by lra; ring).
    rewrite <- E. field. lra.
  Qed.
  (** what every estimator starts from *)
  Lemma tone_peak : exists X k u m, fft junk (tone A f N) = Ok X /\ List.length X = N /\
    index_max (vabs X) = Ok k /\ index_max (vabs2 X) = Ok k /\ (k < N)%nat /\
    (forall j, (j < N)%nat -> (samp X j * re (sqrt (INR N)) = A * sum N (cpow (zeta f N j)))%K) /\
    (forall j, (j < N)%nat -> binpow f N j <= binpow f N k) /\
    f = (INR k + u) / INR N + IZR m /\ - (1 / 2) <= u <= 1 / 2 /\
    (u = 0 -> (forall j, (j < N)%nat -> j <> k -> binpow f N j = 0) /\ binpow f N k = INR N * INR N) /\
    (u <> 0 -> 2 - 2 * cos (2 * PI * (f * INR N)) > 0 /\ forall j, (j < N)%nat -> zeta f N j <> c1).
  Proof using HN HA P.
    destruct (tone_bin junk A f N HN) as [X [E [L H]]].
    assert (NE : vabs2 X <> []) by (intros C; apply (f_equal (@List.length R)) in C; rewrite vabs2_length, L in C; cbn in C; lia).
    destruct (index_max_ok (vabs2 X) NE) as [k [K1 [K2 K3]]]. rewrite vabs2_length, L in K2.
    assert (M2 : forall j, (j < N)%nat -> Cnorm2 (samp X j) <= Cnorm2 (samp X k)).
    { intros j Hj. specialize (K3 j). rewrite vabs2_length, L in K3. specialize (K3 Hj). rewrite !nth_vabs2 in K3 by lia. exact K3. }
    assert (K1' : index_max (vabs X) = Ok k).
    { clear - K1 . unfold vabs2, vabs in *. destruct X as [|a t]; [discriminate|]. cbn [map index_max] in *.
      assert (G : forall t i b v, imax_from (map (fun z => sqrt (Cnorm2 z)) t) i b (sqrt (Cnorm2 v)) = imax_from (map (fun z => Cnorm2 z) t) i b (Cnorm2 v)).
      { clear. induction t as [|c t IH]; intros i b v; cbn; [reflexivity|].
        assert (Q : sqrt (Cnorm2 v) < sqrt (Cnorm2 c) <-> Cnorm2 v < Cnorm2 c).
        { split; [apply sqrt_lt_0_alt|]. apply sqrt_lt_1; apply Cnorm2_nonneg. }
        destruct (Rlt_dec (sqrt (Cnorm2 v)) (sqrt (Cnorm2 c))) as [l|l]; destruct (Rlt_dec (Cnorm2 v) (Cnorm2 c)) as [l'|l']; try tauto; apply IH. }
      rewrite G. exact K1. }
    assert (M3 : forall j, (j < N)%nat -> binpow f N j <= binpow f N k).
    { intros j Hj. specialize (M2 j Hj). pose proof (bin_norm X j (H j Hj)) as Q1. pose proof (bin_norm X k (H k K2)) as Q2. change (Cnorm2 (samp X j) <= Cnorm2 (samp X k)) in M2. rewrite Q1, Q2 in M2. pose proof A_pos as AP.
      apply Rmult_le_reg_l with (Cnorm2 A / INR N); [apply Rdiv_lt_0_compat; assumption|]. unfold Rdiv in *.
      replace (Cnorm2 A * / INR N * binpow f N j) with (Cnorm2 A * binpow f N j * / INR N) by ring.
      replace (Cnorm2 A * / INR N * binpow f N k) with (Cnorm2 A * binpow f N k * / INR N) by ring. exact M2. }
    destruct (peak_near f N k ltac:(lia) K2 M3) as [u [m [Ef [Hu [H0 H1]]]]].
    exists X, k, u, m. repeat (split; [assumption|]). assumption.
  Qed.
End T.

(** ** The ratio of Candan *)
Section Cand.
  Add Field Cf : (fth Cfield).
  Lemma cand_alg (c z w v : Cfield) : (w * v = 1)%K -> z <> c1 -> (z * w)%K <> c1 -> (z * v)%K <> c1 ->
    let X2 := (c / (z - 1))%K in let X1 := (c / (z * w - 1))%K in let X3 := (c / (z * v - 1))%K in
    ((X1 - X3) * ((z - 1) * (z * w - 1) * (z * v - 1)) = c * z * (v - w) * (z - 1))%K /\
    (((1 + 1) * X2 - X3 - X1) * ((z - 1) * (z * w - 1) * (z * v - 1)) = c * z * (z + 1) * (1 + 1 - w - v))%K.
  Proof.
    intros E N1 N2 N3 X2 X1 X3.
    assert (D1 : (z - 1 <> 0)%K) by (apply (sub_ne Complex); exact N1).
    assert (D2 : (z * w - 1 <> 0)%K) by (apply (sub_ne Complex); exact N2).
    assert (D3 : (z * v - 1 <> 0)%K) by (apply (sub_ne Complex); exact N3).
    split.
    - unfold X1, X3. transitivity (c * (z * (v - w)) * (z - 1))%K; [field; split; assumption|ring].
    - unfold X1, X2, X3. transitivity (c * ((1 + 1) * ((w * v) * z * z - z * (w + v) + 1) - (z - 1) * (z * (w + v) - (1 + 1))))%K; [field; repeat split; assumption|].
      rewrite E. ring.
  Qed.
End Cand.
Lemma cand_trig a b : cos a <> 0 -> sin b <> 0 ->
  ((eit (- (2 * b)) - eit (2 * b)) * (eit (2 * a) - 1) = re (tan a * cos b / sin b) * ((eit (2 * a) + 1) * (re 2 - eit (2 * b) - eit (- (2 * b)))))%K.
Proof.
  intros Ha Hb. unfold tan. apply C_ext; cbn; rewrite ?cos_neg, ?sin_neg, (cos_2a_sin b), (sin_2a b), (sin_2a a).
  - rewrite (cos_2a_cos a). field. split; assumption.
  - rewrite (cos_2a_sin a). field. split; assumption.
Qed.
