(** Partial sums of sampled pulses are nonnegative (Fejer-Jackson and integration by parts). *)
From Coq Require Import Reals Lra Lia ZArith.
From Coquelicot Require Import Coquelicot.
From Verif Require Import Base BaseLemmas RField Vec_Model Vec_Proofs Sig_Proofs Special_Model Special_Proofs Design_Proofs2 Win_Model Win_Spec Win_Proofs Win_Proofs2 Rif_Model Rif_Spec Rif_Proofs Rif_Proofs2 Rcs_Spec Rcs_Proofs.
Local Open Scope R_scope.

Lemma rsum0 (f : nat -> R) : rsum 0 f = 0.
Proof. reflexivity. Qed.
Lemma int_rsum (S : R -> R) (c : nat -> R -> R) (v : nat -> R) x y M : (forall k, (k < M)%nat -> is_RInt (fun f => S f * c k f) x y (v k)) ->
  is_RInt (fun f => S f * rsum M (fun k => c k f)) x y (rsum M v).
Proof.
  induction M as [|M IH]; intros H.
  - rewrite rsum0. apply (is_RInt_ext (fun _ => 0)); [intros u _; rewrite rsum0; symmetry; apply Rmult_0_r|]. pose proof (int_const 0 x y) as I0. rewrite Rmult_0_l in I0. exact I0.
  - rewrite rsum_S. apply (is_RInt_ext (fun f => S f * rsum M (fun k => c k f) + S f * c M f)); [intros u _; rewrite rsum_S; symmetry; apply Rmult_plus_distr_l|]. apply sum_int; [apply IH; intros; apply H; lia|apply H; lia].
Qed.
(** primitive of the sum of cosines *)
Definition Q (th : R) (M : nat) (f : R) : R := FJ M (2 * PI * th * f) / (2 * PI * th).
Definition qc (th : R) (M : nat) (f : R) : R := rsum M (fun k => cos (2 * PI * ((INR k + 1) * th) * f)).
Lemma Q_derive th M f : 0 < th -> is_derive (Q th M) f (qc th M f).
Proof.
  intros Ht. pose proof PI_RGT_0. unfold Q, qc. set (c := 2 * PI * th). assert (Hc : 0 < c) by (unfold c; nra).
  replace (rsum M (fun k => cos (2 * PI * ((INR k + 1) * th) * f))) with (scal (/ c) (scal c (rsum M (fun k => cos ((INR k + 1) * (c * f)))))).
  - apply (is_derive_ext (fun u => scal (/ c) (FJ M (c * u)))). { intros u. unfold scal. cbn. unfold mult. cbn. unfold Rdiv. apply Rmult_comm. }
    apply @is_derive_scal. apply (is_derive_comp (FJ M) (fun u => c * u)); [apply FJ_derive|]. auto_derive; [trivial|]. ring.
  - unfold scal. cbn. unfold mult. cbn. rewrite <- Rmult_assoc, Rinv_l, Rmult_1_l by lra. apply rsum_ext. intros k _. f_equal. unfold c. ring.
Qed.
Lemma Q_pos th M f : 0 < th -> 0 <= f -> 2 * th * f <= 1 -> 0 <= Q th M f.
Proof.
  intros Ht Hf H. pose proof PI_RGT_0. unfold Q. apply Rdiv_le_0_compat; [|nra]. apply FJ_pos. split; [apply Rmult_le_pos; nra|]. replace (2 * PI * th * f) with (PI * (2 * th * f)) by ring. rewrite <- (Rmult_1_r PI) at 2. apply Rmult_le_compat_l; lra.
Qed.
Lemma Q_0 th M : Q th M 0 = 0.
Proof. unfold Q. rewrite Rmult_0_r, FJ_0. unfold Rdiv. apply Rmult_0_l. Qed.
Lemma qc_cont th M u : continuous (qc th M) u.
Proof.
  apply @ex_derive_continuous. unfold qc. induction M as [|M IH].
  - apply (ex_derive_ext (fun _ => 0)); [intros; reflexivity|]. apply @ex_derive_const.
  - apply (ex_derive_ext (fun f => plus (rsum M (fun k => cos (2 * PI * ((INR k + 1) * th) * f))) (cos (2 * PI * ((INR M + 1) * th) * f)))); [intros; rewrite rsum_S; reflexivity|]. apply @ex_derive_plus; [exact IH|]. auto_derive. exact I.
Qed.
Lemma Q_int th M x y : 0 < th -> is_RInt (qc th M) x y (Q th M y - Q th M x).
Proof. intros H. apply (is_RInt_derive (Q th M)); [intros; apply Q_derive; exact H|]. intros; apply qc_cont. Qed.
Lemma partial_pos (S A A' : R -> R) a b th M (v : nat -> R) : 0 <= a <= b -> b <= 1 -> 0 < th -> 2 * th * b <= 1 ->
  (forall f, 0 < f < a -> S f = 1) -> (forall f, a < f < b -> S f = A f) -> (forall f, b < f < 1 -> S f = 0) ->
  (forall u, is_derive A u (A' u)) -> (forall u, ex_derive A' u) -> (forall u, a < u < b -> A' u <= 0) -> A a = 1 -> A b = 0 ->
  (forall k, (k < M)%nat -> is_RInt (fun f => S f * cos (2 * PI * ((INR k + 1) * th) * f)) 0 1 (v k)) -> 0 <= rsum M v.
Proof.
  intros Hab Hb Ht Hth S1 S2 S3 DA CA NA Aa Ab Hv.
  assert (I0 : is_RInt (fun f => S f * qc th M f) 0 1 (rsum M v)) by (apply (int_rsum S (fun k f => cos (2 * PI * ((INR k + 1) * th) * f))); exact Hv).
  assert (EJ : ex_RInt (fun f => A' f * Q th M f) a b).
  { apply @ex_RInt_continuous. intros u _. apply @ex_derive_continuous. apply (ex_derive_mult A' (Q th M)); [apply CA|]. exists (qc th M u). apply Q_derive. exact Ht. }
  destruct EJ as [J HJ].
  assert (JN : J <= 0).
  { assert (G : is_RInt (fun f => - (A' f * Q th M f)) a b (- J)) by exact (@is_RInt_opp R_NormedModule _ a b J HJ). assert (0 <= - J); [|lra]. apply (is_RInt_ge_0 (fun f => - (A' f * Q th M f)) a b); [lra|exact G|].
    intros u Hu. assert (0 <= Q th M u). { apply Q_pos; [exact Ht|lra|]. apply (Rle_trans _ (2 * th * b)); [|exact Hth]. apply Rmult_le_compat_l; lra. } specialize (NA u Hu). nra. }
  assert (I2 : is_RInt (fun f => A f * qc th M f) a b (A b * Q th M b - A a * Q th M a - J)).
  { assert (P : is_RInt (fun f => A' f * Q th M f + A f * qc th M f) a b (A b * Q th M b - A a * Q th M a)).
    { apply (is_RInt_derive (fun f => A f * Q th M f)).
      - intros u _. apply (is_derive_mult A (Q th M) u (A' u) (qc th M u)); [apply DA|apply Q_derive; exact Ht|]. intros; apply Rmult_comm.
      - intros u _. apply (@continuous_plus R_UniformSpace R_AbsRing R_NormedModule (fun f => A' f * Q th M f) (fun f => A f * qc th M f)).
        + apply @ex_derive_continuous. apply (ex_derive_mult A' (Q th M)); [apply CA|]. exists (qc th M u). apply Q_derive. exact Ht.
        + apply (continuous_mult A (qc th M)); [apply @ex_derive_continuous; exists (A' u); apply DA|apply qc_cont]. }
    apply (is_RInt_ext (fun f => (A' f * Q th M f + A f * qc th M f) - A' f * Q th M f)); [intros u _; match goal with |- @eq _ ?x ?y => change (@eq R x y) end; ring|].
    exact (@is_RInt_minus R_NormedModule _ _ a b _ J P HJ). }
  pose proof (Q_int th M 0 a Ht) as I1. rewrite Q_0 in I1. pose proof (pieces S A (qc th M) a b _ _ Hab Hb S1 S2 S3 I1 I2) as I3.
  assert (E : rsum M v = Q th M a - 0 + (A b * Q th M b - A a * Q th M a - J)) by (rewrite <- (is_RInt_unique _ _ _ _ I0); apply is_RInt_unique; exact I3). rewrite E, Aa, Ab. lra.
Qed.
Lemma aab beta : bb beta - aa beta = beta.
Proof. unfold aa, bb. field. Qed.
Lemma band_arg beta c u : 0 < beta <= 1 -> 0 < c -> aa beta < u < bb beta -> 0 < c / beta * (u - aa beta) < c.
Proof.
  intros Hb Hc Hu. assert (P : 0 < c / beta) by (apply Rdiv_lt_0_compat; lra). split; [apply Rmult_lt_0_compat; lra|]. replace c with (c / beta * beta) at 2 by (field; lra). apply Rmult_lt_compat_l; [exact P|]. pose proof (aab beta). lra.
Qed.
Lemma cs_partial beta th M : 0 <= beta <= 1 -> / 10 ^ 7 <= th -> th * (1 + beta) <= 1 -> (0 < beta -> forall k, (k < M)%nat -> away (1 / (2 * beta)) ((INR k + 1) * th)) ->
  0 <= rsum M (fun k => cs ((INR k + 1) * th) beta).
Proof.
  intros Hb He Hth Ha. pose proof eps_pos as EP. pose proof PI_RGT_0 as PP. pose proof PI2_3_2 as P3. unfold PI2 in P3. set (v := fun k => cs ((INR k + 1) * th) beta / 2).
  assert (Hk : forall k, 0 <= (INR k + 1) * th /\ / 10 ^ 7 <= PI * ((INR k + 1) * th)). { intros k. pose proof (pos_INR k). split; [apply Rmult_le_pos; lra|]. apply (Rle_trans _ (1 * (1 * th))); [lra|]. apply Rmult_le_compat; nra. }
  assert (V : 0 <= rsum M v).
  { destruct (Req_dec beta 0) as [-> |N].
    - assert (I0 : is_RInt (fun f => rc_spectrum 0 f * qc th M f) 0 1 (rsum M v)).
      { apply (int_rsum (rc_spectrum 0) (fun k f => cos (2 * PI * ((INR k + 1) * th) * f))). intros k _. destruct (Hk k) as [A B]. apply zero_half; [exact A|right; exact B]. }
      assert (I1 : is_RInt (fun f => rc_spectrum 0 f * qc th M f) 0 1 (Q th M (/ 2) - Q th M 0 + 0)).
      { apply (pieces (rc_spectrum 0) (fun _ => 0) _ (/ 2) (/ 2)); [lra|lra|intros f Hf; apply rc_1; lra|intros f Hf; lra|intros f Hf; apply rc_3; lra|apply Q_int; lra|exact (@is_RInt_point R_NormedModule (fun f => 0 * qc th M f) (/ 2))]. }
      assert (E : rsum M v = Q th M (/ 2) - Q th M 0 + 0) by (rewrite <- (is_RInt_unique _ _ _ _ I0); apply is_RInt_unique; exact I1). rewrite E, Q_0. assert (0 <= Q th M (/ 2)) by (apply Q_pos; lra). lra.
    - assert (P : 0 < beta) by lra. assert (Hpb : 0 < PI / beta) by (apply Rdiv_lt_0_compat; lra).
      apply (partial_pos (rc_spectrum beta) (Arc beta) (fun f => - (PI / beta) * sin (PI / beta * (f - aa beta)) / 2) (aa beta) (bb beta) th M v); try (unfold aa, bb; lra).
      + intros f Hf. apply rc_1. exact Hf.
      + intros f Hf. apply rc_2; unfold aa, bb in *; lra.
      + intros f Hf. apply rc_3; unfold bb in *; lra.
      + intros u. unfold Arc. fold (aa beta). auto_derive; [trivial|]. unfold Rminus. field. lra.
      + intros u. auto_derive. exact I.
      + intros u Hu. pose proof (band_arg beta PI u ltac:(lra) PP Hu) as B. assert (0 < sin (PI / beta * (u - aa beta))) by (apply sin_gt_0; lra). nra.
      + unfold Arc. fold (aa beta). rewrite Rminus_eq_0, Rmult_0_r, cos_0. field.
      + unfold Arc. fold (aa beta). rewrite aab. replace (PI / beta * beta) with PI by (field; lra). rewrite cos_PI. field.
      + intros k Hk'. destruct (Hk k) as [A B]. apply cs_half; [lra|exact A|right; exact B|apply Ha; [exact P|exact Hk']]. }
  replace (rsum M (fun k => cs ((INR k + 1) * th) beta)) with (2 * rsum M v); [lra|]. rewrite <- rsum_mul. apply rsum_ext. intros k _. unfold v. match goal with |- @eq _ ?x ?y => change (@eq R x y) end. field.
Qed.
Lemma rcs_partial beta th M : 0 <= beta <= 1 -> / 10 ^ 7 <= th -> th * (1 + beta) <= 1 -> (0 < beta -> forall k, (k < M)%nat -> away (1 / (4 * beta)) ((INR k + 1) * th)) ->
  0 <= rsum M (fun k => rcs ((INR k + 1) * th) beta).
Proof.
  intros Hb He Hth Ha. pose proof eps_pos as EP. pose proof PI_RGT_0 as PP. pose proof PI2_3_2 as P3. unfold PI2 in P3. set (v := fun k => rcs ((INR k + 1) * th) beta / 2).
  assert (Hk : forall k, 0 <= (INR k + 1) * th /\ / 10 ^ 7 <= PI * ((INR k + 1) * th)). { intros k. pose proof (pos_INR k). split; [apply Rmult_le_pos; lra|]. apply (Rle_trans _ (1 * (1 * th))); [lra|]. apply Rmult_le_compat; nra. }
  assert (V : 0 <= rsum M v).
  { destruct (Req_dec beta 0) as [-> |N].
    - assert (I0 : is_RInt (fun f => sqrt (rc_spectrum 0 f) * qc th M f) 0 1 (rsum M v)).
      { apply (int_rsum (fun f => sqrt (rc_spectrum 0 f)) (fun k f => cos (2 * PI * ((INR k + 1) * th) * f))). intros k _. destruct (Hk k) as [A B]. apply zero_half; [exact A|right; exact B]. }
      assert (I1 : is_RInt (fun f => sqrt (rc_spectrum 0 f) * qc th M f) 0 1 (Q th M (/ 2) - Q th M 0 + 0)).
      { apply (pieces (fun f => sqrt (rc_spectrum 0 f)) (fun _ => 0) _ (/ 2) (/ 2)); [lra|lra|intros f Hf; rewrite rc_1 by lra; apply sqrt_1|intros f Hf; lra|intros f Hf; rewrite rc_3 by lra; apply sqrt_0|apply Q_int; lra|exact (@is_RInt_point R_NormedModule (fun f => 0 * qc th M f) (/ 2))]. }
      assert (E : rsum M v = Q th M (/ 2) - Q th M 0 + 0) by (rewrite <- (is_RInt_unique _ _ _ _ I0); apply is_RInt_unique; exact I1). rewrite E, Q_0. assert (0 <= Q th M (/ 2)) by (apply Q_pos; lra). lra.
    - assert (P : 0 < beta) by lra. assert (Hpb : 0 < PI / (2 * beta)) by (apply Rdiv_lt_0_compat; lra).
      apply (partial_pos (fun f => sqrt (rc_spectrum beta f)) (Arr beta) (fun f => - (PI / (2 * beta)) * sin (PI / (2 * beta) * (f - aa beta))) (aa beta) (bb beta) th M v); try (unfold aa, bb; lra).
      + intros f Hf. rewrite rc_1 by exact Hf. apply sqrt_1.
      + intros f Hf. apply rrc_2; unfold aa, bb in *; lra.
      + intros f Hf. rewrite rc_3; [apply sqrt_0| |]; unfold bb in *; lra.
      + intros u. unfold Arr. fold (aa beta). auto_derive; [trivial|]. unfold Rminus. field. lra.
      + intros u. auto_derive. exact I.
      + intros u Hu. pose proof (band_arg beta (PI / 2) u ltac:(lra) ltac:(lra) Hu) as B. replace (PI / (2 * beta)) with (PI / 2 / beta) in * by (field; lra). assert (0 < sin (PI / 2 / beta * (u - aa beta))) by (apply sin_gt_0; lra). nra.
      + unfold Arr. fold (aa beta). rewrite Rminus_eq_0, Rmult_0_r, cos_0. reflexivity.
      + unfold Arr. fold (aa beta). rewrite aab. replace (PI / (2 * beta) * beta) with (PI / 2) by (field; lra). apply cos_PI2.
      + intros k Hk'. destruct (Hk k) as [A B]. apply rcs_half; [lra|exact A|apply Ha; [exact P|exact Hk']]. }
  replace (rsum M (fun k => rcs ((INR k + 1) * th) beta)) with (2 * rsum M v); [lra|]. rewrite <- rsum_mul. apply rsum_ext. intros k _. unfold v. match goal with |- @eq _ ?x ?y => change (@eq R x y) end. field.
Qed.
(** sum of a centred even sequence *)
Lemma sum_centre (g : Z -> R) n : (1 <= n)%nat -> (forall k, g (- k)%Z = g k) ->
  rsum n (fun i => g (Z.of_nat i - Z.of_nat (n / 2))%Z) = g 0%Z + rsum (n / 2) (fun j => g (Z.of_nat j + 1)%Z) + rsum (n - 1 - n / 2) (fun j => g (Z.of_nat j + 1)%Z).
Proof.
  intros Hn Ev. assert (B : forall m, rsum m (fun j => g (Z.of_nat j + 1)%Z + g (- (Z.of_nat j + 1))%Z) = rsum m (fun j => g (Z.of_nat j + 1)%Z) + rsum m (fun j => g (Z.of_nat j + 1)%Z)). { intros m. rewrite rsum_add. f_equal. apply rsum_ext. intros; apply Ev. }
  destruct (parity n) as (h & [-> | ->]).
  - replace (2 * h / 2)%nat with h by (apply (Nat.div_unique _ 2 h 0); lia). replace (2 * h - 1 - h)%nat with (h - 1)%nat by lia. pose proof (pair_even_c g h) as E. rewrite B in E. destruct h as [|h]; [lia|]. replace (S h - 1)%nat with h by lia. rewrite (rsum_S h (fun j => g (Z.of_nat j + 1)%Z)) in E at 2. replace (Z.of_nat h + 1)%Z with (Z.of_nat (S h)) in E by lia. lra.
  - replace ((2 * h + 1) / 2)%nat with h by (apply (Nat.div_unique _ 2 h 1); lia). replace (2 * h + 1 - 1 - h)%nat with h by lia. rewrite pair_odd_c, B. rring.
Qed.
Lemma quot2 n : Z.quot (Z.of_nat n) 2 = Z.of_nat (n / 2).
Proof. rewrite Z.quot_div_nonneg by lia. symmetry. rewrite Nat2Z.inj_div. reflexivity. Qed.
