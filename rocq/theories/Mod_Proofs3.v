(** Proofs about the modulator: matched filter, FSK. *)
From Coq Require Import Reals Lra Lia ZArith.
From Verif Require Import Base BaseLemmas Filters_Model Filters_Spec Filters_Proofs Filters_Props Conv_Lemmas RField DftSys ComplexSys Fourier_Model BitStream_Model Demod_Model Special_Model Design_Model Design_Spec Design_Proofs Design_Proofs2 Rif_Model Rif_Spec Rif_Proofs Rif_Proofs2 Gauss_Proofs Polyphase_Model Polyphase_Spec Polyphase_Proofs Polyphase_Proofs2 Polyphase_Props Ra_Model Sig_Model Sig_Spec Sig_Proofs Rii_Model Mod_Model Mod_Spec Mod_Proofs Mod_Proofs2.
Local Open Scope R_scope.

Ltac eqR := match goal with |- ?a = ?b => change (@eq R a b) end.
(** ** autocorrelation *)
Lemma sum_window {K : cring} (f : Z -> K) n a : (forall z, (z < 0 \/ Z.of_nat n <= z)%Z -> f z = c0) -> forall m, (0 <= a)%Z -> (Z.of_nat n <= Z.of_nat m - a)%Z ->
  sum (K := K) m (fun i => f (Z.of_nat i - a)%Z) = sum (K := K) n (fun i => f (Z.of_nat i)).
Proof.
  intros Z0 m Ha Hm. replace m with (Z.to_nat a + (n + (m - Z.to_nat a - n)))%nat by lia. rewrite !sum_split.
  rewrite (sum_zero K (Z.to_nat a)) by (intros i Hi; apply Z0; lia).
  rewrite (sum_zero K (m - Z.to_nat a - n)) by (intros i Hi; apply Z0; lia).
  rewrite (sum_ext K n _ (fun i => f (Z.of_nat i))) by (intros i Hi; f_equal; lia).
  rewrite (Radd_0_l (cth K)). rewrite (Radd_comm (cth K)), (Radd_0_l (cth K)). reflexivity.
Qed.
Lemma acor_0 h : acor h 0 = energy h.
Proof. unfold acor, energy. apply rsum_ext. intros i Hi. rewrite Z.add_0_r, (sampZ_nat Rring). reflexivity. Qed.
Lemma acor_far h l : (Z.of_nat (length h) <= Z.abs l)%Z -> acor h l = 0.
Proof.
  intros H. unfold acor. rewrite <- (rsum_0 (length h)). apply rsum_ext. intros i Hi. destruct (Z.le_gt_cases 0 l).
  - rewrite (sampZ_over Rring) by (change (@length (car Rring) h) with (@length R h); lia). apply Rmult_0_r.
  - rewrite (sampZ_neg Rring) by lia. apply Rmult_0_r.
Qed.
Lemma acor_sym h l : acor h (- l) = acor h l.
Proof.
  assert (P : forall l, (0 <= l)%Z -> acor h (- l) = acor h l).
  { intros a Ha. unfold acor. set (n := length h). set (f := fun z : Z => sampZ (K := Rring) h z * sampZ (K := Rring) h (z + a)).
    assert (F0 : forall z, (z < 0 \/ Z.of_nat n <= z)%Z -> f z = 0).
    { intros z [H|H]; unfold f; [rewrite (sampZ_neg Rring) by exact H|rewrite (sampZ_over Rring) by exact H]; apply Rmult_0_l. }
    transitivity (sum (K := Rring) (Z.to_nat a + n) (fun i => f (Z.of_nat i - a)%Z)).
    - rewrite Nat.add_comm, (sum_split Rring). rewrite (sum_zero Rring (Z.to_nat a)).
      + etransitivity; [|symmetry; apply Rplus_0_r]. apply rsum_ext. intros i Hi. unfold f. replace (Z.of_nat i - a + a)%Z with (Z.of_nat i) by lia. rewrite (sampZ_nat Rring). rewrite Rmult_comm. f_equal.
      + intros i Hi. unfold f. replace (Z.of_nat (n + i) - a + a)%Z with (Z.of_nat (n + i)) by lia. rewrite (sampZ_over Rring h (Z.of_nat (n + i))) by (fold n; change (@length (car Rring) h) with n; lia). apply Rmult_0_r.
    - rewrite (sum_window (K := Rring) f n a F0) by lia. apply rsum_ext. intros i Hi. unfold f. rewrite (sampZ_nat Rring). reflexivity. }
  destruct (Z.le_gt_cases 0 l); [apply P; assumption|]. rewrite <- (Z.opp_involutive l) at 2. symmetry. apply P. lia.
Qed.
Lemma acor_le h l : Rabs (acor h l) <= energy h.
Proof.
  assert (P : forall l, (0 <= l)%Z -> Rabs (acor h l) <= energy h).
  { intros a Ha. set (n := length h).
    assert (E2 : sum (K := Rring) n (fun i => sampZ (K := Rring) h (Z.of_nat i + a) * sampZ (K := Rring) h (Z.of_nat i + a)) <= energy h).
    { set (k := Z.to_nat a). set (f := fun j : nat => sampZ (K := Rring) h (Z.of_nat j) * sampZ (K := Rring) h (Z.of_nat j)).
      assert (T1 : rsum (k + n) f = rsum k f + rsum n (fun i => f (k + i)%nat)) by exact (sum_split Rring k n f).
      assert (T2 : rsum (n + k) f = rsum n f + rsum k (fun i => f (n + i)%nat)) by exact (sum_split Rring n k f).
      assert (T3 : rsum k (fun i => f (n + i)%nat) = 0). { rewrite <- (rsum_0 k). apply rsum_ext. intros i Hi. unfold f. rewrite (sampZ_over Rring h) by (change (@length (car Rring) h) with n; lia). apply Rmult_0_l. }
      assert (T4 : rsum n f = energy h). { unfold energy. apply rsum_ext. intros i Hi. unfold f. rewrite (sampZ_nat Rring). reflexivity. }
      assert (T5 : 0 <= rsum k f) by (apply rsum_nonneg; intros i _; apply Rle_0_sqr).
      apply Rle_trans with (rsum n (fun i => f (k + i)%nat)).
      - right. apply rsum_ext. intros i Hi. unfold f. replace (Z.of_nat (k + i)) with (Z.of_nat i + a)%Z by lia. reflexivity.
      - rewrite (Nat.add_comm n k) in T2. rewrite T2, T3, T4 in T1. lra. }
    assert (B1 : 0 <= rsum n (fun i => (nth i h 0 - sampZ (K := Rring) h (Z.of_nat i + a)) * (nth i h 0 - sampZ (K := Rring) h (Z.of_nat i + a)))) by (apply rsum_nonneg; intros i _; apply Rle_0_sqr).
    assert (B2 : 0 <= rsum n (fun i => (nth i h 0 + sampZ (K := Rring) h (Z.of_nat i + a)) * (nth i h 0 + sampZ (K := Rring) h (Z.of_nat i + a)))) by (apply rsum_nonneg; intros i _; apply Rle_0_sqr).
    set (u := fun i : nat => sampZ (K := Rring) h (Z.of_nat i + a)) in *.
    assert (X1 : rsum n (fun i => (nth i h 0 - u i) * (nth i h 0 - u i)) = energy h + rsum n (fun i => u i * u i) + (-2) * acor h a).
    { unfold energy, acor. fold n. rewrite <- rsum_mul, <- !rsum_add. apply rsum_ext. intros i Hi. unfold u. eqR. ring. }
    assert (X2 : rsum n (fun i => (nth i h 0 + u i) * (nth i h 0 + u i)) = energy h + rsum n (fun i => u i * u i) + 2 * acor h a).
    { unfold energy, acor. fold n. rewrite <- rsum_mul, <- !rsum_add. apply rsum_ext. intros i Hi. unfold u. eqR. ring. }
    change (rsum n (fun i => u i * u i) <= energy h) in E2. unfold u in X1, X2, E2. apply Rabs_le. lra. }
  destruct (Z.le_gt_cases 0 l); [apply P; assumption|]. rewrite <- acor_sym. apply P. lia.
Qed.

(** ** matched filter *)
Lemma pam_Z g r s y : (length y = length s * r)%nat -> (forall n, (n < length y)%nat -> nth n y (0, 0) = pam g r s n) -> forall z, (z < Z.of_nat (length y))%Z ->
  sampZ (K := Cring) y z = sum (K := Cring) (length s) (fun k => rscale (sampZ (K := Rring) g (z - Z.of_nat (k * r))) (nth k s (0, 0))).
Proof.
  intros L V z Hz. destruct (Z.lt_ge_cases z 0).
  - rewrite (sampZ_neg Cring) by assumption. symmetry. apply (sum_zero Cring). intros k Hk. rewrite (sampZ_neg Rring) by lia. apply C_ext; cbn; ring.
  - rewrite <- (Z2Nat.id z) by assumption. rewrite (sampZ_nat Cring). unfold samp. etransitivity; [apply V; lia|]. reflexivity.
Qed.
Lemma rscale_sum n (f : nat -> R) (z : C) : sum (K := Cring) n (fun k => rscale (f k) z) = rscale (rsum n f) z.
Proof. induction n as [|n IH]; [apply C_ext; cbn; ring|]. rewrite rsum_S. cbn [sum]. rewrite IH. generalize (rsum n f). intros w. apply C_ext; cbn; ring. Qed.
Lemma rscale_rscale a b z : rscale a (rscale b z) = rscale (a * b) z.
Proof. apply C_ext; cbn; ring. Qed.
Lemma rscale_add_sum a n (f : nat -> C) : rscale a (sum (K := Cring) n f) = sum (K := Cring) n (fun k => rscale a (f k)).
Proof. induction n as [|n IH]; [apply C_ext; cbn; ring|]. cbn [sum]. rewrite <- IH. generalize (sum (K := Cring) n f). intros w. apply C_ext; cbn; ring. Qed.
Lemma matched h r s y n : (length y = length s * r)%nat -> (forall n, (n < length y)%nat -> nth n y (0, 0) = pam (pulse h r) r s n) -> (n < length y)%nat ->
  conv (K := Cring) (map re h) y n = sum (K := Cring) (length s) (fun j => rscale (sqrt (INR r / energy h) * acor h (Z.of_nat (length (pulse h r)) - 1 - Z.of_nat n + Z.of_nat (j * r))) (nth j s (0, 0))).
Proof.
  intros L V Hn. unfold conv. rewrite map_length.
  transitivity (sum (K := Cring) (length h) (fun k => sum (K := Cring) (length s) (fun j => rscale (nth k h 0 * sampZ (K := Rring) (pulse h r) (Z.of_nat n - Z.of_nat k - Z.of_nat (j * r))) (nth j s (0, 0))))).
  - apply (sum_ext Cring). intros k Hk. rewrite (pam_Z (pulse h r) r s y L V) by lia. transitivity (rscale (nth k h 0) (sum (K := Cring) (length s) (fun j => rscale (sampZ (K := Rring) (pulse h r) (Z.of_nat n - Z.of_nat k - Z.of_nat (j * r))) (nth j s (0, 0))))).
    + unfold samp. rewrite (nth_indep _ _ (re 0)) by (rewrite map_length; exact Hk). rewrite (map_nth re). set (w := sum _ _). apply C_ext; cbn; ring.
    + rewrite rscale_add_sum. apply (sum_ext Cring). intros j Hj. apply rscale_rscale.
  - etransitivity; [apply (sum_swap Cring)|]. apply (sum_ext Cring). intros j Hj. rewrite rscale_sum. f_equal. unfold acor. rewrite <- rsum_mul. apply rsum_ext. intros k Hk. rewrite pulse_at. eqR.
    replace (Z.of_nat (length (pulse h r)) - 1 - (Z.of_nat n - Z.of_nat k - Z.of_nat (j * r)))%Z with (Z.of_nat k + (Z.of_nat (length (pulse h r)) - 1 - Z.of_nat n + Z.of_nat (j * r)))%Z by lia. ring.
Qed.
Lemma conv_one (y : list Cring) n : conv (K := Cring) (map re [1]) y n = samp y n.
Proof. unfold conv. cbn [map length sum]. change (Z.of_nat 0) with 0%Z. rewrite Z.sub_0_r, (sampZ_nat Cring). generalize (samp y n). intros w. unfold samp. cbn [nth]. apply C_ext; cbn; ring. Qed.
Lemma adapt_ok f nc r h : (0 < r)%nat -> good_coefs f nc r h -> exists A0, adapt_new f nc (Z.of_nat r) = Ok A0 /\
  forall blocks, exists A z, run adapt_step A0 blocks = Ok (A, z) /\ length z = length (concat blocks) /\ forall n, (n < length z)%nat -> nth n z (0, 0) = conv (K := Cring) (map re h) (concat blocks) n.
Proof.
  intros Hr G. pose proof (good_ne _ _ _ _ G) as Lh. unfold adapt_new. destruct (Z.eqb_spec (Z.of_nat r) 1) as [E|E].
  - assert (r = 1)%nat by lia. subst r. rewrite (good_1 f nc h G). exists F_id. split; [reflexivity|]. intros blocks. exists F_id, (concat blocks). split; [apply run_id|]. split; [reflexivity|].
    intros n Hn. symmetry. exact (conv_one (concat blocks) n).
  - rewrite (proj1 G). cbn [bind]. eexists. split; [reflexivity|]. intros blocks. destruct (C10_convolution Cring (map re h) blocks) as (s & y & E1 & L & V); [destruct h; [cbn in Lh; lia|discriminate]|].
    exists (F_on s), y. split; [apply run_opt; exact E1|]. split; [exact L|]. intros n Hn. apply V. exact Hn.
Qed.
Lemma rscale_mul' a (z : C) : cmul (c := Cring) (re a) z = rscale a z.
Proof. apply C_ext; cbn; ring. Qed.
(** the decimating matched filter for the rectangular pulse: the mean over each symbol *)
Lemma adaptd_nrz nc r : (0 < r)%nat -> exists A0, adaptd_new NRZ nc (Z.of_nat r) = Ok A0 /\
  forall blocks, exists A z, run adaptd_step A0 blocks = Ok (A, z) /\ length z = (length (concat blocks) / r)%nat /\
    forall m, (m < length z)%nat -> nth m z (0, 0) = rscale (/ INR r) (sum (K := Cring) r (fun k => nth (m * r + k) (concat blocks) (0, 0))).
Proof.
  intros Hr. unfold adaptd_new. destruct (Z.eqb_spec (Z.of_nat r) 1) as [E|E].
  - assert (r = 1)%nat by lia. subst r. exists F_id. split; [reflexivity|]. intros blocks. exists F_id, (concat blocks). split; [apply run_id|]. split; [rewrite Nat.div_1_r; reflexivity|].
    intros m Hm. cbn [sum]. rewrite Nat.add_0_r, Nat.mul_1_r. change (INR 1) with 1. rewrite Rinv_1. apply C_ext; cbn; ring.
  - rewrite (proj1 (nrz_good nc r Hr)). cbn [bind]. rewrite Nat2Z.id. eexists. split; [reflexivity|]. intros blocks.
    destruct (C16_correlation Cring (map re (repeat (/ INR r) r)) r blocks Hr) as (s & y & E1 & L & V); [destruct r; [lia|discriminate]|].
    exists (F_on s), y. split; [apply run_opt; exact E1|]. split; [exact L|]. intros m Hm. etransitivity; [exact (V m Hm)|]. rewrite map_length, repeat_length. rewrite rscale_add_sum. apply (sum_ext Cring). intros k Hk.
    replace (Z.of_nat ((m + 1) * r) - Z.of_nat r + Z.of_nat k)%Z with (Z.of_nat (m * r + k)) by lia. rewrite (sampZ_nat Cring). unfold samp. rewrite (nth_indep _ _ (re 0)) by (rewrite map_length, repeat_length; exact Hk). rewrite (map_nth re).
    assert (nth k (repeat (/ INR r) r) 0 = / INR r) as ->. { clear -Hk. generalize (/ INR r). intros q. revert k Hk. induction r; intros [|k] Hk; try lia; [reflexivity|]. cbn. apply IHr. lia. }
    exact (rscale_mul' (/ INR r) (nth (m * r + k) (concat blocks) (0, 0))).
Qed.

(** ** FSK *)
Lemma vmax_ok l : l <> [] -> In (vmax l) l /\ forall x, In x l -> x <= vmax l.
Proof.
  destruct l as [|a l]; [contradiction|]. intros _. cbn [vmax]. revert a. induction l as [|b l IH]; intros a; cbn [fold_left].
  - split; [left; reflexivity|]. intros x [-> |[]]. apply Rle_refl.
  - destruct (IH (Rmax a b)) as [I M]. split.
    + destruct I as [I|I]; [|right; right; exact I]. rewrite <- I. unfold Rmax. destruct (Rle_dec a b); [right; left; reflexivity|left; reflexivity].
    + pose proof (M _ (or_introl eq_refl)) as T. intros x [-> |[-> |Hx]]; [eapply Rle_trans; [apply Rmax_l|exact T]|eapply Rle_trans; [apply Rmax_r|exact T]|apply M; right; exact Hx].
Qed.
Lemma vmax_is A (l : list R) : (forall x, In x l -> Rabs x <= A) -> (exists x, In x l /\ Rabs x = A) -> vmax (map Rabs l) = A.
Proof.
  intros B (x & Hx & E). destruct (vmax_ok (map Rabs l)) as [I M]; [destruct l; [destruct Hx|discriminate]|]. apply in_map_iff in I. destruct I as (v & Ev & Iv).
  apply Rle_antisym; [rewrite <- Ev; apply B; exact Iv|]. rewrite <- E. apply M. apply in_map. exact Hx.
Qed.
Lemma fsk_length idx r x : length (fsk_map idx r x) = length x.
Proof. unfold fsk_map. rewrite map_length. etransitivity; [apply (cumsum_length Rring)|]. rewrite !map_length. reflexivity. Qed.
Lemma fsk_nth idx r x i : (i < length x)%nat -> let den := vmax (map Rabs (map fst x)) in
  let den := if Req_EM_T den 0 then 1 else den in
  nth i (fsk_map idx r x) (0, 0) = unit_at (PI * idx / IZR r / den * rsum (S i) (fun k => fst (nth k x (0, 0)))).
Proof.
  intros Hi den den'. unfold fsk_map. fold den. fold den'. set (Om := PI * idx / IZR r). set (l := cumsum _).
  assert (Ll : length l = length x) by (unfold l; etransitivity; [apply (cumsum_length Rring)|]; rewrite !map_length; reflexivity).
  rewrite (nth_indep _ _ ((fun p : R => (cos p, sin p)) 0)) by (rewrite map_length; exact (eq_ind_r (fun q => (i < q)%nat) Hi Ll)). rewrite (map_nth (fun p : R => (cos p, sin p))).
  assert (E : nth i l 0 = Om / den' * rsum (S i) (fun k => fst (nth k x (0, 0)))); [|unfold unit_at; apply (f_equal (fun p : R => (cos p, sin p))); exact E].
  unfold l, cumsum. etransitivity; [apply (cumsum_from_nth Rring); change (i < @length R (map (fun v : R => (v * (Om / den'))%R) (map fst x)))%nat; rewrite !map_length; exact Hi|].
  etransitivity; [apply Rplus_0_l|]. rewrite <- rsum_mul. apply rsum_ext. intros k Hk. unfold samp.
  change (@eq R (nth k (map (fun v => v * (Om / den')) (map fst x)) 0) (Om / den' * fst (nth k x (0, 0)))).
  rewrite (nth_indep _ 0 ((fun v => v * (Om / den')) (fst ((0, 0) : C)))) by (rewrite !map_length; lia). rewrite (map_nth (fun v => v * (Om / den'))), (map_nth fst). ring.
Qed.
