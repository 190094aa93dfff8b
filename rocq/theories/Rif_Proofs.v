(** Proofs about FIR design: Fejer-Jackson inequality, windowed ideal filters. *)
From Coq Require Import Reals Lra Lia ZArith.
From Coquelicot Require Import Coquelicot.
From Verif Require Import Base BaseLemmas RField Vec_Model Vec_Proofs Sig_Proofs Special_Model Special_Proofs Design_Proofs2 Win_Model Win_Spec Win_Proofs Rif_Model Rif_Spec.
Local Open Scope R_scope.

(** ** Fejer-Jackson: the partial sums of sin(kx)/k are nonnegative on [0, pi] *)
Definition FJ (n : nat) (x : R) : R := rsum n (fun k => sin ((INR k + 1) * x) / (INR k + 1)).
Lemma FJ_derive n x : is_derive (FJ n) x (rsum n (fun k => cos ((INR k + 1) * x))).
Proof.
  induction n as [|n IH].
  - unfold FJ. cbn [sum]. apply (is_derive_ext (fun _ => 0)); [intros; reflexivity|]. apply @is_derive_const.
  - apply (is_derive_ext (fun y => FJ n y + sin ((INR n + 1) * y) / (INR n + 1))). { intros y. unfold FJ. rewrite rsum_S. reflexivity. }
    rewrite rsum_S. apply @is_derive_plus; [exact IH|]. pose proof (pos_INR n). auto_derive; [lra|]. field. lra.
Qed.
Lemma FJ_cont n x : continuity_pt (FJ n) x.
Proof. apply derivable_continuous_pt. exists (rsum n (fun k => cos ((INR k + 1) * x))). apply is_derive_Reals. apply FJ_derive. Qed.
Lemma FJ_S n x : FJ (S n) x = FJ n x + sin ((INR n + 1) * x) / (INR n + 1).
Proof. unfold FJ. apply rsum_S. Qed.
Lemma FJ_0 n : FJ n 0 = 0.
Proof. induction n as [|n IH]; [reflexivity|]. rewrite FJ_S, IH, Rmult_0_r, sin_0. unfold Rdiv. ring. Qed.
Lemma FJ_PI n : FJ n PI = 0.
Proof.
  induction n as [|n IH]; [reflexivity|]. rewrite FJ_S, IH. replace ((INR n + 1) * PI) with (IZR (Z.of_nat n + 1) * PI) by (rewrite plus_IZR, <- INR_IZR_INZ; reflexivity).
  rewrite sin_int_PI. unfold Rdiv. ring.
Qed.
Lemma FJ_pos n : forall x, 0 <= x <= PI -> 0 <= FJ n x.
Proof.
  induction n as [|n IH]; [intros; unfold FJ; cbn [sum]; change (0 <= 0); lra|]. intros x Hx. pose proof PI_RGT_0 as PP.
  destruct (continuity_ab_min (FJ (S n)) 0 PI ltac:(lra) (fun c _ => FJ_cont (S n) c)) as (x0 & M & B).
  apply (Rle_trans _ (FJ (S n) x0)); [|apply M; exact Hx].
  destruct (Req_dec x0 0) as [-> |N0]; [rewrite FJ_0; lra|]. destruct (Req_dec x0 PI) as [-> |N1]; [rewrite FJ_PI; lra|].
  assert (I : 0 < x0 < PI) by lra.
  assert (D : rsum (S n) (fun k => cos ((INR k + 1) * x0)) = 0).
  { assert (pr : derivable_pt (FJ (S n)) x0) by (eexists; apply is_derive_Reals; apply FJ_derive).
    pose proof (deriv_minimum (FJ (S n)) 0 PI x0 pr (proj1 I) (proj2 I) (fun y a b => M y (conj (Rlt_le _ _ a) (Rlt_le _ _ b)))) as E.
    rewrite Derive_Reals in E. rewrite <- E. symmetry. apply is_derive_unique. apply FJ_derive. }
  pose proof (dir_tel x0 (S n) 1) as T. match type of T with _ * ?s = _ => replace s with 0 in T by (symmetry; exact D) end.
  rewrite S_INR in T. replace ((INR n + 1 - / 2 + 1) * x0) with ((INR n + 1) * x0 + x0 / 2) in T by field. replace ((1 - / 2) * x0) with (x0 / 2) in T by field.
  set (a := (INR n + 1) * x0) in *.
  assert (Ss : 0 < sin (x0 / 2)) by (apply sin_gt_0; lra).
  assert (Cc : 0 < cos (x0 / 2)) by (apply cos_gt_0; lra).
  assert (Pos : 0 <= sin a).
  { replace a with ((a + x0 / 2) - x0 / 2) by ring. rewrite sin_minus. pose proof (sin2_cos2 (a + x0 / 2)) as Q1. pose proof (sin2_cos2 (x0 / 2)) as Q2. unfold Rsqr in *.
    replace (sin (a + x0 / 2)) with (sin (x0 / 2)) in * by lra. set (u := cos (a + x0 / 2)) in *. set (c := cos (x0 / 2)) in *. set (s := sin (x0 / 2)) in *.
    assert (u * u = c * c) by lra. assert (u <= c) by nra. nra. }
  rewrite FJ_S. fold a. assert (0 <= FJ n x0) by (apply IH; lra). assert (0 < INR n + 1) by (pose proof (pos_INR n); lra). assert (0 <= sin a / (INR n + 1)) by (apply Rdiv_le_0_compat; assumption). lra.
Qed.
(** decreasing nonnegative weights (Abel summation) *)
Lemma abel m : forall w g : nat -> R, (forall k, (k <= m)%nat -> 0 <= w k) -> (forall k, (k < m)%nat -> w (S k) <= w k) -> (forall k, (k <= S m)%nat -> 0 <= rsum k g) -> 0 <= rsum (S m) (fun k => w k * g k) - w m * rsum (S m) g /\ 0 <= rsum (S m) (fun k => w k * g k).
Proof.
  induction m as [|m IH]; intros w g Hw Hd Hg.
  - assert (Z0 : forall f, rsum 0 f = 0) by reflexivity. specialize (Hg 1%nat ltac:(lia)). rewrite !rsum_S, !Z0 in *. specialize (Hw 0%nat ltac:(lia)). rewrite Rplus_0_l in *. split; [lra|]. apply Rmult_le_pos; assumption.
  - destruct (IH w g) as [A B]; [intros; apply Hw; lia|intros; apply Hd; lia|intros; apply Hg; lia|].
    rewrite (rsum_S (S m) (fun k => w k * g k)), (rsum_S (S m) g). pose proof (Hg (S m) ltac:(lia)) as G1. pose proof (Hg (S (S m)) ltac:(lia)) as G2. rewrite rsum_S in G2.
    pose proof (Hw (S m) ltac:(lia)). pose proof (Hd m ltac:(lia)). set (P := rsum (S m) (fun k => w k * g k)) in *. set (Q := rsum (S m) g) in *. set (gs := g (S m)) in *. set (a := w m) in *. set (b := w (S m)) in *.
    assert (0 <= P - b * Q) by nra. split; [nra|]. replace (P + b * gs) with ((P - b * Q) + b * (Q + gs)) by ring. apply Rplus_le_le_0_compat; [lra|]. apply Rmult_le_pos; lra.
Qed.

(** ** Vectors *)
Lemma vmul_ok x y : length x = length y -> exists z, vmul x y = Ok z /\ vmul_eq x y = Ok z /\ length z = length x /\ forall i, (i < length x)%nat -> nth i z 0 = nth i x 0 * nth i y 0.
Proof.
  intros H. unfold vmul, vmul_eq. destruct (Nat.eqb_spec (length x) (length y)); [|congruence]. eexists. split; [reflexivity|]. split; [reflexivity|].
  split; [rewrite map_length, combine_length; lia|]. intros i Hi. rewrite (nth_indep _ 0 ((fun p => fst p * snd p) (0, 0))) by (rewrite map_length, combine_length; lia). rewrite (map_nth (fun p : R * R => fst p * snd p)), combine_nth by exact H. reflexivity.
Qed.
Lemma vmul_bad x y : length x <> length y -> vmul x y = Exc /\ vmul_eq x y = UB.
Proof. intros H. unfold vmul, vmul_eq. destruct (Nat.eqb_spec (length x) (length y)); [contradiction|]. split; reflexivity. Qed.
Lemma nth_mapR (f : R -> R) l i : (i < length l)%nat -> nth i (map f l) 0 = f (nth i l 0).
Proof. apply nth_map0. Qed.
Lemma vdiv_length x c : length (vdiv x c) = length x.
Proof. apply map_length. Qed.
Lemma vdiv_nth x c i : (i < length x)%nat -> nth i (vdiv x c) 0 = nth i x 0 / c.
Proof. intros H. unfold vdiv. apply nth_mapR. exact H. Qed.
Lemma somme_vdiv x c : somme (vdiv x c) = somme x / c.
Proof.
  unfold somme. rewrite vdiv_length. unfold Rdiv. rewrite Rmult_comm, <- rsum_mul. apply rsum_ext. intros i Hi. rewrite vdiv_nth by exact Hi. unfold Rdiv. apply Rmult_comm.
Qed.
Lemma somme_dc x : somme x = dc_gain x.
Proof. reflexivity. Qed.
(** ** Taps of the ideal filter *)
Lemma taps_length n fc : length (coefs_filtre_sinc n fc) = n.
Proof. unfold coefs_filtre_sinc. destruct (Nat.odd n); rewrite map_length, seq_length; reflexivity. Qed.
Lemma odd_2m m : Nat.odd (2 * m + 1) = true.
Proof. rewrite <- Nat.negb_even, odd_2. reflexivity. Qed.
Lemma even_2m m : Nat.odd (2 * m) = false.
Proof. rewrite <- Nat.negb_even, even_2. reflexivity. Qed.
Lemma quot_odd' m : Z.quot (Z.of_nat (2 * m + 1) - 1) 2 = Z.of_nat m.
Proof. replace (Z.of_nat (2 * m + 1) - 1)%Z with (Z.of_nat (2 * m)) by lia. apply quot_even. Qed.
Lemma taps_odd m fc i : (i < 2 * m + 1)%nat -> nth i (coefs_filtre_sinc (2 * m + 1) fc) 0 = sinc_T (2 * fc) (IZR (Z.of_nat i - Z.of_nat m)).
Proof. intros Hi. unfold coefs_filtre_sinc. rewrite odd_2m, quot_odd. rewrite (nth_map_seq (fun i => sinc_T (2 * fc) (IZR (Z.of_nat i - Z.of_nat m)))) by exact Hi. reflexivity. Qed.
Lemma taps_even m fc i : (1 <= m)%nat -> (i < 2 * m)%nat -> nth i (coefs_filtre_sinc (2 * m) fc) 0 = sinc_T (2 * fc) (IZR (Z.of_nat i - (Z.of_nat m - 1))).
Proof. intros Hm Hi. unfold coefs_filtre_sinc. rewrite even_2m, quot_pred by lia. rewrite (nth_map_seq (fun i => sinc_T (2 * fc) (IZR (Z.of_nat i - (Z.of_nat m - 1))))) by exact Hi. reflexivity. Qed.
Lemma sinc_even T f : sinc_T T (- f) = sinc_T T f.
Proof.
  unfold sinc_T. replace (PI * T * - f) with (- (PI * T * f)) by ring. rewrite Rabs_Ropp. destruct (Rlt_dec (Rabs (PI * T * f)) (/ 10 ^ 7)); [reflexivity|].
  rewrite sin_neg. destruct (Req_dec f 0) as [-> |N]; [rewrite Ropp_0; unfold Rdiv; rewrite !Rmult_0_r, sin_0; ring|]. pose proof PI_RGT_0. field. lra.
Qed.
Lemma eps_pos : 0 < / 10 ^ 7.
Proof. apply Rinv_0_lt_compat. lra. Qed.
Lemma sinc_0 T : sinc_T T 0 = T.
Proof. unfold sinc_T. rewrite Rmult_0_r, Rabs_R0. destruct (Rlt_dec 0 (/ 10 ^ 7)) as [|N]; [reflexivity|]. destruct N. apply eps_pos. Qed.
Lemma sinc_ideal fc k : / 10 ^ 7 <= 2 * PI * Rabs fc -> sinc_T (2 * fc) (IZR k) = ideal_lp fc k.
Proof.
  intros H. unfold ideal_lp. destruct (Z.eqb_spec k 0) as [-> |N]; [apply sinc_0|]. unfold sinc_T. pose proof PI_RGT_0.
  assert (1 <= Rabs (IZR k)) by (rewrite <- abs_IZR; apply (IZR_le 1); lia).
  destruct (Rlt_dec (Rabs (PI * (2 * fc) * IZR k)) (/ 10 ^ 7)) as [G|G].
  - exfalso. revert G. rewrite !Rabs_mult, (Rabs_pos_eq PI), (Rabs_pos_eq 2) by lra. pose proof (Rabs_pos fc). apply Rle_not_lt. eapply Rle_trans; [exact H|]. replace (2 * PI * Rabs fc) with (PI * (2 * Rabs fc) * 1) by ring. apply Rmult_le_compat_l; [|assumption]. apply Rmult_le_pos; lra.
  - f_equal. f_equal. ring.
Qed.
Lemma sinc_ge fc k : 0 < fc -> (1 <= k)%Z -> sin (2 * PI * fc * IZR k) / (PI * IZR k) <= sinc_T (2 * fc) (IZR k).
Proof.
  intros Hf Hk. pose proof PI_RGT_0. assert (1 <= IZR k) by (apply (IZR_le 1); exact Hk). unfold sinc_T. replace (PI * (2 * fc) * IZR k) with (2 * PI * fc * IZR k) by ring.
  destruct (Rlt_dec (Rabs (2 * PI * fc * IZR k)) (/ 10 ^ 7)) as [G|G]; [|apply Rle_refl].
  assert (P : 0 < 2 * PI * fc * IZR k) by (apply Rmult_lt_0_compat; [apply Rmult_lt_0_compat; lra|lra]). pose proof (proj2 (sin_near _ P)) as S. apply Rle_div_l; [nra|]. lra.
Qed.
(** the sum of the windowed taps is positive *)
Lemma taps_sum_pos m fc (w : nat -> R) : 0 < fc <= 1 / 2 -> 0 < w m -> (forall j, (j < m)%nat -> w (m - 1 - j)%nat = w (m + 1 + j)%nat) ->
  (forall j, (j < m)%nat -> 0 <= w (m + 1 + j)%nat <= w (m + j)%nat) -> 0 < rsum (2 * m + 1) (fun i => sinc_T (2 * fc) (IZR (Z.of_nat i - Z.of_nat m)) * w i).
Proof.
  intros Hf Hm Hs Hd. pose proof PI_RGT_0 as PP. set (wz := fun k : Z => w (Z.to_nat (k + Z.of_nat m))). set (g := fun k : Z => sinc_T (2 * fc) (IZR k) * wz k).
  rewrite (rsum_ext _ _ (fun i => g (Z.of_nat i - Z.of_nat m)%Z)). 2: { intros i _. unfold g, wz. do 2 f_equal. lia. }
  rewrite pair_odd_c. assert (G0 : 0 < g 0%Z). { unfold g, wz. rewrite sinc_0. rewrite Z.add_0_l, Nat2Z.id. apply Rmult_lt_0_compat; lra. }
  apply Rplus_lt_le_0_compat; [exact G0|].
  apply (Rle_trans _ (rsum m (fun j => (2 / PI) * (w (m + 1 + j)%nat * (sin ((INR j + 1) * (2 * PI * fc)) / (INR j + 1)))))).
  - rewrite rsum_mul. apply Rmult_le_pos; [apply Rlt_le, Rdiv_lt_0_compat; lra|]. destruct m as [|m]; [cbn [sum]; apply Rle_refl|].
    apply (abel m (fun j => w (S m + 1 + j)%nat) (fun j => sin ((INR j + 1) * (2 * PI * fc)) / (INR j + 1))).
    + intros k Hk. apply Hd. lia.
    + intros k Hk. replace (S m + 1 + k)%nat with (S m + S k)%nat by lia. apply Hd. lia.
    + intros k _. apply FJ_pos. nra.
  - apply sum_le. intros j Hj. unfold g, wz.
    replace (Z.to_nat (Z.of_nat j + 1 + Z.of_nat m)) with (m + 1 + j)%nat by lia. replace (Z.to_nat (- (Z.of_nat j + 1) + Z.of_nat m)) with (m - 1 - j)%nat by lia. rewrite Hs by exact Hj. rewrite opp_IZR, sinc_even.
    pose proof (sinc_ge fc (Z.of_nat j + 1) (proj1 Hf) ltac:(lia)) as G. destruct (Hd j Hj) as [W _]. set (W0 := w (m + 1 + j)%nat) in *. set (S := sinc_T (2 * fc) (IZR (Z.of_nat j + 1))) in *.
    rewrite plus_IZR, <- INR_IZR_INZ in G. pose proof (pos_INR j). replace (2 / PI * (W0 * (sin ((INR j + 1) * (2 * PI * fc)) / (INR j + 1)))) with (2 * W0 * (sin (2 * PI * fc * (INR j + 1)) / (PI * (INR j + 1)))).
    + replace (S * W0 + S * W0) with (2 * W0 * S) by ring. apply Rmult_le_compat_l; [lra|exact G].
    + replace (2 * PI * fc * (INR j + 1)) with ((INR j + 1) * (2 * PI * fc)) by ring. field. lra.
Qed.
