(** Proofs about the differentiators and the exponential filter (real numbers). *)
From Coq Require Import Reals Lra Lia ZArith.
From Verif Require Import Base BaseLemmas RField Filters_Model Filters_Spec Conv_Lemmas Design_Model Design_Spec Design_Proofs.
Local Open Scope R_scope.
Ltac rring := match goal with |- @eq _ ?a ?b => change (@eq R a b) end; ring.
Notation rsum := (sum (K := Rring)).
Lemma rsum_S n f : rsum (S n) f = rsum n f + f n.
Proof. reflexivity. Qed.
Lemma rsum_ext n f g : (forall i, (i < n)%nat -> f i = g i) -> rsum n f = rsum n g.
Proof. apply (sum_ext Rring). Qed.
Lemma rsum_add n f g : rsum n (fun i => f i + g i) = rsum n f + rsum n g.
Proof. apply (sum_add Rring). Qed.
Lemma rsum_mul n c f : rsum n (fun i => c * f i) = c * rsum n f.
Proof. apply (sum_mul_l Rring). Qed.
Lemma rsum_0 n : rsum n (fun _ => 0) = 0.
Proof. apply (sum_zero Rring). intros; reflexivity. Qed.
Lemma pair_even (g : Z -> R) m : rsum (2 * m) (fun i => g (Z.of_nat i - Z.of_nat m)%Z) = rsum m (fun j => g (Z.of_nat j) + g (- 1 - Z.of_nat j)%Z).
Proof.
  replace (2 * m)%nat with (m + m)%nat by lia. rewrite (sum_split Rring). rewrite (sum_rev Rring m (fun i => g (Z.of_nat i - Z.of_nat m)%Z)).
  rewrite rsum_add. change (cadd (c := Rring)) with Rplus. rewrite Rplus_comm. f_equal; apply rsum_ext; intros j Hj; f_equal; lia.
Qed.
Lemma pair_odd (g : Z -> R) m : rsum (2 * m + 1) (fun i => g (Z.of_nat i - Z.of_nat m)%Z) = rsum m (fun j => g (Z.of_nat j) + g (- 1 - Z.of_nat j)%Z) + g (Z.of_nat m).
Proof.
  replace (2 * m + 1)%nat with (S (2 * m)) by lia. rewrite rsum_S, pair_even. f_equal. f_equal. lia.
Qed.
Lemma pair_odd_c (g : Z -> R) m : rsum (2 * m + 1) (fun i => g (Z.of_nat i - Z.of_nat m)%Z) = g 0%Z + rsum m (fun j => g (Z.of_nat j + 1)%Z + g (- (Z.of_nat j + 1))%Z).
Proof.
  replace (2 * m + 1)%nat with (m + S m)%nat by lia. rewrite (sum_split Rring). rewrite (sum_rev Rring m (fun i => g (Z.of_nat i - Z.of_nat m)%Z)).
  rewrite (sum_S_l Rring). change (cadd (c := Rring)) with Rplus. rewrite rsum_add.
  replace (Z.of_nat (m + 0) - Z.of_nat m)%Z with 0%Z by lia. set (A := rsum m _). set (B := rsum m _). 
  replace (rsum m (fun j => g (Z.of_nat j + 1)%Z)) with B by (apply rsum_ext; intros; f_equal; lia).
  replace (rsum m (fun j => g (- (Z.of_nat j + 1))%Z)) with A by (apply rsum_ext; intros; f_equal; lia).
  assert (G : forall a b c : R, a + (b + c) = b + (c + a)) by (intros; ring). apply G.
Qed.
Lemma pair_even_c (g : Z -> R) m : rsum (2 * m) (fun i => g (Z.of_nat i - Z.of_nat m)%Z) + g (Z.of_nat m) = g 0%Z + rsum m (fun j => g (Z.of_nat j + 1)%Z + g (- (Z.of_nat j + 1))%Z).
Proof.
  rewrite <- pair_odd_c. replace (2 * m + 1)%nat with (S (2 * m)) by lia. rewrite rsum_S. do 2 f_equal. lia.
Qed.

(** response to an affine signal *)
Definition dcg (h : list R) : R := rsum (length h) (samp (K := Rring) h).
Definition mom (h : list R) : R := rsum (length h) (fun i => INR i * samp (K := Rring) h i).
Lemma ramp_samp a b N i : (i < N)%nat -> samp (K := Rring) (ramp a b N) i = a * INR i + b.
Proof.
  intros H. unfold samp, ramp. rewrite nth_indep with (d' := (fun i => a * INR i + b) 0%nat) by (rewrite map_length, seq_length; exact H).
  rewrite (map_nth (fun i => a * INR i + b)), seq_nth by exact H. reflexivity.
Qed.
Lemma ramp_conv (h : list R) a b N t : (length h <= t + 1)%nat -> (t < N)%nat ->
  conv (K := Rring) h (ramp a b N) t = (a * INR t + b) * dcg h - a * mom h.
Proof.
  intros H Ht. transitivity (rsum (length h) (fun i => (a * INR t + b) * samp (K := Rring) h i + (- a) * (INR i * samp (K := Rring) h i))).
  - unfold conv. apply rsum_ext. intros i Hi. unfold sampZ. destruct (Z.ltb_spec (Z.of_nat t - Z.of_nat i) 0); [lia|].
    replace (Z.to_nat (Z.of_nat t - Z.of_nat i)) with (t - i)%nat by lia. change (nth (t - i) (ramp a b N) (c0 : Rring)) with (samp (K := Rring) (ramp a b N) (t - i)).
    rewrite ramp_samp by lia. rewrite minus_INR by lia. cbn. ring.
  - rewrite rsum_add, !rsum_mul. unfold dcg, mom. rring.
Qed.
Lemma diff_list n c : (3 <= n)%nat -> exists h, design_rif_diff (Z.of_nat n) c = Ok h /\ length h = n /\
  forall i, (i < n)%nat -> samp (K := Rring) h i = let k := (Z.of_nat i - Z.of_nat (n / 2))%Z in if c then diff_c k else diff_nc k.
Proof.
  intros H. unfold design_rif_diff. replace (Z.of_nat n <? 2)%Z with false by (symmetry; apply Z.ltb_ge; lia).
  replace (Z.of_nat n =? 2)%Z with false by (symmetry; apply Z.eqb_neq; lia). eexists; split; [reflexivity|]. rewrite Nat2Z.id, map_length, seq_length. split; [reflexivity|].
  intros i Hi. unfold samp. set (f := fun i : nat => _). rewrite nth_indep with (d' := f 0%nat) by (rewrite map_length, seq_length; exact Hi).
  rewrite map_nth, seq_nth by exact Hi. unfold f. rewrite Nat2Z.inj_div. reflexivity.
Qed.
Lemma odd_opp k : Z.odd (- k) = Z.odd k.
Proof. apply Z.odd_opp. Qed.
Lemma nc_pair j : diff_nc (Z.of_nat j) + diff_nc (- 1 - Z.of_nat j) = 0.
Proof.
  unfold diff_nc. replace (- 1 - Z.of_nat j + 1)%Z with (- Z.of_nat j)%Z by lia. rewrite Z.odd_opp.
  rewrite Z.add_1_r, Z.odd_succ, <- Z.negb_odd. rewrite minus_IZR, <- INR_IZR_INZ. pose proof (pos_INR j). pose proof PI_RGT_0.
  destruct (Z.odd (Z.of_nat j)); cbn [negb]; field; repeat split; lra.
Qed.
(** (k + 1/2) h_k *)
Lemma nc_mom j : (IZR (Z.of_nat j) + / 2) * diff_nc (Z.of_nat j) + (IZR (- 1 - Z.of_nat j) + / 2) * diff_nc (- 1 - Z.of_nat j) = - (4 / PI) * tg_alt PI_tg j.
Proof.
  unfold diff_nc. replace (- 1 - Z.of_nat j + 1)%Z with (- Z.of_nat j)%Z by lia. rewrite Z.odd_opp.
  rewrite Z.add_1_r, Z.odd_succ, <- Z.negb_odd. rewrite minus_IZR, <- INR_IZR_INZ. pose proof (pos_INR j). pose proof PI_RGT_0.
  unfold tg_alt, PI_tg. rewrite plus_INR, mult_INR. cbn [INR].
  assert (E : (-1) ^ j = if Z.odd (Z.of_nat j) then -1 else 1).
  { clear. induction j as [|j IH]; [reflexivity|]. rewrite <- tech_pow_Rmult, IH, Nat2Z.inj_succ, Z.odd_succ, <- Z.negb_odd. destruct (Z.odd (Z.of_nat j)); cbn [negb]; ring. }
  rewrite E. destruct (Z.odd (Z.of_nat j)); cbn [negb]; field; repeat split; lra.
Qed.
Lemma rsum_f_R0 f m : rsum (S m) f = sum_f_R0 f m.
Proof. induction m as [|m IH]; [cbn; ring|]. rewrite rsum_S, IH. reflexivity. Qed.
Lemma leibniz m : (1 <= m)%nat -> Rabs (rsum m (tg_alt PI_tg) - PI / 4) <= / (2 * INR m + 1).
Proof.
  intros H. destruct (Nat.Even_or_Odd m) as [[q E]|[q E]].
  - subst m. destruct q as [|q]; [lia|]. replace (2 * S q)%nat with (S (S (2 * q))) by lia. rewrite rsum_f_R0.
    pose proof (PI_ineq q) as [A _]. pose proof (PI_ineq (S q)) as [_ B]. replace (2 * S q)%nat with (S (S (2 * q))) in B by lia. rewrite tech5 in B.
    assert (T : tg_alt PI_tg (S (S (2 * q))) = / (2 * INR (S (S (2 * q))) + 1)).
    { unfold tg_alt, PI_tg. replace (S (S (2 * q))) with (2 * S q)%nat at 1 by lia. rewrite pow_1_even. rewrite plus_INR, mult_INR. cbn [INR]. rewrite Rmult_1_l. reflexivity. }
    rewrite T in B. rewrite Rabs_left1; lra.
  - subst m. replace (2 * q + 1)%nat with (S (2 * q)) by lia. rewrite rsum_f_R0.
    pose proof (PI_ineq q) as [A B]. rewrite tech5 in A.
    assert (T : tg_alt PI_tg (S (2 * q)) = - / (2 * INR (S (2 * q)) + 1)).
    { unfold tg_alt, PI_tg. rewrite pow_1_odd. rewrite plus_INR, mult_INR. cbn [INR]. ring_simplify. reflexivity. }
    rewrite T in A. rewrite Rabs_right; lra.
Qed.
Lemma diff_dc_nc_even m : (2 <= m)%nat -> exists h, design_rif_diff (Z.of_nat (2 * m)) false = Ok h /\ length h = (2 * m)%nat /\ dcg h = 0 /\ Rabs (- mom h - 1) <= 4 / (PI * (2 * INR m + 1)).
Proof.
  intros H. destruct (diff_list (2 * m) false ltac:(lia)) as (h & E & L & V). exists h. split; [exact E|]. split; [exact L|].
  replace (2 * m / 2)%nat with m in V by (rewrite Nat.mul_comm, Nat.div_mul; lia). cbn zeta in V.
  assert (D : dcg h = 0).
  { unfold dcg. rewrite L, (rsum_ext _ _ (fun i => diff_nc (Z.of_nat i - Z.of_nat m))) by exact V. rewrite pair_even. rewrite (rsum_ext _ _ (fun _ => 0)) by (intros; apply nc_pair). apply rsum_0. }
  split; [exact D|].
  assert (M : mom h = - (4 / PI) * rsum m (tg_alt PI_tg)).
  { transitivity (rsum (length h) (fun i => INR i * samp (K := Rring) h i + (- (INR m - / 2)) * samp (K := Rring) h i)).
    { rewrite rsum_add, rsum_mul. fold (dcg h) (mom h). rewrite D. rring. }
    rewrite L. rewrite (rsum_ext _ _ (fun i => (fun k => (IZR k + / 2) * diff_nc k) (Z.of_nat i - Z.of_nat m)%Z)).
    2:{ intros i Hi. rewrite (V i Hi). rewrite minus_IZR, <- !INR_IZR_INZ. cbn beta. rring. }
    etransitivity; [exact (pair_even (fun k => (IZR k + / 2) * diff_nc k) m)|]. rewrite <- rsum_mul. apply rsum_ext. intros j _. apply nc_mom. }
  rewrite M. pose proof (leibniz m ltac:(lia)) as Q. pose proof PI_RGT_0 as HP. pose proof (pos_INR m).
  replace (- (- (4 / PI) * rsum m (tg_alt PI_tg)) - 1) with (4 / PI * (rsum m (tg_alt PI_tg) - PI / 4)) by (field; lra).
  rewrite Rabs_mult. rewrite (Rabs_right (4 / PI)) by (apply Rle_ge; apply Rmult_le_pos; [lra|left; apply Rinv_0_lt_compat; lra]).
  replace (4 / (PI * (2 * INR m + 1))) with (4 / PI * / (2 * INR m + 1)) by (field; split; lra).
  apply Rmult_le_compat_l; [|exact Q]. apply Rmult_le_pos; [lra|left; apply Rinv_0_lt_compat; lra].
Qed.
Lemma half_odd m : ((2 * m + 1) / 2)%nat = m.
Proof. symmetry. apply (Nat.div_unique _ 2 m 1); lia. Qed.
Lemma diff_dc_nc_odd m : (1 <= m)%nat -> exists h, design_rif_diff (Z.of_nat (2 * m + 1)) false = Ok h /\ length h = (2 * m + 1)%nat /\ dcg h = diff_nc (Z.of_nat m) /\ dcg h <> 0.
Proof.
  intros H. destruct (diff_list (2 * m + 1) false ltac:(lia)) as (h & E & L & V). exists h. split; [exact E|]. split; [exact L|].
  rewrite half_odd in V. cbn zeta in V.
  assert (D : dcg h = diff_nc (Z.of_nat m)).
  { unfold dcg. rewrite L, (rsum_ext _ _ (fun i => diff_nc (Z.of_nat i - Z.of_nat m))) by exact V. rewrite pair_odd. rewrite (rsum_ext _ _ (fun _ => 0)) by (intros; apply nc_pair). rewrite rsum_0. rring. }
  split; [exact D|]. rewrite D. unfold diff_nc. rewrite <- INR_IZR_INZ. pose proof (pos_INR m). pose proof PI_RGT_0. 
  assert (P : 0 < / (PI * (/ 2 + INR m) * (/ 2 + INR m))) by (apply Rinv_0_lt_compat; apply Rmult_lt_0_compat; [apply Rmult_lt_0_compat|]; lra).
  unfold Rdiv. set (v := / (PI * (/ 2 + INR m) * (/ 2 + INR m))) in *. destruct (Z.odd (Z.of_nat m + 1)); lra.
Qed.
Lemma c_pair j : diff_c (Z.of_nat j + 1) + diff_c (- (Z.of_nat j + 1)) = 0.
Proof.
  unfold diff_c. replace (Z.of_nat j + 1 =? 0)%Z with false by (symmetry; apply Z.eqb_neq; lia). replace (- (Z.of_nat j + 1) =? 0)%Z with false by (symmetry; apply Z.eqb_neq; lia).
  rewrite Z.odd_opp, opp_IZR, plus_IZR, <- INR_IZR_INZ. pose proof (pos_INR j). destruct (Z.odd (Z.of_nat j + 1)); field; lra.
Qed.
Lemma c_mom j : IZR (Z.of_nat j + 1) * diff_c (Z.of_nat j + 1) + IZR (- (Z.of_nat j + 1)) * diff_c (- (Z.of_nat j + 1)) = 2 * (if Z.odd (Z.of_nat j + 1) then -1 else 1).
Proof.
  unfold diff_c. replace (Z.of_nat j + 1 =? 0)%Z with false by (symmetry; apply Z.eqb_neq; lia). replace (- (Z.of_nat j + 1) =? 0)%Z with false by (symmetry; apply Z.eqb_neq; lia).
  rewrite Z.odd_opp, opp_IZR, plus_IZR, <- INR_IZR_INZ. pose proof (pos_INR j). destruct (Z.odd (Z.of_nat j + 1)); field; lra.
Qed.
Lemma alt_partial m : rsum m (fun j => if Z.odd (Z.of_nat j + 1) then -1 else 1) = if Nat.odd m then -1 else 0.
Proof.
  induction m as [|m IH]; [reflexivity|]. rewrite rsum_S, IH. replace (Z.of_nat m + 1)%Z with (Z.succ (Z.of_nat m)) by lia. rewrite Z.odd_succ, <- Z.negb_odd, Nat.odd_succ, <- Nat.negb_odd.
  replace (Z.odd (Z.of_nat m)) with (Nat.odd m). { destruct (Nat.odd m); cbn [negb]; rring. }
  clear. induction m as [|m IH]; [reflexivity|]. rewrite Nat.odd_succ, <- Nat.negb_odd, IH, Nat2Z.inj_succ, Z.odd_succ, <- Z.negb_odd. reflexivity.
Qed.
Lemma diff_c_odd m : (1 <= m)%nat -> exists h, design_rif_diff (Z.of_nat (2 * m + 1)) true = Ok h /\ length h = (2 * m + 1)%nat /\ dcg h = 0 /\ - mom h = if Nat.odd m then 2 else 0.
Proof.
  intros H. destruct (diff_list (2 * m + 1) true ltac:(lia)) as (h & E & L & V). exists h. split; [exact E|]. split; [exact L|].
  rewrite half_odd in V. cbn zeta in V.
  assert (D : dcg h = 0).
  { unfold dcg. rewrite L, (rsum_ext _ _ (fun i => diff_c (Z.of_nat i - Z.of_nat m))) by exact V. rewrite pair_odd_c. rewrite (rsum_ext _ _ (fun _ => 0)) by (intros; apply c_pair). rewrite rsum_0. unfold diff_c. cbn [Z.eqb]. rring. }
  split; [exact D|].
  transitivity (- rsum (length h) (fun i => INR i * samp (K := Rring) h i + (- INR m) * samp (K := Rring) h i)).
  { rewrite rsum_add, rsum_mul. fold (dcg h) (mom h). rewrite D. rring. }
  rewrite L. rewrite (rsum_ext _ _ (fun i => (fun k => IZR k * diff_c k) (Z.of_nat i - Z.of_nat m)%Z)).
  2:{ intros i Hi. rewrite (V i Hi). rewrite minus_IZR, <- !INR_IZR_INZ. cbn beta. rring. }
  etransitivity; [apply f_equal; exact (pair_odd_c (fun k => IZR k * diff_c k) m)|]. cbn beta. rewrite (rsum_ext m _ (fun j => 2 * (if Z.odd (Z.of_nat j + 1) then -1 else 1))) by (intros j _; apply c_mom).
  rewrite rsum_mul, alt_partial. destruct (Nat.odd m); lra.
Qed.
Lemma diff_c_even m : (2 <= m)%nat -> exists h, design_rif_diff (Z.of_nat (2 * m)) true = Ok h /\ length h = (2 * m)%nat /\ dcg h = - diff_c (Z.of_nat m) /\ dcg h <> 0.
Proof.
  intros H. destruct (diff_list (2 * m) true ltac:(lia)) as (h & E & L & V). exists h. split; [exact E|]. split; [exact L|].
  replace (2 * m / 2)%nat with m in V by (rewrite Nat.mul_comm, Nat.div_mul; lia). cbn zeta in V.
  assert (D : dcg h = - diff_c (Z.of_nat m)).
  { unfold dcg. rewrite L, (rsum_ext _ _ (fun i => diff_c (Z.of_nat i - Z.of_nat m))) by exact V. pose proof (pair_even_c diff_c m) as P.
    rewrite (rsum_ext m (fun j => diff_c (Z.of_nat j + 1) + diff_c (- (Z.of_nat j + 1))) (fun _ => 0)) in P by (intros; apply c_pair). rewrite rsum_0 in P. unfold diff_c at 3 in P. cbn [Z.eqb] in P.
    assert (G : forall a b : R, a + b = 0 + 0 -> a = - b) by (intros; lra). apply G. exact P. }
  split; [exact D|]. rewrite D. unfold diff_c. replace (Z.of_nat m =? 0)%Z with false by (symmetry; apply Z.eqb_neq; lia). rewrite <- INR_IZR_INZ.
  assert (P : 0 < / INR m) by (apply Rinv_0_lt_compat; apply lt_0_INR; lia). unfold Rdiv. destruct (Z.odd (Z.of_nat m)); lra.
Qed.
(** exponential filter *)
Lemma lexp_inv1 f : lexp_fcoupure (lexp_coef f) = f.
Proof. unfold lexp_fcoupure, lexp_coef. replace (1 - (1 - exp (- f * 2 * PI))) with (exp (- f * 2 * PI)) by ring. rewrite ln_exp. field. pose proof PI_RGT_0; lra. Qed.
Lemma lexp_inv2 g : g < 1 -> lexp_coef (lexp_fcoupure g) = g.
Proof.
  intros H. unfold lexp_fcoupure, lexp_coef. replace (- (- ln (1 - g) / (2 * PI)) * 2 * PI) with (ln (1 - g)) by (field; pose proof PI_RGT_0; lra).
  rewrite exp_ln by lra. ring.
Qed.
Lemma lexp_range f : 0 < f -> 0 < lexp_coef f < 1.
Proof.
  intros H. unfold lexp_coef. pose proof PI_RGT_0. assert (A : - f * 2 * PI < 0) by nra. pose proof (exp_increasing _ _ A) as B. rewrite exp_0 in B. pose proof (exp_pos (- f * 2 * PI)). lra.
Qed.
