(** Proofs about the DFT version of the Hilbert transform. *)
From Coq Require Import ZArith Lia Field.
From Verif Require Import Base BaseLemmas RField DftSys Fourier_Model Fourier_Spec Fourier_Proofs Fourier_Proofs2 Fourier_Proofs3 Hil_Model.
Local Open Scope cring_scope.
Section T.
Context (F : dsys).
Add Ring Tr : (cth F).
Add Field Tf : (fth F).
Lemma sum_scal_div n c d (f : nat -> F) : sum n (fun k => c * f k) / d = c * (sum n f / d).
Proof. rewrite sum_mul_l, !div_as_mul. ring. Qed.
(** half of the spectrum of a real signal, and its conjugate *)
Lemma half_sum (U : nat -> F) n : (0 < n)%nat -> (forall k, (0 < k < n)%nat -> conj (U k) = U (n - k)%nat) -> conj (U 0%nat) = U 0%nat ->
  sum (n - n / 2) U + conj (sum (n - n / 2) U) = sum n U + U 0%nat - (if (n mod 2 =? 0)%nat then U (n / 2)%nat else 0).
Proof.
  intros Hn HU H0. pose proof (Nat.div_mod n 2 ltac:(lia)) as D. pose proof (Nat.mod_upper_bound n 2 ltac:(lia)) as Mb. set (q := (n / 2)%nat) in *. clearbody q.
  rewrite conj_sum. destruct (Nat.eqb_spec (n mod 2) 0) as [E|E].
  - assert (Hq : (0 < q)%nat) by lia. replace (sum n U) with (sum q U + (U q + sum (q - 1) (fun i => U (q + S i)%nat))).
    + replace (n - q)%nat with q by lia. replace (sum q (fun i => conj (U i))) with (U 0%nat + sum (q - 1) (fun i => U (n - S i)%nat)).
      * rewrite (sum_rev F (q - 1) (fun i => U (n - S i)%nat)). rewrite (sum_ext F (q - 1) _ (fun i => U (q + S i)%nat)) by (intros i Hi; f_equal; lia). ring.
      * replace q with (S (q - 1)) at 2 by lia. rewrite sum_S_l, H0. f_equal. apply sum_ext. intros i Hi. symmetry. apply HU. lia.
    + replace n with (q + S (q - 1))%nat by lia. rewrite sum_split, sum_S_l, Nat.add_0_r. reflexivity.
  - replace (n - q)%nat with (S q) by lia. replace (sum n U) with (sum (S q) U + sum q (fun i => U (S q + i)%nat)).
    + rewrite (sum_S_l _ q (fun i => conj (U i))), H0. rewrite (sum_ext F q _ (fun i => U (n - S i)%nat)) by (intros i Hi; apply HU; lia). rewrite (sum_rev F q (fun i => U (n - S i)%nat)).
      rewrite (sum_ext F q _ (fun i => U (S q + i)%nat)) by (intros i Hi; f_equal; lia). ring.
    + replace n with (S q + q)%nat by lia. rewrite sum_split. reflexivity.
Qed.
Lemma tfd_ok junk (x : list F) : (0 < length x <= 2 ^ 29)%nat -> is_real x ->
  let n := length x in exists y, hilbert_tfd junk x = Ok y /\ length y = n /\
  (forall k, (k < n)%nat -> samp (DFT 1 y) k = if (k <? n - n / 2)%nat then cnat 2 * samp (DFT 1 x) k else 0) /\
  forall t, (t < n)%nat -> re_only (samp y t) = samp x t + sum n (samp x) / cnat n - (if (n mod 2 =? 0)%nat then sum n (fun j => samp x j * wz n (Z.of_nat (n / 2) * (Z.of_nat j - Z.of_nat t))) / cnat n else 0).
Proof.
  intros Hn Hx n. unfold hilbert_tfd. rewrite rfft_ok by assumption. cbn [bind]. fold n. pose proof (Nat.div_lt n 2 ltac:(unfold n; lia) ltac:(lia)) as Hq.
  set (q := (n / 2)%nat) in *. set (X := DFT 1 x). assert (LX : length X = n) by apply DFT_length. set (Y := map _ _).
  assert (LY : length Y = n) by (unfold Y; rewrite map_length, app_length, firstn_length, repeat_length; lia).
  assert (VY : forall k, (k < n)%nat -> samp Y k = if (k <? n - q)%nat then cnat 2 * samp X k else 0).
  { intros k Hk. unfold Y. rewrite samp_map by (rewrite app_length, firstn_length, repeat_length; lia). rewrite samp_app, firstn_length. replace (Nat.min (n - q) (length X)) with (n - q)%nat by lia.
    destruct (Nat.ltb_spec k (n - q)); [fold (vhead (n - q) X); rewrite vhead_nth by assumption; reflexivity|]. rewrite samp_repeat0. ring. }
  rewrite ifft_ok by lia. exists (DFT (-1) Y). split; [reflexivity|]. split; [rewrite DFT_length; exact LY|]. split.
  - intros k Hk. pose proof (DFT_inverse F (-1) Y (or_intror eq_refl)) as W. change (- (-1))%Z with 1%Z in W. rewrite W. apply VY. exact Hk.
  - intros t Ht. assert (Hn0 : (0 < n)%nat) by lia. rewrite DFT_nth by lia. unfold dft. rewrite LY. set (U := fun k => samp X k * wz n (-1 * Z.of_nat k * Z.of_nat t)).
    assert (Sy : sum n (fun j => samp Y j * wz n (-1 * Z.of_nat j * Z.of_nat t)) = cnat 2 * sum (n - q) U).
    { replace n with (n - q + q)%nat at 1 by lia. rewrite sum_split. rewrite (sum_zero F q), <- sum_mul_l.
      - rewrite (sum_ext F (n - q) _ (fun k => cnat 2 * U k)); [ring|]. intros k Hk. rewrite VY by lia. destruct (Nat.ltb_spec k (n - q)); [|lia]. unfold U. ring.
      - intros i Hi. rewrite VY by lia. destruct (Nat.ltb_spec (n - q + i) (n - q)); [lia|ring]. }
    rewrite Sy. assert (Xc : forall k, (0 < k < n)%nat -> conj (samp X k) = samp X (n - k)).
    { intros k Hk. unfold X. rewrite (samp_DFT F 1 x k (Z.of_nat k) 0) by (fold n; lia). rewrite (samp_DFT F 1 x (n - k) (- Z.of_nat k) 1) by (fold n; lia). rewrite <- (dftZ_real F x (- Z.of_nat k)) by assumption. rewrite Z.opp_involutive. reflexivity. }
    assert (X0 : samp X 0 = sum n (samp x) / rt n).
    { unfold X. rewrite DFT_nth by (fold n; lia). unfold dft. fold n. f_equal. apply sum_ext. intros j _. rewrite Z.mul_0_r, wz_0 by exact Hn0. ring. }
    assert (X0r : conj (samp X 0) = samp X 0). { rewrite X0, conj_div, conj_sum, rt_conj by (apply rt_ne; exact Hn0). f_equal. apply sum_ext. intros j _. apply Hx. }
    assert (U0 : U 0%nat = samp X 0) by (unfold U; rewrite Z.mul_0_r, Z.mul_0_l, wz_0 by exact Hn0; ring).
    pose proof (half_sum U n Hn0) as HS. fold q in HS. rewrite U0 in HS. assert (R : rt n <> 0 :> F) by (apply rt_ne; exact Hn0). assert (T2 : cnat 2 <> 0 :> F) by (apply cnat_ne; lia).
    unfold re_only. rewrite conj_div, rt_conj, conj_mul by exact R. replace (conj (cnat 2)) with (cnat 2 : F) by (cbn [cnat]; rewrite !conj_add, conj_0, conj_1; reflexivity).
    replace ((cnat 2 * sum (n - q) U / rt n + cnat 2 * conj (sum (n - q) U) / rt n) / cnat 2) with ((sum (n - q) U + conj (sum (n - q) U)) / rt n) by (field; split; assumption).
    rewrite HS; clear HS.
    + assert (Xt : samp x t = sum n U / rt n).
      { rewrite (samp_DFTinv F x t (Z.of_nat t) 0) by (fold n; lia). unfold dftZ. fold X. rewrite LX. reflexivity. }
      rewrite Xt, X0. assert (Rn : cnat n = rt n * rt n :> F) by (symmetry; apply rt_sq). rewrite Rn. destruct (n mod 2 =? 0)%nat.
      * assert (Uq : U q * rt n = sum n (fun j => samp x j * wz n (Z.of_nat q * (Z.of_nat j - Z.of_nat t)))).
        { unfold U, X. rewrite DFT_nth by (fold n; lia). unfold dft. fold n. rewrite div_as_mul. match goal with |- ?s * finv (rt n) * ?w * rt n = _ => replace (s * finv (rt n) * w * rt n) with (w * s) by (field; exact R) end.
          rewrite <- sum_mul_l. apply sum_ext. intros j _. replace (Z.of_nat q * (Z.of_nat j - Z.of_nat t))%Z with (1 * Z.of_nat j * Z.of_nat q + -1 * Z.of_nat q * Z.of_nat t)%Z by ring. rewrite wz_add by exact Hn0. ring. }
        rewrite <- Uq. field. exact R.
      * field. exact R.
    + intros k Hk. unfold U. rewrite conj_mul, Xc, conj_wz by assumption. f_equal. apply wz_mod. replace (- (-1 * Z.of_nat k * Z.of_nat t))%Z with (-1 * Z.of_nat (n - k) * Z.of_nat t + Z.of_nat t * Z.of_nat n)%Z by (rewrite Nat2Z.inj_sub by lia; ring). apply Z.mod_add. lia.
    + exact X0r.
Qed.
(** a constant signal of any length *)
Lemma tfd_const junk n : (0 < n <= 2 ^ 29)%nat -> exists y, hilbert_tfd junk (repeat (1 : F) n) = Ok y /\ length y = n /\ forall t, (t < n)%nat -> re_only (samp y t) = cnat 2.
Proof.
  intros Hn. assert (L : length (repeat (1 : F) n) = n) by apply repeat_length. assert (V : forall j, (j < n)%nat -> samp (repeat (1 : F) n) j = 1).
  { intros j Hj. unfold samp. rewrite (nth_indep _ 0 1) by lia. apply nth_repeat. }
  destruct (tfd_ok junk (repeat (1 : F) n)) as (y & E & Ly & _ & R); [lia| |].
  { intros i. destruct (Nat.lt_ge_cases i n); [rewrite V by assumption; apply conj_1|]. rewrite samp_over by lia. apply conj_0. }
  rewrite L in *. exists y. split; [exact E|]. split; [exact Ly|]. intros t Ht. rewrite R, V by exact Ht. assert (Cn : cnat n <> 0 :> F) by (apply cnat_ne; lia).
  replace (sum n (samp (repeat 1 n))) with (cnat n : F). 2: { rewrite (sum_ext F n _ (fun _ => 1)) by exact V. symmetry. clear. induction n as [|n IH]; [reflexivity|]. cbn [sum cnat]. rewrite IH. ring. }
  assert (Z0 : (if (n mod 2 =? 0)%nat then sum n (fun j => samp (repeat (1 : F) n) j * wz n (Z.of_nat (n / 2) * (Z.of_nat j - Z.of_nat t))) / cnat n else 0) = 0).
  { destruct (Nat.eqb_spec (n mod 2) 0) as [E2|]; [|reflexivity]. pose proof (Nat.div_mod n 2 ltac:(lia)) as D. set (q := (n / 2)%nat) in *. rewrite (sum_ext F n _ (fun j => wz n (- (Z.of_nat q * Z.of_nat t)) * wz n (Z.of_nat q * Z.of_nat j))).
    - rewrite sum_mul_l, ortho by lia. destruct (Z.eqb_spec (Z.of_nat q mod Z.of_nat n) 0) as [C|C]; [rewrite Z.mod_small in C by lia; lia|]. field. exact Cn.
    - intros j Hj. rewrite V by exact Hj. rewrite <- wz_add by lia. replace (- (Z.of_nat q * Z.of_nat t) + Z.of_nat q * Z.of_nat j)%Z with (Z.of_nat q * (Z.of_nat j - Z.of_nat t))%Z by ring. ring. }
  rewrite Z0. cbn [cnat]. field. exact Cn.
Qed.
End T.
