(** Proofs about the frequency sampling design. *)
From Coq Require Import Reals Lra Lia ZArith Field.
From Verif Require Import Base BaseLemmas RField DftSys ComplexSys Fourier_Model Fourier_Spec Fourier_Proofs Fourier_Proofs2 Fourier_Proofs3 Filters_Proofs.
Local Open Scope cring_scope.
Section E.
Context (F : dsys).
Add Ring Er : (cth F).
Add Field Ef : (fth F).
(** transform of an even spectrum *)
Definition even_list (H : list F) : Prop := forall j, (0 < j < length H)%nat -> samp H (length H - j) = samp H j.
Lemma even_dftZ (H : list F) k : (0 < length H)%nat -> even_list H -> dftZ F 1 H k = dftZ F (-1) H k.
Proof.
  intros Hn Hv. unfold dftZ. f_equal. set (n := length H) in *. rewrite <- (sum_neg F n (fun j => samp H j * wz n (-1 * Z.of_nat j * k))). apply sum_ext. intros j Hj. destruct j as [|j].
  - rewrite Nat.sub_0_r, Nat.mod_same by lia. f_equal.
  - rewrite (Nat.mod_small (n - S j)) by lia. rewrite <- (Hv (S j)) by (fold n; lia). fold n. f_equal. apply wz_mod. replace (1 * Z.of_nat (S j) * k)%Z with (-1 * Z.of_nat (n - S j) * k + k * Z.of_nat n)%Z by (rewrite Nat2Z.inj_sub by lia; ring). apply Z.mod_add. lia.
Qed.
Lemma even_dftZ_opp (H : list F) k : (0 < length H)%nat -> even_list H -> dftZ F (-1) H (- k) = dftZ F (-1) H k.
Proof. intros Hn Hv. rewrite dftZ_inv. rewrite Z.opp_involutive. apply even_dftZ; assumption. Qed.
Lemma even_real (H : list F) k : (0 < length H)%nat -> even_list H -> is_real H -> conj (dftZ F (-1) H k) = dftZ F (-1) H k.
Proof. intros Hn Hv Hr. rewrite conj_dftZ by exact Hn. rewrite <- even_dftZ by assumption. unfold dftZ. f_equal. apply sum_ext. intros j _. rewrite Hr. do 2 f_equal. Qed.
(** forced symmetry, odd length *)
Lemma csym_odd (X : list F) q : (1 <= q)%nat -> length X = (2 * q + 1)%nat -> is_real X -> exists H, csym X = Ok H /\ length H = (2 * q + 1)%nat /\ even_list H /\ is_real H /\ forall i, (i <= q)%nat -> samp H i = samp X i.
Proof.
  intros Hq L Hr. unfold csym. rewrite L. replace ((2 * q + 1) / 2)%nat with q by (apply (Nat.div_unique _ 2 q 1); lia). replace ((2 * q + 1) mod 2)%nat with 1%nat by (apply (Nat.mod_unique _ 2 q 1); lia). cbn [Nat.eqb].
  rewrite (vget_ok X 0 0) by lia. cbn [bind]. fold (samp X 0). rewrite re_only_real by apply Hr. set (X1 := upd X 0 (samp X 0)). assert (V1 : forall i, samp X1 i = samp X i).
  { intros i. unfold samp, X1. rewrite nth_upd. destruct (Nat.eqb_spec 0 i) as [<- |]; [destruct (Nat.ltb_spec 0 (length X)); [reflexivity|lia]|reflexivity]. }
  assert (L1 : length X1 = (2 * q + 1)%nat) by (unfold X1; rewrite upd_length; exact L). rewrite (vget_ok X1 q 0) by lia. cbn [bind]. rewrite vset_ok by lia. cbn [bind]. fold (samp X1 q). rewrite V1, Hr.
  set (X2 := upd X1 (q + 1) (samp X q)). assert (L2 : length X2 = (2 * q + 1)%nat) by (unfold X2; rewrite upd_length; exact L1).
  assert (V2 : forall i, samp X2 i = if (i =? q + 1)%nat then samp X q else samp X i).
  { intros i. unfold samp at 1, X2. rewrite nth_upd. rewrite (Nat.eqb_sym i). destruct (Nat.eqb_spec (q + 1) i) as [<- |]; [destruct (Nat.ltb_spec (q + 1) (length X1)); [reflexivity|lia]|]. apply V1. }
  eexists. split; [reflexivity|]. set (Hh := firstn _ X2 ++ _). set (B := map conj (rev (firstn (q - 1) (skipn 1 X2)))). assert (LB : length B = (q - 1)%nat) by (unfold B; rewrite map_length, rev_length, firstn_length, skipn_length; lia).
  assert (VB : forall i, (i < q - 1)%nat -> samp B i = samp X (q - 1 - i)).
  { intros i Hi. unfold B. rewrite samp_map by (rewrite rev_length, firstn_length, skipn_length; lia). rewrite rev_nth0 by (rewrite firstn_length, skipn_length; lia). rewrite firstn_length, skipn_length. replace (Nat.min (q - 1) (length X2 - 1)) with (q - 1)%nat by lia.
    fold (vhead (q - 1) (skipn 1 X2)). rewrite vhead_nth by lia. unfold samp at 1. rewrite Filters_Proofs.nth_skipn'. fold (samp X2 (1 + (q - 1 - 1 - i))). rewrite V2. destruct (Nat.eqb_spec (1 + (q - 1 - 1 - i)) (q + 1)); [lia|]. rewrite Hr. f_equal. lia. }
  assert (VH : forall i, samp Hh i = if (i <=? q)%nat then samp X i else if (i <? 2 * q + 1)%nat then samp X (2 * q + 1 - i) else 0).
  { intros i. unfold Hh. rewrite samp_app, firstn_length. replace (Nat.min (2 * q + 1 - (q - 1)) (length X2)) with (q + 2)%nat by lia. fold B. replace (2 * q + 1 - (q - 1))%nat with (q + 2)%nat by lia. destruct (Nat.ltb_spec i (q + 2)).
    - fold (vhead (q + 2) X2). rewrite vhead_nth by assumption. rewrite V2. destruct (Nat.eqb_spec i (q + 1)), (Nat.leb_spec i q); try lia; [|reflexivity]. subst i. destruct (Nat.ltb_spec (q + 1) (2 * q + 1)); [|lia]. f_equal. lia.
    - destruct (Nat.leb_spec i q); [lia|]. destruct (Nat.ltb_spec i (2 * q + 1)).
      + rewrite VB by lia. f_equal. lia.
      + apply samp_over. lia. }
  assert (LH : length Hh = (2 * q + 1)%nat) by (unfold Hh; fold B; rewrite app_length, firstn_length, LB; lia). split; [exact LH|]. split; [|split].
  - intros j Hj. rewrite LH in *. rewrite !VH. destruct (Nat.leb_spec j q), (Nat.leb_spec (2 * q + 1 - j) q); try lia.
    + destruct (Nat.ltb_spec (2 * q + 1 - j) (2 * q + 1)); [|lia]. f_equal. lia.
    + destruct (Nat.ltb_spec j (2 * q + 1)); [reflexivity|lia].
  - intros i. rewrite VH. destruct (i <=? q)%nat; [apply Hr|]. destruct (i <? 2 * q + 1)%nat; [apply Hr|apply conj_0].
  - intros i Hi. rewrite VH. destruct (Nat.leb_spec i q); [reflexivity|lia].
Qed.
(** the filter: its values at the instants i - q *)
Lemma shift_ifft junk (H : list F) q : length H = (2 * q + 1)%nat -> (2 * q + 1 <= 2 ^ 29)%nat -> exists hi, ifft junk H = Ok hi /\ length (fftshift hi) = (2 * q + 1)%nat /\
  (forall i, (i < 2 * q + 1)%nat -> samp (fftshift hi) i = dftZ F (-1) H (Z.of_nat i - Z.of_nat q)) /\
  forall l, (l < 2 * q + 1)%nat -> sum (2 * q + 1) (fun i => samp (fftshift hi) i * wz (2 * q + 1) (Z.of_nat l * (Z.of_nat i - Z.of_nat q))) = rt (2 * q + 1) * samp H l.
Proof.
  intros L B. rewrite ifft_ok by lia. eexists. split; [reflexivity|]. assert (LD : length (DFT (-1) H) = (2 * q + 1)%nat) by (rewrite DFT_length; exact L). split; [rewrite fftshift_length; exact LD|].
  assert (D : ((2 * q + 1 + 1) / 2 = q + 1)%nat) by (symmetry; apply (Nat.div_unique _ 2 (q + 1) 0); lia).
  assert (V : forall i, (i < 2 * q + 1)%nat -> samp (fftshift (DFT (-1) H)) i = samp (DFT (-1) H) ((i + (q + 1)) mod (2 * q + 1))) by (intros i Hi; rewrite fftshift_ok by lia; rewrite LD, D; reflexivity). split.
  - intros i Hi. rewrite V by exact Hi. pose proof (Nat.div_mod (i + (q + 1)) (2 * q + 1) ltac:(lia)). pose proof (Nat.mod_upper_bound (i + (q + 1)) (2 * q + 1) ltac:(lia)). apply (samp_DFT F _ _ _ _ (1 - Z.of_nat ((i + (q + 1)) / (2 * q + 1)))); [lia|]. rewrite L. nia.
  - intros l Hl. rewrite (sum_ext F _ _ (fun i => (fun t => samp (DFT (-1) H) t * wz (2 * q + 1) (Z.of_nat l * Z.of_nat t)) ((i + (q + 1)) mod (2 * q + 1))%nat)).
    + pose proof (sum_shift F (2 * q + 1) (q + 1) (fun t => samp (DFT (-1) H) t * wz (2 * q + 1) (Z.of_nat l * Z.of_nat t))) as SS. cbv beta in SS |- *. rewrite SS. pose proof (DFT_inverse F (-1) H (or_intror eq_refl)) as W. change (- (-1))%Z with 1%Z in W. assert (E : samp (DFT 1 (DFT (-1) H)) l = samp H l) by (rewrite W; reflexivity). rewrite DFT_nth in E by lia. unfold dft in E. rewrite LD in E. rewrite <- E.
      rewrite div_as_mul. match goal with |- ?s = rt ?n * (?t * finv (rt ?n)) => replace (rt n * (t * finv (rt n))) with t by (field; apply rt_ne; lia) end. apply sum_ext. intros j _. f_equal. f_equal. ring.
    + intros i Hi. rewrite V by exact Hi. f_equal. cbv beta. apply wz_mod. rewrite Nat2Z.inj_mod. rewrite Zmult_mod_idemp_r. rewrite <- (Z.mod_add (Z.of_nat l * (Z.of_nat i - Z.of_nat q)) (Z.of_nat l)) by lia. f_equal. lia.
Qed.
End E.
