(** Gaussian pulse shaping filters. *)
From Coq Require Import Reals Lra Lia ZArith String.
From Verif Require Import Base BaseLemmas RField Vec_Model Filters_Model Filters_Spec Special_Proofs Design_Model Design_Proofs2 Win_Spec Rif_Model Rif_Spec Rif_Proofs Gauss_Proofs.
Local Open Scope R_scope.

(** The Gaussian filter: n positive taps of sum 1, the samples of the bell exp(-t^2 / (2 sigma^2)) centred on the middle up to a constant factor; symmetric, increasing up to the middle. *)
Theorem C60_gaussian : forall n sigma, (1 <= n)%nat -> sigma <> 0 ->
  let h := design_rif_gaussien n sigma in
  List.length h = n /\ dc_gain h = 1 /\ Win_Spec.symmetric h /\ rises_to_middle h /\
  exists c, 0 < c /\ forall i, (i < n)%nat -> nth i h 0 = c * exp (- ((INR i - (INR n - 1) / 2) * (INR i - (INR n - 1) / 2)) / (2 * (sigma * sigma))).
Proof.
  intros n sg Hn Hs h. destruct (gen_ok n sg 0 Hn) as (c & Pc & L & G & V). fold (design_rif_gaussien n sg) in L, G, V. fold h in L, G, V. split; [exact L|]. split; [exact G|].
  assert (V' : forall i, (i < n)%nat -> nth i h 0 = c * gbell sg (INR i - (INR n - 1) / 2)) by (intros i Hi; rewrite V by exact Hi; rewrite Rplus_0_r; reflexivity).
  split; [|split].
  - intros i Hi. rewrite L in *. rewrite !V' by lia. f_equal. rewrite <- gbell_even. f_equal. rewrite !minus_INR by lia. cbn [INR]. lra.
  - intros i j Hij Hj. rewrite L in *. rewrite !V' by lia. apply Rmult_le_compat_l; [lra|]. apply gbell_le; [exact Hs|].
    assert (H1 : INR i <= INR j) by (apply le_INR; lia). assert (H2 : 2 * INR j <= INR n) by (rewrite <- (mult_INR 2); apply le_INR; pose proof (Nat.div_mod n 2 ltac:(lia)); lia).
    destruct (Nat.eq_dec i j) as [-> |N]; [apply Rle_refl|]. assert (H3 : INR i + 1 <= INR j) by (rewrite <- S_INR; apply le_INR; lia). unfold Rabs. destruct (Rcase_abs _); destruct (Rcase_abs _); lra.
  - exists c. split; [exact Pc|]. intros i Hi. rewrite V' by exact Hi. unfold gbell. do 3 f_equal. ring.
Qed.
Print Assumptions C60_gaussian.
(** The parameter BT: the transfer function exp(-2 (pi sigma f)^2) of the Gaussian of standard deviation sigma (in symbols) is 1/sqrt 2 (-3 dB) at the frequency BT. *)
Theorem C60_bt_is_3dB : forall BT, 0 < BT -> 0 < BT_vers_sigma BT /\ exp (- 2 * (PI * BT_vers_sigma BT * BT) ^ 2) = 1 / sqrt 2.
Proof.
  intros BT H. pose proof PI_RGT_0 as PP. assert (L2 : 0 < ln 2) by (rewrite <- ln_1; apply ln_increasing; lra). assert (S2 : 0 < sqrt (ln 2)) by (apply sqrt_lt_R0; exact L2). unfold BT_vers_sigma. split; [apply Rdiv_lt_0_compat; [exact S2|apply Rmult_lt_0_compat; lra]|].
  replace (- 2 * (PI * (sqrt (ln 2) / (2 * BT * PI)) * BT) ^ 2) with (- (/ 2 * (sqrt (ln 2) * sqrt (ln 2)))) by (field; lra). rewrite sqrt_sqrt by lra. rewrite exp_Ropp. unfold Rdiv. rewrite Rmult_1_l. f_equal.
  change (exp (/ 2 * ln 2)) with (Rpower 2 (/ 2)). apply Rpower_sqrt. lra.
Qed.
Print Assumptions C60_bt_is_3dB.
(** The telecom filter: n positive taps of sum 1; away from the osf - 1 first taps, they are, up to a constant, the bell averaged over one symbol, hence symmetric. *)
Theorem C60_gaussian_telecom : forall n BT osf, (1 <= n)%nat -> (1 <= osf)%nat -> 0 < BT ->
  exists h c, design_rif_gaussien_telecom n BT osf = Ok h /\ List.length h = n /\ dc_gain h = 1 /\ (forall i, (i < n)%nat -> 0 < nth i h 0) /\ 0 < c /\
  (forall i, (osf - 1 <= i < n)%nat -> nth i h 0 =
     c * sum (K := Rring) osf (fun k => let t := (INR i - INR k + (INR osf - 1) / 2 - (INR n - 1) / 2) / (INR osf * BT_vers_sigma BT) in exp (- (t * t / 2)))) /\
  (forall i, (osf - 1 <= i <= n - osf)%nat -> nth i h 0 = nth (n - 1 - i) h 0).
Proof.
  intros n BT osf Hn Ho HB. destruct (C60_bt_is_3dB BT HB) as [Hs _]. destruct (telecom_ok n BT osf Hn Ho) as (h & c & E & Pc & L & G & V). exists h, c. assert (1 <= INR osf) by (apply (le_INR 1); lia).
  split; [exact E|]. split; [exact L|]. split; [exact G|]. assert (V' : forall i, (osf - 1 <= i < n)%nat -> nth i h 0 = c * rsum osf (fun k => gbell (BT_vers_sigma BT * INR osf) (INR i - INR k - (INR n - 1) / 2 + (INR osf - 1) / 2))).
  { intros i Hi. rewrite V by lia. f_equal. apply rsum_ext. intros k Hk. destruct (Nat.leb_spec k i); [reflexivity|lia]. }
  split; [|split; [exact Pc|split]].
  - intros i Hi. rewrite V by exact Hi. apply Rmult_lt_0_compat; [exact Pc|]. destruct osf as [|o]; [lia|]. rewrite rsum_first. apply Rplus_lt_le_0_compat; [apply gbell_pos|]. apply rsum_nonneg. intros k _. destruct (Nat.leb (S k) i); [left; apply gbell_pos|apply Rle_refl].
  - intros i Hi. rewrite V' by exact Hi. f_equal. apply rsum_ext. intros k Hk. cbv zeta. unfold gbell. f_equal. field. split; lra.
  - intros i Hi. rewrite !V' by lia. f_equal. rewrite (sum_rev Rring osf). apply rsum_ext. intros k Hk. rewrite <- gbell_even. f_equal. rewrite !minus_INR by lia. cbn [INR]. lra.
Qed.
Print Assumptions C60_gaussian_telecom.
(** But the first osf - 1 taps are cut: as soon as osf >= 2 the filter is never symmetric, its first tap is smaller than the last one. *)
Theorem C60_telecom_symmetric_refuted : forall n BT osf, (2 <= osf <= n)%nat -> 0 < BT ->
  exists h, design_rif_gaussien_telecom n BT osf = Ok h /\ List.length h = n /\ nth 0 h 0 < nth (n - 1) h 0 /\ ~ Win_Spec.symmetric h.
Proof.
  intros n BT osf Ho HB. destruct (telecom_ok n BT osf ltac:(lia) ltac:(lia)) as (h & c & E & Pc & L & G & V). exists h. split; [exact E|]. split; [exact L|].
  assert (Lt : nth 0 h 0 < nth (n - 1) h 0).
  { rewrite !V by lia. apply Rmult_lt_compat_l; [exact Pc|]. destruct osf as [|[|o]]; [lia|lia|]. set (g := gbell _). rewrite rsum_first. rewrite (rsum_ext (S o) _ (fun _ => 0)) by (intros; reflexivity). rewrite rsum_0, Rplus_0_r.
    rewrite rsum_S. change (cadd (c := Rring)) with Rplus. rewrite (rsum_ext (S o) _ (fun k => g (INR (n - 1) - INR k - (INR n - 1) / 2 + (INR (S (S o)) - 1) / 2))).
    2: { intros k Hk. destruct (Nat.leb_spec k (n - 1)); [reflexivity|lia]. }
    change (0 <=? 0)%nat with true. destruct (Nat.leb_spec (S o) (n - 1)); [|lia]. cbv iota. replace (g (INR (n - 1) - INR (S o) - (INR n - 1) / 2 + (INR (S (S o)) - 1) / 2)) with (g (INR 0 - INR 0 - (INR n - 1) / 2 + (INR (S (S o)) - 1) / 2)).
    - assert (0 < rsum (S o) (fun k => g (INR (n - 1) - INR k - (INR n - 1) / 2 + (INR (S (S o)) - 1) / 2))) by (apply rsum_pos; [lia|]; intros; apply gbell_pos). match goal with |- ?a < ?b => apply (Rle_lt_trans _ (0 + a)); [lra|] end. apply Rplus_lt_compat_r. exact H0.
    - unfold g. rewrite <- gbell_even. f_equal. rewrite minus_INR by lia. rewrite !S_INR. cbn [INR]. lra. }
  split; [exact Lt|]. intros Sy. specialize (Sy 0%nat ltac:(lia)). rewrite L, Nat.sub_0_r in Sy. lra.
Qed.
Print Assumptions C60_telecom_symmetric_refuted.
Example C60_gaussian_example : exists h, design_rif_gaussien_telecom 15 (3 / 10) 4 = Ok h /\ nth 5 h 0 = nth 9 h 0 /\ dc_gain h = 1.
Proof. destruct (C60_gaussian_telecom 15 (3 / 10) 4 ltac:(lia) ltac:(lia) ltac:(lra)) as (h & c & E & L & G & _ & _ & _ & Sy). exists h. split; [exact E|]. split; [apply (Sy 5%nat); lia|exact G]. Qed.
