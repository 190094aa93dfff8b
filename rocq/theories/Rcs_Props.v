(** Pulse shaping filters: raised cosine, square root raised cosine, Gaussian. *)
From Coq Require Import Reals Lra Lia ZArith String.
From Coquelicot Require Import Coquelicot.
From Verif Require Import Base BaseLemmas RField Vec_Model Vec_Proofs Filters_Model Filters_Spec Conv_Lemmas Sig_Proofs Special_Model Special_Proofs Design_Model Design_Spec Design_Proofs Design_Proofs2 Win_Model Win_Spec Win_Proofs Win_Proofs2 Rif_Model Rif_Spec Rif_Proofs Rif_Proofs2 Rcs_Spec Rcs_Proofs Rcs_Proofs2.
Local Open Scope R_scope.

(** ** C60: the pulses.  The unit of time is the symbol.  The pulse [cs] is the inverse Fourier transform of the raised cosine spectrum, [rcs] that of its
    square root: exactly, outside the neighbourhoods of half-width 1e-7 where the code replaces the quotient by its limit. *)
Theorem C60_cs_spectrum : forall beta t, 0 <= beta <= 1 -> (t = 0 \/ / 10 ^ 7 <= Rabs (PI * t)) -> (0 < beta -> away (1 / (2 * beta)) t) ->
  is_RInt (fun f => rc_spectrum beta f * cos (2 * PI * f * t)) (-1) 1 (cs t beta).
Proof.
  intros beta t Hb H0 Ha. pose proof PI_RGT_0 as PP. assert (G : forall u, 0 <= u -> (u = 0 \/ / 10 ^ 7 <= PI * u) -> (0 < beta -> away (1 / (2 * beta)) u) -> is_RInt (fun f => rc_spectrum beta f * cos (2 * PI * f * u)) (-1) 1 (cs u beta)).
  { intros u Hu A B. replace (cs u beta) with (2 * (cs u beta / 2)) by field. apply (is_RInt_ext (fun f => rc_spectrum beta f * cos (2 * PI * u * f))); [intros x _; do 2 f_equal; ring|]. apply even_int.
    - intros x. rewrite rc_even. replace (2 * PI * u * - x) with (- (2 * PI * u * x)) by ring. rewrite cos_neg. reflexivity.
    - destruct (Req_dec beta 0) as [E|N]; [clear B Ha; rewrite E; exact (proj1 (zero_half u Hu A))|]. apply cs_half; [lra|exact Hu|exact A|apply B; lra]. }
  destruct (Rle_dec 0 t) as [P|P].
  - apply G; [exact P| |exact Ha]. destruct H0 as [H0|H0]; [left; exact H0|right]. rewrite Rabs_pos_eq in H0 by nra. exact H0.
  - rewrite <- cs_even. apply (is_RInt_ext (fun f => rc_spectrum beta f * cos (2 * PI * f * - t))); [intros x _; replace (2 * PI * x * - t) with (- (2 * PI * x * t)) by ring; rewrite cos_neg; reflexivity|]. apply G; [lra| |].
    + right. destruct H0 as [H0|H0]; [lra|]. rewrite Rabs_left in H0 by nra. lra.
    + intros B. unfold away. rewrite Rabs_Ropp. apply Ha. exact B.
Qed.
Print Assumptions C60_cs_spectrum.
Theorem C60_rcs_spectrum : forall beta t, 0 <= beta <= 1 -> (beta = 0 -> t = 0 \/ / 10 ^ 7 <= Rabs (PI * t)) -> (0 < beta -> away (1 / (4 * beta)) t) ->
  is_RInt (fun f => sqrt (rc_spectrum beta f) * cos (2 * PI * f * t)) (-1) 1 (rcs t beta).
Proof.
  intros beta t Hb H0 Ha. pose proof PI_RGT_0 as PP. assert (G : forall u, 0 <= u -> (beta = 0 -> u = 0 \/ / 10 ^ 7 <= PI * u) -> (0 < beta -> away (1 / (4 * beta)) u) -> is_RInt (fun f => sqrt (rc_spectrum beta f) * cos (2 * PI * f * u)) (-1) 1 (rcs u beta)).
  { intros u Hu A B. replace (rcs u beta) with (2 * (rcs u beta / 2)) by field. apply (is_RInt_ext (fun f => sqrt (rc_spectrum beta f) * cos (2 * PI * u * f))); [intros x _; do 2 f_equal; ring|]. apply even_int.
    - intros x. rewrite rc_even. replace (2 * PI * u * - x) with (- (2 * PI * u * x)) by ring. rewrite cos_neg. reflexivity.
    - destruct (Req_dec beta 0) as [E|N]; [specialize (A E); clear B Ha; rewrite E; exact (proj2 (zero_half u Hu A))|]. apply rcs_half; [lra|exact Hu|apply B; lra]. }
  destruct (Rle_dec 0 t) as [P|P].
  - apply G; [exact P| |exact Ha]. intros B. destruct (H0 B) as [H|H]; [left; exact H|right]. rewrite Rabs_pos_eq in H by nra. exact H.
  - rewrite <- rcs_even. apply (is_RInt_ext (fun f => sqrt (rc_spectrum beta f) * cos (2 * PI * f * - t))); [intros x _; replace (2 * PI * x * - t) with (- (2 * PI * x * t)) by ring; rewrite cos_neg; reflexivity|]. apply G; [lra| |].
    + intros B. right. destruct (H0 B) as [H|H]; [lra|]. rewrite Rabs_left in H by nra. lra.
    + intros B. unfold away. rewrite Rabs_Ropp. apply Ha. exact B.
Qed.
Print Assumptions C60_rcs_spectrum.

Lemma cs_design_nth n beta fc i : (i < n)%nat -> nth i (design_rif_cs n beta fc) 0 =
  cs (IZR (Z.of_nat i - Z.of_nat (n / 2)) * fc * 2) beta / somme (map (fun i => cs (IZR (Z.of_nat i - Z.quot (Z.of_nat n) 2) * fc * 2) beta) (seq 0 n)).
Proof.
  intros Hi. unfold design_rif_cs. rewrite vdiv_nth by (rewrite map_length, seq_length; exact Hi). rewrite (nth_map_seq (fun i => cs (IZR (Z.of_nat i - Z.quot (Z.of_nat n) 2) * fc * 2) beta)) by exact Hi. rewrite quot2. reflexivity.
Qed.
Lemma cs_design_length n beta fc : List.length (design_rif_cs n beta fc) = n.
Proof. unfold design_rif_cs. rewrite vdiv_length, map_length, seq_length. reflexivity. Qed.
(** No inter-symbol interference: with the cut-off 1 / (2 osf) (osf samples per symbol), the taps at the other multiples of the symbol period are exactly 0. *)
Theorem C60_zero_crossings : forall n beta osf i (j : Z), 0 <= beta <= 1 -> (1 <= osf)%nat -> (i < n)%nat -> j <> 0%Z -> Z.of_nat i = (Z.of_nat (n / 2) + j * Z.of_nat osf)%Z ->
  nth i (design_rif_cs n beta (1 / (2 * INR osf))) 0 = 0.
Proof.
  intros n beta osf i j Hb Ho Hi Hj E. rewrite cs_design_nth by exact Hi. assert (INR osf <> 0) by (apply not_0_INR; lia). replace (IZR (Z.of_nat i - Z.of_nat (n / 2)) * (1 / (2 * INR osf)) * 2) with (IZR j).
  - rewrite cs_integer by exact Hb. destruct (Z.eqb_spec j 0); [contradiction|]. unfold Rdiv. apply Rmult_0_l.
  - rewrite E. replace (Z.of_nat (n / 2) + j * Z.of_nat osf - Z.of_nat (n / 2))%Z with (j * Z.of_nat osf)%Z by ring. rewrite mult_IZR, <- INR_IZR_INZ. field. assumption.
Qed.
Print Assumptions C60_zero_crossings.
(** Hence, for every sequence of symbols x, each sent every osf samples, the sample of the shaped signal at the instant of the symbol s is this symbol
    times the middle tap: the other symbols do not contribute. *)
Theorem C60_no_interference : forall n beta osf (x : list R) s, 0 <= beta <= 1 -> (1 <= osf)%nat -> (1 <= n)%nat -> (s < List.length x)%nat ->
  let h := design_rif_cs n beta (1 / (2 * INR osf)) in
  sum (K := Rring) (List.length x) (fun k => nth k x 0 * sampZ (K := Rring) h (Z.of_nat (n / 2) + (Z.of_nat s - Z.of_nat k) * Z.of_nat osf)) = nth s x 0 * nth (n / 2) h 0.
Proof.
  intros n beta osf x s Hb Ho Hn Hs h. rewrite (rsum_ext _ _ (fun k => if (k =? s)%nat then nth k x 0 * nth (n / 2) h 0 else 0)).
  - rewrite (rsum_pick _ _ (fun k => nth k x 0 * nth (n / 2) h 0)). destruct (Nat.ltb_spec s (List.length x)); [reflexivity|lia].
  - intros k Hk. unfold sampZ. destruct (Nat.eqb_spec k s) as [-> |N].
    + rewrite Z.sub_diag, Z.mul_0_l, Z.add_0_r. destruct (Z.ltb_spec (Z.of_nat (n / 2)) 0); [lia|]. rewrite Nat2Z.id. reflexivity.
    + set (p := (Z.of_nat (n / 2) + (Z.of_nat s - Z.of_nat k) * Z.of_nat osf)%Z). destruct (Z.ltb_spec p 0) as [P|P]; [apply Rmult_0_r|]. unfold samp. destruct (Nat.lt_ge_cases (Z.to_nat p) n) as [Q|Q].
      * match goal with |- @eq _ (_ * ?v) _ => replace v with 0; [apply Rmult_0_r|] end. symmetry. apply (C60_zero_crossings n beta osf _ (Z.of_nat s - Z.of_nat k)); [exact Hb|exact Ho|exact Q|lia|unfold p in *; lia].
      * match goal with |- @eq _ (_ * ?v) _ => replace v with 0; [apply Rmult_0_r|] end. symmetry. apply nth_overflow. unfold h. rewrite cs_design_length. exact Q.
Qed.
Print Assumptions C60_no_interference.
(** The DC gain is 1 and the middle tap is positive, as soon as the band (1 + beta) fc fits in the sampled band [0, 1/2]; the filter is symmetric for odd n. *)
Theorem C60_cs_gain : forall n beta fc, (1 <= n)%nat -> 0 <= beta <= 1 -> / 10 ^ 7 <= 2 * fc -> fc * (1 + beta) <= 1 / 2 ->
  (0 < beta -> forall k, (1 <= k <= n / 2)%nat -> away (1 / (2 * beta)) (INR k * (2 * fc))) ->
  let h := design_rif_cs n beta fc in List.length h = n /\ dc_gain h = 1 /\ 0 < nth (n / 2) h 0 <= 1 /\ (Nat.odd n = true -> Win_Spec.symmetric h).
Proof.
  intros n beta fc Hn Hb He Hf Ha h. split; [apply cs_design_length|].
  assert (Sm : 1 <= somme (map (fun i => cs (IZR (Z.of_nat i - Z.quot (Z.of_nat n) 2) * fc * 2) beta) (seq 0 n))).
  { unfold somme. rewrite map_length, seq_length. set (g := fun k : Z => cs (IZR k * fc * 2) beta). rewrite (rsum_ext _ _ (fun i => g (Z.of_nat i - Z.of_nat (n / 2))%Z)).
    2: { intros i Hi. rewrite (nth_map_seq (fun i => cs (IZR (Z.of_nat i - Z.quot (Z.of_nat n) 2) * fc * 2) beta)) by exact Hi. rewrite quot2. reflexivity. }
    rewrite sum_centre; [|exact Hn|]. 2: { intros k. unfold g. rewrite opp_IZR. replace (- IZR k * fc * 2) with (- (IZR k * fc * 2)) by ring. apply cs_even. }
    assert (Pp : forall M, (M <= n / 2)%nat -> 0 <= rsum M (fun j => g (Z.of_nat j + 1)%Z)).
    { intros M HM. rewrite (rsum_ext _ _ (fun k => cs ((INR k + 1) * (2 * fc)) beta)). 2: { intros k _. unfold g. f_equal. rewrite plus_IZR, <- INR_IZR_INZ. ring. }
      apply cs_partial; [exact Hb|exact He|lra|]. intros B k Hk. rewrite <- S_INR. apply Ha; [exact B|lia]. }
    assert (g 0%Z = 1) by (unfold g; rewrite !Rmult_0_l; apply cs_0; exact Hb). pose proof (Pp (n / 2)%nat ltac:(lia)). assert (n - 1 - n / 2 <= n / 2)%nat by (pose proof (Nat.div_mod n 2 ltac:(lia)); pose proof (Nat.mod_upper_bound n 2 ltac:(lia)); lia). pose proof (Pp (n - 1 - n / 2)%nat ltac:(assumption)). lra. }
  split; [|split].
  - rewrite <- somme_dc. unfold h, design_rif_cs. rewrite somme_vdiv. field. lra.
  - unfold h. rewrite cs_design_nth by (apply Nat.div_lt; lia). rewrite Z.sub_diag, !Rmult_0_l, cs_0 by exact Hb. set (s := somme _) in *. split; [apply Rdiv_lt_0_compat; lra|]. unfold Rdiv. rewrite Rmult_1_l, <- Rinv_1. apply Rinv_le_contravar; lra.
  - intros O i Hi. unfold h in *. rewrite cs_design_length in *. rewrite !cs_design_nth by lia. f_equal. rewrite <- cs_even. f_equal. destruct (parity n) as (m & [-> | ->]); [rewrite even_2m in O; discriminate|]. replace ((2 * m + 1) / 2)%nat with m by (apply (Nat.div_unique _ 2 m 1); lia).
    rewrite !Ropp_mult_distr_l, <- opp_IZR. do 3 f_equal. lia.
Qed.
Print Assumptions C60_cs_gain.
(** Square root raised cosine: unit energy or unit DC gain, symmetric for odd n. *)
Theorem C60_rcs_design : forall n beta osf, (1 <= n)%nat -> 0 <= beta <= 1 -> 0 < osf ->
  (exists h, design_rif_rcs1 n beta osf true = Ok h /\ List.length h = n /\ sum (K := Rring) n (fun i => nth i h 0 * nth i h 0) = 1 /\ (Nat.odd n = true -> Win_Spec.symmetric h)) /\
  (/ 10 ^ 7 <= / osf -> 1 + beta <= osf -> (0 < beta -> forall k, (1 <= k <= n / 2)%nat -> away (1 / (4 * beta)) (INR k / osf)) ->
   exists h, design_rif_rcs1 n beta osf false = Ok h /\ design_rif_rcs n beta (1 / (2 * osf)) = Ok h /\ List.length h = n /\ dc_gain h = 1 /\ (Nat.odd n = true -> Win_Spec.symmetric h)).
Proof.
  intros n beta osf Hn Hb Ho. unfold design_rif_rcs, design_rif_rcs1. replace (1 / (2 * (1 / (2 * osf)))) with osf by (field; lra). destruct (Nat.eqb_spec n 0); [lia|]. pose proof PI_RGT_0 as PP.
  set (h := map (fun i => rcs ((INR i - IZR (Z.quot (Z.of_nat n) 2)) / osf) beta) (seq 0 n)). assert (Lh : List.length h = n) by (unfold h; rewrite map_length, seq_length; reflexivity).
  set (g := fun k : Z => rcs (IZR k / osf) beta). assert (Vh : forall i, (i < n)%nat -> nth i h 0 = g (Z.of_nat i - Z.of_nat (n / 2))%Z).
  { intros i Hi. unfold h. rewrite (nth_map_seq (fun i => rcs ((INR i - IZR (Z.quot (Z.of_nat n) 2)) / osf) beta)) by exact Hi. unfold g. rewrite quot2, minus_IZR, <- (INR_IZR_INZ i). reflexivity. }
  assert (Ge : forall k, g (- k)%Z = g k) by (intros k; unfold g; rewrite opp_IZR; replace (- IZR k / osf) with (- (IZR k / osf)) by (field; lra); apply rcs_even).
  assert (Hs : Nat.odd n = true -> Win_Spec.symmetric h).
  { intros O i Hi. rewrite Lh in *. rewrite !Vh by lia. rewrite <- Ge. f_equal. destruct (parity n) as (m & [-> | ->]); [rewrite even_2m in O; discriminate|]. replace ((2 * m + 1) / 2)%nat with m by (apply (Nat.div_unique _ 2 m 1); lia). lia. }
  assert (G0 : 0 < g 0%Z). { unfold g. replace (0 / osf) with 0 by (field; lra). unfold rcs. destruct (Req_EM_T 0 0); [|lra]. assert (0 <= 4 * beta / PI) by (apply Rdiv_le_0_compat; lra). destruct (Req_dec beta 1) as [-> |N]; [assert (0 < 4 * 1 / PI) by (apply Rdiv_lt_0_compat; lra); lra|lra]. }
  split.
  - eexists. split; [reflexivity|]. set (e := somme (map (fun v => v * v) h)). rewrite vdiv_length. split; [exact Lh|]. split; [|intros O; apply vdiv_sym; apply Hs; exact O].
    assert (Ee : e = rsum n (fun i => nth i h 0 * nth i h 0)). { unfold e, somme. rewrite map_length, Lh. apply rsum_ext. intros i Hi. apply (nth_mapR (fun v => v * v)). rewrite Lh. exact Hi. }
    assert (Pe : 0 < e). { rewrite Ee. apply (Rlt_le_trans _ (g 0%Z * g 0%Z)); [apply Rmult_lt_0_compat; exact G0|].
      assert (Hm : (n / 2 < n)%nat) by (apply Nat.div_lt; lia). replace (g 0%Z * g 0%Z) with (rsum n (fun j => if (j =? n / 2)%nat then nth j h 0 * nth j h 0 else 0)).
      - apply sum_le. intros i _. destruct (Nat.eqb i (n / 2)); [apply Rle_refl|]. apply Rle_0_sqr.
      - rewrite (rsum_pick _ _ (fun j => nth j h 0 * nth j h 0)). destruct (Nat.ltb_spec (n / 2) n); [|lia]. rewrite Vh by exact Hm. rewrite Z.sub_diag. reflexivity. }
    rewrite (rsum_ext _ _ (fun i => / e * (nth i h 0 * nth i h 0))).
    + rewrite rsum_mul, <- Ee. apply Rinv_l. lra.
    + intros i Hi. rewrite !vdiv_nth by lia. assert (Sq : 0 < sqrt e) by (apply sqrt_lt_R0; exact Pe). replace (/ e) with (/ (sqrt e * sqrt e)) by (rewrite sqrt_sqrt by lra; reflexivity). match goal with |- @eq _ ?x ?y => change (@eq R x y) end. field. lra.
  - intros He Hbw Ha. eexists. split; [reflexivity|]. split; [reflexivity|]. rewrite vdiv_length. split; [exact Lh|]. split; [|intros O; apply vdiv_sym; apply Hs; exact O].
    assert (Sm : 0 < somme h).
    { unfold somme. rewrite Lh. erewrite rsum_ext by exact Vh. rewrite sum_centre by assumption.
      assert (Pp : forall M, (M <= n / 2)%nat -> 0 <= rsum M (fun j => g (Z.of_nat j + 1)%Z)).
      { intros M HM. rewrite (rsum_ext _ _ (fun k => rcs ((INR k + 1) * / osf) beta)). 2: { intros k _. unfold g. f_equal. rewrite plus_IZR, <- INR_IZR_INZ. reflexivity. }
        apply rcs_partial; [exact Hb|exact He| |].
        - apply (Rmult_le_reg_l osf); [exact Ho|]. rewrite <- Rmult_assoc, Rinv_r, Rmult_1_l, Rmult_1_r by lra. exact Hbw.
        - intros B k Hk. rewrite <- S_INR. apply Ha; [exact B|lia]. }
      pose proof (Pp (n / 2)%nat ltac:(lia)). assert (n - 1 - n / 2 <= n / 2)%nat by (pose proof (Nat.div_mod n 2 ltac:(lia)); pose proof (Nat.mod_upper_bound n 2 ltac:(lia)); lia). pose proof (Pp (n - 1 - n / 2)%nat ltac:(assumption)). lra. }
    rewrite <- somme_dc, somme_vdiv. field. lra.
Qed.
Print Assumptions C60_rcs_design.
(** The side conditions on the instants are met, e.g. with beta = 1/2 and 4 samples per symbol. *)
Example C60_example : (forall k, away (1 / (2 * (1 / 2))) (INR k * (2 * (1 / 8)))) /\ / 10 ^ 7 <= 2 * (1 / 8) /\ 1 / 8 * (1 + 1 / 2) <= 1 / 2.
Proof.
  assert (E : / 10 ^ 7 <= / 4) by (apply Rinv_le_contravar; lra). split; [|lra]. intros k. unfold away. rewrite Rabs_pos_eq by (pose proof (pos_INR k); lra). destruct (Nat.eq_dec k 4) as [-> |N]; [left; cbn [INR]; field|right].
  apply (Rle_trans _ (/ 4)); [exact E|]. assert (4 * Rabs (INR k * (2 * (1 / 8)) - 1 / (2 * (1 / 2))) = Rabs (IZR (Z.of_nat k - 4))).
  { rewrite <- (Rabs_pos_eq 4) at 1 by lra. rewrite <- Rabs_mult. f_equal. rewrite minus_IZR, <- INR_IZR_INZ. field. }
  assert (1 <= Rabs (IZR (Z.of_nat k - 4))) by (rewrite <- abs_IZR; apply (IZR_le 1); lia). lra.
Qed.
