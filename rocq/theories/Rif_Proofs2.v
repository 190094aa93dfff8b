(** Proofs about FIR design: the windowed designs. *)
From Coq Require Import Reals Lra Lia ZArith String.
From Verif Require Import Base BaseLemmas RField Vec_Model Vec_Proofs Sig_Proofs Special_Model Special_Proofs Design_Proofs2 Win_Model Win_Spec Win_Proofs Win_Proofs2 Win_Props Rif_Model Rif_Spec Rif_Proofs.
Local Open Scope R_scope.

Lemma incr_ok h k : (k < List.length h)%nat -> exists g, incr_at h (Z.of_nat k) = Ok g /\ List.length g = List.length h /\ forall i, (i < List.length h)%nat -> nth i g 0 = nth i h 0 + impulse k i.
Proof.
  intros H. unfold incr_at. rewrite (vgetZ_ok _ _ 0) by lia. cbn [bind]. rewrite vsetZ_ok by lia. eexists. split; [reflexivity|]. rewrite Nat2Z.id. split; [apply upd_length|].
  intros i Hi. rewrite nth_upd. unfold impulse. destruct (Nat.eqb_spec i k) as [-> |N].
  - destruct (Nat.ltb_spec k (List.length h)); [|lia]. rewrite ?Nat.eqb_refl. cbn. ring.
  - destruct (Nat.eqb_spec k i); [congruence|]. cbn. ring.
Qed.
Local Open Scope string_scope.
Definition one_at0 (k : Z) : R := if (k =? 0)%Z then 1 else 0.
(** the taps before windowing *)
Definition band (fl fh : R) (k : Z) : R := 2 * sinc_T (2 * ((fh - fl) / 2)) (IZR k) * cos (PI * (fh + fl) * IZR k).
Inductive kind := LP | HP | BP | SB.
Definition names (t : kind) : list string := match t with LP => ["lp"; "pb"] | HP => ["hp"; "ph"] | BP => ["bp"; "pm"] | SB => ["sb"] end.
Definition rawtap (t : kind) (fc fc2 : R) (k : Z) : R :=
  match t with LP => sinc_T (2 * fc) (IZR k) | HP => one_at0 k - sinc_T (2 * fc) (IZR k) | BP => band fc fc2 k | SB => one_at0 k - band fc fc2 k end.
Lemma cosines_length wc m : List.length (cosines wc (Z.of_nat m)) = (2 * m + 1)%nat.
Proof. unfold cosines, intervalle_entier. rewrite !map_length, seq_length. lia. Qed.
Lemma cosines_nth wc m i : (i < 2 * m + 1)%nat -> nth i (cosines wc (Z.of_nat m)) 0 = cos (wc * IZR (Z.of_nat i - Z.of_nat m)).
Proof.
  intros Hi. unfold cosines, intervalle_entier. replace (Z.to_nat (Z.of_nat m - - Z.of_nat m + 1)) with (2 * m + 1)%nat by lia. rewrite map_map.
  rewrite (nth_map_seq (fun k => cos (wc * IZR (- Z.of_nat m + Z.of_nat k)))) by exact Hi. do 3 f_equal. lia.
Qed.
Lemma imp_centre m i : impulse m i = one_at0 (Z.of_nat i - Z.of_nat m).
Proof. unfold impulse, one_at0. destruct (Nat.eqb_spec i m), (Z.eqb_spec (Z.of_nat i - Z.of_nat m) 0); try lia; reflexivity. Qed.
Lemma raw_ok t m fc fc2 : exists h,
  match t with LP => rif_fen_pb (2 * m + 1) fc | HP => rif_fen_hp (2 * m + 1) fc | BP => rif_fen_pm (2 * m + 1) fc fc2 | SB => rif_fen_sb (2 * m + 1) fc fc2 end = Ok h /\
  List.length h = (2 * m + 1)%nat /\ forall i, (i < 2 * m + 1)%nat -> nth i h 0 = rawtap t fc fc2 (Z.of_nat i - Z.of_nat m).
Proof.
  destruct t; unfold rif_fen_pb, rif_fen_hp, rif_fen_pm, rif_fen_sb; rewrite ?quot_odd'; cbn [rawtap].
  - eexists. split; [reflexivity|]. split; [apply taps_length|]. apply taps_odd.
  - assert (L : List.length (vneg (coefs_filtre_sinc (2 * m + 1) fc)) = (2 * m + 1)%nat) by (unfold vneg; rewrite map_length; apply taps_length).
    destruct (incr_ok (vneg (coefs_filtre_sinc (2 * m + 1) fc)) m) as (g & E & G & V); [lia|]. exists g. split; [exact E|]. split; [lia|]. intros i Hi. rewrite V by lia. unfold vneg. rewrite nth_mapR by (rewrite taps_length; exact Hi). rewrite taps_odd, imp_centre by exact Hi. ring.
  - destruct (vmul_ok (vscale 2 (coefs_filtre_sinc (2 * m + 1) ((fc2 - fc) / 2))) (cosines (PI * (fc2 + fc)) (Z.of_nat m))) as (z & E & _ & L & V).
    { rewrite cosines_length. unfold vscale. rewrite map_length. apply taps_length. }
    assert (L' : List.length (vscale 2 (coefs_filtre_sinc (2 * m + 1) ((fc2 - fc) / 2))) = (2 * m + 1)%nat) by (unfold vscale; rewrite map_length; apply taps_length).
    exists z. split; [exact E|]. split; [lia|]. intros i Hi. rewrite V by lia. unfold vscale. rewrite nth_mapR by (rewrite taps_length; exact Hi). rewrite taps_odd, cosines_nth by exact Hi. reflexivity.
  - assert (L' : List.length (vneg (coefs_filtre_sinc (2 * m + 1) ((fc2 - fc) / 2))) = (2 * m + 1)%nat) by (unfold vneg; rewrite map_length; apply taps_length).
    assert (L2 : List.length (vscale 2 (cosines (PI * (fc2 + fc)) (Z.of_nat m))) = (2 * m + 1)%nat) by (unfold vscale; rewrite map_length; apply cosines_length).
    destruct (vmul_ok (vneg (coefs_filtre_sinc (2 * m + 1) ((fc2 - fc) / 2))) (vscale 2 (cosines (PI * (fc2 + fc)) (Z.of_nat m)))) as (z & _ & E & L & V); [lia|].
    rewrite E. cbn [bind]. destruct (incr_ok z m) as (g & E2 & G & V2); [lia|]. exists g. split; [exact E2|]. split; [lia|]. intros i Hi. rewrite V2, V by lia. unfold vneg, vscale.
    rewrite !nth_mapR by (rewrite ?taps_length, ?cosines_length; exact Hi). rewrite taps_odd, cosines_nth, imp_centre by exact Hi. unfold band. ring.
Qed.
Lemma design_odd t s m f fc fc2 : List.length f = (2 * m + 1)%nat -> In s (names t) -> exists h2,
  design_fen s fc f fc2 = Ok (if String.eqb s "lp" then vdiv h2 (somme h2) else h2) /\ List.length h2 = (2 * m + 1)%nat /\
  forall i, (i < 2 * m + 1)%nat -> nth i h2 0 = rawtap t fc fc2 (Z.of_nat i - Z.of_nat m) * nth i f 0.
Proof.
  intros Lf Hs. destruct (raw_ok t m fc fc2) as (h & E & L & V). destruct (vmul_ok h f) as (h2 & E2 & _ & L2 & V2); [lia|].
  exists h2. split; [|split; [lia|]; intros i Hi; rewrite V2, V by lia; reflexivity].
  unfold design_fen. rewrite Lf. destruct t; cbn [names In] in Hs; repeat destruct Hs as [<- |Hs]; try contradiction;
    cbn -[Nat.mul Nat.add Z.quot rif_fen_pb rif_fen_hp rif_fen_pm rif_fen_sb]; rewrite E; cbn [bind]; rewrite L, Nat.eqb_refl; cbn [negb]; rewrite E2; cbn [bind]; reflexivity.
Qed.
Lemma rawtap_even t fc fc2 k : rawtap t fc fc2 (- k) = rawtap t fc fc2 k.
Proof.
  assert (B : band fc fc2 (- k) = band fc fc2 k). { unfold band. rewrite opp_IZR, sinc_even. f_equal. rewrite Ropp_mult_distr_r_reverse. apply cos_neg. }
  assert (O : one_at0 (- k) = one_at0 k) by (unfold one_at0; destruct (Z.eqb_spec (- k) 0), (Z.eqb_spec k 0); try lia; reflexivity).
  destruct t; cbn [rawtap]; rewrite ?O, ?B, ?opp_IZR, ?sinc_even; reflexivity.
Qed.
Lemma vdiv_sym x c : symmetric x -> symmetric (vdiv x c).
Proof. intros H i Hi. rewrite vdiv_length in *. rewrite !vdiv_nth by lia. rewrite (H i Hi). reflexivity. Qed.
Lemma design_symmetric t s m f fc fc2 : List.length f = (2 * m + 1)%nat -> symmetric f -> In s (names t) ->
  exists h, design_fen s fc f fc2 = Ok h /\ List.length h = (2 * m + 1)%nat /\ symmetric h.
Proof.
  intros Lf Sf Hs. destruct (design_odd t s m f fc fc2 Lf Hs) as (h2 & E & L & V). eexists. split; [exact E|].
  assert (S2 : symmetric h2).
  { intros i Hi. rewrite !V by lia. rewrite (Sf i) by lia. rewrite L, Lf. f_equal. rewrite <- rawtap_even. f_equal. lia. }
  destruct (String.eqb s "lp"); [rewrite vdiv_length; split; [exact L|apply vdiv_sym; exact S2]|split; assumption].
Qed.
(** complementary responses *)
Lemma response_sum x y m : List.length x = (2 * m + 1)%nat -> List.length y = (2 * m + 1)%nat -> (forall i, (i < 2 * m + 1)%nat -> nth i x 0 + nth i y 0 = impulse m i) ->
  forall om, response x om + response y om = 1.
Proof.
  intros Lx Ly H om. unfold response. rewrite Lx, Ly, <- rsum_add. assert (Ec : (INR (2 * m + 1) - 1) / 2 = INR m) by (rewrite plus_INR, mult_INR; cbn [INR]; field).
  rewrite (rsum_ext _ _ (fun i => if (i =? m)%nat then cos ((INR i - INR m) * om) else 0)).
  - rewrite rsum_pick. destruct (Nat.ltb_spec m (2 * m + 1)); [|lia]. rewrite Rminus_eq_0, Rmult_0_l. apply cos_0.
  - intros i Hi. rewrite Ec, <- Rmult_plus_distr_r, H by exact Hi. unfold impulse. destruct (Nat.eqb i m); rring.
Qed.
Lemma response_0 h : response h 0 = dc_gain h.
Proof. unfold response, dc_gain. apply rsum_ext. intros i _. rewrite Rmult_0_r, cos_0. apply Rmult_1_r. Qed.
Lemma impulse_mul m i w : (i = m -> w = 1) -> impulse m i * w = impulse m i.
Proof. unfold impulse. destruct (Nat.eqb_spec i m); intros H; [rewrite H by assumption; ring|ring]. Qed.
(** windows *)
Lemma nom_ok s ty n sym : parse_fenetre s = Ok ty -> fen_nom s n sym = Ok (fen ty n sym).
Proof. intros H. unfold fen_nom. rewrite H. reflexivity. Qed.
Lemma fen_len ty n sym : List.length (fen ty n sym) = n.
Proof. apply C57_length_range. Qed.
Lemma fen_centre ty m : ty <> CHEBYCHEV -> nth m (fen ty (2 * m + 1) true) 0 = 1.
Proof. intros H. pose proof (C57_peak ty (2 * m + 1) H ltac:(lia)) as E. rewrite odd_2m in E. replace ((2 * m + 1) / 2)%nat with m in E by (apply (Nat.div_unique _ 2 m 1); lia). exact E. Qed.
Lemma shape_mono ty a b : ty <> CHEBYCHEV -> 0 <= a <= b -> b <= / 2 -> shape ty b <= shape ty a.
Proof.
  intros Ht Hab Hb. pose proof PI_RGT_0. assert (Cd : cos (2 * PI * b) <= cos (2 * PI * a)) by (apply cos_decr_1; nra). pose proof (COS_bound (2 * PI * a)). pose proof (COS_bound (2 * PI * b)).
  destruct ty; cbn [shape]; try lra; try congruence.
  - destruct (Rlt_dec a 0), (Rlt_dec b 0); lra.
  - rewrite !cos_2a_cos. set (u := cos (2 * PI * a)) in *. set (v := cos (2 * PI * b)) in *. nra.
Qed.
Lemma fen_step ty m j : ty <> CHEBYCHEV -> (j < m)%nat -> 0 <= nth (m + 1 + j) (fen ty (2 * m + 1) true) 0 <= nth (m + j) (fen ty (2 * m + 1) true) 0.
Proof.
  intros Ht Hj. split; [apply C57_length_range; lia|]. rewrite !fen_val by (lia || assumption). rewrite !inter_odd_sym by lia. assert (P : 0 < INR (2 * m + 1)) by (apply lt_0_INR; lia).
  assert (E : INR (2 * m + 1) = 2 * INR m + 1) by (rewrite plus_INR, mult_INR; cbn [INR]; ring). apply shape_mono; [exact Ht| |].
  - rewrite (plus_INR m j), (plus_INR (m + 1) j), (plus_INR m 1). pose proof (pos_INR j). split; [apply Rmult_le_pos; [lra|left; apply Rinv_0_lt_compat; exact P]|]. apply Rmult_le_compat_r; [left; apply Rinv_0_lt_compat; exact P|]. cbn [INR]. lra.
  - rewrite (plus_INR (m + 1) j), (plus_INR m 1). apply (Rmult_le_reg_r (INR (2 * m + 1))); [exact P|]. unfold Rdiv. rewrite Rmult_assoc, Rinv_l by lra. rewrite E. assert (INR j + 1 <= INR m) by (rewrite <- S_INR; apply le_INR; lia). cbn [INR]. lra.
Qed.
Lemma fen_mirror ty m j : (j < m)%nat -> nth (m - 1 - j) (fen ty (2 * m + 1) true) 0 = nth (m + 1 + j) (fen ty (2 * m + 1) true) 0.
Proof. intros Hj. pose proof (C57_symmetric ty (2 * m + 1) (m - 1 - j)%nat) as S. rewrite fen_len in S. rewrite S by lia. f_equal. lia. Qed.
