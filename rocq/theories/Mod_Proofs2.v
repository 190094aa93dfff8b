(** Proofs about the modulator: linear modulations, pulses, matched filter. *)
From Coq Require Import Reals Lra Lia ZArith.
From Verif Require Import Base BaseLemmas Filters_Model Filters_Spec Filters_Proofs Conv_Lemmas RField DftSys ComplexSys Fourier_Model BitStream_Model Demod_Model Special_Model Design_Model Design_Spec Design_Proofs Design_Proofs2 Rif_Model Rif_Spec Rif_Proofs Rif_Proofs2 Gauss_Proofs Polyphase_Model Polyphase_Spec Polyphase_Proofs Polyphase_Proofs2 Polyphase_Props Ra_Model Sig_Model Sig_Spec Sig_Proofs Rii_Model Mod_Model Mod_Spec Mod_Proofs.
Local Open Scope R_scope.

Definition lin_out (c : mconf) (g : list R) (r : nat) (s : list C) (n : nat) : C := rf_out (mc_fi c) (mc_fe c) (mc_real c) n (pam g r s n).
Lemma emitted_lin c g r s n0 k : mc_fsk c = false -> emitted c r n0 (bb g r s n0 k) = map (fun i => lin_out c g r s (n0 + i)) (seq 0 k).
Proof.
  intros F. unfold emitted. rewrite F. unfold bb. destruct (Req_EM_T (mc_fi c) 0) as [Z|Z].
  - apply map_ext. intros i. unfold lin_out, rf_out. destruct (Req_EM_T (mc_fi c) 0); [reflexivity|contradiction].
  - rewrite map_length, seq_length. apply map_ext_in. intros i Hi. apply in_seq in Hi. rewrite (nth_map_seq (X := C)) by lia. unfold lin_out, rf_out. destruct (Req_EM_T (mc_fi c) 0); [contradiction|reflexivity].
Qed.
Lemma seq_map_app {A} (f : nat -> A) a b : map f (seq 0 (a + b)) = map f (seq 0 a) ++ map (fun i => f (a + i)%nat) (seq 0 b).
Proof. rewrite seq_app, map_app. f_equal. cbn [Nat.add]. induction b as [|b IH]; [reflexivity|]. rewrite !seq_S, !map_app, IH. reflexivity. Qed.
Lemma mod_run_lin c r h blocks : accepted c r h -> mc_fsk c = false -> forall sent m, reach c r h sent m ->
  exists m', run mod_step m blocks = Ok (m', map (fun i => lin_out c (pulse h r) r (sent ++ concat blocks) (length sent * r + i)) (seq 0 (length (concat blocks) * r))) /\ reach c r h (sent ++ concat blocks) m'.
Proof.
  intros A F. induction blocks as [|b bs IH]; intros sent m Re; cbn [run concat].
  - exists m. rewrite app_nil_r. split; [reflexivity|exact Re].
  - destruct (mod_step_ok c r h sent m b A Re) as (m1 & E1 & R1). rewrite E1. cbn [bind]. destruct (IH (sent ++ b) m1 R1) as (m2 & E2 & R2). rewrite E2. cbn [bind].
    exists m2. rewrite <- app_assoc in R2. split; [|exact R2]. f_equal. f_equal. rewrite emitted_lin by exact F.
    rewrite <- (app_assoc sent b). rewrite !app_length, !Nat.mul_add_distr_r, seq_map_app. f_equal.
    + apply map_ext_in. intros i Hi. apply in_seq in Hi. unfold lin_out. f_equal. rewrite app_assoc. symmetry. apply pam_more; [auto|]. rewrite app_length, Nat.mul_add_distr_r. lia.
    + apply map_ext. intros i. f_equal. lia.
Qed.

(** ** the pulse *)
Lemma energy_app a b : energy (a ++ b) = energy a + energy b.
Proof.
  unfold energy. rewrite app_length. etransitivity; [apply (sum_split Rring)|]. match goal with |- ?u = ?v => change (@eq R u v) end. apply f_equal2; apply (sum_ext Rring); intros i Hi.
  - rewrite app_nth1 by exact Hi. reflexivity.
  - rewrite app_nth2 by lia. replace (length a + i - length a)%nat with i by lia. reflexivity.
Qed.
Lemma energy_cons a t : energy (a :: t) = a * a + energy t.
Proof. change (a :: t) with ([a] ++ t). rewrite energy_app. f_equal. unfold energy. cbn. ring. Qed.
Lemma energy_scale c h : energy (map (fun v => v * c) h) = energy h * (c * c).
Proof. induction h as [|a h IH]; [unfold energy; cbn; ring|]. cbn [map]. rewrite !energy_cons, IH. ring. Qed.
Lemma energy_rev h : energy (rev h) = energy h.
Proof. induction h as [|a h IH]; [reflexivity|]. cbn [rev]. rewrite energy_app, IH, !energy_cons. unfold energy at 2. cbn. ring. Qed.
Lemma energy_zeros n : energy (repeat 0 n) = 0.
Proof. induction n as [|n IH]; [reflexivity|]. cbn [repeat]. rewrite energy_cons, IH. ring. Qed.
Lemma pulse_energy h r : 0 < energy h -> energy (pulse h r) = INR r.
Proof.
  intros H. unfold pulse. rewrite energy_app, energy_zeros, energy_scale, energy_rev. rewrite sqrt_sqrt; [field; lra|].
  apply Rmult_le_pos; [apply pos_INR|]. left. apply Rinv_0_lt_compat. exact H.
Qed.
Lemma pulse_length h r : length (pulse h r) = ((r - length h mod r) mod r + length h)%nat.
Proof. unfold pulse. rewrite app_length, repeat_length, map_length, rev_length. reflexivity. Qed.
Lemma nth_repeat0 n i : nth i (repeat 0 n) 0 = 0.
Proof. revert i. induction n as [|n IH]; intros [|i]; cbn; auto. Qed.
(** value of the pulse at any position *)
Lemma pulse_at h r (z : Z) : sampZ (K := Rring) (pulse h r) z = sampZ (K := Rring) h (Z.of_nat (length (pulse h r)) - 1 - z) * sqrt (INR r / energy h).
Proof.
  rewrite pulse_length. set (p := ((r - length h mod r) mod r)%nat). unfold sampZ at 1. destruct (Z.ltb_spec z 0).
  - rewrite (sampZ_over Rring) by (change (@length (car Rring) h) with (@length R h); lia). match goal with |- ?u = ?v => change (@eq R u v) end. change (c0 (c := Rring)) with 0. ring.
  - unfold samp, pulse. fold p. change (c0 (c := Rring)) with 0. match goal with |- ?u = ?v => change (@eq R u v) end. destruct (Nat.ltb_spec (Z.to_nat z) p).
    + rewrite app_nth1 by (rewrite repeat_length; assumption). rewrite nth_repeat0. rewrite (sampZ_over Rring) by (change (@length (car Rring) h) with (@length R h); lia). change (c0 (c := Rring)) with 0. ring.
    + rewrite app_nth2 by (rewrite repeat_length; assumption). rewrite repeat_length. destruct (Nat.ltb_spec (Z.to_nat z - p) (length h)).
      * rewrite (nth_indep _ 0 (0 * sqrt (INR r / energy h))) by (rewrite map_length, rev_length; assumption). rewrite (map_nth (fun v => v * sqrt (INR r / energy h))). f_equal. rewrite rev_nth by assumption.
        replace (Z.of_nat (p + length h) - 1 - z)%Z with (Z.of_nat (length h - S (Z.to_nat z - p))) by lia. rewrite (sampZ_nat Rring). reflexivity.
      * rewrite nth_overflow by (rewrite map_length, rev_length; assumption). rewrite (sampZ_neg Rring) by lia. change (c0 (c := Rring)) with 0. ring.
Qed.

(** ** the four kinds of pulses *)
Lemma energy_repeat a n : energy (repeat a n) = INR n * (a * a).
Proof. induction n as [|n IH]; [unfold energy; cbn; ring|]. cbn [repeat]. rewrite energy_cons, IH, S_INR. ring. Qed.
Lemma rev_repeat' {A} (a : A) n : rev (repeat a n) = repeat a n.
Proof. induction n as [|n IH]; [reflexivity|]. cbn [repeat rev]. rewrite IH. clear IH. induction n; [reflexivity|]. cbn. f_equal. assumption. Qed.
Lemma map_repeat' {A B} (f : A -> B) a n : map f (repeat a n) = repeat (f a) n.
Proof. induction n as [|n IH]; [reflexivity|]. cbn. f_equal. exact IH. Qed.
Lemma nrz_good nc r : (0 < r)%nat -> good_coefs NRZ nc r (repeat (/ INR r) r).
Proof.
  intros Hr. assert (0 < INR r) by (apply lt_0_INR; exact Hr). split.
  - unfold get_coefs. destruct (Z.leb_spec (Z.of_nat r) 0); [lia|]. destruct (Z.eqb_spec (Z.of_nat r) 1).
    + assert (r = 1)%nat by lia. subst r. cbn. rewrite Rinv_1. reflexivity.
    + unfold vdiv. rewrite map_repeat', Nat2Z.id, <- INR_IZR_INZ. unfold Rdiv. rewrite Rmult_1_l. reflexivity.
  - rewrite energy_repeat. apply Rmult_lt_0_compat; [assumption|]. apply Rmult_lt_0_compat; apply Rinv_0_lt_compat; assumption.
Qed.
Lemma nrz_pulse r : (0 < r)%nat -> pulse (repeat (/ INR r) r) r = repeat 1 r.
Proof.
  intros Hr. assert (0 < INR r) by (apply lt_0_INR; exact Hr). unfold pulse. rewrite repeat_length, Nat.mod_same, Nat.sub_0_r, Nat.mod_same by lia. cbn [repeat app]. rewrite rev_repeat', map_repeat', energy_repeat. f_equal.
  replace (INR r / (INR r * (/ INR r * / INR r))) with (INR r * INR r) by (field; lra). rewrite sqrt_square by lra. field. lra.
Qed.
Lemma none_good nc r : (0 < r)%nat -> good_coefs AUCUN nc r [1].
Proof.
  intros Hr. split; [|rewrite energy_one; lra]. unfold get_coefs. destruct (Z.leb_spec (Z.of_nat r) 0); [lia|]. destruct (Z.eqb_spec (Z.of_nat r) 1); reflexivity.
Qed.
Lemma none_pulse r : (0 < r)%nat -> pulse [1] r = repeat 0 (r - 1) ++ [sqrt (INR r)].
Proof.
  intros Hr. unfold pulse. rewrite energy_one. f_equal.
  - f_equal. cbn [length]. destruct (Nat.eq_dec r 1) as [-> |]; [reflexivity|]. rewrite (Nat.mod_small 1) by lia. apply Nat.mod_small. lia.
  - cbn [rev app map]. f_equal. unfold Rdiv. rewrite Rinv_1, Rmult_1_r, Rmult_1_l. reflexivity.
Qed.
Lemma dc_energy h : dc_gain h = 1 -> 0 < energy h.
Proof.
  intros D. destruct (Rle_lt_or_eq_dec 0 (energy h) (energy_nonneg h)) as [H|H]; [exact H|]. exfalso.
  assert (Z : forall i, (i < length h)%nat -> nth i h 0 = 0).
  { clear D. induction h as [|a h IH]; intros i Hi; [cbn in Hi; lia|]. rewrite energy_cons in H. pose proof (energy_nonneg h). pose proof (Rle_0_sqr a) as Q. unfold Rsqr in Q.
    assert (a * a = 0) by lra. assert (energy h = 0) by lra. destruct i; [cbn; apply Rmult_integral in H1; tauto|]. cbn [nth]. apply IH; [lra|cbn in Hi; lia]. }
  rewrite <- somme_dc in D. unfold somme in D. rewrite (rsum_ext _ _ (fun _ => 0)) in D by (intros i Hi; apply Z; exact Hi). rewrite rsum_0 in D. lra.
Qed.
Lemma gauss_good BT nc r : (1 < r)%nat -> (0 <= nc)%Z -> exists h, good_coefs (GAUSSIEN BT) nc r h /\ length h = Z.to_nat (nb_coefs nc (Z.of_nat r)) /\ dc_gain h = 1.
Proof.
  intros Hr Hn. assert (P : (0 < nb_coefs nc (Z.of_nat r))%Z). { unfold nb_coefs. destruct (Z.eqb_spec nc 0); [destruct (Z.even _); lia|lia]. }
  destruct (telecom_ok (Z.to_nat (nb_coefs nc (Z.of_nat r))) BT r) as (h & c & E & _ & L & D & _); [lia|lia|]. exists h. split; [|split; [exact L|exact D]]. split; [|apply dc_energy; exact D].
  unfold get_coefs. destruct (Z.leb_spec (Z.of_nat r) 0); [lia|]. destruct (Z.eqb_spec (Z.of_nat r) 1); [lia|]. destruct (Z.leb_spec (nb_coefs nc (Z.of_nat r)) 0); [lia|]. rewrite Nat2Z.id. exact E.
Qed.
Lemma rcs_good beta nc r : (1 < r)%nat -> (0 <= nc)%Z -> let n := Z.to_nat (nb_coefs nc (Z.of_nat r)) in
  let raw := map (fun i => rcs ((INR i - INR (n / 2)) / INR r) beta) (seq 0 n) in somme raw <> 0 -> good_coefs (RCS beta) nc r (vdiv raw (somme raw)).
Proof.
  intros Hr Hn n raw S0. assert (P : (0 < nb_coefs nc (Z.of_nat r))%Z). { unfold nb_coefs. destruct (Z.eqb_spec nc 0); [destruct (Z.even _); lia|lia]. }
  split.
  - unfold get_coefs. destruct (Z.leb_spec (Z.of_nat r) 0); [lia|]. destruct (Z.eqb_spec (Z.of_nat r) 1); [lia|]. destruct (Z.leb_spec (nb_coefs nc (Z.of_nat r)) 0); [lia|]. fold n. unfold design_rif_rcs1. destruct (Nat.eqb_spec n 0); [lia|].
    rewrite <- INR_IZR_INZ. rewrite Z.quot_div_nonneg by lia. change 2%Z with (Z.of_nat 2). rewrite <- Nat2Z.inj_div, <- INR_IZR_INZ. reflexivity.
  - apply dc_energy. rewrite <- somme_dc, somme_vdiv. field. exact S0.
Qed.
Lemma osf_ok fe fsymb r : (0 < r)%nat -> (Z.of_nat r < 2 ^ 31)%Z -> fsymb <> 0 -> INR r <= fe / fsymb < INR r + 1 -> osf_of fe fsymb = Ok (Z.of_nat r).
Proof.
  intros Hr Hb Hf Hq. unfold osf_of. destruct (Req_EM_T fsymb 0); [contradiction|]. assert (1 <= INR r) by (apply (le_INR 1); lia).
  destruct (Rle_dec (fe / fsymb) (-1)); [lra|]. destruct (Rle_dec (2 ^ 32) (fe / fsymb)) as [X|X].
  - exfalso. assert (INR r + 1 <= 2 ^ 31); [|simpl in *; lra]. rewrite INR_IZR_INZ, <- plus_IZR. replace (2 ^ 31) with (IZR (2 ^ 31)) by (simpl; lra). apply IZR_le. lia.
  - destruct (Rlt_dec (fe / fsymb) 0); [lra|]. rewrite (Int_part_spec (Z.of_nat r)) by (rewrite <- INR_IZR_INZ; exact Hq). destruct (Z.leb_spec (2 ^ 31) (Z.of_nat r)); [lia|reflexivity].
Qed.

(** ** rectangular and bare pulses *)
Lemma divmod_at r k j : (j < r)%nat -> ((k * r + j) / r = k /\ (k * r + j) mod r = j)%nat.
Proof. intros H. split; [rewrite Nat.div_add_l by lia; rewrite Nat.div_small by exact H; lia|rewrite Nat.add_comm, Nat.mod_add by lia; apply Nat.mod_small; exact H]. Qed.
Lemma pam_block g r s k j : (0 < r)%nat -> length g = r -> (k < length s)%nat -> (j < r)%nat -> pam g r s (k * r + j) = rscale (nth j g 0) (nth k s (0, 0)).
Proof.
  intros Hr Lg Hk Hj. unfold pam. rewrite (sum_single Cring _ _ k Hk).
  - replace (Z.of_nat (k * r + j) - Z.of_nat (k * r))%Z with (Z.of_nat j) by lia. rewrite (sampZ_nat Rring). reflexivity.
  - intros i Hi Hne. assert (sampZ (K := Rring) g (Z.of_nat (k * r + j) - Z.of_nat (i * r)) = 0) as ->.
    { destruct (Nat.lt_ge_cases i k); [apply (sampZ_over Rring); change (@length (car Rring) g) with (@length R g); rewrite Lg; nia|apply (sampZ_neg Rring); nia]. }
    apply C_ext; cbn; ring.
Qed.
Lemma nth_hold r s k j : (j < r)%nat -> nth (k * r + j) (hold r s) (0, 0) = nth k s (0, 0).
Proof.
  intros Hj. revert k. induction s as [|a s IH]; intros k; [rewrite !nth_overflow by (cbn; lia); reflexivity|]. cbn [hold flat_map]. destruct k as [|k].
  - cbn [Nat.mul Nat.add nth]. rewrite app_nth1 by (rewrite repeat_length; exact Hj). clear -Hj. revert j Hj. induction r as [|r IH]; intros j Hj; [lia|]. destruct j; [reflexivity|]. cbn. apply IH. lia.
  - rewrite app_nth2 by (rewrite repeat_length; nia). rewrite repeat_length. cbn [nth]. replace (S k * r + j - r)%nat with (k * r + j)%nat by lia. apply IH.
Qed.
Lemma hold_length r s : length (hold r s) = (length s * r)%nat.
Proof. induction s as [|a s IH]; [reflexivity|]. cbn [hold flat_map length]. rewrite app_length, repeat_length. unfold hold in IH. rewrite IH. lia. Qed.
Lemma pam_nrz r s n : (0 < r)%nat -> (n < length s * r)%nat -> pam (repeat 1 r) r s n = nth n (hold r s) (0, 0).
Proof.
  intros Hr Hn. pose proof (Nat.div_mod n r ltac:(lia)) as D. pose proof (Nat.mod_upper_bound n r ltac:(lia)) as M. rewrite (Nat.mul_comm r) in D. rewrite D.
  assert (n / r < length s)%nat by (apply Nat.div_lt_upper_bound; lia). rewrite pam_block by (rewrite ?repeat_length; auto). rewrite nth_hold by exact M. rewrite nth_ones by exact M. apply C_ext; cbn; ring.
Qed.
