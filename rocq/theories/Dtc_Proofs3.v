(** The pattern received alone: proofs. *)
From Coq Require Import Reals ZArith Lra Lia Psatz Field.
From Verif Require Import Base BaseLemmas RField DftSys ComplexSys Rii_Model Biq_Proofs Filters_Model Filters_Proofs Fourier_Spec Fest_Model Fest_Proofs Fest_Proofs3 Del_Spec Del_Proofs Del_Proofs2 Del_Proofs3 Dtc_Model Dtc_Spec Dtc_Proofs Dtc_Proofs2.
Local Open Scope R_scope.
Local Notation rs := (sum (K := Rring)).
Local Notation score := Dtc_Spec.score.

Definition wn (m : list Complex) (s : Z) : R := rs (List.length m) (fun k => en m (Z.of_nat k + s)%Z).
Lemma Cmul_sum n (c : Complex) (f : nat -> Complex) : sum n (fun i => c * f i)%K = (c * sum n f)%K.
Proof. induction n as [|n IH]; [apply C_ext; cbn; ring|]. cbn [sum]. rewrite IH. apply C_ext; cbn; ring. Qed.
Lemma sampZ_in (x : list Complex) z : sampZ x z <> c0 -> (0 <= z < Z.of_nat (List.length x))%Z.
Proof. intros H. destruct (Z_lt_dec z 0); [exfalso; apply H, sampZ_out; lia|]. destruct (Z_lt_dec z (Z.of_nat (List.length x))); [lia|exfalso; apply H, sampZ_out; lia]. Qed.

Lemma M_pos_list m : 0 < energy m -> (0 < List.length m)%nat.
Proof. intros HE. destruct m; [cbn in HE; lra|cbn; lia]. Qed.
Section Alone.
  Variables (m X : list Complex) (d : Z) (c : Complex).
  Let M := List.length m.
  Hypotheses (HD : delayed m X d c) (HP : pattern m = m).
  Let sh (n : nat) : Z := (Z.of_nat n - Z.of_nat M + 1 - d)%Z.
  Lemma win_at n k : window X M n k = (c * sampZ m (Z.of_nat k + sh n))%K.
  Proof using HD. unfold window. rewrite HD. do 2 f_equal. unfold sh. lia. Qed.
  Lemma prod_at n : product m X n = (c * conj (xcorr_at m m (sh n)))%K.
  Proof using HD HP.
    unfold product. rewrite HP. unfold xcorr_at. rewrite (Cconj_sum (List.length m)), <- Cmul_sum. apply (sum_ext Cring). intros k Hk. fold M. rewrite win_at. set (u := sampZ m (Z.of_nat k + sh n)). set (v := samp m k). apply C_ext; cbn; ring.
  Qed.
  Lemma nprod_at n : nrm (product m X n) = nrm c * xabs m m (sh n).
  Proof using HD HP. rewrite prod_at, nrm_mul, nrm_conj. reflexivity. Qed.
  Lemma wen_at n : wenergy M X n = nrm c * nrm c * wn m (sh n).
  Proof using HD. unfold wenergy, wn. fold M. rewrite <- rs_mul. apply rs_ext. intros k _. rewrite win_at, <- nrm_sq, nrm_mul. unfold en. match goal with |- ?a = ?b => change (@eq R a b) end. ring. Qed.
End Alone.
Lemma wn_pos m s : 0 <= wn m s. Proof. apply rs_nonneg. intros. apply en_pos. Qed.
Lemma wn_0 m : wn m 0 = energy m.
Proof. unfold wn, energy. apply rs_ext. intros k _. rewrite Z.add_0_r. unfold en. rewrite <- samp_Z, nrm_sq. reflexivity. Qed.
Lemma wn_le m s : wn m s <= energy m.
Proof. rewrite <- wn_0. unfold wn. eapply Rle_trans; [apply (shift_le (en m) (List.length m))|apply Req_le, rs_ext; intros; rewrite Z.add_0_r; reflexivity]. - apply en_pos. - intros. apply (en_out m (List.length m)); [lia|assumption]. Qed.
(** Cauchy-Schwarz is strict for a shift *)
Lemma cs_strict m s : 0 < energy m -> s <> 0%Z -> exists de, 0 < de <= energy m /\ xabs m m s * xabs m m s <= wn m s * (energy m - de).
Proof.
  intros HE Hs. set (M := List.length m).
  assert (NN : exists i0, sampZ m i0 <> c0).
  { destruct (List.Exists_dec (fun k => samp m k <> c0) (seq 0 M)) as [EX|NE]; [intros k; destruct (C0_dec (samp m k)) as [e|e]; [right; intros h; apply h, e|left; exact e]| |].
    - apply Exists_exists in EX. destruct EX as [k [_ Hk]]. exists (Z.of_nat k). rewrite <- samp_Z. exact Hk.
    - exfalso. assert (energy m = 0); [|lra]. unfold energy. apply rs_0. intros k Hk. destruct (C0_dec (samp m k)) as [e|e]; [rewrite e; unfold Cnorm2; cbn; ring|]. exfalso. apply NE. apply Exists_exists. exists k. split; [apply in_seq; fold M in Hk; lia|exact e]. }
  destruct NN as [i0 H0].
  destruct (edge (fun z => sampZ m z <> c0) (fun z => match C0_dec (sampZ m z) with left e => or_intror (fun h => h e) | right e => or_introl e end) M (- s)%Z i0) as [i [Hi Hj]]; [apply sampZ_in|lia|exact H0|].
  replace (i - - s)%Z with (i + s)%Z in Hj by lia. assert (Hz : sampZ m (i + s) = c0) by (destruct (C0_dec (sampZ m (i + s))) as [e|e]; [exact e|contradiction]). pose proof (sampZ_in m i Hi) as Ri. fold M in Ri.
  set (q := fun a : nat => if (Z.of_nat a =? i)%Z then 0 else nrm (sampZ m (Z.of_nat a))). set (p := fun a : nat => nrm (sampZ m (Z.of_nat a + s))).
  assert (Q2 : rs M (fun a => q a * q a) + en m i = energy m).
  { assert (T : rs M (fun a => if (Z.of_nat a =? i)%Z then en m i else 0) = en m i) by (rewrite rs_at; destruct (Z.leb_spec 0 i), (Z.ltb_spec i (Z.of_nat M)); cbn [andb]; try lia; reflexivity).
    rewrite <- T at 1. rewrite <- rs_add, <- wn_0. unfold wn. apply rs_ext. intros a Ha. rewrite Z.add_0_r. unfold q. destruct (Z.eqb_spec (Z.of_nat a) i) as [->|]; unfold en; lra. }
  assert (A : xabs m m s <= rs M (fun a => p a * q a)).
  { eapply Rle_trans; [apply xabs_le|]. apply rs_le. intros a Ha. unfold q, p. destruct (Z.eqb_spec (Z.of_nat a) i) as [E|E]; [rewrite E, Hz, nrm_0; lra|lra]. }
  pose proof (rs_cs M p q) as CS. change (rs M (fun a => p a * p a)) with (wn m s) in CS.
  assert (0 < en m i) by (unfold en; pose proof (nrm_ne _ Hi); nra). exists (en m i). split; [split; [assumption|]|].
  - assert (0 <= rs M (fun a => q a * q a)); [|lra]. apply rs_nonneg. intros a _. pose proof (Rle_0_sqr (q a)). exact H1.
  - replace (energy m - en m i) with (rs M (fun a => q a * q a)) by lra. assert (0 <= xabs m m s) by apply sqrt_pos. set (S1 := rs M (fun a => p a * q a)) in *. set (S2 := rs M (fun a => q a * q a)) in *. assert (0 <= S1) by lra.
    apply Rle_trans with (S1 * S1); [apply Rmult_le_compat; lra|exact CS].
Qed.

Lemma auto_at0 (m : list Complex) : xcorr_at m m 0 = ((energy m, 0) : C).
Proof. unfold xcorr_at, energy. induction (List.length m) as [|k IH]; [reflexivity|]. cbn [sum]. rewrite IH. rewrite samp_Z, Z.add_0_r. apply C_ext; cbn; unfold Cnorm2; ring. Qed.
(** the score at the true position, and elsewhere *)
Section Score.
  Variables (m X : list Complex) (d : Z) (c : Complex).
  Let M := List.length m.
  Hypotheses (HD : delayed m X d c) (HP : pattern m = m) (HE : 0 < energy m) (HC : / 10 ^ 6 < nrm c * sqrt (energy m)).
  Let a := nrm c. Let Em := energy m. Let eta := INR M * / 10 ^ 20.
  Definition best : R := sqrt (nrm c * nrm c * energy m / (nrm c * nrm c * energy m + INR (List.length m) * / 10 ^ 20)).
  Lemma a_pos : 0 < a.
  Proof using HE HC. assert (0 < sqrt Em) by (apply sqrt_lt_R0; exact HE). pose proof e6_pos. fold a Em in HC. assert (0 < a * sqrt Em) by lra. destruct (Rle_dec a 0); [exfalso; nra|lra]. Qed.
  Lemma eta_pos : 0 < eta.
  Proof using HE. unfold eta. apply Rmult_lt_0_compat; [|apply e20_pos]. apply lt_0_INR. apply M_pos_list. exact HE. Qed.
  Lemma sqE : sqrt Em * sqrt Em = Em. Proof using HE. apply sqrt_sqrt. apply Rlt_le. exact HE. Qed.
  Lemma sqE_pos : 0 < sqrt Em. Proof using HE. apply sqrt_lt_R0. exact HE. Qed.
  Lemma best_sq : best * best = a * a * Em / (a * a * Em + eta).
  Proof using HE HC.
    pose proof a_pos. pose proof eta_pos. assert (0 < a * a * Em) by (apply Rmult_lt_0_compat; [nra|exact HE]). unfold best. fold a Em M eta. apply sqrt_sqrt. apply Rlt_le, Rdiv_lt_0_compat; lra.
  Qed.
  Lemma score_sq n : Z.of_nat n = (d + Z.of_nat M - 1)%Z -> score m X n = best /\ product m X n = (c * re Em)%K.
  Proof using HD HP HE HC.
    intros Hn. pose proof a_pos as AP. pose proof eta_pos as EP. pose proof sqE_pos as SP. pose proof sqE as SE.
    assert (Z0 : (Z.of_nat n - Z.of_nat (List.length m) + 1 - d = 0)%Z) by (fold M; lia).
    assert (W : wenergy M X n = a * a * Em). { unfold M. rewrite (wen_at m X d c HD), Z0, wn_0. reflexivity. }
    assert (P : nrm (product m X n) = a * Em). { rewrite (nprod_at m X d c HD HP), Z0, auto_0. reflexivity. }
    split.
    - unfold score. change (sqrt (Cnorm2 (product m X n))) with (nrm (product m X n)). rewrite P. fold M. rewrite W. fold Em eta. destruct (Rle_dec _ _) as [L|_].
      + exfalso. fold a Em in HC. assert (a * Em = a * sqrt Em * sqrt Em) by (rewrite Rmult_assoc, SE; reflexivity). nra.
      + unfold best. fold a Em M eta. assert (0 < a * a * Em) by (apply Rmult_lt_0_compat; [nra|exact HE]). rewrite sqrt_div by lra.
        replace (sqrt (a * a * Em)) with (a * sqrt Em). 2:{ symmetry. rewrite sqrt_mult; [|nra|apply Rlt_le; exact HE]. rewrite sqrt_square; [reflexivity|lra]. }
        assert (0 < sqrt (a * a * Em + eta)) by (apply sqrt_lt_R0; lra). rewrite <- SE at 1. field. split; apply Rgt_not_eq; assumption.
    - rewrite (prod_at m X d c HD HP), Z0. rewrite auto_at0. fold Em. apply C_ext; cbn; ring.
  Qed.
  Lemma best_pos : 0 < best.
  Proof using HE HC. pose proof a_pos. pose proof eta_pos. assert (0 < a * a * Em) by (apply Rmult_lt_0_compat; [nra|exact HE]). unfold best. fold a Em M eta. apply sqrt_lt_R0, Rdiv_lt_0_compat; lra. Qed.
  Lemma score_nonneg n : 0 <= score m X n.
  Proof using HE. unfold score. destruct (Rle_dec _ _); [lra|]. apply Rmult_le_pos; [apply sqrt_pos|]. apply Rlt_le, Rinv_0_lt_compat. apply Rmult_lt_0_compat; [apply sqE_pos|]. apply sqrt_lt_R0. pose proof (wenergy_pos M X n). pose proof eta_pos. fold M eta. lra. Qed.
  Lemma score_le n : let s := (Z.of_nat n - Z.of_nat M + 1 - d)%Z in score m X n * score m X n <= a * a * (xabs m m s * xabs m m s) / (Em * (a * a * wn m s + eta)).
  Proof using HD HP HE.
    intros s. pose proof eta_pos as EP. pose proof sqE_pos as SP. pose proof sqE as SE. pose proof (wn_pos m s) as WP. assert (0 <= a * a) by nra. assert (DP : 0 < a * a * wn m s + eta) by nra. assert (0 < Em) by exact HE.
    assert (R0 : 0 <= a * a * (xabs m m s * xabs m m s) / (Em * (a * a * wn m s + eta))).
    { apply Rmult_le_pos; [apply Rmult_le_pos; [assumption|apply Rle_0_sqr]|]. apply Rlt_le, Rinv_0_lt_compat, Rmult_lt_0_compat; assumption. }
    unfold score. destruct (Rle_dec _ _) as [_|_]; [lra|]. change (sqrt (Cnorm2 (product m X n))) with (nrm (product m X n)). rewrite (nprod_at m X d c HD HP), (wen_at m X d c HD). fold M. fold s. fold a Em eta.
    set (D := sqrt (a * a * wn m s + eta)). assert (DD : D * D = a * a * wn m s + eta) by (apply sqrt_sqrt; lra). assert (0 < D) by (apply sqrt_lt_R0; exact DP). rewrite <- DD. set (r := sqrt Em) in *. rewrite <- SE. apply Req_le. field. split; apply Rgt_not_eq; assumption.
  Qed.
  Lemma score_lt n : Z.of_nat n <> (d + Z.of_nat M - 1)%Z -> score m X n < best.
  Proof using HD HP HE HC.
    intros Hn. pose proof a_pos as AP. pose proof eta_pos as EP. pose proof best_pos as BP. pose proof (score_nonneg n) as SN. set (s := (Z.of_nat n - Z.of_nat M + 1 - d)%Z). assert (Hs : s <> 0%Z) by (unfold s; lia).
    destruct (cs_strict m s HE Hs) as [de [D1 D2]]. pose proof (score_le n) as SL. fold s in SL. cbv zeta in SL. fold s in SL. pose proof (wn_pos m s) as WP. pose proof (wn_le m s) as WL. fold Em in D1, D2, WL. assert (EmP : 0 < Em) by exact HE.
    apply Rsqr_incrst_0; [|exact SN|lra]. unfold Rsqr. rewrite best_sq. eapply Rle_lt_trans; [exact SL|].
    set (x2 := xabs m m s * xabs m m s) in *. set (w := wn m s) in *. assert (A2 : 0 < a * a) by nra. set (A := a * a) in *.
    assert (DP1 : 0 < Em * (A * w + eta)) by (apply Rmult_lt_0_compat; [exact EmP|nra]). assert (DP2 : 0 < A * Em + eta) by nra.
    apply (Rmult_lt_reg_r (Em * (A * w + eta) * (A * Em + eta))); [apply Rmult_lt_0_compat; assumption|].
    replace (A * x2 / (Em * (A * w + eta)) * (Em * (A * w + eta) * (A * Em + eta))) with (A * x2 * (A * Em + eta)) by (field; split; [apply Rgt_not_eq; nra|apply Rgt_not_eq; exact EmP]).
    replace (A * Em / (A * Em + eta) * (Em * (A * w + eta) * (A * Em + eta))) with (A * (Em * Em * (A * w + eta))) by (field; apply Rgt_not_eq; exact DP2).
    rewrite Rmult_assoc. apply Rmult_lt_compat_l; [exact A2|]. apply Rle_lt_trans with (w * (Em - de) * (A * Em + eta)); [apply Rmult_le_compat_r; lra|].
    assert (K1 : 0 <= w * de * (A * Em)) by (apply Rmult_le_pos; [apply Rmult_le_pos; lra|nra]). assert (K2 : 0 <= eta * (Em * (Em - w))) by (apply Rmult_le_pos; [lra|apply Rmult_le_pos; lra]).
    assert (K3 : 0 <= eta * (w * de)) by (apply Rmult_le_pos; [lra|apply Rmult_le_pos; lra]).
    destruct (Req_dec w 0) as [->|WN]; [assert (0 < Em * Em * eta) by (apply Rmult_lt_0_compat; nra); nra|]. assert (0 < w * de * (A * Em)) by (apply Rmult_lt_0_compat; [apply Rmult_lt_0_compat; lra|apply Rmult_lt_0_compat; lra]). nra.
  Qed.
  Lemma score_far n : (Z.of_nat M <= Z.abs (Z.of_nat n - (d + Z.of_nat M - 1)))%Z -> score m X n = 0.
  Proof using HD HP HE.
    intros Hn. unfold score. destruct (Rle_dec _ _) as [_|NL]; [reflexivity|]. exfalso. apply NL. change (sqrt (Cnorm2 (product m X n))) with (nrm (product m X n)). rewrite (nprod_at m X d c HD HP). fold M.
    assert (Z0 : xabs m m (Z.of_nat n - Z.of_nat M + 1 - d) = 0).
    { apply Rle_antisym; [|apply sqrt_pos]. eapply Rle_trans; [apply xabs_le|]. apply Req_le, rs_0. intros k Hk. rewrite (sampZ_out m (Z.of_nat k + _)) by (fold M in Hk |- *; lia). rewrite nrm_0. apply Rmult_0_r. }
    rewrite Z0, Rmult_0_r. apply Rmult_le_pos; [apply Rlt_le, e6_pos|apply sqrt_pos].
  Qed.
End Score.
(** ** The two neighbours of the true position *)
Lemma wn_sides m : nrm (sampZ m 0) = nrm (sampZ m (Z.of_nat (List.length m) - 1)) -> wn m (-1) = wn m 1.
Proof.
  intros H. destruct (List.length m) as [|n] eqn:L; [unfold wn; rewrite L; reflexivity|].
  assert (E1 : energy m = en m 0 + wn m 1).
  { rewrite <- wn_0. unfold wn. rewrite L. etransitivity; [apply (sum_S_l Rring)|]. apply (f_equal2 Rplus); [reflexivity|]. rewrite rs_S. rewrite (en_out m (S n) (Z.of_nat n + 1)) by lia. symmetry. etransitivity; [apply Rplus_0_r|].
    apply rs_ext. intros i _. f_equal. lia. }
  assert (E2 : energy m = wn m (-1) + en m (Z.of_nat n)).
  { rewrite <- wn_0. unfold wn. rewrite L. rewrite rs_S. apply (f_equal2 Rplus); [|rewrite Z.add_0_r; reflexivity]. symmetry. etransitivity; [apply (sum_S_l Rring)|]. etransitivity; [apply (f_equal2 Rplus); [exact (en_out m (S n) (-1) (Nat.eq_le_incl _ _ L) (or_introl eq_refl))|reflexivity]|].
    etransitivity; [apply Rplus_0_l|]. apply rs_ext. intros i _. f_equal. lia. }
  replace (Z.of_nat (S n) - 1)%Z with (Z.of_nat n) in H by lia. assert (E3 : en m 0 = en m (Z.of_nat n)) by (unfold en; rewrite H; reflexivity). lra.
Qed.
Lemma score_sides m X d c n : delayed m X d c -> pattern m = m -> (1 <= n)%nat -> Z.of_nat n = (d + Z.of_nat (List.length m) - 1)%Z -> nrm (sampZ m 0) = nrm (sampZ m (Z.of_nat (List.length m) - 1)) -> score m X (n - 1) = score m X (n + 1).
Proof.
  intros HD HP H1 Hn HS. unfold score. change (sqrt (Cnorm2 (product m X (n - 1)))) with (nrm (product m X (n - 1))). change (sqrt (Cnorm2 (product m X (n + 1)))) with (nrm (product m X (n + 1))).
  rewrite !(nprod_at m X d c HD HP), !(wen_at m X d c HD). replace (Z.of_nat (n - 1) - Z.of_nat (List.length m) + 1 - d)%Z with (-1)%Z by lia. replace (Z.of_nat (n + 1) - Z.of_nat (List.length m) + 1 - d)%Z with 1%Z by lia.
  rewrite auto_sym1, wn_sides by exact HS. reflexivity.
Qed.
Lemma sorted_single l i : Sorted.StronglySorted lt l -> In i l -> (forall j, In j l -> j = i) -> l = [i].
Proof.
  intros HS HI HU. destruct l as [|a l]; [destruct HI|]. assert (a = i) by (apply HU; left; reflexivity). subst a. destruct l as [|b l]; [reflexivity|]. exfalso.
  assert (b = i) by (apply HU; right; left; reflexivity). inversion HS as [|? ? ? F]; subst. inversion F; subst. lia.
Qed.
