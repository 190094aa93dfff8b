From Coq Require Import Reals ZArith Lra Lia Field Psatz R_Ifp.
From Verif Require Import Base BaseLemmas RField DftSys ComplexSys Rii_Model Biq_Proofs Biq_Props But_Proofs Special_Proofs Fourier_Model Fourier_Spec Fourier_Props Fest_Model Fest_Spec Fest_Proofs.
Local Open Scope R_scope.

Lemma eit_int m : eit (2 * PI * IZR m) = (c1 : Cfield).
Proof.
  apply C_ext; cbn.
  - replace (2 * PI * IZR m) with (0 + 2 * IZR m * PI) by ring. rewrite cos_kper. apply cos_0.
  - replace (2 * PI * IZR m) with (IZR (2 * m) * PI) by (rewrite mult_IZR; ring). apply sin_int_PI.
Qed.
Lemma eit_shift x m : eit (2 * PI * (x + IZR m)) = eit (2 * PI * x).
Proof. rewrite Rmult_plus_distr_l, eit_add, eit_int. apply C_ext; cbn; ring. Qed.
(** exp(2 i pi x) = 1 only when x is an integer *)
Lemma round_ex x : exists m : Z, - (1 / 2) <= x - IZR m < 1 / 2.
Proof. exists (Int_part (x + 1 / 2)). pose proof (base_Int_part (x + 1 / 2)) as [A B]. lra. Qed.
Lemma eit_ne1' u : - (1 / 2) <= u <= 1 / 2 -> u <> 0 -> eit (2 * PI * u) <> (c1 : Cfield).
Proof.
  intros H Hn. pose proof PI_RGT_0. destruct (Rlt_dec 0 u).
  - apply eit_ne1. nra.
  - replace (2 * PI * u) with (2 * PI * ((u + 1) + IZR (-1))) by (cbn; ring). rewrite eit_shift. apply eit_ne1. nra.
Qed.
Lemma norm_eit_sub1 t : Cnorm2 ((eit t - c1)%K : Cfield) = 2 - 2 * cos t.
Proof. unfold Cnorm2, eit. cbn. pose proof (sin2_cos2 t) as H. unfold Rsqr in H. nra. Qed.
Lemma zeta_mod f N k : (0 < N)%nat -> zeta f N (k mod N) = eit (2 * PI * (f - INR k / INR N)).
Proof.
  intros H. unfold zeta. assert (P : 0 < INR N) by (apply lt_0_INR; lia).
  pose proof (Nat.div_mod k N ltac:(lia)) as E. apply (f_equal INR) in E. rewrite plus_INR, mult_INR in E.
  replace (f - INR (k mod N) / INR N) with (f - INR k / INR N + IZR (Z.of_nat (k / N))).
  - apply eit_shift.
  - rewrite <- INR_IZR_INZ, E. field. lra.
Qed.
Lemma zeta_pow f N k : (0 < N)%nat -> cpow (zeta f N k) N = eit (2 * PI * (f * INR N)).
Proof.
  intros H. unfold zeta. rewrite eit_pow. assert (P : 0 < INR N) by (apply lt_0_INR; lia).
  replace (INR N * (2 * PI * (f - INR k / INR N))) with (2 * PI * (f * INR N + IZR (- Z.of_nat k))) by (rewrite opp_IZR, <- INR_IZR_INZ; field; lra).
  apply eit_shift.
Qed.
(** squared modulus of a bin *)
Definition binpow (f : R) (N k : nat) : R := Cnorm2 (sum N (cpow (zeta f N k))).
Lemma binpow_geo f N k : (0 < N)%nat -> (2 - 2 * cos (2 * PI * (f - INR k / INR N))) * binpow f N k = 2 - 2 * cos (2 * PI * (f * INR N)).
Proof.
  intros H. unfold binpow. rewrite <- norm_eit_sub1, <- Cnorm2_mul. change (eit (2 * PI * (f - INR k / INR N))) with (zeta f N k).
  rewrite geo, zeta_pow by exact H. apply norm_eit_sub1.
Qed.
Lemma binpow_one f N k : (0 < N)%nat -> zeta f N k = c1 -> binpow f N k = INR N * INR N.
Proof. intros H E. unfold binpow. rewrite E, sum_ones. unfold Cnorm2, re. cbn. ring. Qed.
Lemma cos_pos_gap t : eit t <> (c1 : Cfield) -> 0 < 2 - 2 * cos t.
Proof.
  intros H. pose proof (COS_bound t) as [_ B]. destruct (Req_dec (cos t) 1) as [E|]; [|lra]. exfalso. apply H.
  apply C_ext; cbn; [exact E|]. pose proof (sin2_cos2 t) as S2. unfold Rsqr in S2. rewrite E in S2. nra.
Qed.

(** the frequency in bins: fN = k + u + mN *)
Section Peak.
  Context (f : R) (N k : nat).
  Hypothesis HN : (0 < N)%nat.
  Hypothesis Hk : (k < N)%nat.
  Hypothesis Hmax : forall j, (j < N)%nat -> binpow f N j <= binpow f N k.
  Lemma peak_near : exists (u : R) (m : Z), f = (INR k + u) / INR N + IZR m /\ - (1 / 2) <= u <= 1 / 2 /\
    (u = 0 -> (forall j, (j < N)%nat -> j <> k -> binpow f N j = 0) /\ binpow f N k = INR N * INR N) /\
    (u <> 0 -> 2 - 2 * cos (2 * PI * (f * INR N)) > 0 /\ forall j, (j < N)%nat -> zeta f N j <> c1).
  Proof using HN Hk Hmax.
    assert (P : 0 < INR N) by (apply lt_0_INR; lia). pose proof PI_RGT_0 as PP.
    destruct (round_ex (f * INR N)) as [r Hr]. set (u0 := f * INR N - IZR r) in *.
    set (k' := Z.to_nat (r mod Z.of_nat N)). set (m' := (r / Z.of_nat N)%Z).
    assert (Hk' : (k' < N)%nat). { unfold k'. pose proof (Z.mod_pos_bound r (Z.of_nat N) ltac:(lia)). lia. }
    assert (Er : IZR r = INR k' + INR N * IZR m').
    { unfold k', m'. rewrite !INR_IZR_INZ, Z2Nat.id by (apply Z.mod_pos_bound; lia). rewrite <- mult_IZR, <- plus_IZR. f_equal.
      pose proof (Z.div_mod r (Z.of_nat N) ltac:(lia)). lia. }
    assert (Ef : f - INR k' / INR N = u0 / INR N + IZR m').
    { unfold u0. rewrite Er. field. lra. }
    assert (Ef2 : f = (INR k' + u0) / INR N + IZR m').
    { unfold u0. rewrite Er. field. lra. }
    assert (Ez : zeta f N k' = eit (2 * PI * (u0 / INR N))) by (unfold zeta; rewrite Ef; apply eit_shift).
    assert (EE : eit (2 * PI * (f * INR N)) = eit (2 * PI * u0)).
    { replace (f * INR N) with (u0 + IZR r) by (unfold u0; ring). apply eit_shift. }
    (* distances between distinct bins *)
    assert (Hz : forall j, (j < N)%nat -> j <> k' -> u0 = 0 -> zeta f N j <> c1).
    { intros j Hj Nj Eu. unfold zeta. assert (Hd : f - INR j / INR N = IZR (Z.of_nat k' - Z.of_nat j) / INR N + IZR m').
      { rewrite Ef2, Eu, minus_IZR, <- !INR_IZR_INZ. field. lra. }
      rewrite Hd, eit_shift.
      assert (J : INR j + 1 <= INR N) by (rewrite <- S_INR; apply le_INR; lia).
      assert (K' : INR k' + 1 <= INR N) by (rewrite <- S_INR; apply le_INR; lia).
      pose proof (pos_INR j). pose proof (pos_INR k').
      destruct (Nat.lt_total j k') as [L|[L|L]]; [|lia|].
      - apply eit_ne1. rewrite minus_IZR, <- !INR_IZR_INZ. apply lt_INR in L. split.
        + apply Rmult_lt_0_compat; [lra|]. apply Rdiv_lt_0_compat; lra.
        + rewrite <- (Rmult_1_r (2 * PI)) at 2. apply Rmult_lt_compat_l; [lra|]. apply Rmult_lt_reg_r with (INR N); [exact P|]. unfold Rdiv. rewrite Rmult_assoc, Rinv_l by lra. lra.
      - replace (IZR (Z.of_nat k' - Z.of_nat j) / INR N) with ((INR k' - INR j + INR N) / INR N + IZR (-1)).
        2:{ rewrite minus_IZR, <- !INR_IZR_INZ. cbn. field. lra. }
        rewrite eit_shift. apply eit_ne1. apply lt_INR in L. split.
        + apply Rmult_lt_0_compat; [lra|]. apply Rdiv_lt_0_compat; lra.
        + rewrite <- (Rmult_1_r (2 * PI)) at 2. apply Rmult_lt_compat_l; [lra|]. apply Rmult_lt_reg_r with (INR N); [exact P|]. unfold Rdiv. rewrite Rmult_assoc, Rinv_l by lra. lra. }
    destruct (Req_dec u0 0) as [E0|N0].
    - (* on a bin *)
      assert (B1 : binpow f N k' = INR N * INR N).
      { apply binpow_one; [exact HN|]. rewrite Ez, E0. unfold Rdiv. rewrite Rmult_0_l, Rmult_0_r. apply eit_0. }
      assert (B0 : forall j, (j < N)%nat -> j <> k' -> binpow f N j = 0).
      { intros j Hj Nj. pose proof (binpow_geo f N j HN) as G. pose proof (cos_pos_gap _ (Hz j Hj Nj E0)) as Gp.
        assert (Z0 : 2 - 2 * cos (2 * PI * (f * INR N)) = 0).
        { apply (f_equal fst) in EE. cbn in EE. rewrite EE, E0, Rmult_0_r, cos_0. ring. }
        rewrite Z0 in G. apply Rmult_integral in G. destruct G; lra. }
      assert (k = k').
      { destruct (Nat.eq_dec k k') as [|Nk]; [assumption|]. specialize (Hmax k' Hk'). rewrite B1, (B0 k Hk Nk) in Hmax. nra. }
      subst k. exists u0, m'. split; [exact Ef2|]. split; [lra|]. split; [|intros; lra]. intros _. split; [exact B0|exact B1].
    - assert (NE : eit (2 * PI * (f * INR N)) <> (c1 : Cfield)) by (rewrite EE; apply eit_ne1'; lra).
      assert (NZ : forall j, (j < N)%nat -> zeta f N j <> c1).
      { intros j Hj C. apply NE. rewrite <- (zeta_pow f N j HN), C. clear. induction N as [|n IH]; [reflexivity|]. cbn [cpow]. rewrite IH. apply C_ext; cbn; ring. }
      pose proof (cos_pos_gap _ NE) as GE.
      destruct (round_ex (f - INR k / INR N)) as [m Hm]. set (t := f - INR k / INR N - IZR m) in *.
      exists (t * INR N), m. split; [unfold t; field; lra|].
      assert (Ck : cos (2 * PI * (f - INR k / INR N)) = cos (2 * PI * t)).
      { pose proof (eit_shift t m) as E. replace (t + IZR m) with (f - INR k / INR N) in E by (unfold t; ring). exact (f_equal fst E). }
      assert (Ck' : cos (2 * PI * (f - INR k' / INR N)) = cos (2 * PI * (u0 / INR N))).
      { exact (f_equal fst Ez). }
      pose proof (binpow_geo f N k HN) as G1. pose proof (binpow_geo f N k' HN) as G2. specialize (Hmax k' Hk').
      pose proof (cos_pos_gap _ (NZ k Hk)) as P1. pose proof (cos_pos_gap _ (NZ k' Hk')) as P2.
      assert (Cc : cos (2 * PI * (f - INR k' / INR N)) <= cos (2 * PI * (f - INR k / INR N))).
      { set (a := 2 - 2 * cos (2 * PI * (f - INR k / INR N))) in *. set (b := 2 - 2 * cos (2 * PI * (f - INR k' / INR N))) in *.
        assert (a <= b); [|unfold a, b in *; lra].
        destruct (Rle_dec a b) as [|L]; [assumption|]. exfalso. 
        assert (0 < binpow f N k). { destruct (Rlt_dec 0 (binpow f N k)); [assumption|]. exfalso. nra. } nra. }
      rewrite Ck, Ck' in Cc.
      assert (Ha : Rabs (2 * PI * t) <= Rabs (2 * PI * (u0 / INR N))).
      { assert (CA : forall x, cos (Rabs x) = cos x) by (intros x; unfold Rabs; destruct (Rcase_abs x); [apply cos_neg|reflexivity]).
        rewrite <- (CA (2 * PI * t)), <- (CA (2 * PI * (u0 / INR N))) in Cc.
        assert (I0 : INR N >= 1). { apply Rle_ge. change 1 with (INR 1). apply le_INR. lia. }
        assert (Bu : Rabs (u0 / INR N) <= 1 / 2).
        { unfold Rdiv. rewrite Rabs_mult, (Rabs_right (/ INR N)) by (apply Rle_ge, Rlt_le, Rinv_0_lt_compat; exact P).
          assert (Rabs u0 <= 1 / 2) by (apply Rabs_le; lra). assert (/ INR N <= 1) by (rewrite <- Rinv_1; apply Rinv_le_contravar; lra).
          pose proof (Rabs_pos u0). assert (0 < / INR N) by (apply Rinv_0_lt_compat; exact P). nra. }
        assert (Bt : Rabs t <= 1 / 2) by (apply Rabs_le; lra).
        destruct (Rle_dec (Rabs (2 * PI * t)) (Rabs (2 * PI * (u0 / INR N)))) as [|L]; [assumption|]. exfalso.
        assert (cos (Rabs (2 * PI * t)) < cos (Rabs (2 * PI * (u0 / INR N)))); [|lra].
        assert (AB : forall x, Rabs (2 * PI * x) = 2 * PI * Rabs x) by (intros x; rewrite Rabs_mult, (Rabs_right (2 * PI)) by lra; reflexivity).
        rewrite AB in *. rewrite (AB (u0 / INR N)) in *. pose proof (Rabs_pos t). pose proof (Rabs_pos (u0 / INR N)).
        apply cos_decreasing_1; try nra. }
      assert (Hu : Rabs (t * INR N) <= 1 / 2).
      { rewrite !Rabs_mult in Ha. rewrite (Rabs_right 2), (Rabs_right PI) in Ha by lra.
        assert (Rabs t <= Rabs (u0 / INR N)) by (apply Rmult_le_reg_l with (2 * PI); lra).
        rewrite Rabs_mult, (Rabs_right (INR N)) by lra.
        assert (Rabs (u0 / INR N) * INR N = Rabs u0). { unfold Rdiv. rewrite Rabs_mult, (Rabs_right (/ INR N)) by (apply Rle_ge, Rlt_le, Rinv_0_lt_compat; exact P). field. lra. }
        assert (Rabs u0 <= 1 / 2) by (apply Rabs_le; lra). nra. }
      assert (Hu2 : - (1 / 2) <= t * INR N <= 1 / 2) by (clear - Hu; unfold Rabs in Hu; destruct (Rcase_abs (t * INR N)); lra). split; [lra|]. split.
      + intros C. exfalso. assert (t = 0) by nra. apply (NZ k Hk). unfold zeta. replace (f - INR k / INR N) with (t + IZR m) by (unfold t; ring).
        rewrite eit_shift, H, Rmult_0_r. apply eit_0.
      + intros _. split; [exact GE|exact NZ].
  Qed.
End Peak.
