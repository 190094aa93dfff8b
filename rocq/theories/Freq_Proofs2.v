(** Frequency sampling design over the complex numbers. *)
From Coq Require Import Reals Lra Lia ZArith.
From Verif Require Import Base BaseLemmas RField DftSys ComplexSys Fourier_Model Fourier_Spec Fourier_Proofs Fourier_Proofs2 Fourier_Proofs3 Vec_Model Vec_Proofs Win_Spec Win_Proofs Special_Proofs Design_Proofs2 Rif_Model Rif_Spec Rif_Proofs OField ROField Interp_Model Interp_Spec Interp_Props Hil_Model Freq_Proofs.
Local Open Scope R_scope.
Lemma fst_sum n (f : nat -> Complex) : fst (sum n f) = rsum n (fun i => fst (f i)).
Proof. induction n as [|n IH]; [reflexivity|]. rewrite rsum_S, <- IH. reflexivity. Qed.
Lemma cos_Zper x k : cos (x + 2 * PI * IZR k) = cos x.
Proof. replace (2 * PI * IZR k) with (2 * IZR k * PI) by ring. apply cos_kper. Qed.
Lemma sin_Zper x k : sin (x + 2 * PI * IZR k) = sin x.
Proof. rewrite <- !cos_shift. replace (PI / 2 - (x + 2 * PI * IZR k)) with (PI / 2 - x + 2 * PI * IZR (- k)) by (rewrite opp_IZR; ring). apply cos_Zper. Qed.
Lemma wz_complex n z : (0 < n)%nat -> wz (F := Complex) n z = (cos (2 * PI * IZR z / INR n), - sin (2 * PI * IZR z / INR n)).
Proof.
  intros Hn. assert (P : 0 < INR n) by (apply lt_0_INR; exact Hn). unfold wz. change (root n) with (Croot n). unfold Croot. etransitivity; [apply (cis_pow (2 * PI / INR n))|].
  pose proof (Z.mod_pos_bound z (Z.of_nat n) ltac:(lia)) as Hb. pose proof (Z.div_mod z (Z.of_nat n) ltac:(lia)) as D. set (r := (z mod Z.of_nat n)%Z) in *. set (k := (z / Z.of_nat n)%Z) in *.
  assert (E : 2 * PI * IZR z / INR n = INR (Z.to_nat r) * (2 * PI / INR n) + 2 * PI * IZR k).
  { rewrite D, plus_IZR, mult_IZR, <- INR_IZR_INZ. rewrite (INR_IZR_INZ (Z.to_nat r)), Z2Nat.id by lia. field. lra. }
  rewrite E. rewrite cos_Zper, sin_Zper. reflexivity.
Qed.
Lemma fst_cmul (v : Complex) (c s : R) : fst (v * ((c, s) : Complex))%K = fst v * c - snd v * s.
Proof. reflexivity. Qed.
Lemma freq_core q (F : list R) : (1 <= q)%nat -> (2 * q + 1 <= 2 ^ 29)%nat -> List.length F = (q + 1)%nat ->
  exists Hs hi, csym (F := Complex) (map (fun v => (v, 0)) F ++ repeat (0, 0) (2 * q + 1 - (q + 1))) = Ok Hs /\ ifft (F := Complex) (0, 0) Hs = Ok hi /\ imag_small (fftshift hi) = true /\
  let h := vdiv (map fst (fftshift hi)) (sqrt (INR (2 * q + 1))) in
  List.length h = (2 * q + 1)%nat /\ Win_Spec.symmetric h /\ forall l, (l <= q)%nat -> response h (2 * PI * INR l / INR (2 * q + 1)) = nth l F 0.
Proof.
  intros Hq Hb LF. set (n := (2 * q + 1)%nat) in *. assert (Pn : 0 < INR n) by (apply lt_0_INR; unfold n; lia). set (Hd := map _ F ++ _). assert (LHd : List.length Hd = n) by (unfold Hd; rewrite app_length, map_length, repeat_length, LF; unfold n; lia).
  assert (VHd : forall i, samp (K := Complex) Hd i = (nth i F 0, 0)).
  { intros i. unfold samp, Hd. destruct (Nat.lt_ge_cases i (q + 1)) as [B|B].
    - rewrite app_nth1 by (rewrite map_length; lia). change (@c0 Complex) with ((fun v => (v, 0)) 0 : C). apply (map_nth (fun v => (v, 0) : C)).
    - rewrite app_nth2 by (rewrite map_length; lia). rewrite map_length, LF, (nth_overflow F) by lia. change (@c0 Complex) with ((0, 0) : C). destruct (Nat.lt_ge_cases (i - (q + 1)) (n - (q + 1))); [apply nth_repeat|apply nth_overflow; rewrite repeat_length; assumption]. }
  assert (Rd : is_real (F := Complex) Hd) by (intros i; rewrite VHd; apply C_ext; cbn; lra).
  destruct (csym_odd Complex Hd q Hq LHd Rd) as (Hs & Es & Ls & Ev & Rs & Vs). fold n in Ls. destruct (shift_ifft Complex ((0, 0) : C) Hs q Ls Hb) as (hi & Ei & Li & Vi & Si). fold n in Li, Vi, Si.
  assert (P0 : (0 < List.length Hs)%nat) by (rewrite Ls; unfold n; lia).
  exists Hs, hi. split; [exact Es|]. split; [exact Ei|].
  assert (Im : forall i, (i < n)%nat -> snd (samp (K := Complex) (fftshift hi) i) = 0).
  { intros i Hi. rewrite Vi by exact Hi. assert (X := even_real Complex Hs (Z.of_nat i - Z.of_nat q) P0 Ev Rs). apply (f_equal (@snd R R)) in X. set (v := dftZ _ _ _ _) in *. change (- snd (v : C) = snd (v : C)) in X. change (snd (v : C) = 0). lra. }
  split.
  { unfold imag_small. apply forallb_forall. intros c Hc. apply (In_nth _ _ ((0, 0) : C)) in Hc. destruct Hc as (i & Hi & <-). assert (Hi' : (i < n)%nat) by (rewrite <- Li; exact Hi). pose proof (Im i Hi') as X. unfold samp in X. change (@c0 Complex) with ((0, 0) : C) in X. destruct (Rlt_dec _ _) as [_|N]; [reflexivity|]. exfalso. apply N. change (Rabs (snd (nth i (fftshift hi) ((0, 0) : C))) < / 1000). rewrite X, Rabs_R0. lra. }
  intros h. assert (Lm : List.length (map fst (fftshift hi)) = n) by (rewrite map_length; exact Li). assert (Lh : List.length h = n) by (unfold h; rewrite vdiv_length; exact Lm). split; [exact Lh|].
  assert (Vh : forall i, (i < n)%nat -> nth i h 0 = fst (samp (K := Complex) (fftshift hi) i) / sqrt (INR n)).
  { intros i Hi. unfold h. rewrite vdiv_nth by (rewrite Lm; exact Hi). f_equal. exact (map_nth (@fst R R) (fftshift hi) ((0, 0) : C) i). }
  split.
  - intros i Hi. rewrite Lh in *. rewrite !Vh by lia. f_equal. rewrite !Vi by lia. f_equal. rewrite <- (even_dftZ_opp Complex Hs _ P0 Ev). f_equal. unfold n. lia.
  - intros l Hl. unfold response. rewrite Lh. replace ((INR n - 1) / 2) with (INR q) by (unfold n; rewrite plus_INR, mult_INR; cbn [INR]; field).
    specialize (Si l ltac:(unfold n; lia)). apply (f_equal (@fst R R)) in Si. rewrite fst_sum in Si. rewrite Vs in Si by exact Hl. rewrite VHd in Si. change (rt n) with ((sqrt (INR n), 0) : Complex) in Si.
    assert (Sq : 0 < sqrt (INR n)) by (apply sqrt_lt_R0; exact Pn). rewrite (rsum_ext n _ (fun i => / sqrt (INR n) * fst (samp (K := Complex) (fftshift hi) i * wz n (Z.of_nat l * (Z.of_nat i - Z.of_nat q)))%K)).
    + rewrite rsum_mul. transitivity (/ sqrt (INR n) * (sqrt (INR n) * nth l F 0 - 0 * 0)); [f_equal; exact Si|]. field. lra.
    + intros i Hi. rewrite Vh by exact Hi. rewrite wz_complex by (unfold n; lia). pose proof (Im i Hi) as X. set (v := samp (K := Complex) (fftshift hi) i) in *. pose proof (fst_cmul v (cos (2 * PI * IZR (Z.of_nat l * (Z.of_nat i - Z.of_nat q)) / INR n)) (- sin (2 * PI * IZR (Z.of_nat l * (Z.of_nat i - Z.of_nat q)) / INR n))) as FC. rewrite FC; clear FC.
      rewrite X. replace (2 * PI * IZR (Z.of_nat l * (Z.of_nat i - Z.of_nat q)) / INR n) with ((INR i - INR q) * (2 * PI * INR l / INR n)) by (rewrite mult_IZR, minus_IZR, <- !INR_IZR_INZ; field; lra). match goal with |- @eq _ ?a ?b => change (@eq R a b) end. field. lra.
Qed.
