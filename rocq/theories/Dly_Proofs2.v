(** Fractional delay of a real signal: proofs. *)
From Coq Require Import Reals ZArith Lra Lia Field.
From Verif Require Import Base BaseLemmas RField DftSys ComplexSys Rii_Model Biq_Proofs But_Proofs Filters_Proofs Fourier_Model Fourier_Spec Fourier_Proofs Fourier_Proofs2 Fourier_Proofs3 Special_Proofs Sig_Proofs Fest_Model Fest_Proofs2 Freq_Proofs2 Dly_Model Dly_Spec Dly_Proofs.
Local Open Scope R_scope.

Section Half.
  Context (F : dsys).
  Add Field Fh : (fth F).
  Local Open Scope cring_scope.
  Lemma half_spec (x : list F) h i : (0 < h)%nat -> List.length x = (2 * h)%nat -> is_real x -> (i <= h)%nat ->
    let Xt := DFT 1 (zipadd (evens x) (map (fun v => img * v) (odds x))) in
    let U := samp Xt (if (i =? h)%nat then 0%nat else i) in let V := samp Xt (if (0 <? i)%nat then (h - i)%nat else 0%nat) in
    (U + conj V) - img * (U - conj V) * wz (2 * h) (Z.of_nat i) = (1 + 1) * rt 2 * dftZ F 1 x (Z.of_nat i).
  Proof.
    intros Hh Lx Rx Hi Xt U V.
    assert (Le : List.length (evens x) = h). { rewrite evens_length, Lx. replace (2 * h + 1)%nat with (1 + h * 2)%nat by lia. rewrite Nat.div_add by lia. reflexivity. }
    assert (Lo : List.length (odds x) = h). { rewrite odds_length, Lx, Nat.mul_comm. apply Nat.div_mul. lia. }
    set (x2 := zipadd (evens x) (map (fun v => img * v) (odds x))) in *.
    assert (L2 : List.length x2 = h) by (unfold x2; rewrite zipadd_length, map_length, Le, Lo; lia).
    assert (E1 : U = dftZ F 1 x2 (Z.of_nat i)).
    { apply (samp_DFT F 1 x2 _ _ (if (i =? h)%nat then (-1)%Z else 0%Z)); rewrite L2; destruct (Nat.eqb_spec i h); lia. }
    assert (E2 : V = dftZ F 1 x2 (- Z.of_nat i)).
    { apply (samp_DFT F 1 x2 _ _ (if (0 <? i)%nat then 1%Z else 0%Z)); rewrite L2; destruct (Nat.ltb_spec 0 i); lia. }
    rewrite E1, E2. unfold x2. rewrite !dftZ_lin by lia. rewrite conj_add, conj_mul, conj_img.
    rewrite !dftZ_real by (lia || apply is_real_evens, Rx || apply is_real_odds, Rx).
    rewrite (dft_split F 1 x h) by assumption. rewrite Z.mul_1_l. pose proof (DftSys.rt_ne F 2 ltac:(lia)) as N2.
    set (A := dftZ F 1 (evens x) (Z.of_nat i)). set (B := dftZ F 1 (odds x) (Z.of_nat i)). set (w := wz (2 * h) (Z.of_nat i)).
    transitivity ((1 + 1) * (A - img * img * (w * B))); [ring|rewrite img_sq; field; exact N2].
  Qed.
  Lemma inv_half (P : list F) h a : (0 < h)%nat -> List.length P = (2 * h)%nat -> (forall i, (i < h)%nat -> samp P (h + i) = conj (samp P (h - i))) -> (a < h)%nat ->
    samp (DFT (-1) (map (fun i => samp P i + conj (samp P (h - i)) + img * ((samp P i - conj (samp P (h - i))) * wz (2 * h) (- Z.of_nat i))) (seq 0 h))) a =
    rt 2 * (samp (DFT (-1) P) (2 * a) + img * samp (DFT (-1) P) (2 * a + 1)).
  Proof.
    intros Hh LP HP Ha. set (Q := map _ (seq 0 h)). assert (LQ : List.length Q = h) by (unfold Q; rewrite map_length, seq_length; reflexivity).
    rewrite !DFT_nth by lia. unfold dft. rewrite LQ, LP. rewrite (rt_mul F 2 h). pose proof (DftSys.rt_ne F 2 ltac:(lia)) as N2. pose proof (DftSys.rt_ne F h Hh) as Nh.
    transitivity ((sum (2 * h) (fun j => samp P j * wz (2 * h) (-1 * Z.of_nat j * Z.of_nat (2 * a))) + img * sum (2 * h) (fun j => samp P j * wz (2 * h) (-1 * Z.of_nat j * Z.of_nat (2 * a + 1)))) / rt h); [|field; split; assumption]. f_equal.
    replace (sum (2 * h) (fun j => samp P j * wz (2 * h) (-1 * Z.of_nat j * Z.of_nat (2 * a)))) with (sum (h + h) (fun j => samp P j * wz (2 * h) (-1 * Z.of_nat j * Z.of_nat (2 * a)))) by (f_equal; lia).
    replace (sum (2 * h) (fun j => samp P j * wz (2 * h) (-1 * Z.of_nat j * Z.of_nat (2 * a + 1)))) with (sum (h + h) (fun j => samp P j * wz (2 * h) (-1 * Z.of_nat j * Z.of_nat (2 * a + 1)))) by (f_equal; lia).
    rewrite !(sum_split F), <- !(sum_add F), <- (sum_mul_l F), <- (sum_add F). apply (sum_ext F). intros i Hi.
    unfold Q. unfold samp at 1. rewrite (nth_map_seq (X := F)) by exact Hi. rewrite !HP by exact Hi. set (p := samp P i). set (q := conj (samp P (h - i))).
    assert (W1 : wz (2 * h) (-1 * Z.of_nat i * Z.of_nat (2 * a)) = wz (F := F) h (-1 * Z.of_nat i * Z.of_nat a)).
    { replace (-1 * Z.of_nat i * Z.of_nat (2 * a))%Z with (-1 * Z.of_nat i * Z.of_nat a * Z.of_nat 2)%Z by lia. rewrite (Nat.mul_comm 2 h), wz_coh by lia. reflexivity. }
    assert (W2 : wz (2 * h) (-1 * Z.of_nat (h + i) * Z.of_nat (2 * a)) = wz (F := F) h (-1 * Z.of_nat i * Z.of_nat a)).
    { replace (-1 * Z.of_nat (h + i) * Z.of_nat (2 * a))%Z with ((-1 * Z.of_nat i * Z.of_nat a - Z.of_nat a * Z.of_nat h) * Z.of_nat 2)%Z by lia. rewrite (Nat.mul_comm 2 h), wz_coh by lia. apply (wz_mod F). replace (-1 * Z.of_nat i * Z.of_nat a - Z.of_nat a * Z.of_nat h)%Z with (-1 * Z.of_nat i * Z.of_nat a + (- Z.of_nat a) * Z.of_nat h)%Z by lia. apply Z.mod_add. lia. }
    assert (W3 : wz (2 * h) (-1 * Z.of_nat i * Z.of_nat (2 * a + 1)) = wz (F := F) h (-1 * Z.of_nat i * Z.of_nat a) * wz (2 * h) (- Z.of_nat i)).
    { rewrite <- W1, <- wz_add by lia. f_equal. lia. }
    assert (W4 : wz (2 * h) (-1 * Z.of_nat (h + i) * Z.of_nat (2 * a + 1)) = - (wz (F := F) h (-1 * Z.of_nat i * Z.of_nat a) * wz (2 * h) (- Z.of_nat i))).
    { rewrite <- W2. replace (-1 * Z.of_nat (h + i) * Z.of_nat (2 * a + 1))%Z with (-1 * Z.of_nat (h + i) * Z.of_nat (2 * a) + (- Z.of_nat i + - Z.of_nat h))%Z by lia. rewrite !wz_add by lia.
      replace (wz (F := F) (2 * h) (- Z.of_nat h)) with (- (1) : F); [ring|]. transitivity (wz (F := F) (2 * h) (Z.of_nat h)); [symmetry; rewrite wz_half by lia; reflexivity|]. apply (wz_mod F). replace (- Z.of_nat h)%Z with (Z.of_nat h + (-1) * Z.of_nat (2 * h))%Z by lia. symmetry. apply Z.mod_add. lia. }
    rewrite W1, W2, W3, W4. cbn [Nat.add]. ring.
  Qed.
End Half.

Lemma img_C : (img : Complex) = jim 1.
Proof.
  unfold img. assert (E : root (d := Complex) 4 = (0, - (1))).
  { change (root (d := Complex) 4) with (Croot 4). unfold Croot. replace (2 * PI / INR 4) with (PI / 2) by (cbn [INR]; field). rewrite cos_PI2, sin_PI2. reflexivity. }
  rewrite E. apply C_ext; cbn; ring.
Qed.
Lemma map_re_samp (x : list R) i : samp (K := Complex) (map re x) i = re (nth i x 0).
Proof. unfold samp. exact (map_nth re x 0 i). Qed.
Lemma map_re_real (x : list R) : is_real (F := Complex) (map re x).
Proof. intros i. rewrite map_re_samp. apply C_ext; cbn; ring. Qed.
Lemma evens_len {A} (x : list A) h : List.length x = (2 * h)%nat -> List.length (evens x) = h.
Proof. intros L. rewrite evens_length, L. symmetry. apply (Nat.div_unique _ 2 h 1)%nat; lia. Qed.
Lemma odds_len {A} (x : list A) h : List.length x = (2 * h)%nat -> List.length (odds x) = h.
Proof. intros L. rewrite odds_length, L. symmetry. apply (Nat.div_unique _ 2 h 0)%nat; lia. Qed.
Lemma half2 h : (2 * h / 2 = h)%nat. Proof. symmetry. apply (Nat.div_unique _ 2 h 0)%nat; lia. Qed.
Lemma pairs_ok (x : list R) h : List.length x = (2 * h)%nat -> pairs x = zipadd (F := Complex) (evens (map re x : list Complex)) (map (fun v : Complex => (img * v)%K) (odds (map re x : list Complex))).
Proof.
  intros L. set (rx := map re x : list Complex). assert (LR : List.length rx = (2 * h)%nat) by (unfold rx; rewrite map_length; exact L).
  assert (LP : List.length (pairs x) = h) by (unfold pairs; rewrite map_length, seq_length, L; apply half2).
  assert (LZ : List.length (zipadd (F := Complex) (evens rx) (map (fun v : Complex => (img * v)%K) (odds rx))) = h) by (etransitivity; [apply (zipadd_length Complex)|]; rewrite map_length, (evens_len _ h), (odds_len _ h) by exact LR; apply Nat.min_id).
  apply (samp_ext Complex); [exact (eq_trans LP (eq_sym LZ))|]. intros i Hi. assert (Hi' : (i < h)%nat) by (eapply Nat.lt_le_trans; [exact Hi|apply Nat.eq_le_incl; exact LP]).
  rewrite (zipadd_nth Complex) by (rewrite map_length, (evens_len _ h), (odds_len _ h) by exact LR; reflexivity). rewrite (samp_map Complex) by (rewrite (odds_len _ h) by exact LR; exact Hi').
  unfold samp at 2 3. rewrite evens_nth, odds_nth. change (samp (K := Complex) (pairs x) i = (samp (K := Complex) rx (2 * i) + img * samp (K := Complex) rx (2 * i + 1))%K). unfold rx. rewrite !map_re_samp, img_C.
  unfold pairs, samp. rewrite (nth_map_seq (X := Complex)) by (rewrite L, half2; exact Hi'). apply C_ext; cbn; ring.
Qed.
Lemma rt_C n : rt (d := Complex) n = re (sqrt (INR n)). Proof. reflexivity. Qed.
Lemma real_fst (z : Complex) : conj z = z -> z = re (fst z).
Proof. intros H. apply C_ext; [reflexivity|]. assert (Q := f_equal snd H). cbn in Q |- *. lra. Qed.
Lemma dft_re_ends (x : list Complex) h i : (0 < h)%nat -> List.length x = (2 * h)%nat -> is_real x -> (i = 0 \/ i = h)%nat -> conj (dftZ Complex 1 x (Z.of_nat i)) = dftZ Complex 1 x (Z.of_nat i).
Proof.
  intros Hh L Rx Hi. rewrite <- (dftZ_real Complex x (Z.of_nat i)) at 2 by (lia || assumption). f_equal. apply (dftZ_mod Complex _ _ _ _ (if (i =? 0)%nat then 0%Z else 1%Z)). destruct (Nat.eqb_spec i 0); lia.
Qed.
Lemma sqrt2_p : 0 < sqrt 2. Proof. apply sqrt_lt_R0. lra. Qed.
Lemma rtfr_ok junk (x : list R) h : (0 < h)%nat -> (h <= 2 ^ 29)%nat -> List.length x = (2 * h)%nat -> let D := dftZ Complex 1 (map re x) in
  exists X, rtfr_calcule junk x = Ok X /\ List.length X = h /\ (forall i, (0 < i < h)%nat -> samp X i = (D (Z.of_nat i) * re (/ sqrt 2))%K) /\
  samp X 0 = ((fst (D 0%Z) / sqrt 2, fst (D (Z.of_nat h)) / sqrt 2) : C).
Proof.
  intros Hh HM L D. unfold rtfr_calcule. rewrite L, half2, (pairs_ok x h L). set (rx := map re x : list Complex). assert (LR : List.length rx = (2 * h)%nat) by (unfold rx; rewrite map_length; exact L).
  set (x2 := zipadd (F := Complex) (evens rx) (map (fun v : Complex => (img * v)%K) (odds rx))).
  assert (LZ : List.length x2 = h) by (etransitivity; [apply (zipadd_length Complex)|]; rewrite map_length, (evens_len _ h), (odds_len _ h) by exact LR; apply Nat.min_id).
  rewrite (fft_ok Complex) by (split; [eapply Nat.lt_le_trans; [|apply Nat.eq_le_incl; symmetry; exact LZ]; exact Hh|eapply Nat.le_trans; [apply Nat.eq_le_incl; exact LZ|exact HM]]). cbn [bind].
  set (X3 := fun i : nat => let X1 := samp (DFT 1 x2) (if (i =? h)%nat then 0%nat else i) in let X2 := samp (DFT 1 x2) (if (0 <? i)%nat then (h - i)%nat else 0%nat) in
    (re (1 / 4) * (X1 + conj X2) - jim (1 / 4) * (X1 - conj X2) * eit (- (2 * PI * INR i) / INR (2 * h)))%K : Complex).
  assert (E3 : forall i, (i <= h)%nat -> X3 i = (D (Z.of_nat i) * re (/ sqrt 2))%K).
  { intros i Hi. assert (Q := half_spec Complex rx h i Hh LR (map_re_real x) Hi). cbv zeta in Q. fold x2 in Q. unfold X3. cbv zeta.
    set (U := samp (DFT 1 x2) (if (i =? h)%nat then 0%nat else i)) in *. set (V := samp (DFT 1 x2) (if (0 <? i)%nat then (h - i)%nat else 0%nat)) in *.
    change (dftZ Complex 1 rx (Z.of_nat i)) with (D (Z.of_nat i)) in Q. rewrite img_C, rt_C in Q. rewrite wz_eit in Q by lia. rewrite <- INR_IZR_INZ in Q.
    replace (- (2 * PI * INR i) / INR (2 * h)) with (- (2 * PI * INR i / INR (2 * h))) by (unfold Rdiv; ring).
    set (w := eit (- (2 * PI * INR i / INR (2 * h)))) in *. set (d := D (Z.of_nat i)) in *.
    transitivity ((re (1 / 4) * (U + conj V - jim 1 * (U - conj V) * w))%K : Complex). { clearbody U V w. destruct U, V, w. apply C_ext; cbn; field. }
    change (INR 2) with 2 in Q. pose proof sqrt2_p. assert (S2 : sqrt 2 * sqrt 2 = 2) by (apply sqrt_sqrt; lra). assert (I2 : / sqrt 2 = sqrt 2 / 2) by (replace (sqrt 2 / 2) with (sqrt 2 / (sqrt 2 * sqrt 2)) by (rewrite S2; reflexivity); field; lra).
    etransitivity; [apply f_equal; exact Q|]. rewrite I2. clearbody d. destruct d as [d1 d2]. apply C_ext; cbn; field. }
  exists (map (fun i => if (i =? 0)%nat then ((fst (X3 0%nat), fst (X3 h)) : C) else X3 i) (seq 0 h)). split; [reflexivity|]. split; [rewrite map_length, seq_length; reflexivity|]. split.
  - intros i Hi. unfold samp. rewrite (nth_map_seq (X := Complex)) by lia. destruct (Nat.eqb_spec i 0); [lia|]. apply E3. lia.
  - unfold samp. rewrite (nth_map_seq (X := Complex)) by lia. cbn [Nat.add Nat.eqb]. rewrite (E3 0%nat), (E3 h) by lia. cbn [Z.of_nat]. pose proof sqrt2_p. destruct (D 0%Z), (D (Z.of_nat h)). apply C_ext; cbn; field; lra.
Qed.
Lemma flat_pairs_nth (l : list Complex) : forall a, nth (2 * a) (flat_map (fun z : Complex => [fst z; snd z]) l) 0 = fst (samp l a) /\ nth (2 * a + 1) (flat_map (fun z : Complex => [fst z; snd z]) l) 0 = snd (samp l a).
Proof.
  induction l as [|z l IH]; intros a; [unfold samp; destruct a; split; reflexivity|]. cbn [flat_map app]. destruct a as [|a]; [split; reflexivity|]. replace (2 * S a)%nat with (S (S (2 * a))) by lia. replace (S (S (2 * a)) + 1)%nat with (S (S (2 * a + 1))) by lia. exact (IH a).
Qed.
Lemma flat_pairs_length (l : list Complex) : List.length (flat_map (fun z : Complex => [fst z; snd z]) l) = (2 * List.length l)%nat.
Proof. induction l as [|z l IH]; [reflexivity|]. cbn [flat_map app]. change (S (S (List.length (flat_map (fun z : Complex => [fst z; snd z]) l))) = (2 * S (List.length l))%nat). rewrite IH. lia. Qed.
Lemma irtfr_ok junk (P X : list Complex) h : (0 < h)%nat -> (h <= 2 ^ 29)%nat -> List.length P = (2 * h)%nat -> List.length X = h ->
  (forall i, (i < h)%nat -> samp P (h + i) = conj (samp P (h - i))) -> conj (samp P 0) = samp P 0 ->
  (forall i, (0 < i < h)%nat -> samp X i = (samp P i * re (/ sqrt 2))%K) -> samp X 0 = ((fst (samp P 0) / sqrt 2, fst (samp P h) / sqrt 2) : C) ->
  (forall a, (a < 2 * h)%nat -> snd (samp (DFT (-1) P) a) = 0) ->
  exists s, irtfr_calcule junk X = Ok s /\ List.length s = (2 * h)%nat /\ forall a, (a < 2 * h)%nat -> nth a s 0 = fst (samp (DFT (-1) P) a).
Proof.
  intros Hh HM LP LX HP P0 HX X0 RS. unfold irtfr_calcule. rewrite LX. set (X2 := fun i : nat => let Xp : Complex := if (i =? 0)%nat then re (snd (samp X 0)) else samp X (h - i) in
    let Xi : Complex := if (i =? 0)%nat then re (fst (samp X 0)) else samp X i in
    let Xe := (Xi + conj Xp)%K in let Xo := ((Xi - conj Xp) * eit (2 * PI * INR i / INR (2 * h)))%K in (Xe + jim 1 * Xo)%K : Complex).
  match goal with |- context [map ?f (seq 0 h)] => change f with X2 end.
  set (Q := fun i => (samp P i + conj (samp P (h - i)) + img * ((samp P i - conj (samp P (h - i))) * wz (2 * h) (- Z.of_nat i)))%K : Complex).
  assert (Ph : conj (samp P h) = samp P h). { assert (E := HP 0%nat Hh). rewrite Nat.add_0_r, Nat.sub_0_r in E. symmetry. exact E. }
  pose proof sqrt2_p as S2.
  assert (E2 : forall i, (i < h)%nat -> X2 i = (Q i * re (/ sqrt 2))%K).
  { intros i Hi. unfold X2, Q. cbv zeta. rewrite img_C, wz_eit by lia. rewrite opp_IZR, <- INR_IZR_INZ. replace (- (2 * PI * - INR i / INR (2 * h))) with (2 * PI * INR i / INR (2 * h)) by (unfold Rdiv; ring). set (w := eit _).
    destruct (Nat.eqb_spec i 0) as [Z|Z].
    - subst i. rewrite X0, Nat.sub_0_r. rewrite (real_fst _ P0), (real_fst _ Ph). cbn [fst snd]. clearbody w. destruct w. apply C_ext; cbn; field; lra.
    - rewrite !HX by lia. clearbody w. destruct w. destruct (samp P i), (samp P (h - i)). apply C_ext; cbn; ring. }
  assert (LQ : forall f : nat -> Complex, List.length (map f (seq 0 h)) = h) by (intros; rewrite map_length, seq_length; reflexivity).
  rewrite (ifft_ok Complex) by (rewrite map_length, seq_length; split; assumption). cbn [bind]. set (x2 := DFT (-1) (map X2 (seq 0 h))).
  assert (L2 : List.length x2 = h) by (unfold x2; rewrite DFT_length; apply LQ).
  eexists. split; [reflexivity|]. split; [rewrite flat_pairs_length; apply f_equal; exact L2|].
  assert (V : forall a, (a < h)%nat -> samp x2 a = ((fst (samp (DFT (-1) P) (2 * a)), fst (samp (DFT (-1) P) (2 * a + 1))) : C)).
  { intros a Ha. assert (H := inv_half Complex P h a Hh LP HP Ha). fold Q in H.
    assert (E : samp x2 a = (samp (DFT (-1) (map Q (seq 0 h))) a * re (/ sqrt 2))%K).
    { unfold x2. rewrite !(DFT_nth Complex) by (rewrite map_length, seq_length; exact Ha). unfold dft. rewrite !map_length, !seq_length. rewrite rt_C.
      assert (Es : sum h (fun j => samp (map X2 (seq 0 h)) j * wz (F := Complex) h (-1 * Z.of_nat j * Z.of_nat a))%K = (sum h (fun j => samp (map Q (seq 0 h)) j * wz (F := Complex) h (-1 * Z.of_nat j * Z.of_nat a)) * re (/ sqrt 2))%K).
      { rewrite <- (sum_mul_r Complex). apply (sum_ext Complex). intros j Hj. unfold samp. rewrite !(nth_map_seq (X := Complex)) by exact Hj. cbn [Nat.add]. rewrite E2 by exact Hj. generalize (Q j) (wz (F := Complex) h (-1 * Z.of_nat j * Z.of_nat a)). intros [u1 u2] [v1 v2]. apply C_ext; cbn; ring. }
      rewrite Es. generalize (sum h (fun j => samp (map Q (seq 0 h)) j * wz (F := Complex) h (-1 * Z.of_nat j * Z.of_nat a))%K). assert (0 < sqrt (INR h)) by (apply sqrt_lt_R0, lt_0_INR; exact Hh). intros [u1 u2]. apply C_ext; cbn; field; repeat split; try lra; unfold Cnorm2, re; cbn; apply Rgt_not_eq; nra. }
    rewrite E. etransitivity; [apply (f_equal (fun z : Complex => (z * re (/ sqrt 2))%K)); exact H|]. rewrite img_C, rt_C. change (INR 2) with 2.
    pose proof (RS (2 * a)%nat ltac:(lia)) as R1. pose proof (RS (2 * a + 1)%nat ltac:(lia)) as R2. destruct (samp (DFT (-1) P) (2 * a)) as [u1 u2], (samp (DFT (-1) P) (2 * a + 1)) as [v1 v2]. cbn [fst snd] in *. subst u2 v2. apply C_ext; cbn; field; lra. }
  intros a Ha. pose proof (Nat.div_mod a 2 ltac:(lia)) as DM. pose proof (Nat.mod_upper_bound a 2 ltac:(lia)) as MB. set (b := (a / 2)%nat) in *. assert (Hb : (b < h)%nat) by lia.
  destruct (flat_pairs_nth x2 b) as [F1 F2]. destruct (Nat.eq_dec (a mod 2) 0) as [Z|Z].
  - replace a with (2 * b)%nat by lia. etransitivity; [exact F1|]. rewrite V by exact Hb. reflexivity.
  - replace a with (2 * b + 1)%nat by lia. etransitivity; [exact F2|]. rewrite V by exact Hb. reflexivity.
Qed.
