(** C63: biquad designs (rii.cc design_biquad). *)
From Coq Require Import Reals Lra Lia String.
From Verif Require Import Base BaseLemmas RField DftSys ComplexSys Poly_Model Poly_Spec Poly_Proofs Rii_Model Biq_Spec Biq_Proofs.
Local Open Scope R_scope.

Section CF.
Add Field Cf : (fth Cfield).
Lemma A_pos g : 0 < sqrt (db2pow (g / 2)) /\ sqrt (db2pow (g / 2)) = Rpower 10 (g / 40).
Proof.
  unfold db2pow. split; [apply sqrt_lt_R0; apply exp_pos|]. rewrite <- Rpower_sqrt by apply exp_pos. rewrite Rpower_mult. f_equal. field.
Qed.
(** the denominator satisfies the stability criterion *)
Lemma bq_jury t f Q g : 0 < f < 1 / 2 -> 0 < Q -> let '(_, (a0, a1, a2)) := biquad_coefs t f Q g in
  0 < a0 /\ - a0 < a2 < a0 /\ - (a0 + a2) < a1 < a0 + a2.
Proof.
  intros Hf HQ. pose proof PI_RGT_0.
  assert (S0 : 0 < sin (2 * PI * f)) by (apply sin_gt_0; nra).
  pose proof (sin2_cos2 (2 * PI * f)) as SC. unfold Rsqr in SC.
  pose proof (COS_bound (2 * PI * f)) as [B1 B2]. assert (C1 : -1 < cos (2 * PI * f) < 1) by (split; nra).
  destruct (A_pos g) as [PA _].
  assert (AL : 0 < sin (2 * PI * f) / (2 * Q)) by (apply Rdiv_lt_0_compat; lra).
  assert (BE : 0 < sqrt (2 * sqrt (db2pow (g / 2)))) by (apply sqrt_lt_R0; lra).
  unfold biquad_coefs. set (A := sqrt (db2pow (g / 2))) in *. set (sn := sin (2 * PI * f)) in *. set (cs := cos (2 * PI * f)) in *. set (be := sqrt (2 * A)) in *. set (al := sn / (2 * Q)) in *. clearbody A sn cs be al.
  assert (AA : 0 < al / A) by (apply Rdiv_lt_0_compat; assumption). assert (BS : 0 < be * sn) by (apply Rmult_lt_0_compat; assumption).
  assert (P1 : 0 < A + 1 + (A - 1) * cs) by nra. assert (P2 : 0 < A + 1 - (A - 1) * cs) by nra.
  destruct t; repeat split; nra.
Qed.

(** Stability: every pole of the designed filter is strictly inside the unit circle. *)
Theorem C63_stable : forall (isz : Cfield -> bool), (forall v, isz v = true -> v = c0) -> forall t f Q g (z : Cfield), 0 < f < 1 / 2 -> 0 < Q ->
  p_horner (f_den (design_biquad isz t f Q g)) z = c0 -> Cnorm2 z < 1.
Proof.
  intros isz Hz t f Q g z Hf HQ E. pose proof (bq_jury t f Q g Hf HQ) as J. unfold design_biquad in E. destruct (biquad_coefs t f Q g) as [[[b0 b1] b2] [[a0 a1] a2]]. destruct J as (J0 & J2 & J1).
  destruct (C0_dec z) as [-> |N]; [unfold Cnorm2; cbn; lra|].
  destruct (C0_dec (re a0 * (z * z) + re a1 * z + re a2)%K) as [D|D]; [exact (jury a0 a1 a2 z J0 J2 J1 D)|].
  exfalso. apply (bq_poles isz Hz (re (b0 / a0)) (re (b1 / a0)) (re (b2 / a0)) (re (a1 / a0)) (re (a2 / a0)) z N); [|exact E].
  apply (quad_div a0 b0 b1 b2 a1 a2 z); [lra|exact D].
Qed.

Lemma mul_nz (a b : Cfield) : a <> c0 -> b <> c0 -> (a * b)%K <> (c0 : Cfield).
Proof. intros Ha Hb E. apply C_mul0 in E. tauto. Qed.
Lemma div_nz (a b : Cfield) : a <> c0 -> b <> c0 -> (a / b)%K <> (c0 : Cfield).
Proof. intros Ha Hb E. apply Ha. transitivity (a / b * b)%K; [field; exact Hb|]. rewrite E. ring. Qed.
Lemma frac_scale (k N D Nc Dc H : Cfield) : k <> c0 -> D <> c0 -> (Dc <> c0 -> H = (Nc / Dc)%K) -> Dc = (k * D)%K -> Nc = (k * N)%K -> H = (N / D)%K.
Proof.
  intros Hk HD HH -> ->. rewrite HH by (apply mul_nz; assumption). field. split; assumption.
Qed.
(** value of the transfer function *)
Lemma bq_horner (isz : Cfield -> bool) (Hz : forall v, isz v = true -> v = c0) t f Q g (z : Cfield) : 0 < f < 1 / 2 -> 0 < Q -> z <> c0 ->
  let '((b0, b1, b2), (a0, a1, a2)) := biquad_coefs t f Q g in (re a0 * (z * z) + re a1 * z + re a2)%K <> (c0 : Cfield) ->
  f_horner (design_biquad isz t f Q g) z = ((re b0 * (z * z) + re b1 * z + re b2) / (re a0 * (z * z) + re a1 * z + re a2))%K.
Proof.
  intros Hf HQ Nz. pose proof (bq_jury t f Q g Hf HQ) as J. unfold design_biquad. destruct (biquad_coefs t f Q g) as [[[b0 b1] b2] [[a0 a1] a2]]. destruct J as (J0 & J2 & J1).
  intros D. destruct (quad_div a0 b0 b1 b2 a1 a2 z ltac:(lra) D) as [N2 E]. rewrite (bq_val isz Hz) by assumption. exact E.
Qed.
Lemma den_ne t f Q g (z : Cfield) : 0 < f < 1 / 2 -> 0 < Q -> 1 <= Cnorm2 z ->
  let '(_, (a0, a1, a2)) := biquad_coefs t f Q g in (re a0 * (z * z) + re a1 * z + re a2)%K <> (c0 : Cfield).
Proof.
  intros Hf HQ Nz. pose proof (bq_jury t f Q g Hf HQ) as J. destruct (biquad_coefs t f Q g) as [[[b0 b1] b2] [[a0 a1] a2]]. destruct J as (J0 & J2 & J1).
  intros D. pose proof (jury a0 a1 a2 z J0 J2 J1 D). lra.
Qed.
(** The transfer function is the bilinear transform of the documented analog prototype, the design frequency being sent to 1 rad/s. *)
Theorem C63_prototype : forall (isz : Cfield -> bool), (forall v, isz v = true -> v = c0) -> forall t f Q g (z : Cfield), 0 < f < 1 / 2 -> 0 < Q ->
  z <> c0 -> (z + 1)%K <> (c0 : Cfield) -> analog_den t Q g (laplace f z) <> c0 ->
  f_horner (design_biquad isz t f Q g) z = analog t Q g (laplace f z).
Proof.
  intros isz Hz t f Q g z Hf HQ Nz N1 ND. pose proof (bq_horner isz Hz t f Q g z Hf HQ Nz) as H.
  destruct (half_angle f Hf) as (T0 & EC & ES). destruct (A_pos g) as [PA EA].
  unfold analog, analog_den, laplace, den2 in *. unfold biquad_coefs in H. rewrite EA in H, PA. set (A := Rpower 10 (g / 40)) in *. clearbody A.
  assert (BB : sqrt (2 * A) * sqrt (2 * A) = 2 * A) by (apply sqrt_sqrt; lra). set (be := sqrt (2 * A)) in *. clearbody be.
  rewrite EC, ES in H. set (t' := tan (PI * f)) in *. clearbody t'. clear EC ES EA.
  assert (T1 : 1 + t' * t' <> 0) by nra. assert (HA : A <> 0) by lra. assert (HQ' : Q <> 0) by lra. assert (HT : t' <> 0) by lra. assert (H2 : 2 <> 0) by lra. assert (HQ2 : 2 * Q <> 0) by lra. assert (HQA : Q * A <> 0) by nra. assert (HQA' : Q / A <> 0) by (apply Rgt_not_eq; apply Rdiv_lt_0_compat; lra).
  assert (BB' : (re be * re be = (1 + 1) * re A)%K) by (rewrite <- !re_mul, BB, re_mul, re_2; reflexivity).
  pose proof (re_ne _ T1) as T1'. pose proof (re_ne _ HA) as HA'. pose proof (re_ne _ HQ') as HQ''. pose proof (re_ne _ HT) as HT'. pose proof (re_ne _ H2) as H2'. rewrite re_add, re_mul, re_1 in T1'. rewrite re_2 in H2'.
  destruct t; cbv beta iota zeta in H;
  repeat first [rewrite re_add in H | rewrite re_sub in H | rewrite re_opp in H | rewrite re_mul in H | rewrite re_div in H by assumption | rewrite re_1 in H | rewrite re_0 in H | rewrite re_2 in H | rewrite re_m2 in H];
  repeat first [rewrite re_add in ND | rewrite re_sub in ND | rewrite re_opp in ND | rewrite re_mul in ND | rewrite re_div in ND by assumption | rewrite re_1 in ND | rewrite re_0 in ND | rewrite re_2 in ND | rewrite re_m2 in ND];
  repeat first [rewrite re_add | rewrite re_sub | rewrite re_opp | rewrite re_mul | rewrite re_div by assumption | rewrite re_1 | rewrite re_0 | rewrite re_2 | rewrite re_m2].
  1-7: set (T := re t') in *; set (q := re Q) in *; set (a := re A) in *; set (b := re be) in *; clearbody T q a b.
  1-5: pose (k := (T * T * ((z + 1) * (z + 1)) / (1 + T * T))%K).
  6-7: pose (k := ((1 + 1) * (T * T * ((z + 1) * (z + 1)) / (1 + T * T)))%K).
  1-5: assert (Nk : k <> c0) by (unfold k; apply div_nz; [repeat apply mul_nz; assumption|exact T1']).
  6-7: assert (Nk : k <> c0) by (unfold k; apply mul_nz; [exact H2'|]; apply div_nz; [repeat apply mul_nz; assumption|exact T1']).
  1-7: apply (frac_scale k _ _ _ _ _ Nk ND H); unfold k.
  all: field; repeat split; assumption.
Qed.
Print Assumptions C63_prototype.
Print Assumptions C63_stable.

Lemma Cnorm2_mul (a b : Cfield) : Cnorm2 (a * b)%K = Cnorm2 a * Cnorm2 b.
Proof. unfold Cnorm2. cbn. ring. Qed.
Lemma Cnorm2_div (a b : Cfield) : b <> c0 -> Cnorm2 (a / b)%K = Cnorm2 a / Cnorm2 b.
Proof.
  intros Hb. assert (Nb := Cnorm2_ne b Hb). apply (Rmult_eq_reg_r (Cnorm2 b)); [|exact Nb]. rewrite <- Cnorm2_mul.
  replace (a / b * b)%K with a by (field; exact Hb). field. exact Nb.
Qed.
(** on the unit circle s is imaginary *)
Lemma laplace_circle f v : 0 < f < 1 / 2 -> -1 / 2 < v < 1 / 2 -> (eit (2 * PI * v) + 1)%K <> (c0 : Cfield) /\ laplace f (eit (2 * PI * v)) = (0, tan (PI * v) / tan (PI * f)).
Proof.
  intros Hf Hv. pose proof PI_RGT_0. destruct (half_angle f Hf) as (T0 & _ & _). unfold laplace. set (t := tan (PI * f)) in *. clearbody t.
  assert (C0 : 0 < cos (PI * v)) by (apply cos_gt_0; nra). pose proof (sin2_cos2 (PI * v)) as SC. unfold Rsqr in SC.
  assert (EC : cos (2 * PI * v) = 2 * cos (PI * v) * cos (PI * v) - 1) by (replace (2 * PI * v) with (2 * (PI * v)) by ring; rewrite cos_2a_cos; ring).
  assert (ES : sin (2 * PI * v) = 2 * sin (PI * v) * cos (PI * v)) by (replace (2 * PI * v) with (2 * (PI * v)) by ring; apply sin_2a).
  assert (N : (eit (2 * PI * v) + 1)%K <> (c0 : Cfield)).
  { intros E. apply (f_equal fst) in E. cbn in E. rewrite EC in E. nra. }
  split; [exact N|].
  assert (E : (eit (2 * PI * v) - 1)%K = cmul ((0, tan (PI * v) / t) : Cfield) (re t * (eit (2 * PI * v) + 1))%K).
  { unfold tan. apply C_ext; cbn; rewrite EC, ES; set (c := cos (PI * v)) in *; set (s := sin (PI * v)) in *.
    - transitivity (- 2 * (s * s)); [|field; lra]. nra.
    - field. lra. }
  rewrite E. generalize N. generalize ((0, tan (PI * v) / t) : Cfield). intros u N'. field. split; [exact N'|]. apply re_ne. lra.
Qed.
Lemma analog_den_ne t Q g u : 0 < Q -> analog_den t Q g ((0, u) : Cfield) <> c0.
Proof.
  intros HQ. set (A := Rpower 10 (g / 40)). assert (PA : 0 < A) by apply exp_pos. assert (PB : 0 < sqrt (2 * A)) by (apply sqrt_lt_R0; lra).
  assert (Q1 : 0 < 1 / Q) by (apply Rdiv_lt_0_compat; lra). assert (Q2 : 0 < 1 / (Q * A)) by (apply Rdiv_lt_0_compat; nra).
  assert (G : forall x b c : R, b <> 0 -> c <> 0 -> (((x + c), b * u) : Cfield) <> c0 \/ u = 0 \/ x <> 0 -> True) by trivial. clear G.
  destruct t; unfold analog_den, den2; fold A; intros E; pose proof (f_equal fst E) as E1; pose proof (f_equal snd E) as E2; cbn in E1, E2; ring_simplify in E1; ring_simplify in E2.
  all: assert (U : u = 0) by (apply Rmult_integral in E2; destruct E2; try assumption; exfalso; try lra); rewrite U in E1; lra.
Qed.
(** Frequency response at every frequency: the response of the analog prototype at the frequency tan(pi v) / tan(pi f). *)
Theorem C63_response : forall (isz : Cfield -> bool), (forall v, isz v = true -> v = c0) -> forall t f Q g v, 0 < f < 1 / 2 -> 0 < Q -> -1 / 2 < v < 1 / 2 ->
  f_horner (design_biquad isz t f Q g) (eit (2 * PI * v)) = analog t Q g (0, tan (PI * v) / tan (PI * f)).
Proof.
  intros isz Hz t f Q g v Hf HQ Hv. destruct (laplace_circle f v Hf Hv) as [N E]. rewrite (C63_prototype isz Hz).
  2-3: assumption.
  3: exact N. 3: rewrite E; apply analog_den_ne; exact HQ.
  2: intros E0; pose proof (f_equal fst E0) as E1; pose proof (f_equal snd E0) as E2; cbn in E1, E2; pose proof (sin2_cos2 (2 * PI * v)) as SC; unfold Rsqr in SC; rewrite E1, E2 in SC; lra.
  rewrite E. reflexivity.
Qed.
Print Assumptions C63_response.
Lemma real_quot (isz : Cfield -> bool) (Hz : forall v, isz v = true -> v = c0) t f Q g e : 0 < f < 1 / 2 -> 0 < Q -> e = 1 \/ e = -1 ->
  let '((b0, b1, b2), (a0, a1, a2)) := biquad_coefs t f Q g in 0 < a0 + e * a1 + a2 /\
  f_horner (design_biquad isz t f Q g) (re e) = re ((b0 + e * b1 + b2) / (a0 + e * a1 + a2)).
Proof.
  intros Hf HQ He. pose proof (bq_jury t f Q g Hf HQ) as J. pose proof (bq_horner isz Hz t f Q g (re e) Hf HQ) as B.
  destruct (biquad_coefs t f Q g) as [[[b0 b1] b2] [[a0 a1] a2]]. destruct J as (J0 & J2 & J1).
  assert (P : 0 < a0 + e * a1 + a2) by (destruct He; subst; lra). split; [exact P|].
  assert (EE : e * e = 1) by (destruct He; subst; ring). assert (E0 : e <> 0) by (destruct He; subst; lra).
  assert (F : forall x y w, (re x * (re e * re e) + re y * re e + re w)%K = re (x + e * y + w)) by (intros; rewrite <- !re_mul, EE, <- !re_add; f_equal; ring).
  rewrite B; [rewrite !F, re_div by lra; reflexivity|apply re_ne; exact E0|rewrite F; apply re_ne; lra].
Qed.
(** Gains at frequency 0, at the Nyquist frequency and (squared) at the design frequency; G is the gain requested in dB. *)
Theorem C63_gains : forall (isz : Cfield -> bool), (forall v, isz v = true -> v = c0) -> forall t f Q g, 0 < f < 1 / 2 -> 0 < Q ->
  let H := design_biquad isz t f Q g in let G := Rpower 10 (g / 20) in
  f_horner H (re 1) = re match t with B_PASSE_BAS | B_COUPE_BANDE | B_RESONATEUR | B_PLATEAU_HF => 1 | B_PLATEAU_BF => G | _ => 0 end /\
  f_horner H (re (-1)) = re match t with B_PASSE_HAUT | B_COUPE_BANDE | B_RESONATEUR | B_PLATEAU_BF => 1 | B_PLATEAU_HF => G | _ => 0 end /\
  Cnorm2 (f_horner H (eit (2 * PI * f))) = match t with B_PASSE_BAS | B_PASSE_HAUT => Q * Q | B_PASSE_BANDE => 1 | B_COUPE_BANDE => 0 | B_RESONATEUR => G * G | B_PLATEAU_BF | B_PLATEAU_HF => G end.
Proof.
  intros isz Hz t f Q g Hf HQ H G. unfold H. clear H. destruct (A_pos g) as [PA EA]. pose proof (half_angle f Hf) as (T0 & EC & _).
  assert (EG : Rpower 10 (g / 40) * Rpower 10 (g / 40) = G) by (unfold G; rewrite <- Rpower_plus; f_equal; field).
  assert (PC : -1 < cos (2 * PI * f) < 1).
  { rewrite EC. set (u := tan (PI * f)) in *. assert (0 < 1 + u * u) by nra. split; [apply (Rmult_lt_reg_r (1 + u * u))|apply (Rmult_lt_reg_r (1 + u * u))]; try assumption;
    replace ((1 - u * u) / (1 + u * u) * (1 + u * u)) with (1 - u * u) by (field; lra); nra. }
  assert (QQ : forall x y z, y <> 0 -> x = z * y -> x / y = z) by (intros x y z Hy ->; field; exact Hy).
  split; [|split].
  - pose proof (real_quot isz Hz t f Q g 1 Hf HQ (or_introl eq_refl)) as R1. destruct t; cbn [biquad_coefs] in R1; destruct R1 as [P ->]; f_equal; apply QQ; try lra; rewrite ?EA in *; try rewrite <- EG; ring.
  - pose proof (real_quot isz Hz t f Q g (-1) Hf HQ (or_intror eq_refl)) as R1. destruct t; cbn [biquad_coefs] in R1; destruct R1 as [P ->]; f_equal; apply QQ; try lra; rewrite ?EA in *; try rewrite <- EG; ring.
  - rewrite (C63_response isz Hz) by (try assumption; lra). replace (tan (PI * f) / tan (PI * f)) with 1 by (field; lra).
    pose proof (analog_den_ne t Q g 1 HQ) as ND. rewrite EA in PA. set (A := Rpower 10 (g / 40)) in *. 
    assert (BB : sqrt (2 * A) * sqrt (2 * A) = 2 * A) by (apply sqrt_sqrt; lra).
    destruct t; unfold analog, analog_den, den2 in *; fold A in ND; fold A; rewrite Cnorm2_div by exact ND.
    1-5: unfold Cnorm2; cbn; try (rewrite <- EG); field; try (repeat split; lra); try lra.
    1-2: set (b := sqrt (2 * A)) in *; unfold Cnorm2; cbn; rewrite <- EG; apply QQ; nra.
Qed.
Print Assumptions C63_gains.
End CF.

(** Design by name: the documented names. *)
Theorem C63_names : forall isz f Q g,
  design_biquad_s isz "lp" f Q g = design_biquad isz B_PASSE_BAS f Q g /\ design_biquad_s isz "pb" f Q g = design_biquad isz B_PASSE_BAS f Q g /\
  design_biquad_s isz "hp" f Q g = design_biquad isz B_PASSE_HAUT f Q g /\ design_biquad_s isz "ph" f Q g = design_biquad isz B_PASSE_HAUT f Q g /\
  design_biquad_s isz "bp" f Q g = design_biquad isz B_PASSE_BANDE f Q g /\ design_biquad_s isz "sb" f Q g = design_biquad isz B_COUPE_BANDE f Q g /\
  design_biquad_s isz "res" f Q g = design_biquad isz B_RESONATEUR f Q g /\
  design_biquad_s isz "plateau-bf" f Q g = design_biquad isz B_PLATEAU_BF f Q g /\ design_biquad_s isz "plateau-hf" f Q g = design_biquad isz B_PLATEAU_HF f Q g.
Proof. intros. repeat split. Qed.
Print Assumptions C63_names.
(** Finding: any other name is accepted and designs a low-pass. *)
Theorem C63_unknown_name_refuted : forall isz f Q g s, ~ In s ["lp"; "pb"; "hp"; "ph"; "bp"; "passe-bande"; "cb"; "notch"; "sb"; "plateau-bf"; "plateau-hf"; "res"]%string ->
  design_biquad_s isz s f Q g = design_biquad isz B_PASSE_BAS f Q g.
Proof.
  intros isz f Q g s H. unfold design_biquad_s, parse_biquad.
  repeat match goal with |- context [String.eqb s ?n] => replace (String.eqb s n) with false by (symmetry; apply String.eqb_neq; intros ->; apply H; cbn; tauto) end.
  reflexivity.
Qed.
Print Assumptions C63_unknown_name_refuted.
(** The hypotheses can be met: a low-pass at a quarter of the sampling rate with Q = 1/2 is ((1 + z^-1)/2)^2, of gain 1/4 at the design frequency. *)
Example C63_case : exists isz : Cfield -> bool, (forall v, isz v = true -> v = c0) /\ biquad_coefs B_PASSE_BAS (1 / 4) (1 / 2) 0 = ((1 / 2, 1, 1 / 2), (2, 0, 0)) /\
  Cnorm2 (f_horner (design_biquad isz B_PASSE_BAS (1 / 4) (1 / 2) 0) (eit (2 * PI * (1 / 4)))) = 1 / 2 * (1 / 2).
Proof.
  exists (fun v => if C0_dec v then true else false). split; [intros v; destruct (C0_dec v); [trivial|discriminate]|]. split.
  - unfold biquad_coefs. replace (2 * PI * (1 / 4)) with (PI / 2) by field. rewrite cos_PI2, sin_PI2. repeat (f_equal; try field).
  - apply (C63_gains (fun v => if C0_dec v then true else false)); [|lra|lra]. intros v; destruct (C0_dec v); [trivial|discriminate].
Qed.
