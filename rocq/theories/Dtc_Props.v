(** C74: detection of a pattern. *)
From Coq Require Import Reals ZArith Bool Lra Lia Psatz Field.
From Verif Require Import Base BaseLemmas RField DftSys ComplexSys Rii_Model Filters_Model Filters_Proofs Fourier_Spec Fest_Model Fest_Proofs Fest_Proofs3 Del_Spec Del_Proofs Del_Proofs2 Del_Proofs3 Dtc_Model Dtc_Spec Dtc_Proofs Dtc_Proofs2 Dtc_Proofs3.
Local Open Scope R_scope.
Local Notation rs := (sum (K := Rring)).

Lemma run_ok (c : dcfg) (bs : list (list Complex)) : 0 < energy (d_motif c) -> 0 <= d_seuil c -> (2 <= List.length (d_motif c))%nat -> (forall b, In b bs -> (2 <= List.length b)%nat) -> forall pre s, DInv c pre s ->
  exists s' y dss, dtc_run c s bs = Ok (s', y, dss) /\ List.length y = List.length (concat bs) /\ List.length dss = List.length bs /\
  (forall i, (i < List.length y)%nat -> nth i y 0 = score (d_motif c) (pre ++ concat bs) (List.length pre + i)) /\
  (forall q d, In d (nth q dss []) -> let o := (List.length pre + List.length (concat (firstn q bs)))%nat in exists n, (Z.of_nat o - 1 <= Z.of_nat n < Z.of_nat o + Z.of_nat (List.length (nth q bs [])))%Z /\
     (dt_pos d = Z.of_nat n - (Z.of_nat (List.length (d_motif c)) - 1) - Z.of_nat o)%Z /\ dt_score d = score (d_motif c) (pre ++ concat bs) n /\ d_seuil c < dt_score d /\ forall v, dt_frac d = Some v -> - (1 / 2) <= v <= 1 / 2).
Proof.
  intros HE HS HM. induction bs as [|b bs IH]; intros HB pre s I.
  - exists s, [], []. cbn. split; [reflexivity|]. split; [reflexivity|]. split; [reflexivity|]. split; [intros; lia|]. intros q d H. destruct q; destruct H.
  - destruct (step_ok c HE HS HM pre s b I) as (s1 & y1 & d1 & sel & corr & E1 & I1 & L1 & V1 & _ & _ & ES & SD & _); [apply HB; left; reflexivity|].
    destruct (IH ltac:(intros q Hq; apply HB; right; exact Hq) (pre ++ b) s1 I1) as (s2 & y2 & d2 & E2 & L2 & LD & V2 & D2).
    exists s2, (y1 ++ y2), (d1 :: d2). cbn [dtc_run concat]. rewrite E1. cbn [bind]. rewrite E2. cbn [bind]. split; [reflexivity|]. split; [rewrite app_length, L1, L2; symmetry; apply (app_length (A := Complex))|]. split; [cbn [List.length]; f_equal; exact LD|].
    assert (SC : forall n, (n < List.length pre + List.length b)%nat -> score (d_motif c) (pre ++ b ++ concat bs) n = score (d_motif c) (pre ++ b) n).
    { intros n Hn. rewrite app_assoc. apply score_app. rewrite app_length. lia. }
    split.
    + intros i Hi. rewrite app_length in Hi. destruct (Nat.lt_ge_cases i (List.length b)) as [L|L].
      * rewrite app_nth1 by lia. rewrite V1 by exact L. symmetry. apply SC. lia.
      * rewrite app_nth2 by lia. rewrite V2 by lia. rewrite app_assoc. rewrite app_length. f_equal. lia.
    + intros q d Hd. set (o := (List.length pre + List.length (concat (firstn q (b :: bs))))%nat). destruct q as [|q]; cbn [nth] in *.
      * unfold o. cbn [firstn concat List.length]. rewrite Nat.add_0_r. destruct (SD d Hd) as [F [[i [Ii [S1 P1]]]|[sc0 [p [PF [S1 P1]]]]]].
        -- destruct (selection_ok (List.length (d_motif c)) (d_seuil c) y1 (M_pos c HE) HS) as [l [El [Sl _]]]. rewrite El in ES. injection ES as ->. destruct (Sl i Ii) as [B1 [B2 _]].
           exists (List.length pre + i)%nat. split; [lia|]. split; [lia|]. split; [rewrite S1, V1 by lia; symmetry; apply SC; lia|]. split; [rewrite S1; exact B2|exact F].
        -- destruct I as (_ & _ & _ & _ & IP & _). destruct (IP sc0 p PF) as [NE [Q1 [Q2 Q3]]]. assert (LP : (0 < List.length pre)%nat) by (destruct pre; [contradiction NE; reflexivity|cbn; lia]).
           exists (List.length pre - 1)%nat. split; [lia|]. split; [lia|]. split; [rewrite S1, Q1; symmetry; apply score_app; lia|]. split; [rewrite S1; exact Q2|exact F].
      * destruct (D2 q d Hd) as [n [B1 B2]]. exists n. rewrite app_assoc. assert (OO : (List.length (pre ++ b) + List.length (concat (firstn q bs)) = o)%nat) by (unfold o; cbn [firstn concat]; rewrite !app_length; lia). rewrite OO in *. split; assumption.
Qed.
(** For every pattern of 2 samples or more which is not null, every signal and every cutting into blocks of 2 samples or more: the output at n is the normalised correlation of the pattern with the samples ending at n, and every detection
    reported by a call which starts at the sample o gives the true score of the samples which end at n, above the threshold, with the position of their first sample relative to o; n is in this block or the last of the block before. *)
Theorem C74_score : forall (c : dcfg) (bs : list (list Complex)), let m := d_motif c in let X := concat bs in
  0 < energy m -> (2 <= List.length m)%nat -> 0 <= d_seuil c -> (forall b, In b bs -> (2 <= List.length b)%nat) ->
  exists st0 st y dss, dtc_init c = Ok st0 /\ dtc_run c st0 bs = Ok (st, y, dss) /\ List.length y = List.length X /\
  (forall n, (n < List.length X)%nat -> nth n y 0 = score m X n) /\ List.length dss = List.length bs /\
  (forall q d, In d (nth q dss []) -> let o := List.length (concat (firstn q bs)) in exists n, (Z.of_nat o - 1 <= Z.of_nat n < Z.of_nat o + Z.of_nat (List.length (nth q bs [])))%Z /\
     (dt_pos d = Z.of_nat n - (Z.of_nat (List.length m) - 1) - Z.of_nat o)%Z /\ dt_score d = score m X n /\ d_seuil c < dt_score d /\ forall v, dt_frac d = Some v -> - (1 / 2) <= v <= 1 / 2).
Proof.
  intros c bs m X HE HM HS HB. destruct (init_inv c HE) as [s0 [E0 I0]]. destruct (run_ok c bs HE HS HM HB [] s0 I0) as (s & y & dss & E & L & LD & V & D). exists s0, s, y, dss. split; [exact E0|]. split; [exact E|]. split; [exact L|].
  split; [intros n Hn; apply (V n); rewrite L; exact Hn|]. split; [exact LD|]. exact D.
Qed.
Print Assumptions C74_score.

(** ** The score *)
Lemma pattern_length m : List.length (pattern m) = List.length m.
Proof. unfold pattern. destruct (est_reel m); [apply map_length|reflexivity]. Qed.
Lemma pattern_le m k : Cnorm2 (samp (pattern m) k) <= Cnorm2 (samp m k).
Proof.
  unfold pattern. destruct (est_reel m); [|lra]. destruct (Nat.lt_ge_cases k (List.length m)) as [L|L].
  - unfold samp. rewrite (nth_indep _ _ ((fun z : Complex => re (fst z)) c0)) by (rewrite map_length; exact L). rewrite (map_nth (fun z : Complex => re (fst z))). destruct (nth k m (c0 : Complex)) as [a b]. unfold Cnorm2, re. cbn. nra.
  - unfold samp. rewrite !nth_overflow by (try rewrite map_length; exact L). lra.
Qed.
Lemma product_cs m X n : Cnorm2 (product m X n) <= wenergy (List.length m) X n * energy m.
Proof.
  set (M := List.length m). set (p := fun k => nrm (window X M n k)). set (q := fun k => nrm (samp (pattern m) k)).
  assert (A : nrm (product m X n) <= rs M (fun k => p k * q k)).
  { unfold product. fold M. eapply Rle_trans; [apply nrm_sum|]. apply rs_le. intros k _. rewrite nrm_mul, nrm_conj. unfold p, q. lra. }
  pose proof (rs_cs M p q) as CS. assert (E1 : rs M (fun k => p k * p k) = wenergy M X n) by (apply rs_ext; intros; apply nrm_sq).
  assert (E2 : rs M (fun k => q k * q k) <= energy m) by (unfold energy; fold M; apply rs_le; intros k _; unfold q; rewrite nrm_sq; apply pattern_le). rewrite E1 in CS.
  rewrite <- nrm_sq. pose proof (nrm_pos (product m X n)). pose proof (wenergy_pos M X n). assert (0 <= rs M (fun k => p k * q k)) by lra. nra.
Qed.
Theorem C74_range : forall (m X : list Complex) n, 0 < energy m -> 0 <= score m X n < 1.
Proof.
  intros m X n HE. unfold score. assert (NP : 0 < sqrt (energy m)) by (apply sqrt_lt_R0; exact HE). destruct (Rle_dec _ _) as [_|NL]; [lra|].
  set (P := product m X n) in *. set (e := wenergy (List.length m) X n). pose proof (wenergy_pos (List.length m) X n) as WP. fold e in WP.
  assert (ML : 0 < INR (List.length m) * / 10 ^ 20). { apply Rmult_lt_0_compat; [|apply e20_pos]. apply lt_0_INR. destruct m; [cbn in HE; lra|cbn; lia]. }
  assert (D : 0 < sqrt (e + INR (List.length m) * / 10 ^ 20)) by (apply sqrt_lt_R0; lra). set (d := sqrt (e + _)) in *. assert (DN : 0 < sqrt (energy m) * d) by (apply Rmult_lt_0_compat; assumption). pose proof (sqrt_pos (Cnorm2 P)) as SP.
  split; [apply Rmult_le_pos; [exact SP|apply Rlt_le, Rinv_0_lt_compat; exact DN]|]. apply (Rmult_lt_reg_r (sqrt (energy m) * d)); [exact DN|]. unfold Rdiv. rewrite Rmult_assoc, Rinv_l, Rmult_1_r, Rmult_1_l by lra.
  unfold d. rewrite <- sqrt_mult by lra. apply sqrt_lt_1; [apply Cnorm2_nonneg|nra|]. pose proof (product_cs m X n) as CS. fold P e in CS. nra.
Qed.
Print Assumptions C74_range.

(** ** Selection of the peaks *)
(** Two peaks selected in a block are at least one pattern apart, or have the same score; a score above the threshold and greater than all the others closer than one pattern is selected; a peak selected is above the threshold,
    and the greatest of its segment of M scores. *)
Theorem C74_select : forall (M : nat) (seuil : R) (y : list R), (0 < M)%nat -> 0 <= seuil -> exists l, selection M seuil y = Ok l /\
  (forall i, In i l -> (i < List.length y)%nat /\ seuil < nth i y 0 /\ (forall k, (k < List.length y)%nat -> (k / M = i / M)%nat -> nth k y 0 <= nth i y 0)) /\
  (forall i j, In i l -> In j l -> (Z.abs (Z.of_nat i - Z.of_nat j) < Z.of_nat M)%Z -> nth i y 0 = nth j y 0) /\
  (forall i, (i < List.length y)%nat -> seuil < nth i y 0 -> (forall j, (j < List.length y)%nat -> j <> i -> (Z.abs (Z.of_nat i - Z.of_nat j) < Z.of_nat M)%Z -> nth j y 0 < nth i y 0) -> In i l) /\
  Sorted.StronglySorted lt l.
Proof. exact selection_ok. Qed.
Print Assumptions C74_select.

(** ** A pattern alone *)
(** If the window ending at n is the pattern multiplied by g, the score is sqrt(E / (E + M 1e-20)) with E the energy received. *)
Theorem C74_match : forall (m X : list Complex) (g : Complex) (n : nat), 0 < energy m -> pattern m = m -> (forall k, (k < List.length m)%nat -> window X (List.length m) n k = (g * samp m k)%K) ->
  / 10 ^ 6 < sqrt (Cnorm2 g) * sqrt (energy m) -> let E := Cnorm2 g * energy m in Dtc_Spec.score m X n = sqrt (E / (E + INR (List.length m) * / 10 ^ 20)).
Proof.
  intros m X g n HE HP HW HC E. set (X' := map (fun z : Complex => (g * z)%K) m).
  assert (HD : delayed m X' 0 g).
  { intros a. rewrite Z.sub_0_r. destruct (Z_lt_dec a 0) as [L|L]; [rewrite !sampZ_out by lia; apply C_ext; cbn; ring|]. destruct (Z_lt_dec a (Z.of_nat (List.length m))) as [L2|L2].
    - rewrite <- (Z2Nat.id a) by lia. rewrite <- !samp_Z. unfold samp, X'. rewrite (nth_indep _ _ ((fun z : Complex => (g * z)%K) c0)) by (rewrite map_length; lia). apply (map_nth (fun z : Complex => (g * z)%K)).
    - rewrite !sampZ_out by (try unfold X'; try rewrite map_length; lia). apply C_ext; cbn; ring. }
  pose proof (M_pos_list m HE) as MP. set (n' := (List.length m - 1)%nat).
  destruct (score_sq m X' 0 g HD HP HE HC n' ltac:(unfold n'; lia)) as [S1 _].
  assert (EW : forall k, (k < List.length m)%nat -> window X (List.length m) n k = window X' (List.length m) n' k).
  { intros k Hk. rewrite HW by exact Hk. unfold window. rewrite HD. rewrite samp_Z. do 2 f_equal. unfold n'. lia. }
  assert (EP : product m X n = product m X' n') by (unfold product; apply (sum_ext Cring); intros k Hk; rewrite EW by exact Hk; reflexivity).
  assert (EN : wenergy (List.length m) X n = wenergy (List.length m) X' n') by (unfold wenergy; apply rs_ext; intros k Hk; rewrite EW by exact Hk; reflexivity).
  unfold Dtc_Spec.score in *. rewrite EP, EN, S1. unfold best, E. rewrite nrm_sq. reflexivity.
Qed.
Print Assumptions C74_match.
(** The pattern, multiplied by g, received alone at the position d: one block which contains it and one more sample, and does not begin by its last sample, gives exactly one detection, at the position d. *)
Theorem C74_found : forall (c : dcfg) (X : list Complex) (d : Z) (g : Complex), let m := d_motif c in let M := Z.of_nat (List.length m) in let E := Cnorm2 g * energy m in let best := sqrt (E / (E + INR (List.length m) * / 10 ^ 20)) in
  0 < energy m -> (2 <= List.length m)%nat -> pattern m = m -> delayed m X d g -> / 10 ^ 6 < sqrt (Cnorm2 g) * sqrt (energy m) -> 0 <= d_seuil c < best -> (0 < d + M - 1 < Z.of_nat (List.length X) - 1)%Z ->
  exists st0 st y v w, dtc_init c = Ok st0 /\ dtc_step c st0 X = Ok (st, y, [mkdet best d (Some v) (Some w)]) /\ - (1 / 2) <= v <= 1 / 2 /\
    (sqrt (Cnorm2 (sampZ m 0)) = sqrt (Cnorm2 (sampZ m (M - 1))) -> v = 0 /\ w = g).
Proof.
  intros c X d g m M E bst HE HM HP HD HC HS HN. destruct (init_inv c HE) as [s0 [E0 I0]]. assert (LX : (2 <= List.length X)%nat) by lia. destruct HS as [HS0 HS1].
  destruct (step_ok c HE HS0 HM [] s0 X I0 LX) as (s1 & y & ds & sel & corr & E1 & _ & LY & VY & LC & VC & ES & _ & ED). cbn [app List.length Nat.add] in VY, VC. fold m in VY, VC, ES, ED.
  set (n := Z.to_nat (d + M - 1)). assert (Zn : Z.of_nat n = (d + M - 1)%Z) by (unfold n; lia). assert (EB : bst = best m g) by (unfold bst, best, E; rewrite nrm_sq; reflexivity).
  destruct (score_sq m X d g HD HP HE HC n Zn) as [Sn Pn]. rewrite <- EB in Sn.
  assert (SL : forall k, k <> n -> Dtc_Spec.score m X k < bst). { intros k Hk. rewrite EB. apply (score_lt m X d g HD HP HE HC). fold M. lia. }
  assert (PF : d_pf s0 = None) by (unfold dtc_init in E0; destruct (Req_EM_T _ 0); [discriminate|]; injection E0 as <-; reflexivity). rewrite PF in ED. cbn [app] in ED.
  assert (Hn : (0 < n < List.length X - 1)%nat) by lia. pose proof (M_pos_list m HE) as MP.
  destruct (selection_ok (List.length m) (d_seuil c) y MP HS0) as [l [El [A1 [A2 [A3 A4]]]]]. assert (l = sel) by congruence. subst l. clear El.
  assert (IN : In n sel). { apply A3; [lia| |]; [rewrite VY, Sn by lia; exact HS1|]. intros j Hj Nj _. rewrite !VY, Sn by lia. apply SL. exact Nj. }
  assert (SEL : sel = [n]).
  { apply sorted_single; [exact A4|exact IN|]. intros j Hj. destruct (Nat.eq_dec j n) as [|Nj]; [assumption|exfalso]. destruct (A1 j Hj) as [B1 [B2 _]]. destruct (Z_lt_dec (Z.abs (Z.of_nat j - Z.of_nat n)) M) as [L|L].
    - assert (Q := A2 j n Hj IN L). rewrite !VY, Sn in Q by lia. pose proof (SL j Nj). lra.
    - rewrite VY in B2 by lia. rewrite (score_far m X d g HD HP HE) in B2 by (fold M; lia). lra. }
  rewrite SEL in ED. assert (ED2 := dets_inside (List.length m) (norme m) s0 y corr ltac:(rewrite LY; exact LX) (eq_trans LC (eq_sym LY)) [n] ltac:(intros i [<-|[]]; rewrite LY; exact Hn)). rewrite ED2 in ED. injection ED as ED _. cbn [map] in ED.
  rewrite !VY in ED by lia. rewrite Sn in ED. rewrite !VC in ED by lia. match type of ED with context [(Z.of_nat n - ?e)%Z] => change e with (M - 1)%Z in ED end. assert (PD : (Z.of_nat n - (M - 1) = d)%Z) by lia. rewrite PD in ED. unfold report in ED.
  pose proof (SL (n - 1)%nat ltac:(lia)) as Q1. pose proof (SL (n + 1)%nat ltac:(lia)) as Q2.
  set (ym := Dtc_Spec.score m X (n - 1)) in *. set (yp := Dtc_Spec.score m X (n + 1)) in *.
  assert (DN : 2 * (2 * bst - yp - ym) <> 0) by (apply Rgt_not_eq; lra). destruct (qint_frac ym bst yp) as [v|] eqn:QF.
  2:{ exfalso. unfold qint_frac in QF. destruct (Req_EM_T _ 0); [contradiction|discriminate]. }
  exists s0, s1, y, v. eexists. split; [exact E0|]. split; [rewrite E1; rewrite <- ED; reflexivity|]. split; [apply (frac_range _ _ _ _ QF)|].
  intros SY. assert (YY : ym = yp) by (apply (score_sides m X d g n HD HP); [lia|exact Zn|exact SY]).
  assert (V0 : v = 0). { unfold qint_frac in QF. destruct (Req_EM_T _ 0); [contradiction|]. rewrite YY in QF. replace ((yp - yp) / (2 * (2 * bst - yp - yp))) with 0 in QF by (unfold Rdiv; ring). destruct (Rlt_dec 0 (- (1 / 2))); [lra|]. destruct (Rlt_dec (1 / 2) 0); [lra|]. injection QF as <-. reflexivity. }
  split; [exact V0|]. rewrite V0. unfold corr_val. fold m. assert (NP : 0 < norme m) by (apply sqrt_lt_R0; exact HE).
  assert (SQ : norme m * norme m = energy m) by (apply sqrt_sqrt; lra).
  assert (EC : seuille (product m X n / re (norme m))%K = (g * re (norme m))%K).
  { rewrite Pn. replace ((g * re (energy m) / re (norme m))%K) with ((g * re (norme m))%K : Complex).
    - unfold seuille. destruct (Rle_dec _ _) as [L|]; [exfalso|reflexivity]. change (nrm (g * re (norme m))%K <= / 10 ^ 6) in L. rewrite nrm_mul in L. assert (nrm (re (norme m)) = norme m). { unfold nrm, Cnorm2, re. cbn. rewrite Rmult_0_l, Rplus_0_r. apply sqrt_square. lra. }
      rewrite H in L. change (/ 10 ^ 6 < nrm g * norme m) in HC. lra.
    - rewrite <- SQ. symmetry. etransitivity; [apply div_re; lra|]. destruct g as [g1 g2]. apply C_ext; cbn; field; lra. }
  rewrite EC. unfold qint_val. set (z0 := seuille _). set (z2 := seuille _). destruct g as [g1 g2]. destruct z0 as [a1 a2], z2 as [b1 b2]. apply C_ext; cbn; field; lra.
Qed.
Print Assumptions C74_found.

Lemma parab_pts a0 a1 a2 : parab a0 a1 a2 (-1) = a0 /\ parab a0 a1 a2 0 = a1 /\ parab a0 a1 a2 1 = a2.
Proof. unfold parab. repeat split; field. Qed.
Lemma frac_vertex a0 a1 a2 : a0 <= a1 -> a2 <= a1 -> a0 + a2 < 2 * a1 -> exists v, qint_frac a0 a1 a2 = Some v /\ v = (a2 - a0) / (2 * (2 * a1 - a2 - a0)) /\ forall t, parab a0 a1 a2 t <= parab a0 a1 a2 v.
Proof.
  intros H0 H2 H. set (D := 2 * a1 - a2 - a0). assert (DP : 0 < D) by (unfold D; lra). set (v := (a2 - a0) / (2 * D)). exists v.
  assert (EV : (a2 - a0) = 2 * D * v) by (unfold v; field; lra). split.
  - unfold qint_frac. change (2 * a1 - a2 - a0) with D. destruct (Req_EM_T (2 * D) 0) as [Q|_]; [lra|]. change ((a2 - a0) / (2 * D)) with v.
    assert (V1 : - (1 / 2) <= v) by (apply Rmult_le_reg_l with (2 * D); [lra|]; rewrite <- EV; unfold D; lra).
    assert (V2 : v <= 1 / 2) by (apply Rmult_le_reg_l with (2 * D); [lra|]; rewrite <- EV; unfold D; lra).
    destruct (Rlt_dec v (- (1 / 2))); [lra|]. destruct (Rlt_dec (1 / 2) v); [lra|]. reflexivity.
  - split; [reflexivity|]. intros t. unfold parab. assert (E : a2 + a0 - 2 * a1 = - D) by (unfold D; ring). rewrite E, EV.
    assert (0 <= D * ((t - v) * (t - v))) by (apply Rmult_le_pos; [lra|apply Rle_0_sqr]). lra.
Qed.
Lemma gain_vertex (a0 a1 a2 v : R) (u : Complex) : a0 + a2 < 2 * a1 -> v = (a2 - a0) / (2 * (2 * a1 - a2 - a0)) -> qint_val (u * re a0)%K (u * re a1)%K (u * re a2)%K v = (u * re (parab a0 a1 a2 v))%K.
Proof.
  intros H EV. set (D := 2 * a1 - a2 - a0) in *. assert (DP : 0 < D) by (unfold D; lra). assert (E2 : a2 - a0 = 2 * D * v) by (rewrite EV; field; lra).
  assert (E : parab a0 a1 a2 v = a1 + (a2 - a0) * v / 4). { unfold parab. replace (a2 + a0 - 2 * a1) with (- D) by (unfold D; ring). rewrite E2. field. }
  rewrite E. unfold qint_val. destruct u as [p q]. apply C_ext; cbn; field.
Qed.
(** The reports of one block: when no selected score is at an edge of the block, one detection for each of them, in order; the fraction of sample is the abscissa of the vertex of the parabola through the three scores,
    and, when the outputs of the correlator are these scores up to a constant complex factor, the gain is the same factor times the height of the vertex, divided by the norm of the pattern. *)
Theorem C74_precise : forall (c : dcfg) (X : list Complex), let m := d_motif c in
  0 < energy m -> (2 <= List.length m)%nat -> 0 <= d_seuil c -> (2 <= List.length X)%nat ->
  exists st0 st y ds sel, dtc_init c = Ok st0 /\ dtc_step c st0 X = Ok (st, y, ds) /\ selection (List.length m) (d_seuil c) y = Ok sel /\
  ((forall i, In i sel -> (0 < i < List.length X - 1)%nat) -> List.length ds = List.length sel /\
   forall k d0, (k < List.length sel)%nat -> let i := nth k sel 0%nat in let d := nth k ds d0 in
   let a0 := score m X (i - 1) in let a1 := score m X i in let a2 := score m X (i + 1) in
   dt_score d = a1 /\ dt_pos d = (Z.of_nat i - Z.of_nat (List.length m) + 1)%Z /\
   (a0 <= a1 -> a2 <= a1 -> a0 + a2 < 2 * a1 -> exists v w, dt_frac d = Some v /\ dt_gain d = Some w /\
     (forall t, parab a0 a1 a2 t <= parab a0 a1 a2 v) /\ - (1 / 2) <= v <= 1 / 2 /\
     forall u : Complex, corr_out m X (i - 1) = (u * re a0)%K -> corr_out m X i = (u * re a1)%K -> corr_out m X (i + 1) = (u * re a2)%K ->
       w = (u * re (parab a0 a1 a2 v) * re (/ sqrt (energy m)))%K)).
Proof.
  intros c X m HE HM HS LX. destruct (init_inv c HE) as [s0 [E0 I0]].
  destruct (step_ok c HE HS HM [] s0 X I0 LX) as (s1 & y & ds & sel & corr & E1 & _ & LY & VY & LC & VC & ES & _ & ED). cbn [app List.length Nat.add] in VY, VC. fold m in VY, VC, ES, ED.
  assert (PF : d_pf s0 = None) by (unfold dtc_init in E0; destruct (Req_EM_T _ 0); [discriminate|]; injection E0 as <-; reflexivity). rewrite PF in ED. cbn [app] in ED.
  exists s0, s1, y, ds, sel. split; [exact E0|]. split; [exact E1|]. split; [exact ES|]. intros HI.
  assert (ED2 := dets_inside (List.length m) (norme m) s0 y corr ltac:(rewrite LY; exact LX) (eq_trans LC (eq_sym LY)) sel ltac:(intros i Hi; rewrite LY; apply HI; exact Hi)). rewrite ED2 in ED. injection ED as ED _.
  split; [rewrite <- ED; apply map_length|]. intros k d0 Hk i d a0 a1 a2. assert (Hi : (0 < i < List.length X - 1)%nat) by (apply HI, nth_In; exact Hk).
  assert (Ed : d = report (norme m) a1 (Z.of_nat i - (Z.of_nat (List.length m) - 1)) a0 a1 a2 (corr_out m X (i - 1)) (corr_out m X i) (corr_out m X (i + 1))).
  { unfold d. rewrite <- ED. match goal with |- nth k (map ?f sel) d0 = _ => rewrite (nth_indep (map f sel) d0 (f 0%nat)) by (rewrite map_length; exact Hk); rewrite (map_nth f) end. fold i. rewrite !VY by lia. rewrite !VC by lia. reflexivity. }
  rewrite Ed. split; [reflexivity|]. split; [cbn [report dt_pos]; lia|]. intros H0 H2 H. destruct (frac_vertex a0 a1 a2 H0 H2 H) as [v [EF [EV MX]]]. unfold report. rewrite EF. cbn [dt_frac dt_gain].
  exists v. eexists. split; [reflexivity|]. split; [reflexivity|]. split; [exact MX|]. split; [apply (frac_range _ _ _ _ EF)|]. intros u U0 U1 U2. rewrite U0, U1, U2. rewrite (gain_vertex a0 a1 a2 v u H EV). reflexivity.
Qed.
Print Assumptions C74_precise.
(** scores 1/2, 1, 3/4: vertex at 1/6; the values times i have the gain i times the height 97/96 *)
Example C74_vertex : qint_frac (1 / 2) 1 (3 / 4) = Some (1 / 6) /\ qint_val (0, 1 / 2) (0, 1) (0, 3 / 4) (1 / 6) = (0, 97 / 96) /\ parab (1 / 2) 1 (3 / 4) (1 / 6) = 97 / 96.
Proof.
  split; [|split; [apply C_ext; cbn; field|unfold parab; field]]. destruct (frac_vertex (1 / 2) 1 (3 / 4)) as [v [E [V _]]]; try lra. rewrite E, V. f_equal. field.
Qed.

(** ** Findings *)
(** the score b is greater than a, next to it, but both a and c are selected: the comparison is made only between the maxima of the segments of M scores *)
Theorem C74_neighbour_refuted : forall t a b c : R, 0 <= t < a -> a < b < c -> selection 2 t [0; a; b; c; 0] = Ok [1; 3]%nat.
Proof.
  intros t a b c Ha Hb. unfold selection, erosion. cbn [List.length Nat.add Nat.sub]. change (6 / 2)%nat with 3%nat. rewrite !loop_S. cbn [loop bind Nat.mul Nat.add skipn firstn Nat.min Nat.sub index_max imax_from].
  repeat (destruct (Rlt_dec _ _); try lra; cbn [vget vset nth_error bind Nat.add upd Nat.ltb Nat.leb repeat List.length nth skipn firstn index_max imax_from andb negb]).
  assert (T : trouve_sup [0; a; 0; c; 0] t = [1; 3]%nat).
  { unfold trouve_sup. cbn [List.length seq filter nth]. repeat (destruct (Rlt_dec _ _); try lra). reflexivity. }
  rewrite T. unfold plus_grand. cbn [filter forallb nth]. repeat (destruct (Rlt_dec _ _); try lra; cbn [andb negb Z.of_nat Pos.of_succ_nat Pos.succ Z.sub Z.add Z.opp Z.pos_sub Z.abs Z.ltb Z.compare Pos.compare Pos.compare_cont Pos.pred_double Pos.succ Pos.add Z.double Z.succ_double Z.pred_double]). reflexivity.
Qed.
Print Assumptions C74_neighbour_refuted.

(** a block of one sample throws *)
Theorem C74_one_sample_refuted : forall (c : dcfg) (st : dst) (x : Complex), 0 < energy (d_motif c) -> 0 <= d_seuil c -> dtc_init c = Ok st -> dtc_step c st [x] = Exc.
Proof.
  intros c st x HE HS E0. destruct (init_inv c HE) as [s0 [E0' I0]]. assert (s0 = st) by congruence. subst s0. assert (PF : d_pf st = None) by (unfold dtc_init in E0; destruct (Req_EM_T _ 0); [discriminate|]; injection E0 as <-; reflexivity).
  destruct (vectors c HE [] st [x] I0) as (g & f & en & corr0 & E2 & E1 & L2 & L1 & _). unfold dtc_step. rewrite E2. cbn [bind]. rewrite E1. cbn [bind]. rewrite PF. cbn [app].
  set (corr := map (fun z : Complex => if Rle_dec (sqrt (Cnorm2 z)) (/ 10 ^ 6) then (c0 : Complex) else z) corr0).
  set (y := map (fun p : Complex * R => 1 / sqrt (INR (List.length (d_motif c))) * sqrt (Cnorm2 (fst p) / (snd p + / 10 ^ 20))) (combine corr en)).
  match goal with |- context [selection _ (d_seuil c) ?l] => change l with y end. match goal with |- context [detections _ _ st y ?l] => change l with corr end.
  assert (LC : List.length corr = 1%nat) by (unfold corr; rewrite map_length; exact L1). assert (LY : List.length y = 1%nat) by (unfold y; rewrite map_length, combine_length; cbn [List.length] in L2; lia).
  destruct (selection_ok (List.length (d_motif c)) (d_seuil c) y (M_pos c HE) HS) as [sel [ES [S1 _]]]. rewrite ES. cbn [bind]. clearbody corr y.
  assert (D : detections (List.length (d_motif c)) (norme (d_motif c)) st y corr (map Some sel) = Exc \/ detections (List.length (d_motif c)) (norme (d_motif c)) st y corr (map Some sel) = Ok ([], None)).
  { destruct sel as [|i sel]; [right; reflexivity|left]. destruct (S1 i (or_introl eq_refl)) as [Hi _]. assert (i = 0)%nat by lia. subst i. cbn [map detections]. rewrite (vget_nth y 0 0) by lia. cbn [bind]. rewrite (vget_nth corr 0 c0) by lia. cbn [bind Nat.eqb].
    destruct y as [|a [|b y]]; cbn in LY; try discriminate. reflexivity. }
  destruct D as [D|D]; rewrite D; [reflexivity|]. cbn [bind fst snd]. rewrite andb_false_r. reflexivity.
Qed.
Print Assumptions C74_one_sample_refuted.

(** ** Patterns lost at the edges of the blocks *)
(** a final peak lower than the first score of the next block: this block reports nothing *)
Lemma drop_all (c : dcfg) pre s b : 0 < energy (d_motif c) -> 0 <= d_seuil c -> (2 <= List.length (d_motif c))%nat -> DInv c pre s -> (2 <= List.length b)%nat -> d_pf s <> None ->
  Dtc_Spec.score (d_motif c) pre (List.length pre - 1) < Dtc_Spec.score (d_motif c) (pre ++ b) (List.length pre) -> exists s' y, dtc_step c s b = Ok (s', y, []) /\ d_pf s' = None.
Proof.
  intros HE HS HM I Hb HF HL. destruct (step_ok c HE HS HM pre s b I Hb) as (s' & y & ds & sel & corr & E & _ & LY & VY & LC & VC & _ & _ & ED). exists s', y.
  assert (AL : d_alc s = Dtc_Spec.score (d_motif c) pre (List.length pre - 1)).
  { destruct I as (_ & _ & _ & _ & IP & IA). rewrite IA. destruct (Nat.eqb_spec (List.length pre) 0) as [Z|]; [|reflexivity]. exfalso. destruct (d_pf s) as [[sc p]|] eqn:PF; [|apply HF; reflexivity]. destruct (IP sc p eq_refl) as [NE _]. destruct pre; [apply NE; reflexivity|discriminate]. }
  destruct (d_pf s) as [[sc p]|] eqn:PF; [|contradiction HF; reflexivity]. cbn [app detections] in ED. rewrite PF in ED. rewrite (vget_nth y 0 0) in ED by lia. cbn [bind] in ED. rewrite (vget_nth corr 0 c0) in ED by (eapply Nat.lt_le_trans; [|apply Nat.eq_le_incl; symmetry; exact LC]; lia). cbn [bind] in ED.
  rewrite VY in ED by lia. rewrite Nat.add_0_r in ED. rewrite AL in ED. destruct (Rlt_dec _ _) as [_|N]; [|exfalso; apply N; exact HL]. injection ED as <- <-. split; [exact E|reflexivity].
Qed.
Definition u1 : Complex := re 1.
Definition z1 : Complex := re 0.
Definition c2 : dcfg := mkdcfg [u1; u1] (1 / 2).
Lemma m2_energy : energy [u1; u1] = 2. Proof. unfold energy, Cnorm2. cbn. ring. Qed.
Lemma m2_pattern : pattern [u1; u1] = [u1; u1].
Proof. unfold pattern. destruct (est_reel [u1; u1]); reflexivity. Qed.
Lemma small20 : 0 < / 10 ^ 20 < / 100.
Proof. split; [apply e20_pos|]. apply Rinv_lt_contravar; [apply Rmult_lt_0_compat; [lra|apply pow_lt; lra]|]. assert (1 <= 10 ^ 18) by (apply pow_R1_Rle; lra). replace (10 ^ 20) with (100 * 10 ^ 18) by ring. assert (10 ^ 18 = 10 * 10 ^ 17) by ring. assert (1 <= 10 ^ 17) by (apply pow_R1_Rle; lra). lra. Qed.
Lemma small6 : 0 < / 10 ^ 6 < / 100.
Proof. split; [apply e6_pos|]. apply Rinv_lt_contravar; lra. Qed.
Lemma sqrt2_1 : 1 < sqrt 2 < 3 / 2.
Proof. split; [rewrite <- sqrt_1 at 1; apply sqrt_lt_1; lra|]. rewrite <- (sqrt_square (3 / 2)) by lra. apply sqrt_lt_1; lra. Qed.
(** half of the pattern in the window *)
Lemma half_score X n : nrm (product [u1; u1] X n) = 1 -> wenergy 2 X n = 1 -> 1 / 2 < Dtc_Spec.score [u1; u1] X n.
Proof.
  intros P W. unfold Dtc_Spec.score. change (sqrt (Cnorm2 (product [u1; u1] X n))) with (nrm (product [u1; u1] X n)). rewrite P, m2_energy. cbn [List.length]. rewrite W. pose proof small20. pose proof small6. pose proof sqrt2_1.
  destruct (Rle_dec _ _) as [L|_]; [exfalso; nra|]. replace (INR 2) with 2 by (cbn; ring). assert (D : sqrt (1 + 2 * / 10 ^ 20) < 11 / 10) by (rewrite <- (sqrt_square (11 / 10)) by lra; apply sqrt_lt_1; lra).
  assert (D0 : 0 < sqrt (1 + 2 * / 10 ^ 20)) by (apply sqrt_lt_R0; lra). set (r := sqrt (1 + _)) in *. apply (Rmult_lt_reg_r (sqrt 2 * r)); [apply Rmult_lt_0_compat; lra|]. replace (1 / (sqrt 2 * r) * (sqrt 2 * r)) with 1 by (field; split; apply Rgt_not_eq; lra). nra.
Qed.
Lemma best2 : 1 / 2 < best [u1; u1] u1.
Proof.
  unfold best. rewrite nrm_sq, m2_energy. replace (Cnorm2 u1) with 1 by (unfold Cnorm2, u1, re; cbn; ring). cbn [List.length]. replace (INR 2) with 2 by (cbn; ring). pose proof small20. rewrite <- (sqrt_square (1 / 2)) by lra. apply sqrt_lt_1; [lra|apply Rlt_le, Rdiv_lt_0_compat; lra|].
  apply (Rmult_lt_reg_r (1 * 2 + 2 * / 10 ^ 20)); [lra|]. set (e := / 10 ^ 20) in *. replace (1 * 2 / (1 * 2 + 2 * e) * (1 * 2 + 2 * e)) with 2 by (field; apply Rgt_not_eq; lra). lra.
Qed.
Lemma gain2 : / 10 ^ 6 < nrm u1 * sqrt (energy [u1; u1]).
Proof. rewrite m2_energy. replace (nrm u1) with 1; [pose proof small6; pose proof sqrt2_1; lra|]. unfold nrm, Cnorm2, u1, re. cbn. rewrite Rmult_0_l, Rplus_0_r, Rmult_1_l. symmetry. apply sqrt_1. Qed.
Lemma delayed2 : delayed [u1; u1] [z1; z1; z1; u1; u1; z1; z1; z1] 3 u1.
Proof.
  intros a. assert (O : (a < 0 \/ 8 <= a)%Z \/ (a = 0 \/ a = 1 \/ a = 2 \/ a = 3 \/ a = 4 \/ a = 5 \/ a = 6 \/ a = 7)%Z) by lia. destruct O as [O|O].
  - rewrite (sampZ_out [z1; z1; z1; u1; u1; z1; z1; z1] a) by (cbn [List.length]; lia). rewrite (sampZ_out [u1; u1] (a - 3)) by (cbn [List.length]; lia). apply C_ext; cbn; ring.
  - decompose [or] O; subst a; apply C_ext; unfold sampZ, u1, z1, re; simpl; ring.
Qed.
(** [1; 1] after three zeros: detected in one block of 8 samples, lost in two blocks of 4. *)
Theorem C74_boundary_refuted : exists st0, dtc_init c2 = Ok st0 /\
  (exists st y sc v g, dtc_run c2 st0 [[z1; z1; z1; u1; u1; z1; z1; z1]] = Ok (st, y, [[mkdet sc 3 (Some v) (Some g)]])) /\
  (exists st y, dtc_run c2 st0 [[z1; z1; z1; u1]; [u1; z1; z1; z1]] = Ok (st, y, [[]; []]) /\ d_pf st = None).
Proof.
  set (m := [u1; u1]). assert (HE : 0 < energy (d_motif c2)) by (change (0 < energy [u1; u1]); rewrite m2_energy; lra). assert (HS : 0 <= d_seuil c2) by (cbn; lra).
  assert (HM2 : (2 <= List.length (d_motif c2))%nat) by (cbn; lia). destruct (init_inv c2 HE) as [s0 [E0 I0]]. exists s0. split; [exact E0|]. split.
  - destruct (C74_found c2 [z1; z1; z1; u1; u1; z1; z1; z1] 3 u1 HE HM2 m2_pattern delayed2 gain2) as (s & s1 & y & v & w & Ei & Es & _).
    + split; [exact HS|]. pose proof best2 as B. unfold best in B. rewrite nrm_sq in B. exact B.
    + cbn. lia.
    + assert (s = s0) by congruence. subst s. exists s1, (y ++ []), (sqrt (Cnorm2 u1 * energy (d_motif c2) / (Cnorm2 u1 * energy (d_motif c2) + INR (List.length (d_motif c2)) * / 10 ^ 20))), v, w. cbn [dtc_run]. rewrite Es. reflexivity.
  - set (A := [z1; z1; z1; u1]). set (B := [u1; z1; z1; z1]). destruct (step_ok c2 HE HS HM2 [] s0 A I0 ltac:(cbn; lia)) as (s1 & y1 & ds & sel & corr & E1 & I1 & LY & VY & LC & VC & ES & _ & ED). cbn [app List.length Nat.add] in VY.
    change ([] ++ A) with A in I1. change (List.length A) with 4%nat in LY, VY.
    assert (S3 : 1 / 2 < Dtc_Spec.score m A 3).
    { apply half_score; [|unfold wenergy, window, sampZ, Cnorm2, A, u1, z1, re; simpl; ring]. unfold product. rewrite m2_pattern. unfold nrm, Cnorm2, window, sampZ, A, u1, z1, re, conj. simpl. match goal with |- sqrt ?a = 1 => replace a with 1 by ring end. apply sqrt_1. }
    assert (SF : forall i, (i < 3)%nat -> Dtc_Spec.score m A i = 0).
    { intros i Hi. rewrite <- (score_app m A B i) by (change (i < 4)%nat; lia). apply (score_far m (A ++ B) 3 u1 delayed2 m2_pattern HE). unfold m. cbn [List.length]. lia. }
    destruct (selection_ok 2 (1 / 2) y1 ltac:(lia) ltac:(lra)) as [l [El [A1 [A2 [A3 A4]]]]]. assert (l = sel) by (change (selection 2 (1 / 2) y1 = Ok sel) in ES; congruence). subst l.
    assert (SEL : sel = [3%nat]).
    { apply sorted_single; [exact A4| |].
      - apply A3; [lia|rewrite VY by lia; exact S3|]. intros j Hj Nj _. rewrite !VY by lia. change (d_motif c2) with m. rewrite (SF j) by lia. lra.
      - intros j Hj. destruct (A1 j Hj) as [B1 [B2 _]]. rewrite LY in B1. destruct (Nat.eq_dec j 3) as [|Nj]; [assumption|exfalso]. rewrite VY in B2 by lia. change (d_motif c2) with m in B2. rewrite SF in B2 by lia. lra. }
    assert (PF0 : d_pf s0 = None) by (unfold dtc_init in E0; destruct (Req_EM_T _ 0); [discriminate|]; injection E0 as <-; reflexivity). rewrite PF0, SEL in ED. cbn [app map detections] in ED. rewrite (vget_nth y1 3 0) in ED by lia. cbn [bind] in ED. rewrite (vget_nth corr 3 c0) in ED by (eapply Nat.lt_le_trans; [|apply Nat.eq_le_incl; symmetry; exact LC]; cbn; lia). cbn [bind Nat.eqb] in ED. rewrite LY in ED. cbn [Nat.sub Nat.eqb] in ED. injection ED as <- PF1.
    destruct (drop_all c2 A s1 B HE HS HM2 I1 ltac:(cbn; lia)) as [s2 [y2 [E2 P2]]]; [rewrite <- PF1; discriminate| |].
    + change (d_motif c2) with m. change (List.length A) with 4%nat. cbn [Nat.sub]. destruct (score_sq m (A ++ B) 3 u1 delayed2 m2_pattern HE gain2 4 ltac:(unfold m; cbn; lia)) as [Q _]. rewrite Q. rewrite <- (score_app m A B 3) by (change (3 < 4)%nat; lia). apply (score_lt m (A ++ B) 3 u1 delayed2 m2_pattern HE gain2). unfold m. cbn. lia.
    + exists s2, (y1 ++ (y2 ++ [])). cbn [dtc_run]. rewrite E1. cbn [bind]. rewrite E2. cbn [bind]. split; [reflexivity|exact P2].
Qed.
Print Assumptions C74_boundary_refuted.
