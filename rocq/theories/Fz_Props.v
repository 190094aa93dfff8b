(** C78: frequency, phase, impulse and step responses of a filter design. *)
From Coq Require Import Reals Lra Nsatz.
From Verif Require Import Base BaseLemmas RField DftSys ComplexSys Poly_Model Poly_Spec Poly_Proofs Filters_Model Filters_Spec Filters_Proofs Design_Model Design_Proofs Sig_Proofs Rii_Model But_Proofs Phase_Model Phase_Spec Pll_Model Geo_Model Geo_Proofs2 Fz_Model Fz_Spec Fz_Proofs Fz_Proofs2.
Local Open Scope R_scope.

(** The rational function of a real design, used at complex points, extends the real one *)
Lemma re_mul x y : re (x * y) = (re x * re y : Cfield)%K. Proof. apply C_ext; cbn; ring. Qed.
Lemma re_pow x k : cpow (K := Cfield) (re x) k = re (cpow (K := Rring) x k).
Proof. induction k as [|k IH]; [reflexivity|]. cbn [cpow]. etransitivity; [apply f_equal; exact IH|]. symmetry. apply re_mul. Qed.
Lemma value_re (p : poly Rring) (x : R) : value (K := Cfield) (p_cplx p) (re x) = re (value (K := Rring) p x).
Proof.
  unfold value, p_cplx. cbn [p_roots p_coefs p_mlt]. destruct (p_roots p).
  - assert (E : rprod (K := Cfield) (map re (p_coefs p)) (re x) = re (rprod (K := Rring) (p_coefs p) x)).
    { induction (p_coefs p) as [|a t IH]; [reflexivity|]. cbn [map rprod]. rewrite IH. generalize (rprod (K := Rring) t x). intros u. apply C_ext; cbn; ring. }
    rewrite E. symmetry. apply re_mul.
  - unfold pval. rewrite map_length. assert (P : forall n, sum (K := Cfield) n (fun i => (samp (K := Cfield) (map re (p_coefs p)) i * cpow (K := Cfield) (re x) i)%K) = re (sum (K := Rring) n (fun i => (samp (K := Rring) (p_coefs p) i * cpow (K := Rring) x i)%K))); [|exact (P (length (p_coefs p)))]. induction n as [|n IH]; [reflexivity|]. cbn [sum]. etransitivity; [apply f_equal2; [exact IH|]|].
    + apply f_equal2; [exact (samp_re (p_coefs p) n)|apply re_pow].
    + change (nth n (p_coefs p) 0) with (samp (K := Rring) (p_coefs p) n). generalize (sum (K := Rring) n (fun i => cmul (samp (K := Rring) (p_coefs p) i) (cpow (K := Rring) x i))) (samp (K := Rring) (p_coefs p) n) (cpow (K := Rring) x n). intros u v w. apply C_ext; cbn; ring.
Qed.
Theorem C78_real_design (f : frat Rring) (x : R) : exists g, complex_frat (D_real f) = Ok g /\
  value (f_num g) (re x) = re (value (f_num f) x) /\ value (f_den g) (re x) = re (value (f_den f) x).
Proof. eexists. split; [reflexivity|]. split; apply value_re. Qed.

(** repfreq gives the response at every requested frequency *)
Theorem C78_repfreq d (fr : list R) : proper d -> repfreq d fr = Ok (map (response d) fr).
Proof.
  intros Hp. destruct (frat_indep d Hp) as (g & E & V). unfold repfreq. destruct fr as [|a t]; [reflexivity|]. rewrite E. cbn [bind]. f_equal. apply map_ext. exact V.
Qed.
(** ... which is what the filter does to a complex exponential: taps h multiply it by
    resp h f once the whole window is inside the signal *)
Theorem C78_tone sc sr (h : list R) (a : Complex) f N : h <> [] ->
  exists y, filtrer sc sr (D_rif h) (ctone a f N) = Ok y /\ length y = N /\
    forall n, (length h <= n + 1)%nat -> (n < N)%nat -> samp y n = ((response (D_rif h) f : Complex) * samp (ctone a f N) n)%K.
Proof.
  intros H. assert (Hm : map re h <> []) by (destruct h; [congruence|discriminate]). destruct (filtrer_ok Cfield (map re h) (ctone a f N) Hm) as (y & E & L & V). exists y. split; [exact E|]. assert (LN : length (ctone a f N) = N) by apply ctone_length. split; [etransitivity; [exact L|exact LN]|].
  intros n Hh Hn. etransitivity; [apply V; exact (eq_ind_r (fun k => (n < k)%nat) Hn LN)|]. etransitivity; [apply conv_tone; assumption|]. cbn [response]. rewrite ctone_samp by exact Hn. reflexivity.
Qed.
(** frmag: n points, frequencies i / (2 n), modulus of the response *)
Theorem C78_frmag_rif junk (h : list R) n : (0 < n)%nat -> (length h <= 2 * n)%nat -> (2 * n <= 2 ^ 29)%nat ->
  frmag junk (D_rif h) n = Ok (map (fun i => INR i / (2 * INR n)) (seq 0 n), map (fun i => cmod (response (D_rif h) (INR i / (2 * INR n)))) (seq 0 n)).
Proof. intros H1 H2 H3. cbn [frmag]. rewrite frmag_ok by assumption. rewrite fgrid_eq. reflexivity. Qed.
Theorem C78_frmag_rii junk d n : (0 < n)%nat -> (forall h, d <> D_rif h) ->
  frmag junk d n = Ok (map (fun i => INR i / (2 * INR n)) (seq 0 n), map (fun i => cmod (response d (INR i / (2 * INR n)))) (seq 0 n)).
Proof.
  intros H1 H2. assert (Hp : proper d) by (destruct d as [h| |]; [destruct (H2 h eq_refl)|exact I|exact I]). assert (E : frmag junk d n = let* r := repfreq d (fgrid n) in Ok (fgrid n, map cmod r)).
  { destruct d as [h| |]; [destruct (H2 h eq_refl)| |]; cbn [frmag]; destruct (Nat.eqb_spec n 0); [lia|reflexivity|lia|reflexivity]. }
  rewrite E, C78_repfreq by exact Hp. cbn [bind]. rewrite fgrid_eq, !map_map. reflexivity.
Qed.
(** Finding: an even number of taps above 2 n changes the number of points to half of
    it, an odd one makes frmag throw *)
Theorem C78_frmag_long_refuted junk (h : list R) n : (2 * n < length h)%nat -> Nat.Odd (length h) -> (1 < length h)%nat -> frmag junk (D_rif h) n = Exc.
Proof.
  intros H1 (k & Hk) H2. cbn [frmag]. unfold frmag_rif. cbv zeta. assert (D : (length h / 2 = k)%nat) by (rewrite Hk; rewrite Nat.mul_comm, Nat.div_add_l by lia; cbn; lia). rewrite D. rewrite Nat.max_r by lia. destruct (Nat.eqb_spec k 0); [lia|]. destruct (Nat.ltb_spec (2 * k) (length h)); [reflexivity|lia].
Qed.

(** repech on taps: running sums of the taps, hence the gain at frequency 0 from rank
    length h - 1; by default 2 * length h points *)
Lemma step_conv h N n : (n < N)%nat -> conv (K := Cfield) (map re h) (repeat (c1 : Cfield) N) n = re (rsumn (Nat.min (S n) (length h)) (fun k => nth k h 0)).
Proof.
  intros Hn. unfold conv. rewrite map_length. set (F := fun k => _ : Cfield).
  assert (P : forall m, (m <= length h)%nat -> sum (K := Cfield) m F = re (rsumn (Nat.min (S n) m) (fun k => nth k h 0))).
  { induction m as [|m IH]; intros Hm; [reflexivity|]. cbn [sum]. rewrite IH by lia. unfold F. destruct (Nat.le_gt_cases m n) as [B|B].
    - replace (Z.of_nat n - Z.of_nat m)%Z with (Z.of_nat (n - m)) by lia. assert (E1 : sampZ (K := Cfield) (repeat (c1 : Cfield) N) (Z.of_nat (n - m)) = c1). { etransitivity; [apply (sampZ_nat Cring)|]. unfold samp. rewrite (nth_indep _ c0 c1) by (rewrite repeat_length; lia). apply nth_repeat. }
      rewrite E1. rewrite !Nat.min_r by lia. unfold rsumn. cbn [sum]. assert (E2 : samp (K := Cfield) (map re h) m = (nth m h 0, 0)) by apply samp_re. rewrite E2. generalize (sum (K := Rring) m (fun k => nth k h 0)) (nth m h 0). intros u v. apply C_ext; cbn; ring.
    - rewrite (sampZ_neg Cring) by lia. rewrite !Nat.min_l by lia. generalize (rsumn (S n) (fun k => nth k h 0)) (samp (K := Cfield) (map re h) m). intros u v. apply C_ext; cbn; ring. }
  apply P. lia.
Qed.
Theorem C78_repech sc sr (h : list R) (npts : option nat) : h <> [] ->
  exists y, repech sc sr (D_rif h) npts = Ok y /\ length y = (match npts with Some n => n | None => 2 * length h end)%nat /\
    (forall n, (n < length y)%nat -> samp y n = (rsumn (Nat.min (S n) (length h)) (fun k => nth k h 0), 0)) /\
    (forall n, (length h <= n + 1)%nat -> (n < length y)%nat -> samp y n = response (D_rif h) 0).
Proof.
  intros H. assert (Hm : map re h <> []) by (destruct h; [congruence|discriminate]). unfold repech. set (N := match npts with Some n => n | None => _ end). replace (match npts with Some n => n | None => (2 * length h)%nat end) with N by (unfold N; destruct npts; reflexivity).
  destruct (filtrer_ok Cfield (map re h) (repeat (c1 : Cfield) N) Hm) as (y & E & L & V). exists y. split; [exact E|]. rewrite repeat_length in L, V. split; [exact L|]. assert (L' : @length (car Complex) y = N) by exact L. rewrite L'.
  assert (W : forall n, (n < N)%nat -> samp (K := Complex) y n = (rsumn (Nat.min (S n) (length h)) (fun k => nth k h 0), 0)). { intros n Hn. etransitivity; [apply V; exact Hn|]. apply step_conv. exact Hn. }
  split; [exact W|]. intros n Hh Hn. rewrite W by exact Hn. rewrite Nat.min_r by lia. cbn [response]. unfold resp. f_equal.
  - apply rsumn_ext. intros k _. replace (2 * PI * 0 * INR k) with 0 by ring. rewrite cos_0. ring.
  - rewrite <- rsumn_opp. unfold rsumn. symmetry. apply (sum_zero Rring). intros k _. replace (2 * PI * 0 * INR k) with 0 by ring. rewrite sin_0. cbn. ring.
Qed.
(** repimp on taps: the taps, which are what the filter answers to an impulse *)
Lemma impulse_samp N k : samp (K := Cfield) ((c1 : Cfield) :: repeat (c0 : Cfield) N) k = if (k =? 0)%nat then c1 else c0.
Proof. destruct k as [|k]; [reflexivity|]. unfold samp. cbn [nth Nat.eqb]. revert k. induction N as [|N IH]; intros [|k]; try reflexivity. cbn [repeat nth]. apply IH. Qed.
Theorem C78_repimp_rif sc sr (h : list R) npts N : h <> [] ->
  repimp sc sr (D_rif h) npts = Ok (map re h) /\
  exists y, filtrer sc sr (D_rif h) ((c1 : Complex) :: repeat (c0 : Complex) N) = Ok y /\ length y = S N /\ forall n, (n < S N)%nat -> samp y n = (nth n h 0, 0).
Proof.
  intros H. split; [reflexivity|]. assert (Hm : map re h <> []) by (destruct h; [congruence|discriminate]). destruct (filtrer_ok Cfield (map re h) ((c1 : Cfield) :: repeat (c0 : Cfield) N) Hm) as (y & E & L & V). cbn [length] in L, V. rewrite repeat_length in L, V. exists y. split; [exact E|]. split; [exact L|].
  intros n Hn. etransitivity; [apply V; exact Hn|]. unfold conv. rewrite map_length.
  assert (T : forall k, (samp (K := Cfield) (map re h) k * sampZ (K := Cfield) ((c1 : Cfield) :: repeat (c0 : Cfield) N) (Z.of_nat n - Z.of_nat k))%K = (if (k =? n)%nat then (nth n h 0, 0) else c0 : Cfield)).
  { intros k. assert (E2 : samp (K := Cfield) (map re h) k = (nth k h 0, 0)) by apply samp_re. rewrite E2. destruct (Nat.eqb_spec k n) as [->|Ne].
    - rewrite Z.sub_diag. change 0%Z with (Z.of_nat 0). rewrite (sampZ_nat Cring). generalize (nth n h 0). intros v. apply C_ext; cbn; ring.
    - destruct (Nat.le_gt_cases k n).
      + replace (Z.of_nat n - Z.of_nat k)%Z with (Z.of_nat (n - k)) by lia. rewrite (sampZ_nat Cring). rewrite impulse_samp. destruct (Nat.eqb_spec (n - k) 0); [lia|]. generalize (nth k h 0). intros v. apply C_ext; cbn; ring.
      + rewrite (sampZ_neg Cring) by lia. generalize (nth k h 0). intros v. apply C_ext; cbn; ring. }
  rewrite (sum_ext Cring _ _ _ (fun k _ => T k)). destruct (Nat.lt_ge_cases n (length h)) as [B|B].
  - etransitivity; [apply (sum_single Cring _ _ n B)|].
    + intros k Hk Ne. destruct (Nat.eqb_spec k n); [lia|reflexivity].
    + rewrite Nat.eqb_refl. reflexivity.
  - rewrite nth_overflow by exact B. apply (sum_zero Cring). intros k Hk. destruct (Nat.eqb_spec k n); [lia|reflexivity].
Qed.
(** repimp on a rational design: a non-empty beginning of the answer to an impulse, cut
    where the last sample is at least a hundredth of the mean modulus *)
Lemma trim_props : forall fuel r, (1 <= length r <= fuel)%nat -> exists k, (1 <= k <= length r)%nat /\ trim fuel r = firstn k r /\ (k = 1%nat \/ mean_mod (firstn k r) / 100 <= cmod (samp r (k - 1))) /\
  forall j, (k < j <= length r)%nat -> cmod (samp r (j - 1)) < mean_mod (firstn j r) / 100.
Proof.
  induction fuel as [|fuel IH]; intros r Hr; [lia|]. cbn [trim]. destruct (Nat.ltb_spec 1 (length r)) as [B|B].
  - destruct (Rlt_dec _ _) as [Q|Q].
    + destruct (IH (firstn (length r - 1) r)) as (k & K1 & K2 & K3 & K4); [rewrite firstn_length; lia|]. rewrite firstn_length in K1, K4. assert (FF : forall j, (j <= length r - 1)%nat -> firstn j (firstn (length r - 1) r) = firstn j r) by (intros j Hj; rewrite firstn_firstn; f_equal; lia).
      assert (SS : forall j, (j < length r - 1)%nat -> samp (firstn (length r - 1) r) j = samp r j) by (intros j Hj; unfold samp; apply (nth_firstn'); exact Hj).
      exists k. split; [lia|]. split; [rewrite K2; apply FF; lia|]. rewrite FF, SS in K3 by lia. split; [exact K3|].
      intros j Hj. destruct (Nat.eq_dec j (length r)) as [->|Nj]; [rewrite firstn_all; unfold Rdiv; exact Q|]. rewrite <- (SS (j - 1)%nat), <- (FF j) by lia. apply K4. lia.
    + exists (length r). split; [lia|]. split; [rewrite firstn_all; reflexivity|]. split; [right; rewrite firstn_all; apply Rnot_lt_le in Q; unfold Rdiv; exact Q|]. intros j Hj. lia.
  - exists (length r). split; [lia|]. split; [rewrite firstn_all; reflexivity|]. split; [left; lia|]. intros j Hj. lia.
Qed.
Theorem C78_repimp_rii sc sr d n r : (forall h, d <> D_rif h) -> (0 < n)%nat -> filtrer sc sr d ((c1 : Complex) :: repeat (c0 : Complex) (n - 1)) = Ok r -> length r = n ->
  exists k, (1 <= k <= n)%nat /\ repimp sc sr d (Some n) = Ok (firstn k r) /\ (k = 1%nat \/ mean_mod (firstn k r) / 100 <= cmod (samp r (k - 1))) /\
    forall j, (k < j <= n)%nat -> cmod (samp r (j - 1)) < mean_mod (firstn j r) / 100.
Proof.
  intros H1 H2 E L. destruct (trim_props (length r) r) as (k & K1 & K2 & K3 & K4); [lia|]. rewrite L in K1, K4. exists k. split; [exact K1|]. split; [|split; [exact K3|exact K4]].
  assert (Q : repimp sc sr d (Some n) = if (n =? 0)%nat then Exc else let* q := filtrer sc sr d ((c1 : Cfield) :: repeat (c0 : Cfield) (n - 1)) in Ok (trim (length q) q)) by (destruct d as [h| |]; [destruct (H1 h eq_refl)|reflexivity|reflexivity]).
  rewrite Q. destruct (Nat.eqb_spec n 0); [lia|]. change (@filtrer sc sr d ((c1 : Cfield) :: repeat (c0 : Cfield) (n - 1)) = Ok r) in E. rewrite E. cbn [bind]. rewrite K2. reflexivity.
Qed.

(** Gains of the analysis: moduli of the response at frequencies 0 and 1/2 *)
Theorem C78_gains d : proper d -> gains d = Ok (cmod (response d 0), cmod (response d (/ 2))).
Proof.
  intros Hp. destruct (frat_indep d Hp) as (g & E & V). unfold gains. rewrite E. cbn [bind]. rewrite <- !V. do 2 f_equal.
  - f_equal. f_equal. unfold eit, re. replace (2 * PI * 0) with 0 by ring. rewrite cos_0, sin_0. reflexivity.
  - f_equal. f_equal. unfold eit, re. replace (2 * PI * / 2) with PI by field. rewrite cos_PI, sin_PI. reflexivity.
Qed.
(** Kind of filter, from the first and last magnitudes m0 and m1 *)
Theorem C78_kind m0 m1 : classify m0 m1 =
  if Rlt_dec (4 / 5) m1 then (if Rlt_dec m0 (/ 5) then PASSE_HAUT else COUPE_BANDE)
  else if Rlt_dec m1 (/ 5) then (if Rlt_dec (4 / 5) m0 then PASSE_BAS else PASSE_BANDE)
  else if Rlt_dec (4 / 5) m0 then PASSE_BAS else AUTRE.
Proof.
  unfold classify, Rltb. replace (1 - / 5) with (4 / 5) by field.
  repeat match goal with |- context [Rlt_dec ?a ?b] => destruct (Rlt_dec a b); cbn [andb] end; try reflexivity; exfalso; lra.
Qed.
(** ... so the kinds are right when both magnitudes are near 0 or 1, but band-pass and
    band-stop are decided on the last magnitude alone *)
Theorem C78_kind_clear m0 m1 :
  (4 / 5 < m0 -> m1 < / 5 -> classify m0 m1 = PASSE_BAS) /\ (m0 < / 5 -> 4 / 5 < m1 -> classify m0 m1 = PASSE_HAUT) /\
  (m0 < / 5 -> m1 < / 5 -> classify m0 m1 = PASSE_BANDE) /\ (4 / 5 < m0 -> 4 / 5 < m1 -> classify m0 m1 = COUPE_BANDE).
Proof.
  rewrite C78_kind. repeat split; intros; repeat match goal with |- context [Rlt_dec ?a ?b] => destruct (Rlt_dec a b) end; try reflexivity; exfalso; lra.
Qed.
Theorem C78_kind_refuted m0 m1 : / 5 < m0 < 4 / 5 -> (m1 < / 5 -> classify m0 m1 = PASSE_BANDE) /\ (4 / 5 < m1 -> classify m0 m1 = COUPE_BANDE).
Proof.
  intros H. rewrite C78_kind. split; intros; repeat match goal with |- context [Rlt_dec ?a ?b] => destruct (Rlt_dec a b) end; try reflexivity; exfalso; lra.
Qed.
(** The kind reported for taps, from their response at 0 and at (n - 1) / (2 n) *)
Theorem C78_filter_kind junk (h : list R) n : (0 < n)%nat -> (length h <= 2 * n)%nat -> (2 * n <= 2 ^ 29)%nat ->
  filter_kind junk n (D_rif h) = Ok (classify (cmod (response (D_rif h) 0)) (cmod (response (D_rif h) (/ 2 - / (2 * INR n))))).
Proof.
  intros H1 H2 H3. unfold filter_kind. rewrite C78_frmag_rif by assumption. cbn [bind snd]. assert (P : 0 < INR n) by (apply lt_0_INR; lia).
  rewrite (vget_ok _ 0 0) by (rewrite map_length, seq_length; lia). cbn [bind]. rewrite (vget_ok _ (n - 1) 0) by (rewrite map_length, seq_length; lia). cbn [bind]. rewrite !(nth_map_seq (X := R)) by lia. do 3 f_equal.
  - f_equal. cbn [INR]. unfold Rdiv. ring.
  - f_equal. rewrite minus_INR by lia. cbn [INR]. field. lra.
Qed.
(** Finding: the two-tap average [1/4; 1/4], a low-pass filter of gain 1/2, is declared
    band-pass *)
Lemma resp2 a b f : Cnorm2 (resp [a; b] f) = a * a + b * b + 2 * a * b * cos (2 * PI * f).
Proof.
  unfold resp, rsumn, Cnorm2. cbn [sum length nth fst snd INR]. cbn [cadd c0 Rring]. rewrite !Rmult_0_r, Rmult_1_r, cos_0, sin_0. pose proof (sin2_cos2 (2 * PI * f)) as T. unfold Rsqr in T. generalize dependent (cos (2 * PI * f)). generalize (sin (2 * PI * f)). intros u v T. nsatz.
Qed.
Theorem C78_lowpass_refuted junk n : (4 <= n)%nat -> (2 * n <= 2 ^ 29)%nat ->
  cmod (response (D_rif [/ 4; / 4]) 0) = / 2 /\ cmod (response (D_rif [/ 4; / 4]) (/ 2)) = 0 /\ filter_kind junk n (D_rif [/ 4; / 4]) = Ok PASSE_BANDE.
Proof.
  intros Hn Hb. assert (E0 : cmod (response (D_rif [/ 4; / 4]) 0) = / 2). { cbn [response]. unfold cmod. rewrite resp2. replace (2 * PI * 0) with 0 by ring. rewrite cos_0. replace (/ 4 * / 4 + / 4 * / 4 + 2 * / 4 * / 4 * 1) with (/ 2 * / 2) by field. apply sqrt_square. lra. }
  split; [exact E0|]. split.
  - cbn [response]. unfold cmod. rewrite resp2. replace (2 * PI * / 2) with PI by field. rewrite cos_PI. replace (/ 4 * / 4 + / 4 * / 4 + 2 * / 4 * / 4 * -1) with 0 by field. apply sqrt_0.
  - rewrite C78_filter_kind by (try lia; cbn [length]; lia). f_equal. rewrite E0. destruct (C78_kind_refuted (/ 2) (cmod (response (D_rif [/ 4; / 4]) (/ 2 - / (2 * INR n)))) ltac:(lra)) as (Kd & _). apply Kd. cbn [response]. unfold cmod. rewrite resp2.
    assert (Pn : 4 <= INR n) by (replace 4 with (INR 4) by (cbn; lra); apply le_INR; exact Hn). replace (2 * PI * (/ 2 - / (2 * INR n))) with (PI - PI / INR n) by (field; lra). rewrite Rtrigo_facts.cos_pi_minus. pose proof PI_RGT_0 as Pp.
    assert (Bc : / 2 + / 5 < cos (PI / INR n)).
    { apply Rlt_le_trans with (cos (PI / 4)).
      - rewrite cos_PI4. apply (Rmult_lt_reg_r (sqrt 2)); [apply sqrt_lt_R0; lra|]. replace (1 / sqrt 2 * sqrt 2) with 1 by (field; apply Rgt_not_eq, sqrt_lt_R0; lra). assert (sqrt 2 < 10 / 7); [|lra]. apply Rsqr_incrst_0; [|apply sqrt_pos|lra]. rewrite Rsqr_sqrt by lra. unfold Rsqr. lra.
      - apply cos_decr_1; try lra; [apply Rlt_le, Rdiv_lt_0_compat; lra| |]; (apply (Rmult_le_reg_r (INR n)); [lra|]; unfold Rdiv; rewrite ?Rmult_assoc, ?Rinv_l by lra; nra). }
    apply Rlt_le_trans with (sqrt (/ 5 * / 5)); [apply sqrt_lt_1_alt; split; [|lra]|right; apply sqrt_square; lra]. pose proof (COS_bound (PI / INR n)). lra.
Qed.

(** ** Phase and group delay *)
(** Positive amplitudes and a delay below n samples: frphase returns the linear phase *)
Theorem C78_phase d n D g : proper d -> (0 < n)%nat -> linear_phase d n D g -> (forall i, (i < n)%nat -> 0 < g i) -> Rabs D < INR n ->
  frphase d n = Ok (map (fun i => INR i / (2 * INR n)) (seq 0 n), map (fun i => - (2 * PI * (INR i / (2 * INR n)) * D)) (seq 0 n)).
Proof.
  intros Hp Hn Hl Hg HD. assert (Hg' : forall i, (i < n)%nat -> g i <> 0) by (intros i Hi; specialize (Hg i Hi); lra). pose proof (Pn n Hn) as P.
  destruct (phase_props d n D g Hp Hn Hl Hg') as (y & E & L & Y0 & C & J). rewrite E, fgrid_eq. do 2 f_equal.
  apply (list_ext 0); [rewrite map_length, seq_length; exact L|]. intros i Hi. rewrite L in Hi. rewrite (nth_map_seq (X := R)) by exact Hi.
  assert (Q : forall i, (i < n)%nat -> nth i y 0 = - (PI * D / INR n) * INR i).
  { intros k. induction k as [|k IH]; intros Hk.
    - rewrite Y0. specialize (Hl 0%nat Hn). cbv zeta in Hl. replace (INR 0 / (2 * INR n)) with 0 in Hl by (cbn [INR]; field; lra). rewrite Hl. replace (2 * PI * 0 * D) with 0 by ring. rewrite Rmult_0_r. replace (- (g 0%nat * sin 0)) with (g 0%nat * sin 0) by (rewrite sin_0; ring). unfold arg. cbn [fst snd]. apply atan2_of_polar; [apply Hg; exact Hn|pose proof PI_RGT_0; lra].
    - assert (G := same_sign n D g Hn Hg' y C J HD k Hk). assert (0 < g k * g (S k)) by (apply Rmult_lt_0_compat; apply Hg; lia). specialize (G H). rewrite IH in G by lia. rewrite S_INR. lra. }
  rewrite Q by exact Hi. field. lra.
Qed.
(** Amplitudes of either sign, a delay below n / 2 samples: frgroup returns the delay D
    where the amplitude keeps its sign, not-a-number where it changes; the last point
    repeats the previous one *)
Theorem C78_group_delay junk d n D g : proper d -> (2 <= n)%nat -> linear_phase d n D g -> (forall i, (i < n)%nat -> g i <> 0) -> 2 * Rabs D < INR n -> (exists m, frmag junk d n = Ok m) ->
  exists l, frgroup junk d n = Ok (map (fun i => INR i / (2 * INR n)) (seq 0 n), l) /\ length l = n /\
    (forall i, (S i < n)%nat -> 0 < g i * g (S i) -> nth i l None = Some D) /\ (forall i, (S i < n)%nat -> g i * g (S i) < 0 -> nth i l None = None) /\ nth (n - 1) l None = nth (n - 2) l None.
Proof.
  intros Hp H2 Hl Hg HD Hm. assert (Hn : (0 < n)%nat) by lia. pose proof (Pn n Hn) as P. pose proof PI_RGT_0 as Ppi. destruct (group_props d n D g Hp Hn Hl Hg junk H2 Hm) as (y & l & E & L & C & J & Eg & Ll & V & La).
  exists l. split; [rewrite Eg, fgrid_eq; reflexivity|]. split; [exact Ll|]. split; [|split; [|exact La]]; intros i Hi Hs; rewrite V by exact Hi.
  - rewrite (same_sign n D g Hn Hg y C J) by (try assumption; pose proof (Rabs_pos D); lra). pose proof (small_D n D Hn 2 ltac:(lra) ltac:(lra)) as Sm. rewrite Rabs_Ropp. destruct (Rlt_dec _ _); [lra|]. f_equal. field. lra.
  - pose proof (opposite_sign n D g Hn Hg y C J ltac:(lra) i Hi Hs) as O. destruct (Rlt_dec _ _); [reflexivity|lra].
Qed.
(** Symmetric taps have a linear phase of delay (length - 1) / 2 *)
Theorem C78_symmetric (h : list R) n : sym h -> h <> [] -> linear_phase (D_rif h) n ((INR (length h) - 1) / 2) (fun i => amplitude h (INR i / (2 * INR n))).
Proof. intros S0 H i Hi. cbv zeta. apply sym_response; assumption. Qed.
Theorem C78_group_delay_symmetric junk (h : list R) n : sym h -> h <> [] -> (2 <= n)%nat -> (length h <= n)%nat -> (2 * n <= 2 ^ 29)%nat -> (forall i, (i < n)%nat -> amplitude h (INR i / (2 * INR n)) <> 0) ->
  exists l, frgroup junk (D_rif h) n = Ok (map (fun i => INR i / (2 * INR n)) (seq 0 n), l) /\ length l = n /\
    (forall i, (S i < n)%nat -> nth i l None = (if Rlt_dec 0 (amplitude h (INR i / (2 * INR n)) * amplitude h (INR (S i) / (2 * INR n))) then Some ((INR (length h) - 1) / 2) else None)) /\ nth (n - 1) l None = nth (n - 2) l None.
Proof.
  intros S0 H H2 Hl Hb Hg. assert (Hp : proper (D_rif h)) by (destruct h; [congruence|exact I]). assert (L1 : 1 <= INR (length h)) by (change 1 with (INR 1); apply le_INR; destruct h; [congruence|cbn; lia]). assert (L2 : INR (length h) <= INR n) by (apply le_INR; exact Hl).
  destruct (C78_group_delay junk (D_rif h) n _ _ Hp H2 (C78_symmetric h n S0 H) Hg) as (l & E & L & Vp & Vn & La).
  - rewrite Rabs_right by lra. lra.
  - eexists. apply C78_frmag_rif; lia.
  - exists l. split; [exact E|]. split; [exact L|]. split; [|exact La]. intros i Hi. destruct (Rlt_dec _ _) as [B|B]; [apply Vp; assumption|]. apply Vn; [exact Hi|]. destruct (Rtotal_order (amplitude h (INR i / (2 * INR n)) * amplitude h (INR (S i) / (2 * INR n))) 0) as [Q|[Q|Q]]; [exact Q| |lra]. apply Rmult_integral in Q. destruct Q as [Q|Q]; exfalso; [apply (Hg i)|apply (Hg (S i))]; try lia; exact Q.
Qed.
(** Finding: for a delay between n / 2 and n samples every point is not-a-number *)
Theorem C78_long_delay_refuted junk d n D g : proper d -> (2 <= n)%nat -> linear_phase d n D g -> (forall i, (i < n)%nat -> 0 < g i) -> INR n < 2 * Rabs D -> Rabs D < INR n -> (exists m, frmag junk d n = Ok m) ->
  exists l, frgroup junk d n = Ok (map (fun i => INR i / (2 * INR n)) (seq 0 n), l) /\ l = repeat None n.
Proof.
  intros Hp H2 Hl Hg HD1 HD2 Hm. assert (Hn : (0 < n)%nat) by lia. pose proof (Pn n Hn) as P. pose proof PI_RGT_0 as Ppi. assert (Hg' : forall i, (i < n)%nat -> g i <> 0) by (intros i Hi; specialize (Hg i Hi); lra).
  destruct (group_props d n D g Hp Hn Hl Hg' junk H2 Hm) as (y & l & E & L & C & J & Eg & Ll & V & La).
  exists l. split; [rewrite Eg, fgrid_eq; reflexivity|].
  assert (N : forall i, (S i < n)%nat -> nth i l None = None).
  { intros i Hi. rewrite V by exact Hi. rewrite (same_sign n D g Hn Hg' y C J) by (try assumption; apply Rmult_lt_0_compat; apply Hg; lia). rewrite Rabs_Ropp. assert (B : PI / 2 < Rabs (PI * D / INR n)).
    { replace (PI * D / INR n) with (D * (PI / INR n)) by (field; lra). rewrite Rabs_mult, (Rabs_right (PI / INR n)) by (left; apply Rdiv_lt_0_compat; lra). apply (Rmult_lt_reg_r (2 * INR n)); [lra|]. replace (PI / 2 * (2 * INR n)) with (PI * INR n) by field. replace (Rabs D * (PI / INR n) * (2 * INR n)) with (PI * (2 * Rabs D)) by (field; lra). apply Rmult_lt_compat_l; lra. }
    destruct (Rlt_dec _ _); [reflexivity|lra]. }
  apply (list_ext None); [rewrite repeat_length; exact Ll|]. intros i Hi. rewrite Ll in Hi. rewrite nth_repeat. destruct (Nat.eq_dec i (n - 1)) as [->|Ni]; [rewrite La; apply N; lia|apply N; lia].
Qed.

(** ** Rational designs over a power of z *)
(** Numerator and denominator of the same size: the signal is convolved with the taps of
    the rational function *)
Theorem C78_filtrer_rational sc sr (a : list R) (x : list Complex) f : a <> [] -> f_rif (K := Rring) a = Ok f -> filtrer sc sr (D_real f) x = filtrer sc sr (D_rif a) x.
Proof.
  intros H E. destruct a as [|b t]; [congruence|]. cbn [f_rif] in E. injection E as <-. cbn [filtrer]. match goal with |- (if ?c then _ else _) = _ => replace c with true end; [exact (f_equal (fun u => filtrer_rif (K := Cfield) (map re u) x) (rev_involutive (b :: t)))|].
  symmetry. unfold f_est_rif. cbn [f_den p_of p_coefs]. rewrite removelast_last, last_last. apply andb_true_intro. split.
  - apply forallb_forall. intros v Hv. apply repeat_spec in Hv. subst v. unfold rzero. destruct (Req_EM_T _ _) as [|Q]; [reflexivity|]. exfalso. apply Q. reflexivity.
  - unfold rzero. destruct (Req_EM_T _ _) as [|Q]; [reflexivity|]. exfalso. apply Q. cbn. ring.
Qed.
(** Finding: otherwise the difference of the degrees is lost: 1 / z^2, a delay of two
    samples, is applied as the identity *)
Definition two_delays : frat Rring := mkfrat (K := Rring) (p_of (K := Rring) [1]) (p_of (K := Rring) [0; 0; 1]).
Theorem C78_delay_refuted sc sr : (forall f, response (D_real two_delays) f = (cos (2 * PI * f * 2), - sin (2 * PI * f * 2))) /\
  filtrer sc sr (D_real two_delays) [re 1; re 2; re 3] = Ok [re 1; re 2; re 3].
Proof.
  split.
  - intros f. cbn [response]. set (z := eit (2 * PI * f)). assert (En : value (K := Cfield) (f_num (f_cplx two_delays)) z = c1) by (apply C_ext; cbn; ring). assert (Ed : value (K := Cfield) (f_den (f_cplx two_delays)) z = eit (2 * PI * f * 2)).
    { transitivity (cpow z 2); [apply C_ext; cbn; ring|]. unfold z. rewrite eit_pow. f_equal. cbn [INR]. ring. }
    unfold fvalue. rewrite En, Ed. pose proof (fth Cfield) as FT. rewrite (Fdiv_def FT). etransitivity; [apply (Rmul_1_l (F_R FT))|]. rewrite inv_eit. unfold eit. rewrite cos_neg, sin_neg. reflexivity.
  - cbn [filtrer two_delays]. match goal with |- (if ?c then _ else _) = _ => replace c with true end.
    + assert (Hm : map re (rev (p_coefs (f_num two_delays))) <> []) by discriminate. destruct (filtrer_ok Cfield _ [re 1; re 2; re 3] Hm) as (y & E & L & V). change (filtrer_rif (K := Cfield) (map re (rev (p_coefs (f_num two_delays)))) [re 1; re 2; re 3] = Ok [re 1; re 2; re 3]). rewrite E. f_equal. apply (list_ext (c0 : Cfield)); [exact L|]. intros i Hi. etransitivity; [apply V; rewrite <- L; exact Hi|]. unfold conv. cbn [two_delays f_num p_of p_coefs rev app map length]. rewrite L in Hi. cbn [length] in Hi.
      assert (Zs : sampZ (K := Cfield) [re 1; re 2; re 3] (Z.of_nat i - Z.of_nat 0) = nth i [re 1; re 2; re 3] c0) by (rewrite Z.sub_0_r; apply (sampZ_nat Cring)). cbn [sum]. rewrite Zs. destruct i as [|[|[|i]]]; [| | |lia]; apply C_ext; cbn; ring.
    + symmetry. unfold f_est_rif. cbn. unfold rzero. repeat (destruct (Req_EM_T _ _) as [|Q]; cbn; [|exfalso; apply Q; cbn; ring]). reflexivity.
Qed.

Print Assumptions C78_group_delay_symmetric.
Print Assumptions C78_repimp_rii.

(** Non-vacuity: the taps [1; 2; 1] on 4 points have group delay 1 everywhere *)
Lemma amp121 f : amplitude [1; 2; 1] f = 2 + 2 * cos (2 * PI * f).
Proof.
  unfold amplitude, rsumn. cbn [sum length nth INR cadd c0 Rring]. replace (2 * PI * f * ((1 + 1 + 1 - 1) / 2 - 0)) with (2 * PI * f) by field. replace (2 * PI * f * ((1 + 1 + 1 - 1) / 2 - 1)) with 0 by field. replace (2 * PI * f * ((1 + 1 + 1 - 1) / 2 - (1 + 1))) with (- (2 * PI * f)) by field. rewrite cos_0, cos_neg. ring.
Qed.
Lemma amp121_pos n i : (i < n)%nat -> 0 < amplitude [1; 2; 1] (INR i / (2 * INR n)).
Proof.
  intros H. rewrite amp121. assert (P : 0 < INR n) by (apply lt_0_INR; lia). assert (Q : INR i < INR n) by (apply lt_INR; exact H). pose proof PI_RGT_0 as Pp. pose proof (pos_INR i). replace (2 * PI * (INR i / (2 * INR n))) with (PI * (INR i / INR n)) by (field; lra).
  assert (0 <= INR i / INR n < 1) by (split; [apply Rmult_le_pos; [lra|left; apply Rinv_0_lt_compat; exact P]|apply (Rmult_lt_reg_r (INR n)); [exact P|]; unfold Rdiv; rewrite Rmult_assoc, Rinv_l by lra; lra]).
  assert (cos PI < cos (PI * (INR i / INR n))) by (apply cos_decreasing_1; nra). rewrite cos_PI in H2. lra.
Qed.
Example C78_group_delay_121 junk : frgroup junk (D_rif [1; 2; 1]) 4 = Ok (map (fun i => INR i / (2 * INR 4)) (seq 0 4), repeat (Some 1) 4).
Proof.
  assert (Q : forall i, (i < 4)%nat -> amplitude [1; 2; 1] (INR i / (2 * INR 4)) <> 0) by (intros i Hi; pose proof (amp121_pos 4 i Hi); lra). assert (Pw : (8 <= 2 ^ 29)%nat) by (apply (Nat.pow_le_mono_r 2 3 29); lia).
  destruct (C78_group_delay_symmetric junk [1; 2; 1] 4) as (l & E & L & V & La); [intros [|[|[|k]]] Hk; cbn in Hk |- *; try reflexivity; lia|discriminate|lia|cbn; lia|exact Pw|exact Q|]. rewrite E. do 2 f_equal.
  assert (W : forall i, (S i < 4)%nat -> nth i l None = Some 1). { intros i Hi. rewrite V by exact Hi. destruct (Rlt_dec _ _) as [_|B]; [f_equal; cbn; field|]. exfalso. apply B. apply Rmult_lt_0_compat; apply amp121_pos; lia. }
  apply (list_ext None); [exact L|]. intros i Hi. rewrite L in Hi. assert (RR : nth i (repeat (Some 1) 4) None = Some 1) by (destruct i as [|[|[|[|i]]]]; try reflexivity; lia). rewrite RR. destruct (Nat.eq_dec i 3) as [->|N3]; [cbn [Nat.sub] in La; rewrite La; apply W; lia|apply W; lia].
Qed.
(** ... and a delay of three samples seen on 4 points has no group delay at all *)
Example C78_delay3_nan junk : frgroup junk (D_rif [0; 0; 0; 1]) 4 = Ok (map (fun i => INR i / (2 * INR 4)) (seq 0 4), repeat None 4).
Proof.
  assert (Pw : (8 <= 2 ^ 29)%nat) by (apply (Nat.pow_le_mono_r 2 3 29); lia).
  destruct (C78_long_delay_refuted junk (D_rif [0; 0; 0; 1]) 4 3 (fun _ => 1)) as (l & E & ->); [exact I|lia| |intros; lra|rewrite Rabs_right by lra; cbn; lra|rewrite Rabs_right by lra; cbn; lra|eexists; apply C78_frmag_rif; cbn [length]; lia|exact E].
  intros i Hi. cbv zeta. cbn [response]. unfold resp, rsumn. cbn [sum length nth INR cadd c0 Rring]. replace (1 + 1 + 1) with 3 by ring. f_equal; ring.
Qed.
Example C78_phase_hyps : linear_phase (D_rif [1; 2; 1]) 4 1 (fun i => amplitude [1; 2; 1] (INR i / (2 * INR 4))) /\ (forall i, (i < 4)%nat -> 0 < amplitude [1; 2; 1] (INR i / (2 * INR 4))) /\ Rabs 1 < INR 4.
Proof.
  split; [|split].
  - replace 1 with ((INR (length [1; 2; 1]) - 1) / 2) at 3 by (cbn; field). apply C78_symmetric; [intros [|[|[|k]]] Hk; cbn in Hk |- *; try reflexivity; lia|discriminate].
  - intros i Hi. apply amp121_pos. exact Hi.
  - rewrite Rabs_R1. cbn. lra.
Qed.
