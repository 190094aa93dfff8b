(** Proofs for filter responses. *)
From Coq Require Import Reals Lra.
From Verif Require Import Base BaseLemmas RField DftSys ComplexSys Poly_Model Poly_Spec Poly_Proofs Vec_Model Vec_Proofs Filters_Model Filters_Spec Design_Model Design_Proofs Design_Proofs2 Fourier_Model Fourier_Spec Fourier_Proofs2 Fourier_Proofs3 Fourier_Proofs4 Fourier_Props Freq_Proofs2 Sig_Proofs Rii_Model But_Proofs Dly_Proofs3 Phase_Model Phase_Spec Phase_Proofs Phase_Props Geo_Model Geo_Proofs2 Pll_Model Fz_Model Fz_Spec.
Local Open Scope R_scope.

(** ** Complex sums *)
Lemma csum_pair n (f : nat -> C) : sum (K := Cring) n f = (rsumn n (fun k => fst (f k)), rsumn n (fun k => snd (f k))).
Proof. induction n as [|n IH]; [reflexivity|]. cbn [sum]. rewrite IH. unfold rsumn. apply C_ext; cbn; reflexivity. Qed.
Lemma rsumn_ext n f g : (forall k, (k < n)%nat -> f k = g k) -> rsumn n f = rsumn n g.
Proof. intros H. apply (sum_ext Rring). exact H. Qed.
Lemma rsumn_opp n f : rsumn n (fun k => - f k) = - rsumn n f.
Proof. unfold rsumn. induction n as [|n IH]; [cbn; lra|]. cbn [sum]. rewrite IH. cbn. lra. Qed.
Lemma samp_re h k : samp (K := Cring) (map re h) k = (nth k h 0, 0).
Proof. unfold samp. change (@c0 Cring) with (re 0). exact (map_nth re h 0 k). Qed.
Lemma inv_eit t : finv (eit t) = eit (- t).
Proof.
  assert (E : (eit (- t) * eit t = c1)%K) by (rewrite <- eit_add; replace (- t + t) with 0 by ring; apply eit_0). pose proof (fth Cfield) as FT.
  assert (N : eit t <> c0) by apply eit_ne0. pose proof (Finv_l FT (eit t) N) as I.
  transitivity (finv (eit t) * (eit t * eit (- t)))%K.
  - rewrite (Rmul_comm (F_R FT) (eit t)), E. symmetry. rewrite (Rmul_comm (F_R FT)). apply (Rmul_1_l (F_R FT)).
  - rewrite (Rmul_assoc (F_R FT)), I. apply (Rmul_1_l (F_R FT)).
Qed.
Lemma transfer_resp h f : transfer (K := Cfield) (map re h) (eit (2 * PI * f)) = resp h f.
Proof.
  unfold transfer. rewrite map_length. etransitivity; [exact (csum_pair (length h) _)|]. unfold resp. rewrite <- rsumn_opp.
  assert (P : forall k, (samp (K := Cfield) (map re h) k * cpow (finv (eit (2 * PI * f))) k)%K = (nth k h 0 * cos (2 * PI * f * INR k), - (nth k h 0 * sin (2 * PI * f * INR k)))).
  { intros k. rewrite inv_eit, eit_pow. etransitivity; [apply f_equal2; [exact (samp_re h k)|reflexivity]|]. replace (INR k * - (2 * PI * f)) with (- (2 * PI * f * INR k)) by ring. unfold eit. rewrite cos_neg, sin_neg. apply C_ext; cbn; ring. }
  f_equal; apply rsumn_ext; intros k _; cbv beta; rewrite P; reflexivity.
Qed.
Lemma cplx_rif h : h <> [] -> exists f, complex_frat (D_rif h) = Ok f /\ f_rif (K := Cfield) (map re h) = Ok f.
Proof.
  intros H. unfold complex_frat, f_rif. destruct h as [|a t]; [congruence|]. cbn [bind]. eexists. split; [reflexivity|]. cbn [map]. rewrite <- (map_cons re a t). set (h := a :: t). unfold f_cplx, p_cplx, p_of. cbn [f_num f_den p_coefs p_roots p_mlt]. rewrite <- map_rev, map_length, map_app.
  assert (Z : forall n, map re (repeat 0 n) = repeat (c0 : Cfield) n) by (induction n as [|n IH]; [reflexivity|cbn [repeat map]; rewrite IH; reflexivity]). do 3 f_equal. symmetry. apply f_equal2; [apply Z|reflexivity].
Qed.
Lemma response_horner d f : proper d -> exists g, complex_frat d = Ok g /\ f_horner g (eit (2 * PI * f)) = response d f.
Proof.
  intros Hp. destruct d as [h|g|g].
  - assert (H : h <> []) by (destruct h; [contradiction|discriminate]). destruct (cplx_rif h H) as (g & E & Eg). exists g. split; [exact E|]. assert (N : map re h <> []) by (destruct h; [congruence|discriminate]).
    destruct (rif_ok Cfield (map re h) (eit (2 * PI * f)) N (eit_ne0 _)) as (g' & E' & V). rewrite Eg in E'. injection E' as <-. etransitivity; [apply (fhorner_ok Cfield)|]. etransitivity; [exact V|]. apply transfer_resp.
  - eexists. split; [reflexivity|]. apply (fhorner_ok Cfield).
  - eexists. split; [reflexivity|]. apply (fhorner_ok Cfield).
Qed.
Lemma frat_indep d : proper d -> exists g, complex_frat d = Ok g /\ forall f, f_horner g (eit (2 * PI * f)) = response d f.
Proof. intros Hp. destruct (response_horner d 0 Hp) as (g & E & _). exists g. split; [exact E|]. intros f. destruct (response_horner d f Hp) as (g' & E' & V). rewrite E in E'. injection E' as <-. exact V. Qed.

(** ** Frequencies *)
Lemma fgrid_length n : length (fgrid n) = n. Proof. apply (linspace_spec (K := Rfield)). Qed.
Lemma fgrid_nth n i : (i < n)%nat -> nth i (fgrid n) 0 = INR i / (2 * INR n).
Proof.
  intros H. assert (P : 0 < INR n) by (apply lt_0_INR; lia). destruct (linspace_spec (K := Rfield) 0 (/ 2 - / 2 / INR n) n) as (_ & V & O). unfold fgrid. destruct (Nat.eq_dec n 1) as [->|N].
  - rewrite O by reflexivity. assert (i = 0%nat) by lia. subst i. cbn [nth]. cbn. lra.
  - etransitivity; [apply V; lia|]. change (@cnat Rfield) with (@cnat Rring). rewrite !cnat_R. assert (Q : INR (n - 1) = INR n - 1) by (rewrite minus_INR by lia; reflexivity). assert (1 < INR n) by (change 1 with (INR 1); apply lt_INR; lia). rewrite Q. change (0 + (/ 2 - / 2 / INR n - 0) / (INR n - 1) * INR i = INR i / (2 * INR n)). field. lra.
Qed.
Lemma fgrid_eq n : fgrid n = map (fun i => INR i / (2 * INR n)) (seq 0 n).
Proof.
  apply (list_ext 0); [rewrite fgrid_length, map_length, seq_length; reflexivity|]. intros i Hi. rewrite fgrid_length in Hi. rewrite fgrid_nth, (nth_map_seq (X := R)) by exact Hi. reflexivity.
Qed.
Lemma cmod_pos z : 0 <= cmod z. Proof. apply sqrt_pos. Qed.
Lemma cmod_div (z : C) a : 0 < a -> cmod (@fdiv Cfield z (re a)) = cmod z / a.
Proof.
  intros Ha. unfold cmod. assert (E : Cnorm2 (@fdiv Cfield z (re a)) = Cnorm2 z / (a * a)). { destruct z as [x y]. unfold Cnorm2. cbn. unfold Cnorm2. cbn. field. lra. }
  rewrite E. rewrite sqrt_div_alt by nra. rewrite sqrt_square by lra. reflexivity.
Qed.

(** ** frmag *)
Lemma real_re h : is_real (F := Complex) (map re h).
Proof. intros i. assert (E : samp (K := Complex) (map re h) i = (nth i h 0, 0)) by apply samp_re. rewrite E. apply C_ext; cbn; lra. Qed.
Lemma frmag_ok junk h npts : (0 < npts)%nat -> (length h <= 2 * npts)%nat -> (2 * npts <= 2 ^ 29)%nat ->
  frmag_rif junk h npts = Ok (fgrid npts, map (fun i => cmod (resp h (INR i / (2 * INR npts)))) (seq 0 npts)).
Proof.
  intros Hn Hl Hb. unfold frmag_rif. assert (M : Nat.max npts (length h / 2) = npts) by (apply Nat.max_l; apply Nat.div_le_upper_bound; lia). rewrite M. cbv zeta. destruct (Nat.eqb_spec npts 0); [lia|]. destruct (Nat.ltb_spec (2 * npts) (length h)); [lia|].
  set (h2 := h ++ repeat 0 (2 * npts - length h)). assert (L2 : length h2 = (2 * npts)%nat) by (unfold h2; rewrite app_length, repeat_length; lia).
  destruct (C24_rfft Complex junk (map re h2)) as (X & E & LX & V); [rewrite map_length; lia|apply real_re|]. rewrite E. cbn [bind]. do 2 f_equal. rewrite map_length in LX, V.
  assert (PN : 0 < INR (2 * npts)) by (apply lt_0_INR; lia). assert (EN : INR (2 * npts) = 2 * INR npts) by (rewrite mult_INR; cbn; lra).
  apply (list_ext 0); [rewrite !map_length, firstn_length, seq_length; apply Nat.min_l; assert (LX' : length X = (2 * npts)%nat) by (rewrite <- L2; exact LX); lia|].
  intros i Hi. rewrite map_length, firstn_length in Hi. assert (Hi' : (i < npts)%nat) by lia. rewrite (nth_map_seq (X := R)) by exact Hi'.
  assert (V' := V i ltac:(lia)). rewrite L2 in V'.
  transitivity (cmod (samp (K := Complex) X i) * sqrt (2 * INR npts)).
  { rewrite (nth_indep _ 0 ((fun z : Complex => cmod z * sqrt (2 * INR npts)) (c0 : Complex))) by (rewrite map_length, firstn_length; assert (LX' : length X = (2 * npts)%nat) by (rewrite <- L2; exact LX); lia). rewrite (map_nth (fun z : Complex => cmod z * sqrt (2 * INR npts))). f_equal. f_equal. unfold samp. apply Filters_Proofs.nth_firstn'. exact Hi'. }
  rewrite V'. change (rt (2 * npts) : Complex) with ((sqrt (INR (2 * npts)), 0) : C). etransitivity; [apply f_equal2; [apply (cmod_div _ (sqrt (INR (2 * npts)))); apply sqrt_lt_R0; exact PN|reflexivity]|]. rewrite EN. assert (0 < sqrt (2 * INR npts)) by (apply sqrt_lt_R0; lra).
  set (S0 := sum _ _). replace (resp h (INR i / (2 * INR npts))) with (S0 : C); [field; lra|]. unfold S0. clear S0.
  assert (Ep : forall j, (samp (K := Complex) (map re h2) j * wz (F := Complex) (2 * npts) (Z.of_nat j * Z.of_nat i))%K = (nth j h2 0 * cos (2 * PI * (INR i / (2 * INR npts)) * INR j), - (nth j h2 0 * sin (2 * PI * (INR i / (2 * INR npts)) * INR j)))).
  { intros j. rewrite wz_complex by lia. rewrite mult_IZR, <- !INR_IZR_INZ, EN. replace (2 * PI * (INR j * INR i) / (2 * INR npts)) with (2 * PI * (INR i / (2 * INR npts)) * INR j) by (field; apply Rgt_not_eq; apply lt_0_INR; exact Hn).
    etransitivity; [apply f_equal2; [apply samp_re|reflexivity]|]. apply C_ext; cbn; ring. }
  etransitivity; [exact (csum_pair (2 * npts) _)|]. unfold resp. rewrite <- rsumn_opp.
  assert (T : forall f : nat -> R, rsumn (2 * npts) (fun k => nth k h2 0 * f k) = rsumn (length h) (fun k => nth k h 0 * f k)).
  { intros f. unfold rsumn. replace (2 * npts)%nat with (length h + (2 * npts - length h))%nat by lia. rewrite (sum_split Rring). rewrite (sum_zero Rring (2 * npts - length h)).
    - etransitivity; [apply (Radd_comm (cth Rring))|]. etransitivity; [apply (Radd_0_l (cth Rring))|]. apply (sum_ext Rring). intros k Hk. unfold h2. rewrite app_nth1 by exact Hk. reflexivity.
    - intros k Hk. unfold h2. rewrite app_nth2 by lia. rewrite nth_repeat. cbn. ring. }
  f_equal.
  - rewrite <- T. apply rsumn_ext. intros k _. cbv beta. rewrite Ep. reflexivity.
  - transitivity (rsumn (2 * npts) (fun k => nth k h2 0 * - sin (2 * PI * (INR i / (2 * INR npts)) * INR k))); [|rewrite T; apply rsumn_ext; intros; ring]. apply rsumn_ext. intros k _. cbv beta. rewrite Ep. cbn [snd]. ring.
Qed.
