(** C66: Chebyshev filters of types I and II (rii.cc tchebychev_I_analogique, tchebychev_II_analogique, design_riia). *)
From Coq Require Import Reals Lra Lia String.
From Verif Require Import Base BaseLemmas RField DftSys ComplexSys Poly_Model Poly_Spec Poly_Proofs Win_Proofs2 Rii_Model Riia_Spec Biq_Spec Biq_Proofs Biq_Props Tf_Proofs Tf_Props Factor_Proofs Riia_Proofs But_Proofs But_Props Tch_Proofs.
Local Open Scope R_scope.
Section CF.
Add Field Cf : (fth Cfield).
(** 10^(d/10) *)
Lemma db_gt1 d : 0 < d -> 1 < db2pow d.
Proof. intros H. unfold db2pow. rewrite <- (Rpower_O 10) by lra. apply Rpower_lt; lra. Qed.
Lemma signe_pos x : 0 < x -> signe x = 1.
Proof. intros H. unfold signe. destruct (Rlt_dec 0 x); [reflexivity|contradiction]. Qed.
Lemma copysign_pos x : 0 < x -> copysign1 x = 1.
Proof. intros H. unfold copysign1. destruct (Rlt_dec x 0); [lra|reflexivity]. Qed.
Lemma arcsinh_pos x : 0 < x -> 0 < arcsinh x.
Proof.
  intros H. destruct (Rlt_le_dec 0 (arcsinh x)) as [L|L]; [exact L|]. exfalso.
  assert (E := sinh_arcsinh x). destruct L as [L|L]; [assert (0 < sinh (- arcsinh x)) by (apply sinh_pos_; lra); rewrite sinh_opp in *; lra|]. rewrite L, sinh_0 in E. lra.
Qed.
Lemma tcheb_poles_ok n eps : (1 <= n)%nat -> 0 < eps -> tcheb_poles n eps = map (tpole n (arcsinh (1 / eps) / INR n)) (seq 0 n).
Proof.
  intros Hn He. unfold tcheb_poles. rewrite lin_1n by exact Hn. rewrite map_map. apply map_ext_in. intros i I. apply in_seq in I. unfold tpole.
  replace ((2 * (INR i + 1) - 1) * (PI / (2 * INR n))) with (th n i) by (unfold th; ring). set (a := arcsinh (1 / eps) / INR n).
  assert (Ha : 0 < a). { unfold a. apply Rdiv_lt_0_compat; [apply arcsinh_pos; apply Rdiv_lt_0_compat; lra|pose proof (INR_pos n Hn); lra]. }
  assert (S0 : 0 < sin (th n i)) by (apply sin_gt_0; apply th_range; lia). rewrite (signe_pos _ S0), (signe_pos _ (sinh_pos_ a Ha)). f_equal; ring.
Qed.
Lemma tpole_neg n a i : (i < n)%nat -> 0 < a -> fst (tpole n a i) < 0.
Proof. intros Hi Ha. cbn. assert (0 < sin (th n i)) by (apply sin_gt_0; apply th_range; lia). pose proof (sinh_pos_ a Ha). nra. Qed.
(** Type I prototype: n stable poles, squared gain (1 + e^2 T_n(0)^2) / (1 + e^2 T_n(w)^2) with 1 + e^2 = 10^(d/10), gain exactly 1 at 0. *)
Theorem C66_type1_prototype : forall n d, (1 <= n)%nat -> 0 < d -> let h := tchebychev_I_analogique n d in let e2 := db2pow d - 1 in
  stable_s h /\ List.length (p_coefs (f_den h)) = n /\ p_coefs (f_num h) = [] /\
  (forall w, p_horner (f_den h) (im w) <> c0 /\ gain2 h (im w) = (1 + e2 * (T n 0 * T n 0)) / (1 + e2 * (T n w * T n w))) /\ f_horner h c0 = c1.
Proof.
  intros n d Hn Hd h e2. pose proof (db_gt1 d Hd) as D1. set (eps := sqrt (db2pow d - 1)). assert (He : 0 < eps) by (apply sqrt_lt_R0; lra).
  assert (E2 : eps * eps = e2) by (apply sqrt_sqrt; unfold e2; lra). set (a := arcsinh (1 / eps) / INR n). pose proof (INR_pos n Hn) as HN.
  assert (Ha : 0 < a). { unfold a. apply Rdiv_lt_0_compat; [apply arcsinh_pos; apply Rdiv_lt_0_compat; lra|lra]. }
  assert (SH : sinh (INR n * a) = 1 / eps). { unfold a. replace (INR n * (arcsinh (1 / eps) / INR n)) with (arcsinh (1 / eps)) by (field; lra). apply sinh_arcsinh. }
  assert (EP : p_coefs (f_den h) = map (tpole n a) (seq 0 n)) by (exact (tcheb_poles_ok n eps Hn He)).
  assert (V : forall s, p_horner (f_den h) s = rprod (map (tpole n a) (seq 0 n)) s). { intros s. rewrite horner_ok. unfold value. change (p_roots (f_den h)) with true. change (p_mlt (f_den h)) with (c1 : Cfield). rewrite EP. ring. }
  assert (F : forall s, f_horner h s = (p_horner (f_den h) c0 / p_horner (f_den h) s)%K). { intros s. rewrite fhorner_ok. unfold fvalue. rewrite <- (horner_ok Cfield (f_den h)). unfold value. change (p_roots (f_num h)) with true. change (p_mlt (f_num h)) with (c1 * p_horner (f_den h) c0)%K. change (p_coefs (f_num h)) with (@nil Cfield). cbn [rprod]. f_equal. ring. }
  assert (N : forall w, Cnorm2 (p_horner (f_den h) (im w)) = (1 + e2 * (T n w * T n w)) / (e2 * 4 ^ (n - 1))).
  { intros w. rewrite V, tch_norm, SH, <- E2 by assumption. field. split; [apply pow_nonzero; lra|lra]. }
  assert (P4 : 0 < 4 ^ (n - 1)) by (apply pow_lt; lra). assert (PE : 0 < e2) by (unfold e2; lra).
  assert (PP : forall w, 0 < 1 + e2 * (T n w * T n w)). { intros w. pose proof (Rle_0_sqr (T n w)) as Q. unfold Rsqr in Q. nra. }
  assert (NZ : forall w, p_horner (f_den h) (im w) <> c0). { intros w E. pose proof (N w) as Nw. rewrite E in Nw. assert (Q : 0 < (1 + e2 * (T n w * T n w)) / (e2 * 4 ^ (n - 1))) by (apply Rdiv_lt_0_compat; [apply PP|nra]). assert (N0 : Cnorm2 (c0 : Cfield) = 0) by (unfold Cnorm2; cbn; ring). rewrite N0 in Nw. rewrite <- Nw in Q. exact (Rlt_irrefl 0 Q). }
  split; [split; [reflexivity|]|split; [|split; [reflexivity|split]]].
  - rewrite EP. intros p I. apply in_map_iff in I. destruct I as (i & <- & I). apply in_seq in I. apply tpole_neg; [lia|exact Ha].
  - rewrite EP, map_length, seq_length. reflexivity.
  - intros w. split; [apply NZ|]. unfold gain2. rewrite F, Cnorm2_div by apply NZ. change (c0 : Cfield) with (im 0). rewrite !N. pose proof (PP w). field. repeat split; lra.
  - rewrite F. change (c0 : Cfield) with (im 0) at 1 2. field. exact (NZ 0).
Qed.
Print Assumptions C66_type1_prototype.
Lemma t1_good n d : (1 <= n)%nat -> 0 < d -> good_proto (tchebychev_I_analogique n d).
Proof.
  intros Hn Hd. destruct (C66_type1_prototype n d Hn Hd) as ((R & ST) & L & Z & _). split; [reflexivity|]. split; [reflexivity|]. rewrite L, Z. split; [cbn; lia|]. split; [exact ST|]. intros r [].
Qed.
Lemma T_even_sq n w : T n (- w) * T n (- w) = T n w * T n w.
Proof. rewrite (T_chebT n w), (T_chebT n (- w)), !(chebT_opp w n). destruct (Nat.odd n); ring. Qed.
(** Low-pass and high-pass filters of type I. *)
Theorem C66_type1_lowpass : forall ellip n fc d d2, (1 <= n)%nat -> 0 < fc < 1 / 2 -> 0 < d -> let e2 := db2pow d - 1 in
  exists hz, design_riia ellip n PASSE_BAS TCHEBYCHEV_I fc d d2 = Ok hz /\ stable_z hz /\
    (forall v, -1 / 2 < v < 1 / 2 -> let t := T n (tan (PI * v) / tan (PI * fc)) in gain2 hz (eit (2 * PI * v)) = (1 + e2 * (T n 0 * T n 0)) / (1 + e2 * (t * t))) /\
    f_horner hz c1 = c1 /\ f_horner hz (copp c1) = c0.
Proof.
  intros ellip n fc d d2 Hn Hf Hd e2. destruct (C66_type1_prototype n d Hn Hd) as (_ & L & Z & G & DC).
  destruct (digital_lp (tchebychev_I_analogique n d) (fun w => (1 + e2 * (T n 0 * T n 0)) / (1 + e2 * (T n w * T n w))) fc (t1_good n d Hn Hd) (one_ne Cfield) Hf G) as (hz & E & ST & R & H1 & H2).
  exists hz. split; [exact E|]. split; [exact ST|]. split; [exact R|]. split; [rewrite H1; exact DC|]. rewrite H2, L, Z. destruct n; [lia|]. reflexivity.
Qed.
Print Assumptions C66_type1_lowpass.
Theorem C66_type1_highpass : forall ellip n fc d d2, (1 <= n)%nat -> 0 < fc < 1 / 2 -> 0 < d -> let e2 := db2pow d - 1 in
  exists hz, design_riia ellip n PASSE_HAUT TCHEBYCHEV_I fc d d2 = Ok hz /\ stable_z hz /\
    (forall v, -1 / 2 < v < 1 / 2 -> v <> 0 -> let t := T n (tan (PI * fc) / tan (PI * v)) in gain2 hz (eit (2 * PI * v)) = (1 + e2 * (T n 0 * T n 0)) / (1 + e2 * (t * t))) /\
    f_horner hz (copp c1) = re ((-1) ^ n) /\ f_horner hz c1 = c0.
Proof.
  intros ellip n fc d d2 Hn Hf Hd e2. destruct (C66_type1_prototype n d Hn Hd) as (_ & L & Z & G & DC).
  destruct (digital_hp (tchebychev_I_analogique n d) (fun w => (1 + e2 * (T n 0 * T n 0)) / (1 + e2 * (T n w * T n w))) fc (t1_good n d Hn Hd) (one_ne Cfield) Hf) as (hz & E & ST & R & H1 & H2); [intros w; rewrite T_even_sq; reflexivity|exact G|].
  exists hz. split; [exact E|]. split; [exact ST|]. split; [exact R|]. split; [|apply H2; rewrite L, Z; cbn; lia]. rewrite H1, L, Z, DC. cbn [List.length Nat.add]. rewrite re_pow. replace (re (-1)) with (copp c1 : Cfield) by (apply C_ext; cbn; ring). ring.
Qed.
Print Assumptions C66_type1_highpass.
Lemma T0_sq : forall n, T n 0 * T n 0 = if Nat.odd n then 0 else 1.
Proof.
  intros n. rewrite T_chebT. rewrite <- cos_PI2, chebT_cos. destruct (Nat.odd n) eqn:O.
  - apply Nat.odd_spec in O. destruct O as [k ->]. replace (INR (2 * k + 1) * (PI / 2)) with (INR k * PI + PI / 2) by (rewrite plus_INR, mult_INR; cbn [INR]; field). rewrite cos_plus, cos_PI2, sin_PI2, sin_nPI. ring.
  - rewrite <- Nat.negb_even in O. apply Bool.negb_false_iff, Nat.even_spec in O. destruct O as [k ->]. replace (INR (2 * k) * (PI / 2)) with (INR k * PI) by (rewrite mult_INR; cbn [INR]; field).
    pose proof (sin2_cos2 (INR k * PI)) as S1. unfold Rsqr in S1. rewrite sin_nPI in S1. lra.
Qed.
Lemma T_1 n : T n 1 = 1.
Proof. rewrite T_chebT. rewrite <- cos_0, chebT_cos, Rmult_0_r. reflexivity. Qed.
Lemma T_le1 n x : -1 <= x <= 1 -> 0 <= T n x * T n x <= 1.
Proof. intros H. rewrite T_chebT. pose proof (chebT_small x n H) as Q. split; [pose proof (Rle_0_sqr (chebT n x)) as S1; exact S1|]. pose proof (Rle_abs (chebT n x)). pose proof (Rle_abs (- chebT n x)) as Q2. rewrite Rabs_Ropp in Q2. nra. Qed.
Lemma ratio_in fc v : 0 < fc < 1 / 2 -> - fc <= v <= fc -> -1 <= tan (PI * v) / tan (PI * fc) <= 1.
Proof.
  intros Hf Hv. pose proof PI_RGT_0. pose proof (tan_pos_ fc Hf) as TF.
  assert (M : forall a b, -1 / 2 < a <= b -> b < 1 / 2 -> tan (PI * a) <= tan (PI * b)). { intros a b H1 H2. destruct (Req_dec a b) as [-> |]; [lra|]. left. apply tan_increasing; nra. }
  pose proof (M v fc ltac:(lra) ltac:(lra)). pose proof (M (- fc) v ltac:(lra) ltac:(lra)) as M2. replace (PI * - fc) with (- (PI * fc)) in M2 by ring. rewrite tan_neg in M2.
  split; apply (Rmult_le_reg_r (tan (PI * fc))); try exact TF; unfold Rdiv; rewrite Rmult_assoc, Rinv_l by lra; lra.
Qed.
(** Pass-band ripple of exactly d dB: below the gain at 0 for odd n, and above it for even n. *)
Theorem C66_type1_ripple : forall ellip n fc d d2 hz, (1 <= n)%nat -> 0 < fc < 1 / 2 -> 0 < d -> design_riia ellip n PASSE_BAS TCHEBYCHEV_I fc d d2 = Ok hz ->
  (forall v, - fc <= v <= fc -> if Nat.odd n then / db2pow d <= gain2 hz (eit (2 * PI * v)) <= 1 else 1 <= gain2 hz (eit (2 * PI * v)) <= db2pow d) /\
  gain2 hz (eit (2 * PI * fc)) = (if Nat.odd n then / db2pow d else 1) /\
  (forall v v', fc <= v <= v' -> v' < 1 / 2 -> gain2 hz (eit (2 * PI * v')) <= gain2 hz (eit (2 * PI * v))).
Proof.
  intros ellip n fc d d2 hz Hn Hf Hd E. destruct (C66_type1_lowpass ellip n fc d d2 Hn Hf Hd) as (hz' & E' & _ & R & _). rewrite E in E'. injection E' as <-. pose proof (db_gt1 d Hd) as D1. cbv zeta in R. rewrite T0_sq in R.
  pose proof PI_RGT_0. pose proof (tan_pos_ fc Hf) as TF. split; [|split].
  - intros v Hv. rewrite R by lra. pose proof (T_le1 n _ (ratio_in fc v Hf Hv)) as [Q1 Q2]. set (q := T n _ * T n _) in *. clearbody q. set (D := db2pow d) in *. clearbody D.
    assert (F1 : 0 <= (D - 1) * q <= D - 1) by (split; nra). assert (F2 : 0 <= D * ((D - 1) * q)) by nra. set (r := (D - 1) * q) in *. clearbody r. assert (P : 0 < 1 + r) by lra.
    assert (I : 0 < / (1 + r)) by (apply Rinv_0_lt_compat; exact P). assert (I1 : (1 + r) * / (1 + r) = 1) by (apply Rinv_r; lra).
    unfold Rdiv. destruct (Nat.odd n); split.
    + replace (1 + (D - 1) * 0) with 1 by ring. rewrite Rmult_1_l. apply Rinv_le_contravar; lra.
    + nra.
    + nra.
    + apply (Rmult_le_reg_r (1 + r)); [exact P|]. rewrite Rmult_assoc, Rinv_l by lra. nra.
  - rewrite R by lra. replace (tan (PI * fc) / tan (PI * fc)) with 1 by (field; lra). rewrite T_1. destruct (Nat.odd n); field; lra.
  - intros v v' Hv Hv'. rewrite !R by lra. set (x := tan (PI * v) / tan (PI * fc)). set (y := tan (PI * v') / tan (PI * fc)).
    assert (M : forall a b, -1 / 2 < a <= b -> b < 1 / 2 -> tan (PI * a) <= tan (PI * b)). { intros a b H1 H2. destruct (Req_dec a b) as [-> |]; [lra|]. left. apply tan_increasing; nra. }
    assert (XY : 1 <= x <= y). { pose proof (M fc v ltac:(lra) ltac:(lra)). pose proof (M v v' ltac:(lra) ltac:(lra)). unfold x, y. split; apply (Rmult_le_reg_r (tan (PI * fc))); try exact TF; unfold Rdiv; rewrite ?Rmult_assoc, ?Rinv_l by lra; lra. }
    rewrite (T_chebT n x), (T_chebT n y). pose proof (chebT_mono x y n XY) as Q. pose proof (chebT_ge1 x (proj1 XY) n) as [Q1 _]. set (p := chebT n x) in *. set (q := chebT n y) in *. clearbody p q.
    assert (S1 : p * p <= q * q) by nra. assert (P : 0 < 1 + (db2pow d - 1) * (p * p)) by nra. set (D := db2pow d) in *. clearbody D.
    apply Rmult_le_compat_l; [destruct (Nat.odd n); lra|]. apply Rinv_le_contravar; [exact P|]. nra.
Qed.
Print Assumptions C66_type1_ripple.
(** Finding: for even n the filter amplifies by d dB inside the pass-band (and has gain 1, not -d dB, at the cut-off frequency). *)
Theorem C66_even_order_refuted : forall ellip n fc d d2 hz, (1 <= n)%nat -> 0 < fc < 1 / 2 -> 0 < d -> Nat.even n = true -> design_riia ellip n PASSE_BAS TCHEBYCHEV_I fc d d2 = Ok hz ->
  exists v, 0 < v < fc /\ gain2 hz (eit (2 * PI * v)) = db2pow d /\ 1 < db2pow d.
Proof.
  intros ellip n fc d d2 hz Hn Hf Hd Ev E. destruct (C66_type1_lowpass ellip n fc d d2 Hn Hf Hd) as (hz' & E' & _ & R & _). rewrite E in E'. injection E' as <-. pose proof (db_gt1 d Hd) as D1. cbv zeta in R. rewrite T0_sq in R.
  assert (O : Nat.odd n = false) by (rewrite <- Nat.negb_even, Ev; reflexivity). rewrite O in R. pose proof PI_RGT_0. pose proof (tan_pos_ fc Hf) as TF.
  assert (N2 : 2 <= INR n). { apply (le_INR 2). destruct n as [|[|n]]; [lia|discriminate Ev|lia]. }
  assert (TH : 0 < th n 0 < PI / 2). { assert (Q : th n 0 * (2 * INR n) = PI) by (unfold th; cbn [INR]; field; lra). split; nra. }
  assert (C0 : 0 < cos (th n 0)) by (apply cos_gt_0; lra).
  assert (C1 : cos (th n 0) < 1). { rewrite <- cos_0. apply cos_decreasing_1; lra. }
  set (x := tan (PI * fc) * cos (th n 0)). assert (HX : 0 < x < tan (PI * fc)) by (unfold x; nra).
  exists (atan x / PI). assert (V : 0 < atan x / PI < fc).
  { split; [apply Rdiv_lt_0_compat; [rewrite <- atan_0; apply atan_increasing; lra|lra]|]. apply (Rmult_lt_reg_r PI); [lra|]. unfold Rdiv. rewrite Rmult_assoc, Rinv_l by lra. rewrite Rmult_1_r. assert (Q : atan x < atan (tan (PI * fc))) by (apply atan_increasing; lra). rewrite atan_tan in Q by nra. lra. }
  split; [exact V|]. split; [|exact D1]. rewrite R by lra. replace (PI * (atan x / PI)) with (atan x) by (field; lra). rewrite tan_atan. replace (x / tan (PI * fc)) with (cos (th n 0)) by (unfold x; field; lra).
  rewrite T_chebT, chebT_cos. destruct (cos_nth n 0 Hn) as [Z _]. rewrite Z. field.
Qed.
Print Assumptions C66_even_order_refuted.

(** ** Type II *)
Lemma rprod_recip (l : list Cfield) (s : Cfield) : s <> c0 -> (forall y, In y l -> y <> c0) ->
  rprod (map (fun y => (c1 / y)%K) l) s = (cpow s (List.length l) * rprod (map (fun y => (c1 / y)%K) l) c0 * rprod l (c1 / s))%K.
Proof.
  intros Hs. induction l as [|y l IH]; intros H; cbn [map rprod List.length cpow]; [ring|]. rewrite IH by (intros y' I; apply H; right; exact I). pose proof (H y (or_introl eq_refl)) as Hy. field. split; assumption.
Qed.
Lemma recip0 (l : list Cfield) : (forall y, In y l -> y <> c0) -> rprod (map (fun y => (c1 / y)%K) l) c0 <> (c0 : Cfield).
Proof.
  intros H. apply nz_rprod. intros r I. apply in_map_iff in I. destruct I as (y & <- & I). apply H in I. intros E. apply (one_ne Cfield). transitivity (- ((c0 - c1 / y) * y))%K; [field; exact I|]. rewrite E. ring.
Qed.
(** zeros *)
Definition tzero (n i : nat) : Cfield := im (- cos (th n i)).
Lemma tzero_norm n u : (1 <= n)%nat -> Cnorm2 (rprod (map (tzero n) (seq 0 n)) (im u)) = T n (- u) * T n (- u) / 4 ^ (n - 1).
Proof.
  intros Hn. pose proof (T_factor n (- u) Hn) as F.
  assert (E : Cnorm2 (rprod (map (tzero n) (seq 0 n)) (im u)) = Cnorm2 (rprod (map (fun i => re (cos (th n i))) (seq 0 n)) (re (- u)))).
  { generalize (seq 0 n). induction l as [|i l IH]; [reflexivity|]. cbn [map rprod]. rewrite !Cnorm2_mul, IH. f_equal. unfold Cnorm2, tzero, im, re. cbn. ring. }
  rewrite E. apply (f_equal Cnorm2) in F. rewrite Cnorm2_mul, <- re_2, re_cpow in F.
  assert (NR : forall x, Cnorm2 (re x) = x * x) by (intros x; unfold Cnorm2; cbn; ring). rewrite !NR in F.
  assert (P : (2 ^ (n - 1)) * (2 ^ (n - 1)) = 4 ^ (n - 1)) by (rewrite <- Rpow_mult_distr; f_equal; ring). rewrite P in F. rewrite F. field. apply pow_nonzero. lra.
Qed.
Lemma th_cos_ne n i : Nat.even n = true -> (i < n)%nat -> cos (th n i) <> 0.
Proof.
  intros Ev Hi E. apply Nat.even_spec in Ev. destruct Ev as [k Ek]. pose proof PI_RGT_0. pose proof (th_range n i Hi) as [H0 H1].
  assert (Q : th n i = PI / 2). { destruct (Rtotal_order (th n i) (PI / 2)) as [L|[L|L]]; [|exact L|]; exfalso; [assert (0 < cos (th n i)) by (apply cos_gt_0; lra); lra|assert (cos (th n i) < 0) by (apply cos_lt_0; lra); lra]. }
  assert (HN : 0 < INR n) by (apply lt_0_INR; lia). assert (Q2 : (2 * INR i + 1) = INR n). { unfold th in Q. apply (Rmult_eq_reg_r (PI / (2 * INR n))); [rewrite Q; field; lra|]. apply Rgt_not_eq. apply Rdiv_lt_0_compat; lra. }
  rewrite Ek, mult_INR in Q2. cbn [INR] in Q2. assert (Q3 : INR (2 * i + 1) = INR (2 * k)) by (rewrite plus_INR, !mult_INR; cbn [INR]; lra). apply INR_eq in Q3. lia.
Qed.
(** Type II prototype, even order: n stable poles, squared gain T^2 / (T^2 + 10^(d/10) - 1) with T = T_n(1/w), gain exactly 1 at 0. *)
Theorem C66_type2_prototype : forall n d, (1 <= n)%nat -> Nat.even n = true -> 0 < d -> let h := tchebychev_II_analogique n d in
  good_proto h /\ stable_s h /\ List.length (p_coefs (f_den h)) = n /\ List.length (p_coefs (f_num h)) = n /\
  (forall w, p_horner (f_den h) (im w) <> c0) /\
  (forall w, w <> 0 -> gain2 h (im w) = (T n (1 / w) * T n (1 / w)) / (T n (1 / w) * T n (1 / w) + (db2pow d - 1))) /\ f_horner h c0 = c1.
Proof.
  intros n d Hn Ev Hd h. pose proof (db_gt1 d Hd) as D1. set (k := sqrt (db2pow d - 1)). assert (Hk : 0 < k) by (apply sqrt_lt_R0; lra).
  assert (E2 : k * k = db2pow d - 1) by (apply sqrt_sqrt; lra). set (a := arcsinh (1 / (1 / k)) / INR n). pose proof (INR_pos n Hn) as HN.
  assert (Ek : 1 / (1 / k) = k) by (field; lra).
  assert (Ha : 0 < a). { unfold a. rewrite Ek. apply Rdiv_lt_0_compat; [apply arcsinh_pos; exact Hk|lra]. }
  assert (SH : sinh (INR n * a) = k). { unfold a. rewrite Ek. replace (INR n * (arcsinh k / INR n)) with (arcsinh k) by (field; lra). apply sinh_arcsinh. }
  set (ps := map (tpole n a) (seq 0 n)). set (ys := map (tzero n) (seq 0 n)).
  assert (PN : forall p, In p ps -> fst p < 0). { intros p I. apply in_map_iff in I. destruct I as (i & <- & I). apply in_seq in I. apply tpole_neg; [lia|exact Ha]. }
  assert (PZ : forall p, In p ps -> p <> c0). { intros p I Q. apply PN in I. rewrite Q in I. cbn in I. lra. }
  assert (YZ : forall y, In y ys -> y <> c0). { intros y I Q. apply in_map_iff in I. destruct I as (i & <- & I). apply in_seq in I. apply (th_cos_ne n i Ev ltac:(lia)). apply (f_equal snd) in Q. cbn in Q. lra. }
  assert (EP : p_coefs (f_den h) = map (fun y => (c1 / y)%K) ps).
  { unfold h, tchebychev_II_analogique. cbn [f_den p_coefs p_from_roots]. rewrite lin_1n by exact Hn. unfold ps. rewrite !map_map. apply map_ext_in. intros i I. apply in_seq in I. f_equal.
    change (1 / (1 / sqrt (db2pow d - 1))) with (1 / (1 / k)). fold a. replace ((2 * (INR i + 1) - 1) * (PI / (2 * INR n))) with (th n i) by (unfold th; ring).
    assert (S0 : 0 < sin (th n i)) by (apply sin_gt_0; apply th_range; lia). rewrite (copysign_pos _ S0), (copysign_pos _ (sinh_pos_ a Ha)). unfold tpole. f_equal; ring. }
  assert (EZ : p_coefs (f_num h) = map (fun y => (c1 / y)%K) ys).
  { unfold h, tchebychev_II_analogique. cbn [f_num p_coefs]. unfold ys. rewrite !map_map. apply map_ext_in. intros i I. f_equal. unfold tzero, im. f_equal. f_equal. f_equal. unfold th. field. lra. }
  assert (VD : forall s, p_horner (f_den h) s = rprod (map (fun y => (c1 / y)%K) ps) s). { intros s. rewrite horner_ok. unfold value. change (p_roots (f_den h)) with true. change (p_mlt (f_den h)) with (c1 : Cfield). rewrite EP. ring. }
  assert (D0 := recip0 ps PZ). assert (N0 := recip0 ys YZ).
  assert (MN : p_mlt (f_num h) = (rprod (map (fun y => (c1 / y)%K) ps) c0 / rprod (map (fun y => (c1 / y)%K) ys) c0)%K).
  { rewrite <- VD. transitivity (c1 * (p_horner (f_den h) c0 / p_horner (p_from_roots (p_coefs (f_num h))) c0))%K; [reflexivity|].
    replace (p_horner (p_from_roots (p_coefs (f_num h))) c0) with (rprod (map (fun y => (c1 / y)%K) ys) c0); [ring|]. rewrite horner_ok. unfold value. cbn [p_from_roots p_roots p_mlt p_coefs]. rewrite EZ. ring. }
  assert (F : forall s, f_horner h s = (rprod (map (fun y => (c1 / y)%K) ps) c0 / rprod (map (fun y => (c1 / y)%K) ys) c0 * rprod (map (fun y => (c1 / y)%K) ys) s / rprod (map (fun y => (c1 / y)%K) ps) s)%K).
  { intros s. rewrite fhorner_ok. unfold fvalue. rewrite <- (horner_ok Cfield (f_den h)), VD. unfold value. change (p_roots (f_num h)) with true. rewrite MN, EZ. reflexivity. }
  assert (LP : List.length ps = n) by (unfold ps; rewrite map_length, seq_length; reflexivity). assert (LY : List.length ys = n) by (unfold ys; rewrite map_length, seq_length; reflexivity).
  assert (P4 : 0 < 4 ^ (n - 1)) by (apply pow_lt; lra).
  assert (PT : forall u, 0 < T n u * T n u + (db2pow d - 1)). { intros u. pose proof (Rle_0_sqr (T n u)) as Q. unfold Rsqr in Q. lra. }
  assert (NP : forall u, Cnorm2 (rprod ps (im u)) = (T n u * T n u + (db2pow d - 1)) / 4 ^ (n - 1)). { intros u. unfold ps. rewrite tch_norm, SH, E2 by assumption. reflexivity. }
  assert (NZ : forall u, rprod ps (im u) <> c0). { intros u Q. pose proof (NP u) as N. rewrite Q in N. pose proof (PT u). assert (Q2 : 0 < (T n u * T n u + (db2pow d - 1)) / 4 ^ (n - 1)) by (apply Rdiv_lt_0_compat; assumption). assert (N00 : Cnorm2 (c0 : Cfield) = 0) by (unfold Cnorm2; cbn; ring). rewrite N00 in N. rewrite <- N in Q2. exact (Rlt_irrefl 0 Q2). }
  assert (RI : forall w, w <> 0 -> (c1 / im w)%K = im (- (1 / w))). { intros w Hw. apply C_ext; unfold im; cbn; unfold Cnorm2; cbn; field; lra. }
  assert (IN : forall w, w <> 0 -> im w <> (c0 : Cfield)). { intros w Hw Q. apply Hw. exact (f_equal snd Q). }
  assert (DZ : forall w, p_horner (f_den h) (im w) <> c0).
  { intros w. rewrite VD. destruct (Req_dec w 0) as [-> |Hw]; [exact D0|]. rewrite rprod_recip by (try exact PZ; apply IN; exact Hw). rewrite (RI w Hw). repeat apply mul_nz; [apply nz_pow; apply IN; exact Hw|exact D0|apply NZ]. }
  assert (ST : forall p, In p (p_coefs (f_den h)) -> fst p < 0).
  { rewrite EP. intros p I. apply in_map_iff in I. destruct I as ([x y] & <- & I). apply PN in I. cbn in I |- *. assert (N : 0 < Cnorm2 (x, y)) by (unfold Cnorm2; cbn; nra). assert (Q : x / Cnorm2 (x, y) < 0) by (unfold Rdiv; pose proof (Rinv_0_lt_compat _ N); nra). unfold Rdiv in *. lra. }
  split; [|split; [split; [reflexivity|exact ST]|split; [|split; [|split; [exact DZ|split]]]]].
  - split; [reflexivity|]. split; [reflexivity|]. rewrite EP, EZ, !map_length, LP, LY. split; [apply Nat.le_refl|]. split; [rewrite <- EP; exact ST|].
    intros r I. apply in_map_iff in I. destruct I as (y & <- & I). split; [|apply div_nz; [apply (one_ne Cfield)|apply YZ; exact I]].
    apply in_map_iff in I. destruct I as (i & <- & I). cbn. unfold Rdiv. lra.
  - rewrite EP, map_length. exact LP.
  - rewrite EZ, map_length. exact LY.
  - intros w Hw. unfold gain2. rewrite F, (rprod_recip ps (im w)), (rprod_recip ys (im w)), LP, LY, (RI w Hw) by (try exact PZ; try exact YZ; apply IN; exact Hw).
    assert (NS := nz_pow (K := Cfield) _ n (IN w Hw)). pose proof (NZ (- (1 / w))) as NW.
    match goal with |- Cnorm2 ?e = _ => replace e with (rprod ys (im (- (1 / w))) / rprod ps (im (- (1 / w))))%K by (field; repeat split; assumption) end.
    rewrite Cnorm2_div by exact NW. unfold ys. rewrite tzero_norm by exact Hn. fold ys. rewrite NP, Ropp_involutive, T_even_sq. field. split; [|lra]. pose proof (PT (1 / w)). lra.
  - rewrite F. field. split; assumption.
Qed.
Print Assumptions C66_type2_prototype.
Lemma t2_mlt n d : p_mlt (f_den (tchebychev_II_analogique n d)) = c1.
Proof. reflexivity. Qed.
(** Low-pass and high-pass filters of type II, even order. *)
Theorem C66_type2_lowpass : forall ellip n fc d1 d, (1 <= n)%nat -> Nat.even n = true -> 0 < fc < 1 / 2 -> 0 < d ->
  exists hz, design_riia ellip n PASSE_BAS TCHEBYCHEV_II fc d1 d = Ok hz /\ stable_z hz /\
    (forall v, -1 / 2 < v < 1 / 2 -> v <> 0 -> let t := T n (tan (PI * fc) / tan (PI * v)) in gain2 hz (eit (2 * PI * v)) = (t * t) / (t * t + (db2pow d - 1))) /\
    f_horner hz c1 = c1.
Proof.
  intros ellip n fc d1 d Hn Ev Hf Hd. destruct (C66_type2_prototype n d Hn Ev Hd) as (GP & _ & L & Z & NZ & G & DC).
  destruct (digital_lp (tchebychev_II_analogique n d) (fun w => gain2 (tchebychev_II_analogique n d) (im w)) fc GP (one_ne Cfield) Hf) as (hz & E & ST & R & H1 & H2); [intros w; split; [apply NZ|reflexivity]|].
  exists hz. split; [exact E|]. split; [exact ST|]. split; [|rewrite H1; exact DC].
  intros v Hv Hv0. cbv zeta. pose proof PI_RGT_0. assert (TF := tan_pos_ fc Hf).
  assert (TV : tan (PI * v) <> 0). { intros Q. destruct (Rlt_le_dec v 0) as [V|V]; [assert (tan (- (PI * v)) > 0) by (apply tan_gt_0; nra); rewrite tan_neg in *; lra|assert (tan (PI * v) > 0) by (apply tan_gt_0; nra); lra]. }
  rewrite R by lra. rewrite G. 2:{ intros Q. apply TV. replace (tan (PI * v)) with (tan (PI * v) / tan (PI * fc) * tan (PI * fc)) by (field; lra). rewrite Q. ring. }
  replace (1 / (tan (PI * v) / tan (PI * fc))) with (tan (PI * fc) / tan (PI * v)) by (field; lra). reflexivity.
Qed.
Print Assumptions C66_type2_lowpass.
Theorem C66_type2_highpass : forall ellip n fc d1 d, (1 <= n)%nat -> Nat.even n = true -> 0 < fc < 1 / 2 -> 0 < d ->
  exists hz, design_riia ellip n PASSE_HAUT TCHEBYCHEV_II fc d1 d = Ok hz /\ stable_z hz /\
    (forall v, -1 / 2 < v < 1 / 2 -> v <> 0 -> let t := T n (tan (PI * v) / tan (PI * fc)) in gain2 hz (eit (2 * PI * v)) = (t * t) / (t * t + (db2pow d - 1))) /\
    f_horner hz (copp c1) = c1.
Proof.
  intros ellip n fc d1 d Hn Ev Hf Hd. destruct (C66_type2_prototype n d Hn Ev Hd) as (GP & _ & L & Z & NZ & G & DC).
  destruct (digital_hp (tchebychev_II_analogique n d) (fun w => gain2 (tchebychev_II_analogique n d) (im w)) fc GP (one_ne Cfield) Hf) as (hz & E & ST & R & H1 & H2).
  { intros w. destruct (Req_dec w 0) as [-> |Hw]; [rewrite Ropp_0; reflexivity|]. rewrite !G by lra. replace (1 / - w) with (- (1 / w)) by (field; exact Hw). rewrite !T_even_sq. reflexivity. }
  { intros w. split; [apply NZ|reflexivity]. }
  exists hz. split; [exact E|]. split; [exact ST|]. split.
  - intros v Hv Hv0. cbv zeta. pose proof PI_RGT_0. assert (TF := tan_pos_ fc Hf).
    assert (TV : tan (PI * v) <> 0). { intros Q. destruct (Rlt_le_dec v 0) as [V|V]; [assert (tan (- (PI * v)) > 0) by (apply tan_gt_0; nra); rewrite tan_neg in *; lra|assert (tan (PI * v) > 0) by (apply tan_gt_0; nra); lra]. }
    rewrite R by (try exact Hv0; lra). rewrite G. 2:{ intros Q. assert (Q2 : tan (PI * fc) = 0) by (replace (tan (PI * fc)) with (tan (PI * fc) / tan (PI * v) * tan (PI * v)) by (field; lra); rewrite Q; ring). lra. }
    replace (1 / (tan (PI * fc) / tan (PI * v))) with (tan (PI * v) / tan (PI * fc)) by (field; lra). reflexivity.
  - rewrite H1, L, Z, DC. replace (n + n)%nat with (2 * n)%nat by lia. replace (cpow (copp c1 : Cfield) (2 * n)) with (re ((-1) ^ (2 * n))); [rewrite pow_mult; replace ((-1) ^ 2) with 1 by ring; rewrite pow1, re_1; ring|]. rewrite re_pow. f_equal. apply C_ext; cbn; ring.
Qed.
Print Assumptions C66_type2_highpass.
(** Stop-band of type II: at least d dB of attenuation beyond the cut-off frequency, where it is exactly d dB; pass-band: at most 1, decreasing. *)
Theorem C66_type2_stopband : forall ellip n fc d1 d hz, (1 <= n)%nat -> Nat.even n = true -> 0 < fc < 1 / 2 -> 0 < d -> design_riia ellip n PASSE_BAS TCHEBYCHEV_II fc d1 d = Ok hz ->
  (forall v, fc <= Rabs v < 1 / 2 -> gain2 hz (eit (2 * PI * v)) <= / db2pow d) /\ gain2 hz (eit (2 * PI * fc)) = / db2pow d /\
  (forall v v', 0 < v <= v' -> v' <= fc -> / db2pow d <= gain2 hz (eit (2 * PI * v')) <= gain2 hz (eit (2 * PI * v)) /\ gain2 hz (eit (2 * PI * v)) <= 1).
Proof.
  intros ellip n fc d1 d hz Hn Ev Hf Hd E. destruct (C66_type2_lowpass ellip n fc d1 d Hn Ev Hf Hd) as (hz' & E' & _ & R & _). rewrite E in E'. injection E' as <-. pose proof (db_gt1 d Hd) as D1. cbv zeta in R.
  pose proof PI_RGT_0. pose proof (tan_pos_ fc Hf) as TF.
  assert (M : forall a b, -1 / 2 < a <= b -> b < 1 / 2 -> tan (PI * a) <= tan (PI * b)). { intros a b H1 H2. destruct (Req_dec a b) as [-> |]; [lra|]. left. apply tan_increasing; nra. }
  assert (MO : forall D p q, 1 < D -> 0 <= p <= q -> p / (p + (D - 1)) <= q / (q + (D - 1))).
  { intros D p q HD Hpq. apply (Rmult_le_reg_r ((p + (D - 1)) * (q + (D - 1)))); [nra|]. replace (p / (p + (D - 1)) * ((p + (D - 1)) * (q + (D - 1)))) with (p * (q + (D - 1))) by (field; lra). replace (q / (q + (D - 1)) * ((p + (D - 1)) * (q + (D - 1)))) with (q * (p + (D - 1))) by (field; lra). nra. }
  assert (M1 : forall D, 1 < D -> / D = 1 / (1 + (D - 1))) by (intros D HD; field; lra).
  split; [|split].
  - intros v Hv. rewrite R. 2:{ destruct (Rabs_def2 v (1 / 2) (proj2 Hv)). lra. } 2:{ intros ->. rewrite Rabs_R0 in Hv. lra. }
    rewrite (M1 _ D1). apply MO; [exact D1|]. apply T_le1. 
    assert (AB : forall u, fc <= u < 1 / 2 -> 0 < tan (PI * fc) / tan (PI * u) <= 1). { intros u Hu. pose proof (M fc u ltac:(lra) ltac:(lra)). split; [apply Rdiv_lt_0_compat; lra|]. apply (Rmult_le_reg_r (tan (PI * u))); [lra|]. unfold Rdiv. rewrite Rmult_assoc, Rinv_l by lra. lra. }
    unfold Rabs in Hv. destruct (Rcase_abs v) as [N|N].
    + pose proof (AB (- v) Hv) as Q. replace (PI * - v) with (- (PI * v)) in Q by ring. rewrite tan_neg in Q. assert (TN : tan (PI * v) < 0). { pose proof (M fc (- v) ltac:(lra) ltac:(lra)) as Q3. replace (PI * - v) with (- (PI * v)) in Q3 by ring. rewrite tan_neg in Q3. lra. }
      replace (tan (PI * fc) / - tan (PI * v)) with (- (tan (PI * fc) / tan (PI * v))) in Q by (field; lra). lra.
    + pose proof (AB v Hv) as Q. lra.
  - rewrite R by lra. replace (tan (PI * fc) / tan (PI * fc)) with 1 by (field; lra). rewrite T_1. field. lra.
  - intros v v' Hv Hv'. rewrite !R by lra. assert (T0 : 0 < tan (PI * v)) by (apply tan_gt_0; nra). pose proof (M v v' ltac:(lra) ltac:(lra)). pose proof (M v' fc ltac:(lra) ltac:(lra)).
    set (x := tan (PI * fc) / tan (PI * v')). set (y := tan (PI * fc) / tan (PI * v)).
    assert (XY : 1 <= x <= y). { unfold x, y. split; [apply (Rmult_le_reg_r (tan (PI * v'))); [lra|]; unfold Rdiv; rewrite Rmult_assoc, Rinv_l by lra; lra|]. unfold Rdiv. apply Rmult_le_compat_l; [lra|]. apply Rinv_le_contravar; lra. }
    rewrite (T_chebT n x), (T_chebT n y). pose proof (chebT_mono x y n XY) as Q. pose proof (chebT_ge1 x (proj1 XY) n) as [Q1 _]. set (p := chebT n x) in *. set (q := chebT n y) in *. clearbody p q. rewrite (M1 _ D1).
    split; [split; apply MO; try exact D1; nra|]. apply (Rmult_le_reg_r (q * q + (db2pow d - 1))); [nra|]. unfold Rdiv. rewrite Rmult_assoc, Rinv_l by nra. nra.
Qed.
Print Assumptions C66_type2_stopband.
End CF.
(** The hypotheses can be met: orders 3 and 4, 3 dB ripple and 40 dB attenuation, at a quarter of the sampling rate. *)
Example C66_case : exists h1 h2, design_riia_s (fun _ _ _ => butterworth_analogique 1) 3 "lp" "cheb1" (1 / 4) 3 40 = Ok h1 /\ gain2 h1 (eit (2 * PI * (1 / 4))) = / db2pow 3 /\
  design_riia_s (fun _ _ _ => butterworth_analogique 1) 4 "lp" "cheb2" (1 / 4) 3 40 = Ok h2 /\ gain2 h2 (eit (2 * PI * (1 / 4))) = / db2pow 40.
Proof.
  destruct (C66_type1_lowpass (fun _ _ _ => butterworth_analogique 1) 3 (1 / 4) 3 40 ltac:(lia) ltac:(lra) ltac:(lra)) as (h1 & E1 & _).
  destruct (C66_type2_lowpass (fun _ _ _ => butterworth_analogique 1) 4 (1 / 4) 3 40 ltac:(lia) eq_refl ltac:(lra) ltac:(lra)) as (h2 & E2 & _).
  exists h1, h2. split; [exact E1|]. split; [exact (proj1 (proj2 (C66_type1_ripple _ 3 (1 / 4) 3 40 h1 ltac:(lia) ltac:(lra) ltac:(lra) E1)))|]. split; [exact E2|].
  exact (proj1 (proj2 (C66_type2_stopband _ 4 (1 / 4) 3 40 h2 ltac:(lia) eq_refl ltac:(lra) ltac:(lra) E2))).
Qed.
