(** C47: theorems. *)
From Coq Require Import QArith Qcanon. Close Scope Q_scope. Close Scope Qc_scope.
From Coq Require Import Reals Lra Lia ZArith Field.
From Verif Require Import Base BaseLemmas Fields OField RField ComplexSys Filters_Model Filters_Spec Conv_Lemmas Poly_Model Poly_Spec Poly_Proofs
  Design_Model Design_Spec Design_Proofs Design_Proofs2.
Local Open Scope cring_scope.

(** ** Product of two FIR filters *)
Theorem C47_product : forall (K : cring) (h1 h2 : list K), h1 <> [] -> h2 <> [] ->
  exists h, design_rif_prod h1 h2 = Ok h /\ length h = (length h1 + length h2 - 1)%nat /\ forall k, samp h k = conv h1 h2 k.
Proof. intros K h1 h2 H _. apply prod_ok. exact H. Qed.
Print Assumptions C47_product.
(** Filtering by the product is filtering by one and then by the other, on every signal. *)
Theorem C47_product_cascade : forall (K : cring) (h1 h2 h x : list K), h1 <> [] -> h2 <> [] -> design_rif_prod h1 h2 = Ok h ->
  exists u y, filtrer_rif h2 x = Ok u /\ filtrer_rif h1 u = Ok y /\ filtrer_rif h x = Ok y.
Proof. intros K h1 h2 h x H1 H2 E. apply (prod_cascade K h1 h2); assumption. Qed.
Print Assumptions C47_product_cascade.
(** The frequency response of the product is the product of the responses. *)
Theorem C47_product_response : forall (K : cfield) (h1 h2 h : list K) z, h1 <> [] -> h2 <> [] -> design_rif_prod h1 h2 = Ok h ->
  transfer h z = transfer h1 z * transfer h2 z.
Proof.
  intros K h1 h2 h z H1 H2 E. destruct (prod_ok K h1 h2 H1) as (h' & E' & L & V). replace h' with h in * by congruence.
  rewrite !transfer_pval. apply prod_pval; [lia|exact V].
Qed.
Print Assumptions C47_product_response.
(** ** filtrer, filtfilt *)
(** filtrer keeps the length and computes the convolution, zeros being assumed before the signal. *)
Theorem C47_filter : forall (K : cring) (h x : list K), h <> [] ->
  exists y, filtrer_rif h x = Ok y /\ length y = length x /\ forall n, (n < length x)%nat -> samp y n = conv h x n.
Proof. exact filtrer_ok. Qed.
Print Assumptions C47_filter.
(** Zero phase: the response of filtfilt is a symmetric operator: <u, filtfilt x> = <filtrer u, filtrer x>. *)
Theorem C47_zero_phase : forall (K : cring) (h u x hu hx y : list K), h <> [] -> length u = length x ->
  filtrer_rif h u = Ok hu -> filtrer_rif h x = Ok hx -> filtfilt h x = Ok y -> dot u y = dot hu hx.
Proof. intros K h u x hu hx y H L Eu Ex Ey. destruct (filtfilt_dot K h u x hu y H L Eu Ey) as (w & E & D). congruence. Qed.
Print Assumptions C47_zero_phase.
Theorem C47_zero_phase_swap : forall (K : cring) (h u x fu fx : list K), h <> [] -> length u = length x ->
  filtfilt h u = Ok fu -> filtfilt h x = Ok fx -> dot u fx = dot x fu.
Proof.
  intros K h u x fu fx H L Eu Ex. destruct (filtrer_ok K h u H) as (hu & Ehu & Lu & _). destruct (filtrer_ok K h x H) as (hx & Ehx & Lx & _).
  rewrite (C47_zero_phase K h u x hu hx fx H L Ehu Ehx Ex). rewrite (C47_zero_phase K h x u hx hu fu H (eq_sym L) Ehx Ehu Eu).
  unfold dot. replace (length hx) with (length hu) by lia. apply sum_ext. intros. apply (Rmul_comm (cth K)).
Qed.
Print Assumptions C47_zero_phase_swap.
(** ** Kind of a FIR filter, linear phase *)
Theorem C47_kind : forall (F : ofield) (h : list F),
  (symmetric h -> type_rif h = if Nat.odd (length h) then 1%Z else 2%Z) /\
  (antisymmetric h -> (exists k, samp h k <> 0) -> type_rif h = if Nat.odd (length h) then 3%Z else 4%Z).
Proof. intros F h. split; [apply type_sym|apply type_antisym]. Qed.
Print Assumptions C47_kind.
(** Symmetric taps: H(z) = z^-(n-1) H(1/z), i.e. on the unit circle a real amplitude times a pure delay of (n-1)/2. *)
Theorem C47_linear_phase : forall (K : cfield) (h : list K) z, z <> 0 -> h <> [] ->
  (symmetric h -> transfer h z = cpow (finv z) (length h - 1) * transfer h (finv z)) /\
  (antisymmetric h -> transfer h z = - (cpow (finv z) (length h - 1) * transfer h (finv z))).
Proof. intros. apply phase_ok; assumption. Qed.
Print Assumptions C47_linear_phase.
(** ** Low-pass to high-pass *)
(** Spectral reversal: alternates the signs of the taps; the result is again of type I and reversing twice gives back the filter;
    filtering the alternated signal by the reversed filter is alternating the filtered signal; response H(-z). *)
Theorem C47_reversal : forall (F : ofield) (h : list F), type_rif h = 1%Z ->
  exists g, design_rif_pb2ph_rs h = Ok g /\ length g = length h /\ (forall k, samp g k = alt k * samp h k) /\ design_rif_pb2ph_rs g = Ok h /\
  (forall x n, conv g (alternate x) n = alt n * conv h x n) /\ (forall w, pval g w = pval h (- w)).
Proof.
  intros F h H. unfold design_rif_pb2ph_rs. rewrite H. cbn [Z.eqb Pos.eqb]. destruct (neg_odd_ok F h) as (g & E & ->). exists (alternate h).
  split; [exact E|]. split; [apply alternate_length|]. split; [intros; apply alternate_samp|]. rewrite (type1_alternate F h H). cbn [Z.eqb Pos.eqb].
  destruct (neg_odd_ok F (alternate h)) as (g' & E' & ->). rewrite E', alternate_twice. split; [reflexivity|]. split; [intros; apply alternate_conv|intros; apply alternate_pval].
Qed.
Print Assumptions C47_reversal.
Lemma filter_sample (K : cring) (g x y : list K) n : g <> [] -> filtrer_rif g x = Ok y -> (n < length x)%nat -> samp y n = conv g x n.
Proof. intros H E L. destruct (filtrer_ok K g x H) as (y' & E' & _ & V). replace y with y' by congruence. apply V. exact L. Qed.
(** ... in terms of the filtering function. *)
Theorem C47_reversal_filter : forall (F : ofield) (h g x y : list F), design_rif_pb2ph_rs h = Ok g -> filtrer_rif h x = Ok y ->
  filtrer_rif g (alternate x) = Ok (alternate y).
Proof.
  intros F h g x y Eg Ey. assert (H : type_rif h = 1%Z) by (unfold design_rif_pb2ph_rs in Eg; destruct (Z.eqb_spec (type_rif h) 1); [assumption|discriminate Eg]).
  assert (N : h <> []) by (intros ->; discriminate Ey). destruct (C47_reversal F h H) as (g' & Eg' & L & _ & _ & Cv & _). replace g' with g in * by congruence.
  assert (N' : g <> []) by (intros ->; destruct h; [congruence|discriminate L]).
  destruct (filtrer_ok F g (alternate x) N') as (u & Eu & Lu & Vu). rewrite Eu. f_equal. destruct (filtrer_ok F h x N) as (y' & Ey' & Ly & Vy). replace y' with y in * by congruence.
  rewrite alternate_length in *. apply (list_ext (0 : F)); [rewrite alternate_length; lia|]. intros i Hi. change (samp u i = samp (alternate y) i). rewrite Vu, Cv, alternate_samp, Vy by lia. reflexivity.
Qed.
Print Assumptions C47_reversal_filter.
(** Spectral inversion: delta minus h; filtering by it is the delayed signal minus the filtered signal. *)
Theorem C47_inversion : forall (F : ofield) (h : list F), type_rif h = 1%Z ->
  exists g, design_rif_pb2ph_is h = Ok g /\ length g = length h /\
  (forall k, samp g k = (if (k =? (length h - 1) / 2)%nat then 1 else 0) - samp h k) /\
  forall x n, conv g x n = sampZ x (Z.of_nat n - Z.of_nat ((length h - 1) / 2)) - conv h x n.
Proof.
  intros F h H. destruct (is_ok F h H) as (g & E & L & V). exists g. split; [exact E|]. split; [exact L|]. split; [exact V|]. intros x n.
  destruct (type1_odd F h H) as [O _]. assert (M : ((length h - 1) / 2 < length h)%nat) by (destruct h; [discriminate O|]; apply Nat.div_lt_upper_bound; cbn [length]; lia).
  unfold conv. rewrite L.
  assert (S1 : sum (length h) (fun k => (if (k =? (length h - 1) / 2)%nat then 1 else 0) * sampZ x (Z.of_nat n - Z.of_nat k)) = sampZ x (Z.of_nat n - Z.of_nat ((length h - 1) / 2))).
  { rewrite (sum_single F _ _ ((length h - 1) / 2) M); [rewrite Nat.eqb_refl; apply (Rmul_1_l (cth F))|]. intros i _ Hi. destruct (Nat.eqb_spec i ((length h - 1) / 2)); [congruence|]. apply (mul_0_l F). }
  rewrite <- S1, <- sum_sub. apply sum_ext. intros k _. rewrite V. apply sub_mul_distr.
Qed.
Print Assumptions C47_inversion.
(** Other filters are rejected. *)
Theorem C47_inversion_kind : forall (F : ofield) (h : list F), type_rif h <> 1%Z -> design_rif_pb2ph_is h = Exc /\ design_rif_pb2ph_rs h = Exc.
Proof. intros F h H. unfold design_rif_pb2ph_is, design_rif_pb2ph_rs. apply Z.eqb_neq in H. rewrite H. split; reflexivity. Qed.
Print Assumptions C47_inversion_kind.

(** ** Rational filters *)
(** Transfer functions; isz is the test for zero used when common powers of z are removed. *)
Theorem C47_rational : forall (K : cfield) (isz : K -> bool), (forall v, isz v = true -> v = 0) -> forall (z c r g : K), z <> 0 ->
  (z * z - (1 + 1) * r * c * z + r * r <> 0 ->
    f_horner (notch_frat isz c r) z = r * ((z * z - (1 + 1) * c * z + 1) / (z * z - (1 + 1) * r * c * z + r * r))) /\
  (z <> r -> f_horner (dc_frat isz r) z = r * ((z - 1) / (z - r))) /\
  (z <> 1 - g -> f_horner (lexp_frat isz g) z = g * z / (z - (1 - g))).
Proof.
  intros K isz Hz z c r g Nz. rewrite !fhorner_ok. repeat split; intros.
  - apply notch_val; assumption.
  - apply dc_val; assumption.
  - apply lexp_val; assumption.
Qed.
Print Assumptions C47_rational.
(** Moving average: (1 + z^-1 + ... + z^-(K-1)) / K. *)
Theorem C47_moving_average : forall (K : cfield) (isz : K -> bool), (forall v, isz v = true -> v = 0) -> forall (k : nat) (z : K), z <> 0 ->
  f_horner (design_mg isz k) z = transfer (repeat (1 / cnat k) k) z.
Proof. intros K isz Hz k z Nz. rewrite fhorner_ok. apply mg_val; assumption. Qed.
Print Assumptions C47_moving_average.

(** ** Differentiators *)
(** Even order, default form: constants are removed and a ramp of slope a gives a, within 4 |a| / (pi (n + 1)). *)
Local Open Scope R_scope.
Lemma ramp_filter (h : list R) a b N t : h <> [] -> (length h <= t + 1)%nat -> (t < N)%nat ->
  exists y, filtrer_rif (K := Rring) h (ramp a b N) = Ok y /\ length y = N /\ samp (K := Rring) y t = (a * INR t + b) * dcg h - a * mom h.
Proof.
  intros H L Ht. assert (LN : length (ramp a b N) = N) by (unfold ramp; rewrite map_length, seq_length; reflexivity).
  destruct (filtrer_ok Rring h (ramp a b N) H) as (y & E & Ly & V). exists y. split; [exact E|]. split; [etransitivity; [exact Ly|exact LN]|].
  etransitivity; [apply V; cbn in *; lia|]. apply ramp_conv; assumption.
Qed.
Theorem C47_differentiator : forall m, (2 <= m)%nat -> exists h, design_rif_diff (Z.of_nat (2 * m)) false = Ok h /\ length h = (2 * m)%nat /\
  forall a b N t, (2 * m <= t + 1)%nat -> (t < N)%nat ->
  exists y, filtrer_rif (K := Rring) h (ramp a b N) = Ok y /\ length y = N /\ Rabs (samp (K := Rring) y t - a) <= Rabs a * (4 / (PI * (2 * INR m + 1))).
Proof.
  intros m H. destruct (diff_dc_nc_even m H) as (h & E & L & D & M). exists h. split; [exact E|]. split; [exact L|]. intros a b N t H1 H2.
  destruct (ramp_filter h a b N t) as (y & Ey & Ly & V); [destruct h; cbn in L; [lia|discriminate]|lia|exact H2|]. exists y. split; [exact Ey|]. split; [exact Ly|].
  rewrite V, D. replace ((a * INR t + b) * 0 - a * mom h - a) with (a * (- mom h - 1)) by ring. rewrite Rabs_mult. apply Rmult_le_compat_l; [apply Rabs_pos|exact M].
Qed.
Print Assumptions C47_differentiator.
(** Odd order: a constant is not removed. *)
Theorem C47_differentiator_odd_refuted : forall m, (1 <= m)%nat -> exists h d, design_rif_diff (Z.of_nat (2 * m + 1)) false = Ok h /\ d <> 0 /\
  forall N t, (2 * m <= t)%nat -> (t < N)%nat -> exists y, filtrer_rif (K := Rring) h (ramp 0 1 N) = Ok y /\ samp (K := Rring) y t = d.
Proof.
  intros m H. destruct (diff_dc_nc_odd m H) as (h & E & L & D & M). exists h, (dcg h). split; [exact E|]. split; [exact M|]. intros N t H1 H2.
  destruct (ramp_filter h 0 1 N t) as (y & Ey & Ly & V); [destruct h; cbn in L; [lia|discriminate]|lia|exact H2|]. exists y. split; [exact Ey|]. rewrite V. rring.
Qed.
Print Assumptions C47_differentiator_odd_refuted.
(** Centred form, odd order: constants are removed but a ramp of slope a gives 2a or 0, never a. *)
Theorem C47_differentiator_centred_refuted : forall m, (1 <= m)%nat -> exists h, design_rif_diff (Z.of_nat (2 * m + 1)) true = Ok h /\
  forall a b N t, (2 * m <= t)%nat -> (t < N)%nat -> exists y, filtrer_rif (K := Rring) h (ramp a b N) = Ok y /\ samp (K := Rring) y t = if Nat.odd m then 2 * a else 0.
Proof.
  intros m H. destruct (diff_c_odd m H) as (h & E & L & D & M). exists h. split; [exact E|]. intros a b N t H1 H2.
  destruct (ramp_filter h a b N t) as (y & Ey & Ly & V); [destruct h; cbn in L; [lia|discriminate]|lia|exact H2|]. exists y. split; [exact Ey|]. rewrite V, D.
  replace (mom h) with (- - mom h) by ring. rewrite M. destruct (Nat.odd m); rring.
Qed.
Print Assumptions C47_differentiator_centred_refuted.
(** Centred form, even order: a constant is not removed. *)
Theorem C47_differentiator_centred_even_refuted : forall m, (2 <= m)%nat -> exists h d, design_rif_diff (Z.of_nat (2 * m)) true = Ok h /\ d <> 0 /\
  forall N t, (2 * m <= t)%nat -> (t < N)%nat -> exists y, filtrer_rif (K := Rring) h (ramp 0 1 N) = Ok y /\ samp (K := Rring) y t = d.
Proof.
  intros m H. destruct (diff_c_even m H) as (h & E & L & D & M). exists h, (dcg h). split; [exact E|]. split; [exact M|]. intros N t H1 H2.
  destruct (ramp_filter h 0 1 N t) as (y & Ey & Ly & V); [destruct h; cbn in L; [lia|discriminate]|lia|exact H2|]. exists y. split; [exact Ey|]. rewrite V. rring.
Qed.
Print Assumptions C47_differentiator_centred_even_refuted.
(** Order 2: the sign is opposite to that of the other orders; orders below 2 are rejected. *)
Theorem C47_differentiator_2_refuted : (forall c, exists h, design_rif_diff 2 c = Ok h /\ forall a b N t, (1 <= t)%nat -> (t < N)%nat ->
  exists y, filtrer_rif (K := Rring) h (ramp a b N) = Ok y /\ samp (K := Rring) y t = - a) /\ (forall n c, (n < 2)%Z -> design_rif_diff n c = Exc).
Proof.
  split.
  - intros c. exists [-1; 1]. split; [reflexivity|]. intros a b N t H1 H2. destruct (ramp_filter [-1; 1] a b N t) as (y & Ey & Ly & V); [discriminate|cbn; lia|exact H2|].
    exists y. split; [exact Ey|]. rewrite V. unfold dcg, mom, samp. cbn. ring.
  - intros n c H. unfold design_rif_diff. apply Z.ltb_lt in H. rewrite H. reflexivity.
Qed.
Print Assumptions C47_differentiator_2_refuted.

(** ** Exponential filter: conversions *)
Theorem C47_lexp_conversions :
  (forall f, lexp_fcoupure (lexp_coef f) = f) /\ (forall g, g < 1 -> lexp_coef (lexp_fcoupure g) = g) /\ (forall f, 0 < f -> 0 < lexp_coef f < 1) /\
  (forall t, t <> 0 -> lexp_tc_vers_coef t = 1 - exp (- (1 / t)) /\ lexp_coef_vers_tc (lexp_tc_vers_coef t) = t) /\
  (forall g, 0 < g < 1 -> lexp_tc_vers_coef (lexp_coef_vers_tc g) = g).
Proof.
  pose proof PI_RGT_0 as HP. split; [apply lexp_inv1|]. split; [apply lexp_inv2|]. split; [apply lexp_range|]. split.
  - intros t Ht. split.
    + unfold lexp_tc_vers_coef, lexp_coef. do 2 f_equal. field. lra.
    + unfold lexp_coef_vers_tc, lexp_tc_vers_coef. rewrite lexp_inv1. field. lra.
  - intros g Hg. unfold lexp_tc_vers_coef, lexp_coef_vers_tc. assert (N : lexp_fcoupure g <> 0).
    { intros E. pose proof (lexp_inv2 g ltac:(lra)) as Q. rewrite E in Q. unfold lexp_coef in Q. replace (- 0 * 2 * PI) with 0 in Q by ring. rewrite exp_0 in Q. lra. }
    replace (1 / (2 * PI * (1 / (2 * PI * lexp_fcoupure g)))) with (lexp_fcoupure g) by (field; split; [exact N|lra]). apply lexp_inv2. lra.
Qed.
Print Assumptions C47_lexp_conversions.

(** ** Responses on the unit circle, over the complex numbers *)
Definition cis (t : R) : Cfield := (cos t, sin t).
Definition real (x : R) : Cfield := (x, 0).
Lemma C0_dec (z : C) : (z : Cfield) <> (c0 : Cfield) <-> Cnorm2 z <> 0.
Proof.
  split; [apply Cnorm2_ne|]. intros H E. apply H. rewrite E. unfold Cnorm2. cbn. ring.
Qed.
Lemma cis_ne t : cis t <> (c0 : Cfield).
Proof. apply C0_dec. unfold Cnorm2, cis. cbn. pose proof (sin2_cos2 t) as Q. unfold Rsqr in Q. lra. Qed.
(** Notch: the notch frequency is nulled, both poles are inside the unit circle for every bandwidth. *)
Theorem C47_notch : forall (isz : Cfield -> bool), (forall v, isz v = true -> v = c0) -> forall f0 fc, 0 < fc ->
  let r := 1 - lexp_coef fc in let H := notch_frat isz (real (cos (2 * PI * f0))) (real r) in
  f_horner H (cis (2 * PI * f0)) = c0 /\ f_horner H (cis (- (2 * PI * f0))) = c0 /\ 0 < r < 1 /\
  forall z : Cfield, (z * z - (1 + 1) * real r * real (cos (2 * PI * f0)) * z + real r * real r = c0)%K -> Cnorm2 z = r * r.
Proof.
  intros isz Hz f0 fc Hf r H. pose proof (lexp_range fc Hf) as Hr. assert (R1 : 0 < r < 1) by (unfold r; lra). clearbody r. set (w := 2 * PI * f0) in *. clearbody w.
  pose proof (sin2_cos2 w) as SC. unfold Rsqr in SC.
  assert (Pole : forall z : Cfield, (z * z - (1 + 1) * real r * real (cos w) * z + real r * real r = c0)%K -> Cnorm2 z = r * r).
  { intros z E. destruct z as [a b]. unfold real in E. cbn in E. unfold Csub, Cadd, Cmul in E. cbn in E. unfold Cnorm2. cbn [fst snd].
    pose proof (f_equal fst E) as E1. pose proof (f_equal snd E) as E2. cbn [fst snd] in E1, E2. ring_simplify in E1. ring_simplify in E2.
    assert (Q : b = 0 \/ a = r * cos w) by (destruct (Req_dec b 0); [left; assumption|right; nra]). destruct Q as [-> | ->].
    - assert (Q : (a - r * cos w) * (a - r * cos w) + (r * sin w) * (r * sin w) = 0) by nra.
      assert (G : forall u v : R, u * u + v * v = 0 -> u = 0 /\ v = 0) by (intros u v GG; split; nra). destruct (G _ _ Q) as [Q1 Q2].
      apply Rmult_integral in Q2. destruct Q2 as [Q2|Q2]; [lra|]. rewrite Q2 in SC. replace a with (r * cos w) by lra. replace (r * cos w * (r * cos w) + 0 * 0) with (r * r * (0 * 0 + cos w * cos w)) by ring. rewrite SC. ring.
    - assert (Q : (b - r * sin w) * (b + r * sin w) = 0) by nra. nra. }
  assert (Zero : forall s, (s = sin w \/ s = - sin w) -> f_horner H ((cos w, s) : Cfield) = c0).
  { intros s Hs. assert (S2 : s * s = sin w * sin w) by (destruct Hs as [-> | ->]; ring). 
    set (z := (cos w, s) : Cfield).
    assert (D : (z * z - (1 + 1) * real r * real (cos w) * z + real r * real r)%K <> (c0 : Cfield)).
    { intros E. apply Pole in E. unfold Cnorm2, z in E. cbn [fst snd] in E. nra. }
    assert (N0 : z <> c0) by (apply C0_dec; unfold Cnorm2, z; cbn [fst snd]; lra).
    unfold H. rewrite fhorner_ok. rewrite (notch_val Cfield isz Hz) by assumption.
    replace (z * z - (1 + 1) * real (cos w) * z + 1)%K with (c0 : Cfield).
    2:{ apply C_ext; cbn; nra. }
    generalize dependent ((z * z - (1 + 1) * real r * real (cos w) * z + real r * real r)%K : Cfield). intros d Nd. apply C0_dec in Nd. apply C_ext; cbn; unfold Cnorm2 in Nd; field; exact Nd. }
  split; [apply Zero; left; reflexivity|]. split; [|split; [exact R1|exact Pole]].
  unfold cis. rewrite cos_neg, sin_neg. apply Zero. right. reflexivity.
Qed.
Print Assumptions C47_notch.
(** DC blocker: no gain at frequency 0, the pole is inside the unit circle. *)
Theorem C47_dc_blocker : forall (isz : Cfield -> bool), (forall v, isz v = true -> v = c0) -> forall fc, 0 < fc ->
  let r := 1 - lexp_coef fc in f_horner (dc_frat isz (real r)) (c1 : Cfield) = c0 /\ 0 < r < 1.
Proof.
  intros isz Hz fc Hf r. pose proof (lexp_range fc Hf) as Hr. assert (R1 : 0 < r < 1) by (unfold r; lra). split; [|exact R1]. rewrite fhorner_ok, (dc_val Cfield isz Hz).
  - apply C_ext; cbn; unfold Cnorm2; cbn; field; nra.
  - intros E. injection E. lra.
  - intros E. injection E. lra.
Qed.
Print Assumptions C47_dc_blocker.
(** Exponential filter: unit gain at frequency 0, and the gain at any frequency. *)
Theorem C47_lexp_gain : forall (isz : Cfield -> bool), (forall v, isz v = true -> v = c0) -> forall fc t, 0 < fc ->
  let a := exp (- fc * 2 * PI) in let H := lexp_frat isz (real (lexp_coef fc)) in
  f_horner H (c1 : Cfield) = c1 /\ Cnorm2 (f_horner H (cis t)) = (1 - a) * (1 - a) / (1 - 2 * a * cos t + a * a).
Proof.
  intros isz Hz fc t Hf a H. pose proof (lexp_range fc Hf) as Hr. unfold lexp_coef in Hr. fold a in Hr. pose proof (COS_bound t) as [B1 B2]. pose proof (sin2_cos2 t) as SC. unfold Rsqr in SC.
  assert (D : 0 < 1 - 2 * a * cos t + a * a) by nra. unfold H, lexp_coef. fold a. split.
  - rewrite fhorner_ok, (lexp_val Cfield isz Hz).
    + apply C_ext; cbn; unfold Cnorm2; cbn; field; nra.
    + intros E. injection E. lra.
    + intros E. injection E. lra.
  - rewrite fhorner_ok, (lexp_val Cfield isz Hz).
    + unfold cis, real, Cnorm2. cbn. unfold Cnorm2. cbn. set (N := (cos t - (1 - (1 - a))) * (cos t - (1 - (1 - a))) + (sin t - (0 - 0)) * (sin t - (0 - 0))).
      assert (EN : N = 1 - 2 * a * cos t + a * a) by (unfold N; nra). 
      assert (NN : N <> 0) by lra. rewrite <- EN.
      transitivity (((1 - a) * (1 - a)) * ((cos t * cos t + sin t * sin t) * ((cos t - a) * (cos t - a) + sin t * sin t)) / (N * N)).
      * field. exact NN.
      * replace (cos t * cos t + sin t * sin t) with 1 by lra. replace ((cos t - a) * (cos t - a) + sin t * sin t) with N by (unfold N; ring). field. exact NN.
    + apply cis_ne.
    + intros E. unfold cis in E. injection E. intros E2 E1. ring_simplify in E1. assert (S0 : sin t = 0) by lra. rewrite S0 in SC. rewrite E1 in SC. nra.
Qed.
Print Assumptions C47_lexp_gain.
(** The documentation says that fc is the -3 dB cut-off frequency (half of the power): it is not, e.g. at fc = 1/4. *)
Theorem C47_lexp_cutoff_refuted : forall (isz : Cfield -> bool), (forall v, isz v = true -> v = c0) ->
  1 / 2 < Cnorm2 (f_horner (lexp_frat isz (real (lexp_coef (1 / 4)))) (cis (2 * PI * (1 / 4)))).
Proof.
  intros isz Hz. destruct (C47_lexp_gain isz Hz (1 / 4) (2 * PI * (1 / 4)) ltac:(lra)) as [_ G]. cbn zeta in G. rewrite G. clear G.
  replace (2 * PI * (1 / 4)) with (PI / 2) by field. rewrite cos_PI2. set (a := exp (- (1 / 4) * 2 * PI)).
  assert (A : 0 < a < 1 / 4).
  { split; [apply exp_pos|]. unfold a. replace (- (1 / 4) * 2 * PI) with (- (PI / 2)) by field. rewrite exp_Ropp.
    assert (Q : 4 < exp (PI / 2)).
    { pose proof PI2_3_2. apply Rlt_trans with (exp (3 / 2)); [|apply exp_increasing; assumption].
      assert (E1 : 1 + 1 / 8 < exp (1 / 8)) by (apply exp_ineq1; lra). replace (3 / 2) with (1 / 8 * INR 12) by (cbn; field).
      assert (P : forall x n, exp (x * INR n) = (exp x) ^ n). { intros x n. induction n as [|n IH]; [cbn; rewrite Rmult_0_r; apply exp_0|]. rewrite S_INR, Rmult_plus_distr_l, Rmult_1_r, exp_plus, IH. cbn. ring. }
      rewrite P. apply Rlt_le_trans with ((1 + 1 / 8) ^ 12); [lra|]. apply pow_incr. lra. }
    replace (1 / 4) with (/ 4) by field. apply Rinv_lt_contravar; [|exact Q]. apply Rmult_lt_0_compat; lra. }
  apply Rmult_lt_reg_r with (1 - 2 * a * 0 + a * a); [nra|]. assert (DD : 1 - 2 * a * 0 + a * a <> 0) by nra. replace ((1 - a) * (1 - a) / (1 - 2 * a * 0 + a * a) * (1 - 2 * a * 0 + a * a)) with ((1 - a) * (1 - a)) by (field; nra). nra.
Qed.
Print Assumptions C47_lexp_cutoff_refuted.

(** ** Non-trivial cases *)
Example C47_product_case : design_rif_prod (K := Zring) [1; 2; 3]%Z [4; 0; -1]%Z = Ok [4; 8; 11; -2; -3]%Z.
Proof. reflexivity. Qed.
Example C47_filtfilt_case : filtfilt (K := Zring) [1; 2; 3]%Z [1; 0; 0; 5]%Z = Ok [14; 23; 13; 5]%Z.
Proof. vm_compute. reflexivity. Qed.
Example C47_kind_case : type_rif (F := Qcofield) [qc 1 1; qc 2 1; qc 1 1] = 1%Z /\ type_rif (F := Qcofield) [qc 1 1; qc 0 1; qc (-1) 1] = 3%Z /\
  type_rif (F := Qcofield) [qc 1 1; qc 2 1; qc 5 1] = (-1)%Z.
Proof. vm_compute. repeat split; reflexivity. Qed.
Example C47_notch_case : exists isz : Cfield -> bool, (forall v, isz v = true -> v = c0).
Proof. exists (fun _ => false). discriminate. Qed.
