(** Proofs about the raised cosine pulses: inverse transforms of the raised cosine spectrum and of its square root. *)
From Coq Require Import Reals Lra Lia ZArith.
From Coquelicot Require Import Coquelicot.
From Verif Require Import Base BaseLemmas RField Vec_Model Vec_Proofs Sig_Proofs Special_Model Special_Proofs Design_Proofs2 Win_Model Win_Spec Win_Proofs Rif_Model Rif_Spec Rif_Proofs Rcs_Spec.
Local Open Scope R_scope.

Lemma chasles (f : R -> R) a b c (u v : R) : is_RInt f a b u -> is_RInt f b c v -> is_RInt f a c (u + v).
Proof. exact (@is_RInt_Chasles R_NormedModule f a b c u v). Qed.
Lemma even_int (g : R -> R) (c v : R) : (forall x, g (- x) = g x) -> is_RInt g 0 c v -> is_RInt g (- c) c (2 * v).
Proof.
  intros E H. replace (2 * v) with (v + v) by ring. apply (chasles _ _ 0); [|exact H].
  apply (is_RInt_ext (fun y => opp (opp (g (- y))))). { intros x _. unfold opp. cbn. rewrite E. ring. }
  replace v with (opp (opp v)) by apply opp_opp. apply @is_RInt_opp. apply @is_RInt_comp_opp. rewrite Ropp_involutive, Ropp_0. apply @is_RInt_swap. exact H.
Qed.
Lemma int_cos q x y : q <> 0 -> is_RInt (fun f => cos (q * f)) x y (sin (q * y) / q - sin (q * x) / q).
Proof.
  intros Hq. apply (is_RInt_derive (fun f => sin (q * f) / q) (fun f => cos (q * f))).
  - intros u _. auto_derive; [trivial|]. field. exact Hq.
  - intros u _. apply @ex_derive_continuous. auto_derive. exact I.
Qed.
Lemma int_const c x y : is_RInt (fun _ : R => c) x y (c * (y - x)).
Proof. replace (c * (y - x)) with (scal (y - x) c) by (unfold scal; cbn; unfold mult; cbn; ring). apply @is_RInt_const. Qed.
(** three pieces: 1 on [0, a], A on [a, b], 0 on [b, 1] *)
Lemma pieces (S A w : R -> R) a b (v1 v2 : R) : 0 <= a <= b -> b <= 1 -> (forall f, 0 < f < a -> S f = 1) -> (forall f, a < f < b -> S f = A f) -> (forall f, b < f < 1 -> S f = 0) ->
  is_RInt w 0 a v1 -> is_RInt (fun f => A f * w f) a b v2 -> is_RInt (fun f => S f * w f) 0 1 (v1 + v2).
Proof.
  intros Hab Hb S1 S2 S3 I1 I2. replace (v1 + v2) with (v1 + v2 + 0) by ring. apply (chasles _ _ b); [apply (chasles _ _ a)|].
  - apply (is_RInt_ext w); [|exact I1]. intros x. rewrite Rmin_left, Rmax_right by lra. intros Hx. rewrite S1 by exact Hx. cbn. ring.
  - apply (is_RInt_ext (fun f => A f * w f)); [|exact I2]. intros x. rewrite Rmin_left, Rmax_right by lra. intros Hx. rewrite S2 by exact Hx. reflexivity.
  - apply (is_RInt_ext (fun _ => 0)). { intros x. rewrite Rmin_left, Rmax_right by lra. intros Hx. rewrite S3 by exact Hx. cbn. ring. } pose proof (int_const 0 b 1) as H. rewrite Rmult_0_l in H. exact H.
Qed.
Lemma rc_1 beta f : 0 < f < (1 - beta) / 2 -> rc_spectrum beta f = 1.
Proof. intros H. unfold rc_spectrum. rewrite Rabs_pos_eq by lra. destruct (Rle_dec f ((1 - beta) / 2)); [reflexivity|lra]. Qed.
Lemma rc_2 beta f : 0 <= (1 - beta) / 2 < f -> f < (1 + beta) / 2 -> rc_spectrum beta f = (1 + cos (PI / beta * (f - (1 - beta) / 2))) / 2.
Proof. intros H H2. unfold rc_spectrum. rewrite Rabs_pos_eq by lra. destruct (Rle_dec f ((1 - beta) / 2)); [lra|]. destruct (Rle_dec f ((1 + beta) / 2)); [reflexivity|lra]. Qed.
Lemma rc_3 beta f : 0 <= beta -> (1 + beta) / 2 < f -> rc_spectrum beta f = 0.
Proof. intros H H2. unfold rc_spectrum. rewrite Rabs_pos_eq by lra. destruct (Rle_dec f ((1 - beta) / 2)); [lra|]. destruct (Rle_dec f ((1 + beta) / 2)); [lra|reflexivity]. Qed.
Lemma rc_even beta f : rc_spectrum beta (- f) = rc_spectrum beta f.
Proof. unfold rc_spectrum. rewrite Rabs_Ropp. reflexivity. Qed.
(** the integral of A cos(q f) over the transition band, A = (1 + cos) / 2 *)
Definition Arc (beta f : R) : R := (1 + cos (PI / beta * (f - (1 - beta) / 2))) / 2.
Definition Arr (beta f : R) : R := cos (PI / (2 * beta) * (f - (1 - beta) / 2)).
Lemma rrc_2 beta f : 0 < beta <= 1 -> (1 - beta) / 2 < f < (1 + beta) / 2 -> sqrt (rc_spectrum beta f) = Arr beta f.
Proof.
  intros Hb Hf. pose proof PI_RGT_0. rewrite rc_2 by lra. unfold Arr. set (u := PI / (2 * beta) * (f - (1 - beta) / 2)). replace (PI / beta * (f - (1 - beta) / 2)) with (2 * u) by (unfold u; field; lra).
  assert (U : 0 <= u <= PI / 2).
  { unfold u. replace (PI / 2) with (PI / (2 * beta) * beta) by (field; lra). assert (0 < PI / (2 * beta)) by (apply Rdiv_lt_0_compat; lra). split; [apply Rmult_le_pos; lra|]. apply Rmult_le_compat_l; lra. }
  rewrite cos_2a_cos. replace ((1 + (2 * cos u * cos u - 1)) / 2) with (cos u * cos u) by field. rewrite sqrt_square; [reflexivity|]. apply cos_ge_0; lra.
Qed.
Lemma int_F (F g : R -> R) (x y v : R) : (forall u, is_derive F u (g u)) -> (forall u, ex_derive g u) -> F y - F x = v -> is_RInt g x y v.
Proof. intros D C <-. apply (is_RInt_derive F g); [intros; apply D|]. intros u _. apply @ex_derive_continuous. apply C. Qed.
Lemma int_coscos p q a x y v : p + q <> 0 -> p - q <> 0 ->
  (sin (p * (y - a) + q * y) / (p + q) + sin (p * (y - a) - q * y) / (p - q)) / 2 - (sin (p * (x - a) + q * x) / (p + q) + sin (p * (x - a) - q * x) / (p - q)) / 2 = v ->
  is_RInt (fun f => cos (p * (f - a)) * cos (q * f)) x y v.
Proof.
  intros H1 H2 E. apply (int_F (fun f => (sin (p * (f - a) + q * f) / (p + q) + sin (p * (f - a) - q * f) / (p - q)) / 2)); [| |exact E].
  - intros u. auto_derive; [trivial|]. unfold Rminus. rewrite !cos_plus, cos_neg, sin_neg. field. split; assumption.
  - intros u. auto_derive. exact I.
Qed.

Lemma int_coscos_eq p a x y v : p <> 0 ->
  (sin (p * (y - a) + p * y) / (2 * p) + cos (p * a) * y) / 2 - (sin (p * (x - a) + p * x) / (2 * p) + cos (p * a) * x) / 2 = v ->
  is_RInt (fun f => cos (p * (f - a)) * cos (p * f)) x y v.
Proof.
  intros H1 E. apply (int_F (fun f => (sin (p * (f - a) + p * f) / (2 * p) + cos (p * a) * f) / 2)); [| |exact E].
  - intros u. auto_derive; [trivial|]. replace (p * a) with (p * u - p * (u - a)) by ring. unfold Rminus. rewrite !cos_plus, cos_neg, sin_neg. field. assumption.
  - intros u. auto_derive. exact I.
Qed.
Lemma sum_int (f g : R -> R) x y (u v : R) : is_RInt f x y u -> is_RInt g x y v -> is_RInt (fun z => f z + g z) x y (u + v).
Proof. exact (@is_RInt_plus R_NormedModule f g x y u v). Qed.
Lemma scal_int (f : R -> R) c x y (u : R) : is_RInt f x y u -> is_RInt (fun z => c * f z) x y (c * u).
Proof. exact (@is_RInt_scal R_NormedModule f x y c u). Qed.
Definition aa (beta : R) : R := (1 - beta) / 2.
Definition bb (beta : R) : R := (1 + beta) / 2.
(** transition band of the raised cosine *)
Lemma rc_band beta q : 0 < beta <= 1 -> 0 < q -> PI / beta <> q ->
  is_RInt (fun f => Arc beta f * cos (q * f)) (aa beta) (bb beta)
    (/ 2 * (sin (q * bb beta) / q - sin (q * aa beta) / q) + / 2 * ((sin (q * bb beta) + sin (q * aa beta)) * q / ((PI / beta) * (PI / beta) - q * q))).
Proof.
  intros Hb Hq Hn. pose proof PI_RGT_0 as PP. set (p := PI / beta) in *. assert (Pp : 0 < p) by (apply Rdiv_lt_0_compat; lra).
  apply (is_RInt_ext (fun f => / 2 * cos (q * f) + / 2 * (cos (p * (f - aa beta)) * cos (q * f)))). { intros x _. unfold Arc. fold p. fold (aa beta). match goal with |- @eq _ ?a ?b => change (@eq R a b) end. field. }
  apply sum_int; apply scal_int; [apply int_cos; lra|]. apply int_coscos; [lra|lra|].
  assert (E : p * (bb beta - aa beta) = PI) by (unfold p, aa, bb; field; lra). rewrite E. rewrite Rminus_eq_0, Rmult_0_r, Rplus_0_l, Rminus_0_l, sin_neg. rewrite (Rplus_comm PI), neg_sin. rewrite sin_PI_x.
  assert (p - q <> 0) by lra. assert (p + q <> 0) by lra. assert (p * p - q * q <> 0) by (replace (p * p - q * q) with ((p - q) * (p + q)) by ring; apply Rmult_integral_contrapositive_currified; assumption). field. repeat split; assumption.
Qed.
Lemma rc_band_eq beta : 0 < beta <= 1 -> let q := PI / beta in
  is_RInt (fun f => Arc beta f * cos (q * f)) (aa beta) (bb beta) (/ 2 * (sin (q * bb beta) / q - sin (q * aa beta) / q) + / 2 * (cos (q * aa beta) * beta / 2)).
Proof.
  intros Hb q. pose proof PI_RGT_0 as PP. assert (Pp : 0 < q) by (apply Rdiv_lt_0_compat; lra).
  apply (is_RInt_ext (fun f => / 2 * cos (q * f) + / 2 * (cos (q * (f - aa beta)) * cos (q * f)))). { intros x _. unfold Arc. fold q. fold (aa beta). match goal with |- @eq _ ?a ?b => change (@eq R a b) end. field. }
  apply sum_int; apply scal_int; [apply int_cos; lra|]. apply int_coscos_eq; [lra|].
  assert (E : q * (bb beta - aa beta) = PI) by (unfold q, aa, bb; field; lra). rewrite E. rewrite Rminus_eq_0, Rmult_0_r, Rplus_0_l. replace (q * bb beta) with (q * aa beta + PI) by (rewrite <- E; ring). replace (PI + (q * aa beta + PI)) with (q * aa beta + 2 * INR 1 * PI) by (cbn [INR]; ring). rewrite sin_period.
  replace (bb beta) with (aa beta + beta) by (unfold aa, bb; field). field. lra.
Qed.
(** transition band of the square root *)
Lemma rr_band beta q : 0 < beta <= 1 -> 0 < q -> PI / (2 * beta) <> q -> let p := PI / (2 * beta) in
  is_RInt (fun f => Arr beta f * cos (q * f)) (aa beta) (bb beta) ((cos (q * bb beta) * p + sin (q * aa beta) * q) / (p * p - q * q)).
Proof.
  intros Hb Hq Hn p. pose proof PI_RGT_0 as PP. fold p in Hn. assert (Pp : 0 < p) by (apply Rdiv_lt_0_compat; lra). unfold Arr. fold p. fold (aa beta).
  apply int_coscos; [lra|lra|].
  assert (E : p * (bb beta - aa beta) = PI / 2) by (unfold p, aa, bb; field; lra). rewrite E. rewrite Rminus_eq_0, Rmult_0_r, Rplus_0_l, Rminus_0_l, sin_neg. rewrite sin_plus, sin_minus, sin_PI2, cos_PI2.
  assert (p - q <> 0) by lra. assert (p + q <> 0) by lra. assert (p * p - q * q <> 0) by (replace (p * p - q * q) with ((p - q) * (p + q)) by ring; apply Rmult_integral_contrapositive_currified; assumption). field. repeat split; assumption.
Qed.
Lemma rr_band_eq beta : 0 < beta <= 1 -> let p := PI / (2 * beta) in
  is_RInt (fun f => Arr beta f * cos (p * f)) (aa beta) (bb beta) ((beta * cos (p * aa beta) - sin (p * aa beta) / p) / 2).
Proof.
  intros Hb p. pose proof PI_RGT_0 as PP. assert (Pp : 0 < p) by (apply Rdiv_lt_0_compat; lra). unfold Arr. fold p. fold (aa beta). apply int_coscos_eq; [lra|].
  assert (E : p * (bb beta - aa beta) = PI / 2) by (unfold p, aa, bb; field; lra). rewrite E. rewrite Rminus_eq_0, Rmult_0_r, Rplus_0_l. replace (p * bb beta) with (p * aa beta + PI / 2) by (rewrite <- E; ring). replace (PI / 2 + (p * aa beta + PI / 2)) with (p * aa beta + PI) by field. rewrite neg_sin.
  replace (bb beta) with (aa beta + beta) by (unfold aa, bb; field). field. lra.
Qed.
Lemma cs_even t beta : cs (- t) beta = cs t beta.
Proof.
  unfold cs, sinc1. rewrite Rabs_Ropp, sinc_even. replace (PI * beta * - t) with (- (PI * beta * t)) by ring. rewrite cos_neg. replace (2 * beta * - t * (2 * beta * - t)) with (2 * beta * t * (2 * beta * t)) by ring. reflexivity.
Qed.
Lemma sin_opp_arg x y : y = - x -> sin y = - sin x.
Proof. intros ->. apply sin_neg. Qed.
Lemma rcs_even t beta : rcs (- t) beta = rcs t beta.
Proof.
  unfold rcs. rewrite Rabs_Ropp. destruct (Req_EM_T (- t) 0), (Req_EM_T t 0); try lra.
  assert (E : (sin (PI * - t * (1 - beta)) + 4 * beta * - t * cos (PI * - t * (1 + beta))) / (PI * - t * (1 - 4 * beta * - t * (4 * beta * - t))) = (sin (PI * t * (1 - beta)) + 4 * beta * t * cos (PI * t * (1 + beta))) / (PI * t * (1 - 4 * beta * t * (4 * beta * t)))).
  { rewrite (sin_opp_arg (PI * t * (1 - beta))) by ring. replace (PI * - t * (1 + beta)) with (- (PI * t * (1 + beta))) by ring. rewrite cos_neg. replace (PI * - t * (1 - 4 * beta * - t * (4 * beta * - t))) with (- (PI * t * (1 - 4 * beta * t * (4 * beta * t)))) by ring.
    unfold Rdiv. rewrite Rinv_opp. ring. }
  rewrite E. reflexivity.
Qed.
Lemma sinc1_pos t : / 10 ^ 7 <= Rabs (PI * t) -> sinc1 t = sin (PI * t) / (PI * t).
Proof. intros H. unfold sinc1, sinc_T. rewrite Rmult_1_r. destruct (Rlt_dec (Rabs (PI * t)) (/ 10 ^ 7)); [lra|]. reflexivity. Qed.
Lemma int_1 x y (v : R) : y - x = v -> is_RInt (fun _ => 1) x y v.
Proof. intros <-. pose proof (int_const 1 x y) as H. rewrite Rmult_1_l in H. exact H. Qed.
Lemma eps_small : / 10 ^ 7 < / 2.
Proof. apply Rinv_lt_contravar; lra. Qed.
Lemma cs_0 beta : 0 <= beta <= 1 -> cs 0 beta = 1.
Proof.
  intros Hb. unfold cs, sinc1. rewrite sinc_0, Rabs_R0, !Rmult_0_r, cos_0. assert (E : 1 * 1 / (1 - 0) = 1) by field. destruct (Rlt_dec 0 beta) as [P|]; [|exact E].
  destruct (Rlt_dec (Rabs (0 - 1 / (2 * beta))) (/ 10 ^ 7)) as [G|]; [|exact E]. exfalso. pose proof eps_small. assert (Q : / 2 <= 1 / (2 * beta)) by (unfold Rdiv; rewrite Rmult_1_l; apply Rinv_le_contravar; lra).
  rewrite Rminus_0_l, Rabs_Ropp, Rabs_pos_eq in G by lra. lra.
Qed.
Lemma cs_half beta t : 0 < beta <= 1 -> 0 <= t -> (t = 0 \/ / 10 ^ 7 <= PI * t) -> away (1 / (2 * beta)) t ->
  is_RInt (fun f => rc_spectrum beta f * cos (2 * PI * t * f)) 0 1 (cs t beta / 2).
Proof.
  intros Hb Ht H0 Ha. pose proof PI_RGT_0 as PP. pose proof eps_pos as EP. assert (Hab : 0 <= aa beta <= bb beta) by (unfold aa, bb; lra). assert (Hb1 : bb beta <= 1) by (unfold bb; lra).
  assert (Pc : forall v1 v2 : R, is_RInt (fun f => cos (2 * PI * t * f)) 0 (aa beta) v1 -> is_RInt (fun f => Arc beta f * cos (2 * PI * t * f)) (aa beta) (bb beta) v2 -> is_RInt (fun f => rc_spectrum beta f * cos (2 * PI * t * f)) 0 1 (v1 + v2)).
  { intros v1 v2. apply (pieces (rc_spectrum beta) (Arc beta)); [exact Hab|exact Hb1|intros; apply rc_1; assumption|intros; apply rc_2; unfold aa, bb in *; lra|intros; apply rc_3; unfold bb in *; lra]. }
  destruct H0 as [-> |H0].
  - rewrite cs_0 by lra. replace (1 / 2) with (aa beta + beta / 2) by (unfold aa; field). assert (Pp : 0 < PI / beta) by (apply Rdiv_lt_0_compat; lra). apply Pc.
    + apply (is_RInt_ext (fun _ => 1)); [intros; rewrite Rmult_0_r, Rmult_0_l, cos_0; reflexivity|]. apply int_1. ring.
    + apply (is_RInt_ext (fun f => Arc beta f)); [intros; rewrite Rmult_0_r, Rmult_0_l, cos_0; symmetry; apply Rmult_1_r|]. unfold Arc. fold (aa beta).
      apply (int_F (fun f => (f + sin (PI / beta * (f - aa beta)) / (PI / beta)) / 2)).
      * intros u. auto_derive; [trivial|]. unfold Rminus. field. lra.
      * intros u. auto_derive. exact I.
      * replace (PI / beta * (bb beta - aa beta)) with PI by (unfold aa, bb; field; lra). rewrite sin_PI, Rminus_eq_0, Rmult_0_r, sin_0. unfold aa, bb. field. lra.
  - assert (T : 0 < t) by nra. set (q := 2 * PI * t) in *. assert (Q : 0 < q) by (unfold q; nra). assert (C0 : q * 0 = 0) by ring.
    assert (I1 : is_RInt (fun f => cos (q * f)) 0 (aa beta) (sin (q * aa beta) / q)) by (pose proof (int_cos q 0 (aa beta) ltac:(lra)) as H; rewrite Rmult_0_r, sin_0 in H; unfold Rdiv at 2 in H; rewrite Rmult_0_l, Rminus_0_r in H; exact H).
    assert (Sn : sinc1 t = sin (PI * t) / (PI * t)) by (apply sinc1_pos; rewrite Rabs_pos_eq by lra; exact H0). unfold away in Ha. rewrite (Rabs_pos_eq t) in Ha by lra.
    unfold cs. destruct (Rlt_dec 0 beta); [|lra]. rewrite (Rabs_pos_eq t) by lra. destruct Ha as [Ha|Ha].
    + destruct (Rlt_dec (Rabs (t - 1 / (2 * beta))) (/ 10 ^ 7)) as [G|G]; [|destruct G; rewrite Ha, Rminus_eq_0, Rabs_R0; exact EP].
      assert (Eq : q = PI / beta) by (unfold q; rewrite Ha; field; lra). pose proof (rc_band_eq beta Hb) as I2. cbv zeta in I2. rewrite <- Eq in I2.
      rewrite Sn. replace (sin (PI * t) / (PI * t) * PI / 4 / 2) with (sin (q * aa beta) / q + (/ 2 * (sin (q * bb beta) / q - sin (q * aa beta) / q) + / 2 * (cos (q * aa beta) * beta / 2))); [apply Pc; assumption|].
      replace (q * bb beta) with (q * aa beta + PI) by (rewrite Eq; unfold aa, bb; field; lra). rewrite neg_sin. replace (PI * t) with (q / 2) by (unfold q; field). replace (q / 2) with (q * aa beta + PI / 2) at 1 by (rewrite Eq; unfold aa; field; lra). rewrite sin_plus, sin_PI2, cos_PI2.
      generalize (sin (q * aa beta)) (cos (q * aa beta)). intros s0 c0. rewrite Eq. field. lra.
    + destruct (Rlt_dec (Rabs (t - 1 / (2 * beta))) (/ 10 ^ 7)) as [G|G]; [lra|].
      assert (Nt : 2 * beta * t <> 1). { intros E. apply G. replace (1 / (2 * beta)) with t by (rewrite <- E; field; lra). rewrite Rminus_eq_0, Rabs_R0. exact EP. }
      assert (Nq : PI / beta <> q). { intros E. apply Nt. apply (Rmult_eq_reg_l (PI / beta)); [|apply Rgt_not_eq, Rdiv_lt_0_compat; lra]. rewrite Rmult_1_r. rewrite E at 2. unfold q. field. lra. }
      assert (N1 : 1 - 2 * beta * t * (2 * beta * t) <> 0). { replace (1 - 2 * beta * t * (2 * beta * t)) with ((1 - 2 * beta * t) * (1 + 2 * beta * t)) by ring. apply Rmult_integral_contrapositive_currified; nra. }
      pose proof (rc_band beta q Hb Q Nq) as I2. rewrite Sn. match goal with |- is_RInt _ _ _ ?v => replace v with (sin (q * aa beta) / q + (/ 2 * (sin (q * bb beta) / q - sin (q * aa beta) / q) + / 2 * ((sin (q * bb beta) + sin (q * aa beta)) * q / (PI / beta * (PI / beta) - q * q)))); [apply Pc; assumption|] end.
      assert (Es : sin (q * bb beta) + sin (q * aa beta) = 2 * sin (PI * t) * cos (PI * beta * t)). { replace (q * bb beta) with (PI * t + PI * beta * t) by (unfold q, bb; field). replace (q * aa beta) with (PI * t - PI * beta * t) by (unfold q, aa; field). rewrite sin_plus, sin_minus. ring. }
      assert (Dn : PI / beta * (PI / beta) - q * q = (PI / beta) * (PI / beta) * (1 - 2 * beta * t * (2 * beta * t))) by (unfold q; field; lra). rewrite Es, Dn. replace (sin (q * bb beta)) with (2 * sin (PI * t) * cos (PI * beta * t) - sin (q * aa beta)) by lra. unfold q. field. repeat split; lra.
Qed.
Lemma sqrt2_pos : 0 < sqrt 2.
Proof. apply sqrt_lt_R0. lra. Qed.
Lemma rcs_half beta t : 0 < beta <= 1 -> 0 <= t -> away (1 / (4 * beta)) t ->
  is_RInt (fun f => sqrt (rc_spectrum beta f) * cos (2 * PI * t * f)) 0 1 (rcs t beta / 2).
Proof.
  intros Hb Ht Ha. pose proof PI_RGT_0 as PP. pose proof eps_pos as EP. assert (Hab : 0 <= aa beta <= bb beta) by (unfold aa, bb; lra). assert (Hb1 : bb beta <= 1) by (unfold bb; lra).
  assert (Pc : forall v1 v2 : R, is_RInt (fun f => cos (2 * PI * t * f)) 0 (aa beta) v1 -> is_RInt (fun f => Arr beta f * cos (2 * PI * t * f)) (aa beta) (bb beta) v2 -> is_RInt (fun f => sqrt (rc_spectrum beta f) * cos (2 * PI * t * f)) 0 1 (v1 + v2)).
  { intros v1 v2. apply (pieces (fun f => sqrt (rc_spectrum beta f)) (Arr beta)); [exact Hab|exact Hb1|intros; rewrite rc_1 by assumption; apply sqrt_1|intros; apply rrc_2; unfold aa, bb in *; lra|intros; rewrite rc_3 by (unfold bb in *; lra); apply sqrt_0]. }
  unfold rcs. destruct (Req_EM_T t 0) as [-> |Nt].
  - replace ((1 - beta + 4 * beta / PI) / 2) with (aa beta + 2 * beta / PI) by (unfold aa; field; lra). assert (Pp : 0 < PI / (2 * beta)) by (apply Rdiv_lt_0_compat; lra). apply Pc.
    + apply (is_RInt_ext (fun _ => 1)); [intros; rewrite Rmult_0_r, Rmult_0_l, cos_0; reflexivity|]. apply int_1. ring.
    + apply (is_RInt_ext (fun f => Arr beta f)); [intros; rewrite Rmult_0_r, Rmult_0_l, cos_0; symmetry; apply Rmult_1_r|]. unfold Arr. fold (aa beta).
      apply (int_F (fun f => sin (PI / (2 * beta) * (f - aa beta)) / (PI / (2 * beta)))).
      * intros u. auto_derive; [trivial|]. unfold Rminus. field. lra.
      * intros u. auto_derive. exact I.
      * replace (PI / (2 * beta) * (bb beta - aa beta)) with (PI / 2) by (unfold aa, bb; field; lra). rewrite sin_PI2, Rminus_eq_0, Rmult_0_r, sin_0. field. lra.
  - assert (T : 0 < t) by lra. set (q := 2 * PI * t) in *. assert (Q : 0 < q) by (unfold q; nra).
    assert (I1 : is_RInt (fun f => cos (q * f)) 0 (aa beta) (sin (q * aa beta) / q)) by (pose proof (int_cos q 0 (aa beta) ltac:(lra)) as H; rewrite Rmult_0_r, sin_0 in H; unfold Rdiv at 2 in H; rewrite Rmult_0_l, Rminus_0_r in H; exact H).
    unfold away in Ha. rewrite (Rabs_pos_eq t) in Ha by lra. destruct (Rlt_dec 0 beta); [|lra]. rewrite (Rabs_pos_eq t) by lra. destruct Ha as [Ha|Ha].
    + destruct (Rlt_dec (Rabs (t - 1 / (4 * beta))) (/ 10 ^ 7)) as [G|G]; [|destruct G; rewrite Ha, Rminus_eq_0, Rabs_R0; exact EP].
      assert (Eq : q = PI / (2 * beta)) by (unfold q; rewrite Ha; field; lra). pose proof (rr_band_eq beta Hb) as I2. cbv zeta in I2. rewrite <- Eq in I2.
      match goal with |- is_RInt _ _ _ ?v => replace v with (sin (q * aa beta) / q + (beta * cos (q * aa beta) - sin (q * aa beta) / q) / 2); [apply Pc; assumption|] end.
      replace (q * aa beta) with (PI / (4 * beta) - PI / 4) by (rewrite Eq; unfold aa; field; lra). rewrite sin_minus, cos_minus, sin_PI4, cos_PI4. pose proof sqrt2_pos. rewrite Eq. field. repeat split; lra.
    + destruct (Rlt_dec (Rabs (t - 1 / (4 * beta))) (/ 10 ^ 7)) as [G|G]; [lra|].
      assert (N4 : 4 * beta * t <> 1). { intros E. apply G. replace (1 / (4 * beta)) with t by (rewrite <- E; field; lra). rewrite Rminus_eq_0, Rabs_R0. exact EP. }
      assert (Nq : PI / (2 * beta) <> q). { intros E. apply N4. apply (Rmult_eq_reg_l (PI / (2 * beta))); [|apply Rgt_not_eq, Rdiv_lt_0_compat; lra]. rewrite Rmult_1_r. rewrite E at 2. unfold q. field. lra. }
      assert (N1 : 1 - 4 * beta * t * (4 * beta * t) <> 0). { replace (1 - 4 * beta * t * (4 * beta * t)) with ((1 - 4 * beta * t) * (1 + 4 * beta * t)) by ring. apply Rmult_integral_contrapositive_currified; nra. }
      pose proof (rr_band beta q Hb Q Nq) as I2. cbv zeta in I2. match goal with |- is_RInt _ _ _ ?v => replace v with (sin (q * aa beta) / q + (cos (q * bb beta) * (PI / (2 * beta)) + sin (q * aa beta) * q) / (PI / (2 * beta) * (PI / (2 * beta)) - q * q)); [apply Pc; assumption|] end.
      replace (PI * t * (1 - beta)) with (q * aa beta) by (unfold q, aa; field). replace (PI * t * (1 + beta)) with (q * bb beta) by (unfold q, bb; field).
      assert (Dn : PI / (2 * beta) * (PI / (2 * beta)) - q * q = PI / (2 * beta) * (PI / (2 * beta)) * (1 - 4 * beta * t * (4 * beta * t))) by (unfold q; field; lra). rewrite Dn. generalize (sin (q * aa beta)) (cos (q * bb beta)). intros s0 c0. unfold q. field. repeat split; lra.
Qed.
(** no excess bandwidth *)
Lemma zero_half t : 0 <= t -> (t = 0 \/ / 10 ^ 7 <= PI * t) -> is_RInt (fun f => rc_spectrum 0 f * cos (2 * PI * t * f)) 0 1 (cs t 0 / 2) /\ is_RInt (fun f => sqrt (rc_spectrum 0 f) * cos (2 * PI * t * f)) 0 1 (rcs t 0 / 2).
Proof.
  intros Ht H0. pose proof PI_RGT_0 as PP. pose proof eps_pos as EP.
  assert (Pc : forall v : R, is_RInt (fun f => cos (2 * PI * t * f)) 0 (/ 2) v -> is_RInt (fun f => rc_spectrum 0 f * cos (2 * PI * t * f)) 0 1 v /\ is_RInt (fun f => sqrt (rc_spectrum 0 f) * cos (2 * PI * t * f)) 0 1 v).
  { intros v Iv. replace v with (v + 0) by ring. assert (Z0 : is_RInt (fun f => 0 * cos (2 * PI * t * f)) (/ 2) (/ 2) 0) by (pose proof (@is_RInt_point R_NormedModule (fun f => 0 * cos (2 * PI * t * f)) (/ 2)) as H; exact H).
    split.
    - apply (pieces (rc_spectrum 0) (fun _ => 0) _ (/ 2) (/ 2)); try lra; try assumption; intros f Hf; [apply rc_1; lra|lra|apply rc_3; lra].
    - apply (pieces (fun f => sqrt (rc_spectrum 0 f)) (fun _ => 0) _ (/ 2) (/ 2)); try lra; try assumption; intros f Hf; [rewrite rc_1 by lra; apply sqrt_1|lra|rewrite rc_3 by lra; apply sqrt_0]. }
  destruct H0 as [-> |H0].
  - rewrite cs_0 by lra. unfold rcs. destruct (Req_EM_T 0 0); [|lra]. replace ((1 - 0 + 4 * 0 / PI) / 2) with (1 / 2) by (field; lra). apply Pc. apply (is_RInt_ext (fun _ => 1)); [intros; rewrite Rmult_0_r, Rmult_0_l, cos_0; reflexivity|]. apply int_1. field.
  - assert (T : 0 < t) by nra. assert (Sn : sinc1 t = sin (PI * t) / (PI * t)) by (apply sinc1_pos; rewrite Rabs_pos_eq by lra; exact H0).
    assert (Q : 2 * PI * t <> 0) by nra. pose proof (int_cos (2 * PI * t) 0 (/ 2) Q) as H. rewrite Rmult_0_r, sin_0 in H. replace (2 * PI * t * / 2) with (PI * t) in H by field.
    replace (sin (PI * t) / (2 * PI * t) - 0 / (2 * PI * t)) with (sinc1 t / 2) in H by (rewrite Sn; field; lra).
    replace (cs t 0) with (sinc1 t). 2: { unfold cs. destruct (Rlt_dec 0 0); [lra|]. rewrite !Rmult_0_r, !Rmult_0_l, cos_0. field. }
    replace (rcs t 0) with (sinc1 t). 2: { unfold rcs. destruct (Req_EM_T t 0); [lra|]. destruct (Rlt_dec 0 0); [lra|]. rewrite Sn. rewrite Rminus_0_r, Rmult_1_r. field. lra. }
    apply Pc. exact H.
Qed.
(** ** Nyquist criterion *)
Lemma cs_integer beta k : 0 <= beta <= 1 -> cs (IZR k) beta = if (k =? 0)%Z then 1 else 0.
Proof.
  intros Hb. destruct (Z.eqb_spec k 0) as [-> |N]; [apply cs_0; exact Hb|]. assert (E : sinc1 (IZR k) = 0).
  { unfold sinc1, sinc_T. rewrite Rmult_1_r. pose proof PI_RGT_0. destruct (Rlt_dec (Rabs (PI * IZR k)) (/ 10 ^ 7)) as [G|G].
    - exfalso. rewrite Rabs_mult, Rabs_pos_eq in G by lra. assert (1 <= Rabs (IZR k)) by (rewrite <- abs_IZR; apply (IZR_le 1); lia). pose proof eps_small. pose proof PI2_3_2. unfold PI2 in *. nra.
    - rewrite (Rmult_comm PI), sin_int_PI. unfold Rdiv. ring. }
  unfold cs. rewrite E. destruct (Rlt_dec 0 beta); [destruct (Rlt_dec (Rabs (Rabs (IZR k) - 1 / (2 * beta))) (/ 10 ^ 7))|]; unfold Rdiv; ring.
Qed.
