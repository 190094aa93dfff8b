(** Chebyshev prototypes: |P(iw)|^2 = (T_n(w)^2 + sinh(n a)^2) / 4^(n-1). *)
From Coq Require Import Reals Lra Lia.
From Verif Require Import Base BaseLemmas RField DftSys ComplexSys Poly_Model Poly_Spec Poly_Proofs Vec_Model Vec_Proofs Sig_Proofs Win_Proofs2 Rii_Model Riia_Spec Biq_Spec Biq_Proofs Biq_Props Tf_Proofs Tf_Props Factor_Proofs Riia_Proofs But_Proofs But_Props.
Local Open Scope R_scope.
(** Chebyshev polynomials over any field *)
Section Gen.
  Local Open Scope cring_scope.
  Context {K : cfield}.
  Add Field Kf : (fth K).
  Fixpoint TK (n : nat) (x : K) : K := match n with O => 1 | S m => match m with O => x | S k => (1 + 1) * x * TK m x - TK k x end end.
  Lemma TK_SS n x : TK (S (S n)) x = (1 + 1) * x * TK (S n) x - TK n x.
  Proof. reflexivity. Qed.
  Lemma TK_sum (u v x : K) : u * v = 1 -> (1 + 1) * x = u + v -> forall n, (1 + 1) * TK n x = cpow u n + cpow v n.
  Proof.
    intros P E. apply two_step.
    - cbn. ring.
    - cbn [TK cpow]. rewrite E. ring.
    - intros n A B. rewrite TK_SS. transitivity ((1 + 1) * x * ((1 + 1) * TK (S n) x) - (1 + 1) * TK n x); [ring|]. rewrite A, B, E. cbn [cpow].
      transitivity (u * (u * cpow u n) + v * (v * cpow v n) + (u * v - 1) * (cpow u n + cpow v n)); [ring|]. rewrite P. ring.
  Qed.
  Lemma cnz (k : K) n : k <> 0 -> cpow k n <> 0.
  Proof. intros H. apply (nz_pow k n H). Qed.
  Lemma TK_monic : (1 + 1 : K) <> 0 -> forall n, lowdeg (S n) (TK n) /\ exists g : K -> K, monic (S n) g /\ forall x, TK (S n) x = cpow (1 + 1) n * g x.
  Proof.
    intros H2 n. induction n as [|n (L & g & M & E)].
    - split; [apply (lowdeg_const 1)|]. exists (fun x => x). split; [|intros x; cbn; ring]. apply (monic_ext _ (fun x => cpow x 1)); [intros x; cbn; ring|apply monic_pow].
    - split.
      + apply (lowdeg_ext _ (fun x => cpow (1 + 1) n * g x)); [intros x; symmetry; apply E|]. apply lowdeg_scale. apply monic_low. exact M.
      + exists (fun x => x * g x + - (1 / cpow (1 + 1) (S n)) * TK n x). split.
        * apply (monic_add (S (S n)) (fun x => x * g x) (fun x => - (1 / cpow (1 + 1) (S n)) * TK n x)); [apply (monic_x (S n) g M)|]. apply (lowdeg_scale (S (S n))). apply (lowdeg_le (S n)); [lia|exact L].
        * intros x. rewrite TK_SS, E. cbn [cpow]. field. split; [apply cnz; exact H2|exact H2].
  Qed.
End Gen.
Section CF.
Add Field Cf : (fth Cfield).
Lemma TK_re n x : TK n (re x) = re (T n x).
Proof. revert n. apply two_step; [reflexivity|reflexivity|]. intros n A B. rewrite TK_SS, A, B. change (T (S (S n)) x) with (2 * x * T (S n) x - T n x). rewrite re_sub, !re_mul, re_2. reflexivity. Qed.
Lemma T_chebT n x : T n x = chebT n x.
Proof. revert n. apply two_step; [reflexivity|reflexivity|]. intros n A B. change (T (S (S n)) x) with (2 * x * T (S n) x - T n x). rewrite A, B, chebT_SS. reflexivity. Qed.
Lemma C2_ne : (c1 + c1)%K <> (c0 : Cfield).
Proof. rewrite <- re_2. apply re_ne. lra. Qed.
(** angles *)
Definition th (n i : nat) : R := (2 * INR i + 1) * (PI / (2 * INR n)).
Lemma th_n n i : (1 <= n)%nat -> INR n * th n i = INR i * PI + PI / 2.
Proof. intros H. pose proof (INR_pos n H). unfold th. field. lra. Qed.
Lemma th_range n i : (i < n)%nat -> 0 < th n i < PI.
Proof.
  intros H. pose proof PI_RGT_0. pose proof (pos_INR i). assert (INR i + 1 <= INR n) by (rewrite <- S_INR; apply le_INR; lia).
  assert (E : th n i * (2 * INR n) = (2 * INR i + 1) * PI) by (unfold th; field; lra). split; nra.
Qed.
Lemma th_lt n i j : (i < j < n)%nat -> th n i < th n j.
Proof.
  intros H. pose proof PI_RGT_0. assert (INR i < INR j) by (apply lt_INR; lia). pose proof (INR_pos n ltac:(lia)). unfold th. apply Rmult_lt_compat_r; [apply Rdiv_lt_0_compat; lra|lra].
Qed.
Lemma th_sym n i : (i < n)%nat -> th n (n - S i) = PI - th n i.
Proof. intros H. pose proof (INR_pos n ltac:(lia)). unfold th. rewrite minus_INR by lia. rewrite S_INR. field. lra. Qed.
(** cos(theta -+ i a) *)
Definition cz (n : nat) (a : R) (i : nat) : Cfield := (cos (th n i) * cosh a, sin (th n i) * sinh a).
Lemma sin_nPI i : sin (INR i * PI) = 0.
Proof. induction i as [|i IH]; [cbn; rewrite Rmult_0_l; apply sin_0|]. rewrite S_INR, Rmult_plus_distr_r, Rmult_1_l, sin_plus, IH, sin_PI. ring. Qed.
Lemma cos_nth n i : (1 <= n)%nat -> cos (INR n * th n i) = 0 /\ sin (INR n * th n i) * sin (INR n * th n i) = 1.
Proof.
  intros H. rewrite th_n by exact H. rewrite cos_plus, sin_plus, cos_PI2, sin_PI2, sin_nPI. split; [ring|].
  pose proof (sin2_cos2 (INR i * PI)) as S1. unfold Rsqr in S1. rewrite sin_nPI in S1. nra.
Qed.
Lemma cosh2_sinh2 a : cosh a * cosh a - sinh a * sinh a = 1.
Proof. unfold cosh, sinh. pose proof (exp_plus a (- a)) as E. rewrite Rplus_opp_r, exp_0 in E. transitivity (exp a * exp (- a)); [field|lra]. Qed.
Lemma exp_pow a n : exp a ^ n = exp (INR n * a).
Proof. induction n as [|n IH]; [cbn; rewrite Rmult_0_l, exp_0; reflexivity|]. cbn [pow]. rewrite IH, <- exp_plus, S_INR. f_equal. ring. Qed.
Lemma TK_root n a i : (1 <= n)%nat -> (TK n (cz n a i) * TK n (cz n a i))%K = re (- (sinh (INR n * a) * sinh (INR n * a))).
Proof.
  intros Hn. set (t := th n i). set (u := (re (exp a) * eit t)%K). set (v := (re (exp (- a)) * eit (- t))%K).
  assert (P : (u * v)%K = (c1 : Cfield)). { unfold u, v. transitivity (re (exp a) * re (exp (- a)) * (eit t * eit (- t)))%K; [ring|]. rewrite <- re_mul, <- eit_add, <- exp_plus. replace (a + - a) with 0 by ring. replace (t + - t) with 0 by ring. rewrite exp_0, eit_0, re_1. ring. }
  assert (E : ((c1 + c1) * cz n a i)%K = (u + v)%K). { unfold u, v, cz. fold t. apply C_ext; cbn; rewrite ?cos_neg, ?sin_neg; unfold cosh, sinh; field. }
  pose proof (TK_sum u v (cz n a i) P E n) as S1. unfold u, v in S1. rewrite !cpow_mul_l, !re_cpow, !eit_pow, !exp_pow in S1.
  destruct (cos_nth n i Hn) as [C0 S0]. fold t in C0, S0.
  replace (INR n * - t) with (- (INR n * t)) in S1 by ring. replace (INR n * - a) with (- (INR n * a)) in S1 by ring. set (q := INR n * a) in *.
  assert (S2 : ((c1 + c1) * TK n (cz n a i))%K = im (2 * (sin (INR n * t) * sinh q))). { rewrite S1. apply C_ext; cbn; rewrite ?cos_neg, ?sin_neg, C0; unfold sinh; field. }
  assert (S3 : TK n (cz n a i) = im (sin (INR n * t) * sinh q)).
  { transitivity (((c1 + c1) * TK n (cz n a i)) / (c1 + c1))%K; [field; exact C2_ne|]. rewrite S2. transitivity ((c1 + c1) * im (sin (INR n * t) * sinh q) / (c1 + c1))%K; [f_equal; apply C_ext; cbn; ring|field; exact C2_ne]. }
  rewrite S3. apply C_ext; cbn; [|ring]. transitivity (- ((sin (INR n * t) * sin (INR n * t)) * (sinh q * sinh q))); [ring|]. rewrite S0. ring.
Qed.

(** the 2n roots of T_n^2 + sinh^2(n a) *)
Lemma cz_conj n a i : conj (cz n a i) = cz n (- a) i.
Proof. apply C_ext; cbn; unfold cosh, sinh; rewrite Ropp_involutive; field. Qed.
Lemma cos_inj n i j : (i < n)%nat -> (j < n)%nat -> cos (th n i) = cos (th n j) -> i = j.
Proof.
  intros Hi Hj E. destruct (Nat.lt_trichotomy i j) as [L|[L|L]]; [|exact L|]; exfalso.
  - pose proof (th_lt n i j ltac:(lia)). pose proof (th_range n i Hi). pose proof (th_range n j Hj). assert (cos (th n j) < cos (th n i)) by (apply cos_decreasing_1; lra). lra.
  - pose proof (th_lt n j i ltac:(lia)). pose proof (th_range n i Hi). pose proof (th_range n j Hj). assert (cos (th n i) < cos (th n j)) by (apply cos_decreasing_1; lra). lra.
Qed.
Lemma cosh_pos a : 0 < cosh a.
Proof. unfold cosh. pose proof (exp_pos a). pose proof (exp_pos (- a)). lra. Qed.
Lemma sinh_opp a : sinh (- a) = - sinh a.
Proof. unfold sinh. rewrite Ropp_involutive. field. Qed.
Lemma sinh_pos_ a : 0 < a -> 0 < sinh a.
Proof. intros H. unfold sinh. assert (exp (- a) < exp a) by (apply exp_increasing; lra). lra. Qed.
Lemma NoDup_app_ {B} (l m : list B) : NoDup l -> NoDup m -> (forall x, In x l -> ~ In x m) -> NoDup (l ++ m).
Proof.
  induction l as [|b l IH]; cbn; intros N1 N2 D; [exact N2|]. inversion N1. subst. constructor.
  - intros I. apply in_app_or in I. destruct I as [I|I]; [contradiction|]. exact (D b (or_introl eq_refl) I).
  - apply IH; [assumption|exact N2|]. intros x I. apply D. right. exact I.
Qed.
Lemma TK_factor n a (x : Cfield) : (1 <= n)%nat -> 0 < a ->
  (TK n x * TK n x + re (sinh (INR n * a) * sinh (INR n * a)))%K = (cpow (c1 + c1) (2 * (n - 1)) * rprod (map (cz n a) (seq 0 n) ++ map (cz n (- a)) (seq 0 n)) x)%K.
Proof.
  intros Hn Ha. set (l := map (cz n a) (seq 0 n) ++ map (cz n (- a)) (seq 0 n)). set (sh := re (sinh (INR n * a) * sinh (INR n * a))).
  destruct (TK_monic C2_ne (n - 1)) as (_ & g & M & E). replace (S (n - 1)) with n in * by lia.
  assert (NP := nz_pow (K := Cfield) (c1 + c1)%K (n - 1) C2_ne).
  assert (PP : cpow (c1 + c1 : Cfield)%K (2 * (n - 1)) = (cpow (c1 + c1) (n - 1) * cpow (c1 + c1) (n - 1))%K) by (rewrite <- (cpow_add_ Cfield); f_equal; lia).
  set (q := cpow (c1 + c1 : Cfield)%K (n - 1)) in *.
  set (F := fun x : Cfield => (g x * g x + sh / (q * q))%K).
  assert (FX : forall x : Cfield, (TK n x * TK n x + sh)%K = (q * q * F x)%K). { intros y. rewrite E. unfold F. fold q. field. exact NP. }
  rewrite FX, PP. f_equal. apply (factor Cint l F).
  - apply NoDup_app_.
    + apply NoDup_map_seq. intros i j H Q. apply (f_equal fst) in Q. cbn in Q. pose proof (cosh_pos a). assert (i = j); [|lia]. apply (cos_inj n); [lia|lia|]. nra.
    + apply NoDup_map_seq. intros i j H Q. apply (f_equal fst) in Q. cbn in Q. pose proof (cosh_pos (- a)). assert (i = j); [|lia]. apply (cos_inj n); [lia|lia|]. nra.
    + intros y I J. apply in_map_iff in I. apply in_map_iff in J. destruct I as (i & <- & I). destruct J as (j & Q & J). apply in_seq in I. apply in_seq in J. apply (f_equal snd) in Q. cbn in Q. rewrite sinh_opp in Q.
      pose proof (sinh_pos_ a Ha). assert (0 < sin (th n i)) by (apply sin_gt_0; apply th_range; lia). assert (0 < sin (th n j)) by (apply sin_gt_0; apply th_range; lia). nra.
  - replace (length l) with (n + n)%nat by (unfold l; rewrite app_length, !map_length, seq_length; reflexivity).
    apply (monic_add (n + n) (fun x => (g x * g x)%K) (fun _ => (sh / (q * q))%K)); [apply (monic_mul n n g g M M)|]. apply (lowdeg_le 1); [lia|apply lowdeg_const].
  - intros r I. assert (Z : (TK n r * TK n r + sh)%K = (c0 : Cfield)).
    { unfold l in I. apply in_app_or in I. destruct I as [I|I]; apply in_map_iff in I; destruct I as (i & <- & I); rewrite TK_root by exact Hn; unfold sh; rewrite re_opp.
      - ring.
      - replace (INR n * - a) with (- (INR n * a)) by ring. rewrite sinh_opp. replace (- sinh (INR n * a) * - sinh (INR n * a)) with (sinh (INR n * a) * sinh (INR n * a)) by ring. ring. }
    rewrite FX in Z. apply C_mul0 in Z. destruct Z as [Z|Z]; [|exact Z]. exfalso. apply C_mul0 in Z. tauto.
Qed.
(** poles of type I *)
Definition tpole (n : nat) (a : R) (i : nat) : Cfield := (- (sin (th n i) * sinh a), cos (th n i) * cosh a).
Lemma tpole_cz n a i : tpole n a i = (im 1 * cz n a i)%K.
Proof. apply C_ext; cbn; ring. Qed.
Lemma tpole_conj n a i : (conj (tpole n a i) = - im 1 * cz n (- a) i)%K.
Proof. rewrite <- cz_conj. apply C_ext; cbn; ring. Qed.
Lemma im_mul w : im w = (im 1 * re w)%K.
Proof. apply C_ext; cbn; ring. Qed.
Lemma tch_norm n a w : (1 <= n)%nat -> 0 < a -> Cnorm2 (rprod (map (tpole n a) (seq 0 n)) (im w)) = (T n w * T n w + sinh (INR n * a) * sinh (INR n * a)) / 4 ^ (n - 1).
Proof.
  intros Hn Ha.
  assert (E : re (Cnorm2 (rprod (map (tpole n a) (seq 0 n)) (im w))) = rprod (map (cz n a) (seq 0 n) ++ map (cz n (- a)) (seq 0 n)) (re w)).
  { rewrite <- Cnorm2_conj, Cconj_rprod. rewrite rprod_app. generalize (seq 0 n). clear Hn Ha. induction l as [|i l IH]; cbn [map rprod]; [ring|].
    transitivity ((im w - tpole n a i) * (conj (im w) - conj (tpole n a i)) * (rprod (map (tpole n a) l) (im w) * rprod (K := Cfield) (map conj (map (tpole n a) l)) (conj (im w))))%K; [ring|].
    rewrite IH. transitivity ((re w - cz n a i) * (re w - cz n (- a) i) * (rprod (map (cz n a) l) (re w) * rprod (map (cz n (- a)) l) (re w)))%K; [|ring]. f_equal.
    rewrite <- cz_conj. apply C_ext; cbn; ring. }
  pose proof (TK_factor n a (re w) Hn Ha) as F. rewrite <- E, TK_re, <- re_mul, <- re_add, <- re_2, re_cpow, <- re_mul in F. apply (f_equal fst) in F. cbn [re fst] in F.
  rewrite F. replace (2 ^ (2 * (n - 1))) with (4 ^ (n - 1)) by (rewrite pow_mult; f_equal; ring). field. apply pow_nonzero. lra.
Qed.
(** real zeros of T_n *)
Lemma T_factor n w : (1 <= n)%nat -> re (T n w) = (cpow (c1 + c1) (n - 1) * rprod (map (fun i => re (cos (th n i))) (seq 0 n)) (re w))%K.
Proof.
  intros Hn. rewrite <- TK_re. destruct (TK_monic C2_ne (n - 1)) as (_ & g & M & E). replace (S (n - 1)) with n in * by lia. rewrite E. f_equal.
  apply (factor Cint).
  - apply NoDup_map_seq. intros i j H Q. apply (f_equal fst) in Q. cbn in Q. assert (i = j); [|lia]. apply (cos_inj n); [lia|lia|exact Q].
  - rewrite map_length, seq_length. exact M.
  - intros r I. apply in_map_iff in I. destruct I as (i & <- & I). assert (Z : TK n (re (cos (th n i))) = (c0 : Cfield)).
    { rewrite TK_re, T_chebT, chebT_cos. destruct (cos_nth n i Hn) as [C0 _]. rewrite C0. reflexivity. }
    rewrite E in Z. apply C_mul0 in Z. destruct Z as [Z|Z]; [|exact Z]. exfalso. exact (nz_pow (K := Cfield) _ _ C2_ne Z).
Qed.
End CF.
