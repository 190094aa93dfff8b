From Coq Require Import List Arith ZArith Reals Lia Lra.
From Verif Require Import Base BaseLemmas RField DftSys ComplexSys Poly_Model Poly_Spec Poly_Proofs Rii_Model But_Proofs Fz_Model Fz_Proofs Cicf_Model Cicf_Spec.
Import ListNotations.
Section CF.
Variable K : cfield.
Add Field Kf : (fth K).
Local Open Scope cring_scope.
Lemma pval_repeat (a : K) n x : pval (repeat a n) x = a * sum n (fun k => cpow x k).
Proof.
  unfold pval. rewrite repeat_length. assert (E : forall m, (m <= n)%nat -> sum m (fun i => samp (repeat a n) i * cpow x i) = a * sum m (fun k => cpow x k)).
  { induction m as [|m IH]; intros H; cbn [sum]; [ring|]. rewrite IH by lia. assert (S : samp (repeat a n) m = a).
    { unfold samp. rewrite (nth_indep _ c0 a) by (rewrite repeat_length; lia). apply nth_repeat. }
    rewrite S. ring. }
  apply E. apply le_n.
Qed.
Lemma ma_value n z : (0 < n)%nat -> z <> 0 -> value (f_den (f_inv_z (mkfrat (p_of (repeat (1 / cnat n : K) n)) (p_of [1])))) z <> 0 /\
  fvalue (f_inv_z (mkfrat (p_of (repeat (1 / cnat n : K) n)) (p_of [1]))) z = moving_average n z.
Proof.
  intros Hn Hz. set (a := (1 / cnat n : K)). unfold f_inv_z. cbn [f_num f_den p_of p_vers_coefs p_roots p_coefs length rev app]. rewrite repeat_length.
  assert (NE : repeat a n <> []) by (destruct n; [lia|discriminate]). assert (I : z * finv z = 1) by (field; exact Hz).
  assert (VN : value (p_of (rev (repeat a n))) z = cpow z (n - 1) * (a * sum n (fun k => cpow (finv z) k))).
  { rewrite value_of. rewrite (rev_pval K _ z (finv z) I NE). rewrite repeat_length, pval_repeat. reflexivity. }
  assert (V1 : value (p_of [1 : K]) z = 1) by (rewrite value_of; unfold pval; cbn; ring).
  assert (VM : value (p_mul (p_of [1 : K]) p_z) z = z).
  { unfold p_mul, p_z. cbn. unfold value. cbn. unfold pval. cbn. ring. }
  assert (PN : forall k, cpow z k <> 0) by (intros k; apply cpow_ne; exact Hz).
  destruct (Nat.ltb_spec 1 n) as [L|L].
  - cbn [f_num f_den]. split.
    + rewrite pow_ok, VM. apply PN.
    + unfold fvalue. cbn [f_num f_den]. rewrite VN, pow_ok, VM. unfold moving_average. fold a. field. apply PN.
  - assert (n = 1)%nat as -> by lia. cbn [Nat.ltb Nat.leb f_num f_den]. split.
    + rewrite V1. apply one_ne.
    + unfold fvalue. cbn [f_num f_den]. rewrite VN, V1. unfold moving_average. fold a. cbn [Nat.sub cpow]. field. apply one_ne.
Qed.
Lemma design_ok R M N z : (0 < R)%Z -> (0 < M)%Z -> (0 <= N)%Z -> z <> 0 ->
  exists f, design_cic (K := K) R M N = Ok f /\ f_horner f z = cpow (moving_average (Z.to_nat (R * M)) z) (Z.to_nat N).
Proof.
  intros HR HM HN Hz. unfold design_cic. destruct (Z.ltb_spec 0 R); [|lia]. destruct (Z.leb_spec 0 N); [|lia]. destruct (Z.ltb_spec 0 M); [|lia]. cbn [andb negb]. eexists. split; [reflexivity|].
  destruct (ma_value (Z.to_nat (R * M)) z ltac:(nia) Hz) as [D V]. rewrite fhorner_ok, fpow_ok by exact D. rewrite V. reflexivity.
Qed.
End CF.
Local Open Scope R_scope.
Lemma cmod_mul (a b : Complex) : cmod (cmul a b) = cmod a * cmod b.
Proof. unfold cmod. rewrite <- sqrt_mult by (unfold Cnorm2; nra). f_equal. unfold Cnorm2. cbn. ring. Qed.
Lemma cmod_1 : cmod (c1 : Complex) = 1.
Proof. unfold cmod, Cnorm2. cbn. replace (1 * 1 + 0 * 0) with 1 by ring. apply sqrt_1. Qed.
Lemma cmod_pow (a : Complex) n : cmod (cpow (K := Cring) a n) = cmod a ^ n.
Proof. induction n as [|n IH]; [apply cmod_1|]. cbn [cpow pow]. rewrite <- IH. apply cmod_mul. Qed.
Lemma cmod_eit1 u : cmod (csub (eit u) c1 : Complex) = 2 * Rabs (sin (u / 2)).
Proof.
  unfold cmod. replace (Cnorm2 (csub (eit u) c1 : Complex)) with ((2 * sin (u / 2)) * (2 * sin (u / 2))).
  - change (sqrt (Rsqr (2 * sin (u / 2))) = 2 * Rabs (sin (u / 2))). rewrite sqrt_Rsqr_abs, Rabs_mult, (Rabs_pos_eq 2) by lra. reflexivity.
  - unfold Cnorm2, eit. cbn. pose proof (sin2_cos2 u) as H. unfold Rsqr in H. pose proof (cos_2a_sin (u / 2)) as D. replace (2 * (u / 2)) with u in D by field. nra.
Qed.
Lemma cnat_C n : (cnat n : Cfield) = (INR n, 0).
Proof. induction n as [|n IH]; [reflexivity|]. cbn [cnat]. rewrite IH, S_INR. apply C_ext; cbn; ring. Qed.
Lemma sum_ones n : sum (K := Cring) n (fun _ => c1) = (INR n, 0).
Proof. induction n as [|n IH]; [reflexivity|]. cbn [sum]. rewrite IH, S_INR. apply C_ext; cbn; ring. Qed.
Lemma ma_mod n f : (0 < n)%nat -> cmod (moving_average (K := Cfield) n (eit (2 * PI * f))) = if Req_EM_T (INR n * sin (PI * f)) 0 then 1 else Rabs (sin (INR n * PI * f) / (INR n * sin (PI * f))).
Proof.
  intros Hn. assert (P : 0 < INR n) by (apply lt_0_INR; exact Hn). unfold moving_average. etransitivity; [apply cmod_mul|].
  assert (M1 : cmod (fdiv c1 (cnat n) : Cfield) = / INR n).
  { rewrite cnat_C. etransitivity; [exact (cmod_div ((1, 0) : C) (INR n) P)|]. change (cmod ((1, 0) : C)) with (cmod (c1 : Complex)). rewrite cmod_1. unfold Rdiv. ring. }
  rewrite M1. rewrite inv_eit.
  assert (G : cmod (csub (eit (- (2 * PI * f))) c1 : Complex) * cmod (sum (K := Cring) n (fun k => cpow (eit (- (2 * PI * f))) k)) = cmod (csub (eit (INR n * - (2 * PI * f))) c1 : Complex)).
  { rewrite <- cmod_mul. f_equal. rewrite <- (eit_pow _ n). exact (geom Complex (eit (- (2 * PI * f))) n). }
  rewrite !cmod_eit1 in G. replace (- (2 * PI * f) / 2) with (- (PI * f)) in G by field. replace (INR n * - (2 * PI * f) / 2) with (- (INR n * PI * f)) in G by field. rewrite !sin_neg, !Rabs_Ropp in G.
  set (S := cmod (sum (K := Cring) n (fun k => cpow (eit (- (2 * PI * f))) k))) in *.
  destruct (Req_EM_T (INR n * sin (PI * f)) 0) as [Z|NZ].
  - assert (Z1 : sin (PI * f) = 0) by (apply Rmult_integral in Z; destruct Z; [lra|assumption]).
    assert (E1 : eit (- (2 * PI * f)) = (c1 : Cfield)).
    { replace (- (2 * PI * f)) with (- (2 * (PI * f))) by ring. apply C_ext; cbn; rewrite ?cos_neg, ?sin_neg; [rewrite cos_2a_sin, Z1|rewrite sin_2a, Z1]; ring. }
    assert (ES : S = INR n).
    { unfold S. rewrite (sum_ext Cring n _ (fun _ => c1)); [rewrite sum_ones; unfold cmod, Cnorm2; cbn; replace (INR n * INR n + 0 * 0) with (INR n * INR n) by ring; apply sqrt_square; lra|].
      intros k _. rewrite E1. clear. induction k as [|k IH]; [reflexivity|]. cbn [cpow]. rewrite IH. apply C_ext; cbn; ring. }
    change (/ INR n * S = 1). rewrite ES. field. lra.
  - assert (N1 : sin (PI * f) <> 0) by (intros E; apply NZ; rewrite E; ring). pose proof (Rabs_pos_lt _ N1) as PA.
    change (/ INR n * S = Rabs (sin (INR n * PI * f) / (INR n * sin (PI * f)))). unfold Rdiv. rewrite Rabs_mult, Rabs_inv, Rabs_mult, (Rabs_pos_eq (INR n)) by lra.
    apply (Rmult_eq_reg_r (INR n * (2 * Rabs (sin (PI * f))))); [|nra]. transitivity (2 * Rabs (sin (PI * f)) * S); [field; lra|]. rewrite G. field. split; lra.
Qed.
Lemma freq_ok r m n fr : (0 < r)%nat -> (0 < m)%nat -> cic_freq r m n fr = map (fun f => cmod (cpow (K := Cfield) (moving_average (r * m) (eit (2 * PI * f))) n)) fr.
Proof.
  intros Hr Hm. unfold cic_freq. apply map_ext. intros f. cbv zeta. etransitivity; [|symmetry; exact (cmod_pow _ n)]. rewrite ma_mod by nia. destruct (Req_EM_T (INR (r * m) * sin (PI * f)) 0); [rewrite pow1; reflexivity|reflexivity].
Qed.
Lemma sin_mult n x : Rabs (sin (INR n * x)) <= INR n * Rabs (sin x).
Proof.
  induction n as [|n IH]; [cbn; rewrite Rmult_0_l, sin_0, Rabs_R0; lra|]. rewrite S_INR. replace ((INR n + 1) * x) with (INR n * x + x) by ring. rewrite sin_plus. eapply Rle_trans; [apply Rabs_triang|]. rewrite !Rabs_mult.
  assert (C1 : forall y, Rabs (cos y) <= 1) by (intros y; pose proof (COS_bound y); apply Rabs_le; lra). pose proof (C1 x). pose proof (C1 (INR n * x)). pose proof (Rabs_pos (sin x)). pose proof (Rabs_pos (sin (INR n * x))). pose proof (Rabs_pos (cos x)). pose proof (Rabs_pos (cos (INR n * x))). nra.
Qed.
