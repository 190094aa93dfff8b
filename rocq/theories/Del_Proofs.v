From Coq Require Import Reals ZArith Lra Lia Psatz.
From Verif Require Import Base BaseLemmas RField DftSys ComplexSys Rii_Model Biq_Proofs Biq_Props But_Proofs Design_Spec Fourier_Model Fourier_Spec Fourier_Props Fest_Model Fest_Proofs Fest_Proofs3 Fest_Proofs4 Del_Spec.
Local Open Scope R_scope.
Local Notation rs := (sum (K := Rring)).

(** ** Sums of reals *)
Lemma rs_S n f : rs (S n) f = rs n f + f n. Proof. reflexivity. Qed.
Lemma rs_ext n f g : (forall i, (i < n)%nat -> f i = g i) -> rs n f = rs n g.
Proof. intros H. apply (sum_ext Rring). exact H. Qed.
Lemma rs_le n f g : (forall i, (i < n)%nat -> f i <= g i) -> rs n f <= rs n g.
Proof. induction n as [|n IH]; intros H; [cbn; lra|]. rewrite !rs_S. specialize (H n ltac:(lia)) as Hn. assert (rs n f <= rs n g) by (apply IH; intros; apply H; lia). lra. Qed.
Lemma rs_nonneg n f : (forall i, (i < n)%nat -> 0 <= f i) -> 0 <= rs n f.
Proof. induction n as [|n IH]; intros H; [cbn; lra|]. rewrite rs_S. specialize (H n ltac:(lia)) as Hn. assert (0 <= rs n f) by (apply IH; intros; apply H; lia). lra. Qed.
Lemma rs_add n f g : rs n (fun i => f i + g i) = rs n f + rs n g.
Proof. induction n as [|n IH]; [cbn; lra|]. rewrite !rs_S, IH. lra. Qed.
Lemma rs_mul n c f : rs n (fun i => c * f i) = c * rs n f.
Proof. induction n as [|n IH]; [cbn; lra|]. rewrite !rs_S, IH. lra. Qed.
Lemma rs_0 n f : (forall i, (i < n)%nat -> f i = 0) -> rs n f = 0.
Proof. induction n as [|n IH]; intros H; [reflexivity|]. rewrite rs_S, IH, H by (intros; try apply H; lia). change (@eq R (0 + 0) 0). ring. Qed.
Lemma rs_at n k (v : R) : rs n (fun i => if (Z.of_nat i =? k)%Z then v else 0) = if ((0 <=? k) && (k <? Z.of_nat n))%Z%bool then v else 0.
Proof.
  induction n as [|n IH]; [cbn; destruct (Z.leb_spec 0 k), (Z.ltb_spec k 0); cbn; try lia; reflexivity|]. rewrite rs_S, IH.
  destruct (Z.leb_spec 0 k), (Z.ltb_spec k (Z.of_nat n)), (Z.ltb_spec k (Z.of_nat (S n))), (Z.eqb_spec (Z.of_nat n) k); cbn [andb]; try lia; lra.
Qed.
(** a window of length n, seen from the support [0, N) *)
Lemma shift_sum (f : Z -> R) N l n : (forall z, (z < 0 \/ Z.of_nat N <= z)%Z -> f z = 0) ->
  rs n (fun a => f (Z.of_nat a + l)%Z) = rs N (fun k => if ((l <=? Z.of_nat k) && (Z.of_nat k <? l + Z.of_nat n))%Z%bool then f (Z.of_nat k) else 0).
Proof.
  intros H. induction n as [|n IH].
  - cbn [sum]. symmetry. apply rs_0. intros i Hi. destruct (Z.leb_spec l (Z.of_nat i)), (Z.ltb_spec (Z.of_nat i) (l + Z.of_nat 0)); cbn [andb]; try lia; reflexivity.
  - rewrite rs_S, IH. assert (E : f (Z.of_nat n + l)%Z = rs N (fun i => if (Z.of_nat i =? Z.of_nat n + l)%Z then f (Z.of_nat n + l)%Z else 0)).
    { rewrite rs_at. destruct (Z.leb_spec 0 (Z.of_nat n + l)), (Z.ltb_spec (Z.of_nat n + l) (Z.of_nat N)); cbn [andb]; try reflexivity; apply H; lia. }
    rewrite E, <- rs_add. apply rs_ext. intros i Hi.
    destruct (Z.leb_spec l (Z.of_nat i)), (Z.ltb_spec (Z.of_nat i) (l + Z.of_nat n)), (Z.ltb_spec (Z.of_nat i) (l + Z.of_nat (S n))), (Z.eqb_spec (Z.of_nat i) (Z.of_nat n + l)); cbn [andb]; try lia; try lra.
    rewrite <- e. lra.
Qed.
Lemma shift_le (f : Z -> R) N l n : (forall z, 0 <= f z) -> (forall z, (z < 0 \/ Z.of_nat N <= z)%Z -> f z = 0) ->
  rs n (fun a => f (Z.of_nat a + l)%Z) <= rs N (fun k => f (Z.of_nat k)).
Proof. intros P H. rewrite (shift_sum f N) by exact H. apply rs_le. intros i Hi. destruct (_ && _)%bool; [lra|apply P]. Qed.
Lemma shift_eq (f : Z -> R) N l : (forall z, (z < 0 \/ Z.of_nat N <= z)%Z -> f z = 0) -> (forall a, f (a + l)%Z <> 0 -> (0 <= a < Z.of_nat N)%Z) ->
  rs N (fun a => f (Z.of_nat a + l)%Z) = rs N (fun k => f (Z.of_nat k)).
Proof.
  intros H W. rewrite (shift_sum f N) by exact H. apply rs_ext. intros i Hi.
  destruct (Z.leb_spec l (Z.of_nat i)), (Z.ltb_spec (Z.of_nat i) (l + Z.of_nat N)); cbn [andb]; try reflexivity;
    destruct (Req_EM_T (f (Z.of_nat i)) 0) as [E|E]; try (symmetry; exact E); exfalso; specialize (W (Z.of_nat i - l)%Z); rewrite Z.sub_add in W; specialize (W E); lia.
Qed.

(** ** Moduli *)
Definition nrm (z : Complex) : R := sqrt (Cnorm2 z).
Lemma nrm_pos z : 0 <= nrm z. Proof. apply sqrt_pos. Qed.
Lemma nrm_sq z : nrm z * nrm z = Cnorm2 z. Proof. apply sqrt_sqrt, Cnorm2_nonneg. Qed.
Lemma nrm_mul (a b : Complex) : nrm (a * b)%K = nrm a * nrm b.
Proof. unfold nrm. change ((a * b)%K) with (Cmul a b). replace (Cnorm2 (Cmul a b)) with (Cnorm2 a * Cnorm2 b) by (unfold Cnorm2; cbn; ring). apply sqrt_mult; apply Cnorm2_nonneg. Qed.
Lemma nrm_conj (a : Complex) : nrm (conj a) = nrm a.
Proof. unfold nrm. f_equal. unfold Cnorm2. cbn. ring. Qed.
Lemma nrm_0 : nrm c0 = 0. Proof. unfold nrm, Cnorm2. cbn. rewrite !Rmult_0_r, Rplus_0_r. apply sqrt_0. Qed.
Lemma nrm_ne (z : Complex) : z <> c0 -> 0 < nrm z.
Proof. intros H. apply sqrt_lt_R0. pose proof (Cnorm2_nonneg z). pose proof (Cnorm2_ne z H). lra. Qed.
Lemma nrm_eq0 (z : Complex) : nrm z = 0 -> z = c0.
Proof. intros H. apply norm0. rewrite <- nrm_sq, H. ring. Qed.
Lemma nrm_tri (a b : Complex) : nrm (a + b)%K <= nrm a + nrm b.
Proof.
  pose proof (nrm_pos a) as Pa. pose proof (nrm_pos b) as Pb. pose proof (nrm_pos (a + b)%K) as Pc. pose proof (nrm_sq a) as Sa. pose proof (nrm_sq b) as Sb. pose proof (nrm_sq (a + b)%K) as Sc.
  apply Rsqr_incr_0; [|exact Pc|lra]. unfold Rsqr. rewrite Sc.
  assert (D : fst a * fst b + snd a * snd b <= nrm a * nrm b).
  { apply Rsqr_incr_0_var; [|apply Rmult_le_pos; assumption]. unfold Rsqr.
    replace (nrm a * nrm b * (nrm a * nrm b)) with ((nrm a * nrm a) * (nrm b * nrm b)) by ring. rewrite Sa, Sb. unfold Cnorm2.
    pose proof (Rle_0_sqr (fst a * snd b - snd a * fst b)). unfold Rsqr in *. nra. }
  unfold Cnorm2 in *. change (fst (a + b)%K) with (fst a + fst b). change (snd (a + b)%K) with (snd a + snd b).
  replace ((nrm a + nrm b) * (nrm a + nrm b)) with (nrm a * nrm a + nrm b * nrm b + 2 * (nrm a * nrm b)) by ring. rewrite Sa, Sb. nra.
Qed.
Lemma nrm_sum n (f : nat -> Complex) : nrm (sum n f) <= rs n (fun i => nrm (f i)).
Proof. induction n as [|n IH]; [cbn [sum]; rewrite nrm_0; cbn; lra|]. rewrite rs_S. cbn [sum]. pose proof (nrm_tri (sum n f) (f n)). lra. Qed.

(** ** Cauchy-Schwarz *)
Lemma rs_cs n p q : rs n (fun i => p i * q i) * rs n (fun i => p i * q i) <= rs n (fun i => p i * p i) * rs n (fun i => q i * q i).
Proof.
  set (P := rs n (fun i => p i * q i)). set (A := rs n (fun i => p i * p i)). set (B := rs n (fun i => q i * q i)).
  assert (T : forall s t, 0 <= s * s * A - 2 * (s * t) * P + t * t * B).
  { intros s t. replace (s * s * A - 2 * (s * t) * P + t * t * B) with (rs n (fun i => (s * p i - t * q i) * (s * p i - t * q i))); [apply rs_nonneg; intros; apply Rle_0_sqr|].
    unfold A, P, B. induction n as [|n IH]; [cbn; lra|]. rewrite !rs_S. cbv zeta in IH. rewrite IH. match goal with |- ?a = ?b => change (@eq R a b) end. ring. }
  assert (PA : 0 <= A) by (apply rs_nonneg; intros; apply Rle_0_sqr). assert (PB : 0 <= B) by (apply rs_nonneg; intros; apply Rle_0_sqr).
  destruct (Rle_lt_or_eq_dec 0 B PB) as [L|E]; [|].
  - specialize (T B P). replace (B * B * A - 2 * (B * P) * P + P * P * B) with (B * (A * B - P * P)) in T by ring.
    assert (0 <= A * B - P * P) by (apply (Rmult_le_reg_l B); [exact L|rewrite Rmult_0_r; exact T]). lra.
  - destruct (Req_EM_T P 0) as [Z|Z]; [rewrite Z; nra|]. exfalso. specialize (T 1 ((A + 1) / (2 * P))). rewrite <- E in T.
    replace (1 * 1 * A - 2 * (1 * ((A + 1) / (2 * P))) * P + (A + 1) / (2 * P) * ((A + 1) / (2 * P)) * 0) with (- (1)) in T by (field; exact Z). lra.
Qed.
