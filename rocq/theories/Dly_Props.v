(** C75: delay of a signal by an integer or fractional number of samples. *)
From Coq Require Import Reals ZArith Lra Lia.
From Verif Require Import Base BaseLemmas RField DftSys ComplexSys Rii_Model Filters_Model Filters_Proofs Fourier_Model Fourier_Spec Fourier_Proofs3 Sig_Proofs Fest_Model Fest_Proofs3 Special_Proofs Del_Spec Del_Proofs Dly_Model Dly_Spec Dly_Proofs Dly_Proofs2 Dly_Proofs3 Dly_Proofs4.
Local Open Scope R_scope.
Local Notation rs := (sum (K := Rring)).

Lemma int_case tau : {k : Z | tau = IZR k /\ Int_part tau = k} + {forall k, tau <> IZR k}.
Proof.
  destruct (Req_EM_T (IZR (Int_part tau)) tau) as [E|E]; [left; exists (Int_part tau); split; [symmetry; exact E|reflexivity]|right].
  intros k Hk. apply E. subst tau. f_equal. destruct (base_Int_part (IZR k)) as [A B]. assert (C : IZR (Int_part (IZR k)) < IZR k + 1) by lra. assert (D : IZR k < IZR (Int_part (IZR k)) + 1) by lra. rewrite <- plus_IZR in C, D. apply lt_IZR in C, D. lia.
Qed.
Lemma pick (K : cring) (x : list K) (z : Z) : sum (List.length x) (fun l => samp x l * (if (z - Z.of_nat l =? 0)%Z then c1 else c0))%K = sampZ x z.
Proof.
  assert (M0 : forall t : K, (t * c0 = c0)%K) by (intros t; rewrite (Rmul_comm (cth K)); apply (Rmul_0_l (Eqsth K) (Eq_ext (@cadd K) (@cmul K) (@copp K)) (cth K))).
  unfold sampZ. destruct (Z.ltb_spec z 0) as [L|L].
  - apply (sum_zero K). intros i Hi. destruct (Z.eqb_spec (z - Z.of_nat i) 0); [lia|apply M0].
  - destruct (Nat.lt_ge_cases (Z.to_nat z) (List.length x)) as [Q|Q].
    + etransitivity; [apply (sum_single K (List.length x) _ (Z.to_nat z)); [exact Q|]|].
      * intros i Hi Ni. destruct (Z.eqb_spec (z - Z.of_nat i) 0); [lia|apply M0].
      * cbv beta. destruct (Z.eqb_spec (z - Z.of_nat (Z.to_nat z)) 0); [|lia]. unfold samp. rewrite (Rmul_comm (cth K)). apply (Rmul_1_l (cth K)).
    + rewrite (nth_overflow x) by exact Q. apply (sum_zero K). intros i Hi. destruct (Z.eqb_spec (z - Z.of_nat i) 0); [lia|apply M0].
Qed.

(** ** Interpolation formula *)
(** Real signal of N samples, any delay of at most N samples: no exception, same length, and every output is the sum of the inputs weighted by the periodic band-limited kernel of length 2 N. *)
Theorem C75_real : forall (junk : Complex) (x : list R) (tau : R), let N := List.length x in
  (0 < N)%nat -> (N <= 2 ^ 29)%nat -> Rabs tau <= INR N ->
  exists y, delais_r junk x tau = Ok y /\ List.length y = N /\
  forall j, (j < N)%nat -> nth j y 0 = rs N (fun l => nth l x 0 * rkern (2 * N) (INR j - INR l - tau)).
Proof.
  intros junk x tau N HN HM HT. unfold delais_r. assert (EJ : forall j l, IZR (Z.of_nat j - Z.of_nat l) = INR j - INR l) by (intros; rewrite minus_IZR, <- !INR_IZR_INZ; reflexivity). destruct (Req_EM_T _ _) as [E|E].
  - set (k := Int_part tau) in *. assert (HK : (Z.abs k <= Z.of_nat N)%Z). { apply le_IZR. rewrite abs_IZR, E, <- INR_IZR_INZ. exact HT. }
    destruct (delais_ok Rring x k HK) as [y [Ey [Ly Vy]]]. exists y. split; [exact Ey|]. split; [exact Ly|]. intros j Hj. etransitivity; [apply Vy; exact Hj|]. rewrite <- (pick Rring x (Z.of_nat j - k)). fold N. apply rs_ext. intros l Hl.
    rewrite <- EJ, <- E, <- minus_IZR. rewrite rkern_int by lia. replace (Z.of_nat j - Z.of_nat l - k)%Z with (Z.of_nat j - k - Z.of_nat l)%Z by lia. destruct (Z.eqb_spec (Z.of_nat j - k - Z.of_nat l) 0); reflexivity.
  - destruct (frac_r_ok junk x tau HN HM) as [y [Ey [Ly Vy]]]. exists y. split; [exact Ey|]. split; [exact Ly|]. intros j Hj. rewrite Vy by exact Hj. apply rs_ext. intros l _. rewrite EJ. reflexivity.
Qed.
Print Assumptions C75_real.
(** Complex signal: the same with the complex kernel. *)
Theorem C75_complex : forall (junk : Complex) (x : list Complex) (tau : R), let N := List.length x in
  (0 < N)%nat -> (2 * N <= 2 ^ 29)%nat -> Rabs tau <= INR N ->
  exists y, delais_c junk x tau = Ok y /\ List.length y = N /\
  forall j, (j < N)%nat -> samp y j = sum N (fun l => samp x l * kern (2 * N) (INR j - INR l - tau)%R)%K.
Proof.
  intros junk x tau N HN HM HT. unfold delais_c. assert (EJ : forall j l, IZR (Z.of_nat j - Z.of_nat l) = INR j - INR l) by (intros; rewrite minus_IZR, <- !INR_IZR_INZ; reflexivity). destruct (Req_EM_T _ _) as [E|E].
  - set (k := Int_part tau) in *. assert (HK : (Z.abs k <= Z.of_nat N)%Z). { apply le_IZR. rewrite abs_IZR, E, <- INR_IZR_INZ. exact HT. }
    destruct (delais_ok Cring x k HK) as [y [Ey [Ly Vy]]]. exists y. split; [exact Ey|]. split; [exact Ly|]. intros j Hj. etransitivity; [apply Vy; exact Hj|]. rewrite <- (pick Cring x (Z.of_nat j - k)). fold N. apply (sum_ext Cring). intros l Hl.
    rewrite <- EJ, <- E, <- minus_IZR. rewrite kern_int by lia. replace (Z.of_nat j - Z.of_nat l - k)%Z with (Z.of_nat j - k - Z.of_nat l)%Z by lia. reflexivity.
  - destruct (frac_c_ok junk x tau HN HM) as [y [Ey [Ly Vy]]]. exists y. split; [exact Ey|]. split; [exact Ly|]. intros j Hj. etransitivity; [apply Vy; exact Hj|]. apply (sum_ext Cring). intros l _. rewrite EJ. reflexivity.
Qed.
Print Assumptions C75_complex.
(** The real kernel is the Dirichlet kernel sin(pi u) / (n tan(pi u / n)): 1 at 0, null at the other integers of the period. *)
Theorem C75_kernel : forall (N : nat) (u : R), (0 < N)%nat ->
  rkern (2 * N) u * (INR (2 * N) * sin (PI * u / INR (2 * N))) = sin (PI * u) * cos (PI * u / INR (2 * N)) /\
  rkern (2 * N) u = fst (kern (2 * N) u) /\
  rkern (2 * N) 0 = 1 /\ (forall z, (0 < Z.abs z < Z.of_nat (2 * N))%Z -> rkern (2 * N) (IZR z) = 0).
Proof.
  intros N u HN. split; [apply rkern_closed; exact HN|]. split; [apply rkern_kern; lia|]. split; [apply rkern_0; exact HN|]. intros z Hz. rewrite rkern_int by lia. destruct (Z.eqb_spec z 0); [lia|reflexivity].
Qed.
Print Assumptions C75_kernel.
(** Integer delays: exact shift, zeros come in. *)
Theorem C75_integer : forall (junk : Complex) (x : list R) (xc : list Complex) (k : Z), 
  ((Z.abs k <= Z.of_nat (List.length x))%Z -> exists y, delais_r junk x (IZR k) = Ok y /\ List.length y = List.length x /\ forall j, (j < List.length x)%nat -> nth j y 0 = sampZ (K := Rring) x (Z.of_nat j - k)) /\
  ((Z.abs k <= Z.of_nat (List.length xc))%Z -> exists y, delais_c junk xc (IZR k) = Ok y /\ List.length y = List.length xc /\ forall j, (j < List.length xc)%nat -> samp y j = sampZ (K := Cring) xc (Z.of_nat j - k)).
Proof.
  intros junk x xc k. assert (EI : Int_part (IZR k) = k). { destruct (int_case (IZR k)) as [[k' [A B]]|N]; [apply eq_IZR in A; congruence|exfalso; exact (N k eq_refl)]. }
  unfold delais_r, delais_c. rewrite EI. destruct (Req_EM_T (IZR k) (IZR k)) as [_|N]; [|contradiction]. split; intros H; [apply (delais_ok Rring x k H)|apply (delais_ok Cring xc k H)].
Qed.
Print Assumptions C75_integer.
(** The output varies continuously with the delay, through the integer values (where another algorithm is used) too. *)
Theorem C75_continuous : forall (junk : Complex) (x : list R) (tau tau' : R) (y y' : list R), (0 < List.length x)%nat -> (List.length x <= 2 ^ 29)%nat -> Rabs tau <= INR (List.length x) -> Rabs tau' <= INR (List.length x) ->
  delais_r junk x tau = Ok y -> delais_r junk x tau' = Ok y' -> forall j, (j < List.length x)%nat -> Rabs (nth j y 0 - nth j y' 0) <= PI * Rabs (tau - tau') * rs (List.length x) (fun l => Rabs (nth l x 0)).
Proof.
  intros junk x tau tau' y y' HN HM H1 H2 E1 E2 j Hj. destruct (C75_real junk x tau HN HM H1) as [z [Ez [_ Vz]]]. assert (z = y) by congruence. subst z. destruct (C75_real junk x tau' HN HM H2) as [z [Ez' [_ Vz']]]. assert (z = y') by congruence. subst z.
  rewrite Vz, Vz' by exact Hj. set (N := List.length x) in *. set (f := fun (t : R) (l : nat) => nth l x 0 * rkern (2 * N) (INR j - INR l - t)).
  change (Rabs (rs N (f tau) - rs N (f tau')) <= PI * Rabs (tau - tau') * rs N (fun l => Rabs (nth l x 0))). replace (rs N (f tau) - rs N (f tau')) with (rs N (fun l => f tau l + -1 * f tau' l)) by (rewrite rs_add, rs_mul; eqR; ring).
  eapply Rle_trans; [apply rs_abs|]. rewrite <- rs_mul. apply rs_le. intros l _. unfold f. replace (nth l x 0 * rkern (2 * N) (INR j - INR l - tau) + -1 * (nth l x 0 * rkern (2 * N) (INR j - INR l - tau'))) with (nth l x 0 * (rkern (2 * N) (INR j - INR l - tau) - rkern (2 * N) (INR j - INR l - tau'))) by ring.
  rewrite Rabs_mult. pose proof (rkern_lip N (INR j - INR l - tau) (INR j - INR l - tau') HN) as Q. replace (INR j - INR l - tau - (INR j - INR l - tau')) with (- (tau - tau')) in Q by ring. rewrite Rabs_Ropp in Q. pose proof (Rabs_pos (nth l x 0)). nra.
Qed.
Print Assumptions C75_continuous.
(** A fractional delay does not increase the energy, for complex and real signals. *)
Theorem C75_energy : forall (junk : Complex) (x y : list Complex) (tau : R), (0 < List.length x)%nat -> (2 * List.length x <= 2 ^ 29)%nat -> (forall k : Z, tau <> IZR k) -> delais_c junk x tau = Ok y -> energy y <= energy x.
Proof. intros junk x y tau HN HM HT. unfold delais_c. destruct (Req_EM_T _ _) as [E|_]; [exfalso; exact (HT _ (eq_sym E))|]. apply frac_c_energy; assumption. Qed.
Print Assumptions C75_energy.
Lemma real_complex junk (x : list R) tau : let N := List.length x in (0 < N)%nat -> (2 * N <= 2 ^ 29)%nat -> exists y yc, delais_frac_r junk x tau = Ok y /\ delais_frac_c junk (map re x) tau = Ok yc /\ List.length y = N /\ List.length yc = N /\
  forall j, (j < N)%nat -> nth j y 0 = fst (samp yc j) /\ snd (samp yc j) = rs N (fun l => nth l x 0 * snd (kern (2 * N) (INR j - INR l - tau))).
Proof.
  intros N HN HM. assert (EJ : forall j l, IZR (Z.of_nat j - Z.of_nat l) = INR j - INR l) by (intros; rewrite minus_IZR, <- !INR_IZR_INZ; reflexivity). destruct (frac_r_ok junk x tau HN ltac:(fold N; lia)) as [y [Ey [Ly Vy]]]. assert (LM : List.length (map re x) = N) by apply map_length.
  destruct (frac_c_ok junk (map re x) tau) as [yc [Ec [Lc Vc]]]; [eapply Nat.lt_le_trans; [exact HN|apply Nat.eq_le_incl; symmetry; exact LM]|eapply Nat.le_trans; [|exact HM]; apply Nat.eq_le_incl; apply f_equal; exact LM|].
  assert (LM' : List.length (map re x : list Complex) = N) by apply map_length. rewrite LM' in Lc, Vc. exists y, yc. split; [exact Ey|]. split; [exact Ec|]. split; [exact Ly|]. split; [exact Lc|]. intros j Hj. assert (V := Vc j Hj). rewrite (Vy j Hj).
  assert (M : forall l, samp (K := Complex) (map re x) l = re (nth l x 0)) by apply map_re_samp. split.
  - rewrite V. rewrite sum_fst. apply rs_ext. intros l _. rewrite rkern_kern by lia. match goal with |- nth l x 0 * fst ?k = fst (cmul ?w ?k') => change (nth l x 0 * fst k = fst (cmul (c := Complex) (samp (K := Complex) (map re x) l) k)); generalize k end. intros [u1 u2]. rewrite M. unfold re. cbn. ring.
  - rewrite V. rewrite sum_snd. apply rs_ext. intros l _. rewrite <- EJ. match goal with |- snd (cmul ?w ?k') = nth l x 0 * snd ?k => change (snd (cmul (c := Complex) (samp (K := Complex) (map re x) l) k) = nth l x 0 * snd k); generalize k end. intros [u1 u2]. rewrite M. unfold re. cbn. ring.
Qed.
Theorem C75_energy_real : forall (junk : Complex) (x y : list R) (tau : R), (0 < List.length x)%nat -> (2 * List.length x <= 2 ^ 29)%nat -> (forall k : Z, tau <> IZR k) -> delais_r junk x tau = Ok y ->
  rs (List.length y) (fun j => nth j y 0 * nth j y 0) <= rs (List.length x) (fun j => nth j x 0 * nth j x 0).
Proof.
  intros junk x y tau HN HM HT. unfold delais_r. destruct (Req_EM_T _ _) as [E|_]; [exfalso; exact (HT _ (eq_sym E))|]. intros E. destruct (real_complex junk x tau HN HM) as (z & yc & Ez & Ec & Lz & Lc & V). assert (z = y) by congruence. subst z.
  assert (LM : List.length (map re x : list Complex) = List.length x) by apply map_length. assert (Q := frac_c_energy junk (map re x : list Complex) yc tau). rewrite LM in Q. specialize (Q HN HM Ec). rewrite Lz.
  assert (EX : energy (map re x) = rs (List.length x) (fun j => nth j x 0 * nth j x 0)). { unfold energy. rewrite LM. apply rs_ext. intros j _. rewrite map_re_samp. unfold Cnorm2, re. cbn. ring. }
  rewrite <- EX. eapply Rle_trans; [|exact Q]. unfold energy. rewrite Lc. apply rs_le. intros j Hj. destruct (V j Hj) as [V1 _]. rewrite V1. unfold Cnorm2. pose proof (Rle_0_sqr (snd (samp yc j))) as S. unfold Rsqr in S. lra.
Qed.
Print Assumptions C75_energy_real.

(** ** Findings *)
(** A real signal delayed as a complex signal does not stay real: the gain of the bin n/2 is exp(i pi tau) instead of its real part. *)
Theorem C75_imaginary_refuted : forall (junk : Complex) (x : list R) (tau : R), let N := List.length x in (0 < N)%nat -> (2 * N <= 2 ^ 29)%nat -> (forall k : Z, tau <> IZR k) ->
  exists y, delais_c junk (map re x) tau = Ok y /\ forall j, (j < N)%nat -> snd (samp y j) = sin (PI * tau) / INR (2 * N) * (-1) ^ j * rs N (fun l => (-1) ^ l * nth l x 0).
Proof.
  intros junk x tau N HN HM HT. destruct (real_complex junk x tau HN HM) as (y & yc & Ey & Ec & Ly & Lc & V). exists yc. unfold delais_c. destruct (Req_EM_T _ _) as [E|_]; [exfalso; exact (HT _ (eq_sym E))|]. split; [exact Ec|]. intros j Hj. destruct (V j Hj) as [_ V2]. fold N in V2. rewrite V2. rewrite <- rs_mul. apply rs_ext. intros l _.
  assert (0 < INR (2 * N)) by (apply lt_0_INR; lia). rewrite kern_imag by exact HN.
  assert (PC : forall k, cos (INR k * PI) = (-1) ^ k /\ sin (INR k * PI) = 0). { induction k as [|k [IC IS]]; [cbn [INR pow]; rewrite Rmult_0_l, cos_0, sin_0; split; reflexivity|]. rewrite S_INR, Rmult_plus_distr_r, Rmult_1_l, neg_cos, neg_sin, IC, IS. cbn [pow]. split; ring. }
  destruct (PC j) as [C1 S1]. destruct (PC l) as [C2 S2]. replace (PI * (INR j - INR l - tau)) with (INR j * PI - INR l * PI - PI * tau) by ring. rewrite !sin_minus, !cos_minus, C1, C2, S1, S2. eqR. field. lra.
Qed.
Print Assumptions C75_imaginary_refuted.
(** An empty signal with a fractional delay: exception of the transform. *)
Theorem C75_empty_refuted : forall (junk : Complex) (tau : R), (forall k : Z, tau <> IZR k) -> delais_c junk [] tau = Exc /\ delais_r junk [] tau = Exc.
Proof.
  intros junk tau HT. unfold delais_c, delais_r. destruct (Req_EM_T _ _) as [E|_]; [exfalso; exact (HT _ (eq_sym E))|]. split; reflexivity.
Qed.
Print Assumptions C75_empty_refuted.

(** ** Examples *)
Example C75_one_half : rkern 2 (- (1 / 2)) = 1 / 2.
Proof.
  unfold rkern. change (2 / 2)%nat with 1%nat. change ((0 + cos (2 * PI * (INR 0 - INR 1) * - (1 / 2) / INR 2) + cos (2 * PI * (INR 1 - INR 1) * - (1 / 2) / INR 2)) / INR 2 = 1 / 2). cbn [INR].
  replace (2 * PI * (0 - 1) * - (1 / 2) / (1 + 1)) with (PI / 2) by field. replace (2 * PI * (1 - 1) * - (1 / 2) / (1 + 1)) with 0 by field. rewrite cos_PI2, cos_0. field.
Qed.
(** one sample delayed by half a sample: half of it (the other half is outside of the signal) *)
Example C75_sample : forall junk a, delais_r junk [a] (1 / 2) = Ok [a * (1 / 2)].
Proof.
  intros junk a. destruct (C75_real junk [a] (1 / 2)) as [y [E [L V]]]; [cbn; lia| |cbn [List.length INR]; rewrite Rabs_pos_eq; lra|].
  - change (1 <= 2 ^ 29)%nat. apply Nat.le_trans with (2 ^ 0)%nat; [reflexivity|apply Nat.pow_le_mono_r; lia].
  - rewrite E. f_equal. cbn [List.length] in L, V. destruct y as [|b [|]]; try discriminate. f_equal. specialize (V 0%nat ltac:(lia)). cbn [nth] in V. rewrite V. change (0 + a * rkern 2 (INR 0 - INR 0 - 1 / 2) = a * (1 / 2)). replace (INR 0 - INR 0 - 1 / 2) with (- (1 / 2)) by (cbn [INR]; ring). rewrite C75_one_half. ring.
Qed.
Example C75_not_integer : forall k : Z, 1 / 2 <> IZR k.
Proof. intros k E. assert (H : IZR (2 * k) = IZR 1) by (rewrite mult_IZR, <- E; field). apply eq_IZR in H. lia. Qed.
