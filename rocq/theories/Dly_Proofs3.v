(** Fractional delay of a real signal: kernel and result. *)
From Coq Require Import Reals ZArith Lra Lia Field.
From Verif Require Import Base BaseLemmas RField DftSys ComplexSys Rii_Model Biq_Proofs But_Proofs Filters_Proofs Fourier_Model Fourier_Spec Fourier_Proofs Fourier_Proofs2 Fourier_Proofs3 Special_Proofs Sig_Proofs Fest_Model Fest_Proofs2 Freq_Proofs2 Del_Proofs Dly_Model Dly_Spec Dly_Proofs Dly_Proofs2.
Local Open Scope R_scope.
Local Notation rs := (sum (K := Rring)).

Lemma sum_fst n (f : nat -> Complex) : fst (sum n f) = rs n (fun i => fst (f i)).
Proof. induction n as [|n IH]; [reflexivity|]. rewrite rs_S, <- IH. reflexivity. Qed.
Lemma sum_snd n (f : nat -> Complex) : snd (sum n f) = rs n (fun i => snd (f i)).
Proof. induction n as [|n IH]; [reflexivity|]. rewrite rs_S, <- IH. reflexivity. Qed.
Lemma sum_re n (f : nat -> R) : sum (K := Complex) n (fun i => re (f i)) = re (rs n f).
Proof. apply C_ext; [rewrite sum_fst; reflexivity|]. rewrite sum_snd. apply rs_0. reflexivity. Qed.
Lemma rkern_kern n u : (0 < n)%nat -> rkern n u = fst (kern n u).
Proof.
  intros H. assert (0 < INR n) by (apply lt_0_INR; exact H). unfold rkern, kern. set (S0 := sum n (fun k => eit _)). assert (E : rs n (fun k => cos (2 * PI * (INR k - INR (n / 2)) * u / INR n)) = fst S0) by (unfold S0; rewrite sum_fst; reflexivity).
  rewrite E. clearbody S0. destruct S0. cbn. unfold Cnorm2, re; cbn. field. lra.
Qed.
(** the gains applied to the bins of a real signal of length 2 h *)
Definition gr (h : nat) (tau : R) (k : nat) : Complex :=
  if (k <? h)%nat then eit (- 2 * PI * INR k * tau / (2 * INR h)) else if (k =? h)%nat then re (cos (PI * tau)) else eit (- 2 * PI * (INR k - 2 * INR h) * tau / (2 * INR h)).
Lemma sin_pairs h (t : R) : rs h (fun k => sin (INR k * t)) + rs h (fun j => if (j =? 0)%nat then 0 else sin ((INR j - INR h) * t)) = 0.
Proof.
  destruct h as [|h]; [cbn; ring|]. rewrite !(sum_S_l Rring). cbn [Nat.eqb]. rewrite (sum_rev Rring h (fun i => sin ((INR (S i) - INR (S h)) * t))).
  assert (E : rs h (fun i => sin ((INR (S (h - 1 - i)) - INR (S h)) * t)) = -1 * rs h (fun i => sin (INR (S i) * t))).
  { rewrite <- rs_mul. apply rs_ext. intros i Hi. replace (-1 * sin (INR (S i) * t)) with (- sin (INR (S i) * t)) by ring. rewrite <- sin_neg. f_equal. rewrite !S_INR, minus_INR, minus_INR by lia. cbn [INR]. ring. }
  match goal with |- ?a = _ => change (@eq R a 0) end. etransitivity; [apply (f_equal2 Rplus); [reflexivity|apply (f_equal (fun z => 0 + z)); exact E]|]. replace (INR 0 * t) with 0 by (cbn [INR]; ring). rewrite sin_0.
  match goal with |- Rplus (cadd 0 ?s) _ = _ => set (q := s : R); change (0 + q + (0 + -1 * q) = 0) end. ring.
Qed.
Lemma kern_real h tau d : (0 < h)%nat -> (sum (2 * h) (fun k => gr h tau k * wz (2 * h) (- d * Z.of_nat k)) / cnat (2 * h))%K = re (rkern (2 * h) (IZR d - tau)) :> Complex.
Proof.
  intros Hh. assert (HP : 0 < INR h) by (apply lt_0_INR; exact Hh). set (u := IZR d - tau).
  set (T := fun k : nat => if (k <? h)%nat then eit (INR k * (2 * PI * u / (2 * INR h))) else if (k =? h)%nat then re (cos (PI * u)) else eit ((INR (k - h) - INR h) * (2 * PI * u / (2 * INR h)))).
  assert (ET : sum (2 * h) (fun k => gr h tau k * wz (2 * h) (- d * Z.of_nat k))%K = sum (K := Complex) (2 * h) T).
  { apply (sum_ext Complex). intros k Hk. unfold gr, T. rewrite wz_eit by lia. rewrite two_h, mult_IZR, opp_IZR, <- INR_IZR_INZ. destruct (Nat.ltb_spec k h) as [L|L].
    - rewrite <- eit_add. f_equal. unfold u. field. lra.
    - destruct (Nat.eqb_spec k h) as [->|Nk].
      + replace (- (2 * PI * (- IZR d * INR h) / (2 * INR h))) with (PI * IZR d) by (field; lra). assert (Sd : sin (PI * IZR d) = 0) by (rewrite Rmult_comm; apply sin_int_PI).
        unfold u. rewrite Rmult_minus_distr_l, cos_minus, Sd. unfold eit, re. apply C_ext; cbn; rewrite ?Sd; ring.
      + rewrite <- eit_add. rewrite minus_INR by lia.
        transitivity (eit (2 * PI * ((INR k - 2 * INR h) * u / (2 * INR h) + IZR d))); [f_equal; unfold u; field; lra|]. rewrite eit_shift. f_equal. field. lra. }
  rewrite ET. assert (EC : cnat (K := Complex) (2 * h) = re (2 * INR h)). { etransitivity; [apply (cnat_C (2 * h))|]. rewrite two_h. reflexivity. }
  rewrite EC. unfold rkern. rewrite half2, two_h.
  assert (E1 : fst (sum (K := Complex) (2 * h) T) = rs (2 * h) (fun k => cos (2 * PI * (INR k - INR h) * u / (2 * INR h)))).
  { rewrite sum_fst. replace (2 * h)%nat with (h + h)%nat by lia. rewrite !(sum_split Rring). etransitivity; [apply (Radd_comm (cth Rring))|]. f_equal; apply rs_ext; intros k Hk; unfold T.
    - destruct (Nat.ltb_spec (h + k) h); [lia|]. destruct (Nat.eqb_spec (h + k) h) as [Z|Z].
      + assert (k = 0)%nat by lia. subst k. cbn [INR fst re]. rewrite <- cos_neg. f_equal. field. lra.
      + replace (h + k - h)%nat with k by lia. cbn [eit fst]. f_equal. field. lra.
    - destruct (Nat.ltb_spec k h); [|lia]. cbn [eit fst]. rewrite plus_INR. f_equal. field. lra. }
  assert (E2 : snd (sum (K := Complex) (2 * h) T) = 0).
  { rewrite sum_snd. replace (2 * h)%nat with (h + h)%nat by lia. rewrite (sum_split Rring). transitivity (rs h (fun k => sin (INR k * (2 * PI * u / (2 * INR h)))) + rs h (fun j => if (j =? 0)%nat then 0 else sin ((INR j - INR h) * (2 * PI * u / (2 * INR h))))); [|apply sin_pairs].
    match goal with |- ?a = ?b => change (@eq R a b) end. apply (f_equal2 Rplus); apply rs_ext; intros k Hk; unfold T.
    - destruct (Nat.ltb_spec k h); [|lia]. reflexivity.
    - destruct (Nat.ltb_spec (h + k) h); [lia|]. destruct (Nat.eqb_spec (h + k) h) as [Z|Z]; destruct (Nat.eqb_spec k 0); try lia; [reflexivity|]. replace (h + k - h)%nat with k by lia. reflexivity. }
  rewrite <- E1. destruct (sum (K := Complex) (2 * h) T) as [s1 s2]. cbn [fst snd] in *. subst s2. apply C_ext; cbn; unfold Cnorm2, re; cbn; field; lra.
Qed.
Lemma gr_pow h tau i : (0 < h)%nat -> cpow (K := Cfield) (eit (- tau * 2 * PI / INR (2 * h))) i = eit (- 2 * PI * INR i * tau / (2 * INR h)).
Proof. intros Hh. assert (0 < INR h) by (apply lt_0_INR; exact Hh). rewrite eit_pow, two_h. f_equal. field. lra. Qed.
Lemma frac_r_ok junk (x : list R) tau : let N := List.length x in (0 < N)%nat -> (N <= 2 ^ 29)%nat ->
  exists y, delais_frac_r junk x tau = Ok y /\ List.length y = N /\
  forall j, (j < N)%nat -> nth j y 0 = rs N (fun l => nth l x 0 * rkern (2 * N) (IZR (Z.of_nat j - Z.of_nat l) - tau)).
Proof.
  intros N HN HM. unfold delais_frac_r. fold N. set (p := (2 * N / 4)%nat). rewrite half2.
  assert (HP : (p + N <= 2 * N)%nat) by (unfold p; pose proof (Nat.div_mod (2 * N) 4 ltac:(lia)); pose proof (Nat.mod_upper_bound (2 * N) 4 ltac:(lia)); lia).
  set (q := (2 * N - p - N)%nat). set (x2 := repeat 0 p ++ x ++ repeat 0 q).
  assert (L2 : List.length x2 = (2 * N)%nat) by (unfold x2; rewrite !app_length, !repeat_length; unfold q; fold N; lia).
  destruct (rtfr_ok junk x2 N HN HM L2) as [X [EX [LX [VX X0]]]]. rewrite EX. cbn [bind]. set (rx := map re x2 : list Complex) in *. set (D := dftZ Complex 1 rx) in *.
  assert (LR : List.length rx = (2 * N)%nat) by (unfold rx; rewrite map_length; exact L2). assert (RR : is_real rx) by apply map_re_real.
  set (G := map (gr N tau) (seq 0 (2 * N))). assert (LG : List.length G = (2 * N)%nat) by (unfold G; rewrite map_length, seq_length; reflexivity).
  set (P := zipmul (DFT 1 rx) G). assert (LP : List.length P = (2 * N)%nat) by (etransitivity; [apply (zipmul_length Complex)|]; rewrite DFT_length, LR; etransitivity; [apply f_equal; exact LG|]; apply Nat.min_id).
  assert (HG : forall k, (k < 2 * N)%nat -> samp G k = gr N tau k) by (intros k Hk; unfold samp, G; rewrite (nth_map_seq (X := Complex)) by exact Hk; reflexivity).
  assert (VP : forall k, (k < 2 * N)%nat -> samp P k = (D (Z.of_nat k) * gr N tau k)%K).
  { intros k Hk. unfold P. etransitivity; [apply (zipmul_nth Complex); rewrite DFT_length, LR; symmetry; exact LG|]. f_equal; [|apply HG; exact Hk]. apply (samp_DFT Complex 1 rx k (Z.of_nat k) 0); rewrite LR; lia. }
  pose proof (lt_0_INR N HN) as NP. pose proof sqrt2_p as S2.
  assert (D0 : conj (D 0%Z) = D 0%Z) by (apply (dft_re_ends rx N 0%nat); auto). assert (DN : conj (D (Z.of_nat N)) = D (Z.of_nat N)) by (apply (dft_re_ends rx N N); auto).
  assert (G0 : gr N tau 0 = re 1). { unfold gr. destruct (Nat.ltb_spec 0 N); [|lia]. replace (- 2 * PI * INR 0 * tau / (2 * INR N)) with 0 by (cbn [INR]; field; lra). apply eit_0. }
  assert (GN : gr N tau N = re (cos (PI * tau))). { unfold gr. destruct (Nat.ltb_spec N N); [lia|]. rewrite Nat.eqb_refl. reflexivity. }
  assert (FV : forall a, (a < 2 * N)%nat -> samp (DFT (-1) P) a = re (rs (2 * N) (fun b => nth b x2 0 * rkern (2 * N) (IZR (Z.of_nat a - Z.of_nat b) - tau)))).
  { intros a Ha. unfold P. etransitivity; [apply (freq_filter Complex rx G a); rewrite ?LR; try lia; exact LG|]. rewrite LR. rewrite <- sum_re. apply (sum_ext Complex). intros b Hb.
    transitivity (cmul (c := Complex) (re (nth b x2 0)) (re (rkern (2 * N) (IZR (Z.of_nat a - Z.of_nat b) - tau)))); [|apply C_ext; cbn; ring]. f_equal; [apply map_re_samp|]. rewrite <- kern_real by exact HN. f_equal. apply (sum_ext Complex). intros k Hk. f_equal. apply HG. exact Hk. }
  set (X' := map _ (seq 0 N)).
  destruct (irtfr_ok junk P X' N HN HM LP) as [s [Es [Ls Vs]]].
  - unfold X'. rewrite map_length, seq_length. reflexivity.
  - intros i Hi. rewrite !VP by lia. rewrite conj_mul. destruct (Nat.eq_dec i 0) as [->|Zi].
    + rewrite Nat.add_0_r, Nat.sub_0_r, GN. f_equal; [symmetry; exact DN|apply C_ext; cbn; ring].
    + f_equal.
      * etransitivity; [symmetry; apply (dftZ_real Complex); [lia|exact RR]|]. f_equal. apply (dftZ_mod Complex _ _ _ _ (-1)%Z). rewrite LR. lia.
      * unfold gr. destruct (Nat.ltb_spec (N + i) N); [lia|]. destruct (Nat.eqb_spec (N + i) N); [lia|]. destruct (Nat.ltb_spec (N - i) N); [|lia]. rewrite eit_conj. f_equal. rewrite plus_INR, minus_INR by lia. field. lra.
  - rewrite VP by lia. rewrite conj_mul, G0. f_equal; [exact D0|apply C_ext; cbn; ring].
  - intros i Hi. unfold X'. unfold samp at 1. rewrite (nth_map_seq (X := Complex)) by lia. cbn [Nat.add]. destruct (Nat.eqb_spec i 0); [lia|]. etransitivity; [apply (f_equal (fun z : Complex => (z * _)%K)); apply VX; exact Hi|]. rewrite VP by lia. rewrite gr_pow by exact HN. unfold gr. destruct (Nat.ltb_spec i N); [|lia].
    generalize (D (Z.of_nat i)) (eit (- 2 * PI * INR i * tau / (2 * INR N))). intros [u1 u2] [v1 v2]. apply C_ext; cbn; ring.
  - unfold X'. unfold samp at 1. rewrite (nth_map_seq (X := Complex)) by lia. cbn [Nat.add Nat.eqb]. etransitivity; [apply (f_equal (fun z : Complex => ((fst z, fst (cmul (c := Complex) (re (snd z)) (cpow (K := Cfield) (eit (- tau * 2 * PI / INR (2 * N))) N))) : C))); exact X0|]. rewrite gr_pow by exact HN. rewrite !VP by lia. rewrite G0, GN. rewrite (real_fst _ D0), (real_fst _ DN).
    replace (- 2 * PI * INR N * tau / (2 * INR N)) with (- (PI * tau)) by (field; lra). cbn [fst snd Z.of_nat]. unfold eit. rewrite cos_neg. generalize (D 0%Z) (D (Z.of_nat N)). intros [a1 a2] [b1 b2]. apply C_ext; cbn; field; lra.
  - intros a Ha. rewrite FV by exact Ha. reflexivity.
  - rewrite Es. cbn [bind]. eexists. split; [reflexivity|]. split; [rewrite firstn_length, skipn_length, Ls; lia|]. intros j Hj.
    rewrite Filters_Proofs.nth_firstn' by exact Hj. rewrite Filters_Proofs.nth_skipn'. rewrite Vs by lia. rewrite FV by lia. cbn [re fst].
    transitivity (rs (p + (List.length x + q)) (fun b => samp (K := Rring) x2 b * rkern (2 * N) (IZR (Z.of_nat (p + j) - Z.of_nat b) - tau))).
    + replace (p + (List.length x + q))%nat with (2 * N)%nat by (unfold q; fold N; lia). apply rs_ext. reflexivity.
    + unfold x2. etransitivity; [apply (sum_pad Rring)|]. apply rs_ext. intros l _. unfold samp. cbn. do 3 f_equal. f_equal. lia.
Qed.
