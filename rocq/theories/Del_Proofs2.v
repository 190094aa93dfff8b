From Coq Require Import Reals ZArith Lra Lia Psatz Field.
From Verif Require Import Base BaseLemmas RField DftSys ComplexSys Rii_Model Biq_Proofs Biq_Props But_Proofs Filters_Proofs Sig_Proofs Vec_Model Fourier_Model Fourier_Spec Fourier_Proofs2 Fourier_Props Fest_Model Fest_Proofs Fest_Proofs3 Fest_Proofs4 Del_Model Del_Spec Del_Proofs.
Local Open Scope R_scope.
Local Notation rs := (sum (K := Rring)).

(** ** The first of the largest elements *)
Lemma imax_first l : forall i best v, (best < i)%nat -> let k := imax_from l i best v in
  k <> best -> (i <= k)%nat /\ v < nth (k - i) l 0 /\ forall j, (i + j < k)%nat -> nth j l 0 < nth (k - i) l 0.
Proof.
  induction l as [|a t IH]; intros i best v Hb; cbn -[Nat.sub nth]; [easy|].
  destruct (Rlt_dec v a) as [L|L]; intros Nk.
  - destruct (Nat.eq_dec (imax_from t (S i) i a) i) as [E|E].
    + rewrite E. replace (i - i)%nat with 0%nat by lia. cbn [nth]. repeat split; [lia|exact L|intros; lia].
    + destruct (IH (S i) i a ltac:(lia) E) as [A [B Cc]]. set (k := imax_from t (S i) i a) in *. replace (k - i)%nat with (S (k - S i)) by lia. cbn [nth].
      repeat split; [lia|lra|]. intros [|j] Hj; [exact B|]. apply Cc. lia.
  - destruct (IH (S i) best v ltac:(lia) Nk) as [A [B Cc]]. set (k := imax_from t (S i) best v) in *. replace (k - i)%nat with (S (k - S i)) by lia. cbn [nth].
    repeat split; [lia|exact B|]. intros [|j] Hj; [lra|]. apply Cc. lia.
Qed.
Lemma index_max_first l k : index_max l = Ok k -> forall j, (j < k)%nat -> nth j l 0 < nth k l 0.
Proof.
  destruct l as [|a t]; [discriminate|]. unfold index_max. intros [= <-] j Hj.
  destruct (Nat.eq_dec (imax_from t 1 0 a) 0) as [E|E]; [rewrite E in Hj; lia|].
  destruct (imax_first t 1 0 a ltac:(lia) E) as [A [B Cc]]. set (k := imax_from t 1 0 a) in *. replace k with (S (k - 1)) by lia. cbn [nth].
  destruct j as [|j]; [exact B|]. apply Cc. lia.
Qed.

(** ** Samples of a padded vector *)
Lemma sampZ_pad (x : list Complex) n z : sampZ (x ++ repeat c0 n) z = sampZ x z.
Proof.
  unfold sampZ. destruct (Z.ltb_spec z 0) as [L|L]; [reflexivity|]. destruct (Nat.lt_ge_cases (Z.to_nat z) (List.length x)) as [H|H].
  - apply app_nth1. exact H.
  - rewrite app_nth2 by exact H. rewrite (nth_overflow x) by exact H. apply nth_repeat.
Qed.
Lemma samp_Z (x : list Complex) i : samp x i = sampZ x (Z.of_nat i).
Proof. symmetry. apply (sampZ_nat Complex). Qed.
Lemma sampZ_out (x : list Complex) z : (z < 0 \/ Z.of_nat (List.length x) <= z)%Z -> sampZ x z = c0.
Proof. intros [H|H]; [apply (sampZ_neg Complex); exact H|apply (sampZ_over Complex); lia]. Qed.
Definition corrZ (x y : list Complex) (n : nat) (l : Z) : Complex := sum n (fun a => (sampZ x (Z.of_nat a) * conj (sampZ y (Z.of_nat a + l)))%K).
Lemma conj_c0 : conj (c0 : Complex) = c0.
Proof. apply C_ext; cbn; ring. Qed.
Lemma Cmul_0_l (a : Complex) : (c0 * a = c0)%K. Proof. apply C_ext; cbn; ring. Qed.
Lemma Cadd_mul0 (a b : Complex) : (a + c0 * b = a)%K. Proof. apply C_ext; cbn; ring. Qed.
Lemma Cadd_0_r (a : Complex) : (a + c0 = a)%K. Proof. apply C_ext; cbn; ring. Qed.
Lemma corrZ_more x y n l : (List.length x <= n)%nat -> corrZ x y n l = xcorr_at x y l.
Proof.
  intros H. induction n as [|n IH].
  - assert (List.length x = 0%nat) by lia. unfold xcorr_at. rewrite H0. reflexivity.
  - destruct (Nat.eq_dec (List.length x) (S n)) as [E|E].
    + unfold xcorr_at, corrZ. rewrite E. apply (sum_ext Cring). intros i Hi. rewrite <- samp_Z. reflexivity.
    + rewrite <- IH by lia. unfold corrZ. cbn [sum]. rewrite (sampZ_out x (Z.of_nat n)) by lia. apply Cadd_mul0.
Qed.
Lemma xcorr_pad (x y : list Complex) n m l : xcorr_at (x ++ repeat c0 n) (y ++ repeat c0 m) l = xcorr_at x y l.
Proof.
  transitivity (corrZ x y (List.length x + n) l); [|apply corrZ_more; lia].
  unfold xcorr_at, corrZ. rewrite app_length, repeat_length. apply (sum_ext Cring). intros i Hi. rewrite samp_Z, !sampZ_pad. reflexivity.
Qed.
Definition en (x : list Complex) (z : Z) : R := nrm (sampZ x z) * nrm (sampZ x z).
Lemma en_pos x z : 0 <= en x z. Proof. unfold en. rewrite nrm_sq. apply Cnorm2_nonneg. Qed.
Lemma en_out x N z : (List.length x <= N)%nat -> (z < 0 \/ Z.of_nat N <= z)%Z -> en x z = 0.
Proof. intros L H. unfold en. rewrite sampZ_out by lia. rewrite nrm_0. ring. Qed.
Lemma energy_more x n : (List.length x <= n)%nat -> energy x = rs n (fun i => en x (Z.of_nat i)).
Proof.
  intros H. unfold energy. induction n as [|n IH].
  - assert (E : List.length x = 0%nat) by lia. rewrite E. reflexivity.
  - destruct (Nat.eq_dec (List.length x) (S n)) as [E|E].
    + rewrite E. apply rs_ext. intros i Hi. unfold en. rewrite nrm_sq, <- samp_Z. reflexivity.
    + rewrite rs_S, <- IH by lia. rewrite (en_out x n) by lia. symmetry. apply Rplus_0_r.
Qed.
Lemma energy_pos x : 0 <= energy x. Proof. apply rs_nonneg. intros. apply Cnorm2_nonneg. Qed.
Lemma energy_pad (x : list Complex) n : energy (x ++ repeat c0 n) = energy x.
Proof.
  rewrite (energy_more x (List.length x + n)) by lia. unfold energy. rewrite app_length, repeat_length. apply rs_ext. intros i Hi.
  unfold en. rewrite nrm_sq, samp_Z, sampZ_pad. reflexivity.
Qed.
Lemma energy_pos_nn x : not_null x -> 0 < energy x.
Proof.
  intros [a Ha]. rewrite (energy_more x (List.length x)) by lia.
  assert (R : (0 <= a < Z.of_nat (List.length x))%Z) by (destruct (Z_lt_dec a 0); [exfalso; apply Ha, sampZ_out; lia|]; destruct (Z_lt_dec a (Z.of_nat (List.length x))); [lia|exfalso; apply Ha, sampZ_out; lia]).
  set (N := List.length x) in *. assert (G : 0 < en x a) by (unfold en; pose proof (nrm_ne _ Ha); nra).
  assert (S1 : rs N (fun i => if (Z.of_nat i =? a)%Z then en x a else 0) <= rs N (fun i => en x (Z.of_nat i))).
  { apply rs_le. intros i Hi. destruct (Z.eqb_spec (Z.of_nat i) a) as [<-|]; [lra|apply en_pos]. }
  rewrite rs_at in S1. destruct (Z.leb_spec 0 a), (Z.ltb_spec a (Z.of_nat N)); cbn [andb] in S1; try lia. lra.
Qed.

(** ** Bounds of the correlation *)
Lemma xabs_le x y l : xabs x y l <= rs (List.length x) (fun a => nrm (sampZ x (Z.of_nat a)) * nrm (sampZ y (Z.of_nat a + l))).
Proof.
  unfold xabs. change (nrm (xcorr_at x y l) <= rs (List.length x) (fun a => nrm (sampZ x (Z.of_nat a)) * nrm (sampZ y (Z.of_nat a + l)))).
  unfold xcorr_at. eapply Rle_trans; [apply nrm_sum|]. apply rs_le. intros i Hi. rewrite nrm_mul, nrm_conj, samp_Z. apply Rle_refl.
Qed.
Lemma xabs_pos x y l : 0 <= xabs x y l. Proof. apply sqrt_pos. Qed.
Lemma xabs_cs x y l : xabs x y l <= sqrt (energy x) * sqrt (energy y).
Proof.
  rewrite <- sqrt_mult by apply energy_pos. apply Rle_trans with (sqrt (xabs x y l * xabs x y l)); [rewrite sqrt_square by apply xabs_pos; apply Rle_refl|].
  apply sqrt_le_1_alt. set (P := rs (List.length x) (fun a => nrm (sampZ x (Z.of_nat a)) * nrm (sampZ y (Z.of_nat a + l)))).
  apply Rle_trans with (P * P); [apply Rmult_le_compat; try apply xabs_pos; apply xabs_le|].
  eapply Rle_trans; [apply rs_cs|]. rewrite (energy_more x (List.length x)) by lia. rewrite (energy_more y (List.length y)) by lia.
  apply Rmult_le_compat_l; [apply rs_nonneg; intros; apply Rle_0_sqr|].
  apply (shift_le (en y) (List.length y) l (List.length x)); [apply en_pos|]. intros z Hz. apply (en_out y (List.length y)); lia.
Qed.

(** ** The estimator on its own terms *)
Definition kappa (x y : list Complex) (N : nat) : R := sqrt (energy x / INR N) * sqrt (energy y / INR N) + / 10 ^ 50.
Definition score (x y : list Complex) (N : nat) (l : Z) : R := xabs x y l / INR N / kappa x y N.
Lemma eps_pos : 0 < / 10 ^ 50. Proof. apply Rinv_0_lt_compat, pow_lt. lra. Qed.
Lemma kappa_pos x y N : 0 < kappa x y N.
Proof. unfold kappa. pose proof eps_pos. assert (0 <= sqrt (energy x / INR N) * sqrt (energy y / INR N)) by (apply Rmult_le_pos; apply sqrt_pos). lra. Qed.
Lemma score_range x y N l : (0 < N)%nat -> 0 <= score x y N l < 1.
Proof.
  intros HN. assert (HI : 0 < INR N) by (apply lt_0_INR; exact HN). pose proof (kappa_pos x y N) as KP. unfold score. split.
  - apply Rmult_le_pos; [apply Rmult_le_pos; [apply xabs_pos|]|]; apply Rlt_le, Rinv_0_lt_compat; assumption.
  - apply (Rmult_lt_reg_r (kappa x y N)); [exact KP|]. unfold Rdiv at 1. rewrite Rmult_assoc, Rinv_l, Rmult_1_r, Rmult_1_l by lra.
    unfold kappa. assert (E : sqrt (energy x / INR N) * sqrt (energy y / INR N) = sqrt (energy x) * sqrt (energy y) / INR N).
    { rewrite !sqrt_div by (try apply energy_pos; exact HI). replace (sqrt (energy x) / sqrt (INR N) * (sqrt (energy y) / sqrt (INR N))) with (sqrt (energy x) * sqrt (energy y) / (sqrt (INR N) * sqrt (INR N))).
      - rewrite sqrt_sqrt by lra. reflexivity.
      - field. apply Rgt_not_eq, sqrt_lt_R0. exact HI. }
    rewrite E. pose proof (xabs_cs x y l) as B. pose proof eps_pos. assert (xabs x y l / INR N <= sqrt (energy x) * sqrt (energy y) / INR N); [|lra].
    apply Rmult_le_compat_r; [apply Rlt_le, Rinv_0_lt_compat; exact HI|exact B].
Qed.

Lemma moyenne2_ok x : moyenne2 x = energy x / INR (List.length x).
Proof. unfold moyenne2, energy. f_equal. apply rs_ext. intros i Hi. apply nth_vabs2. exact Hi. Qed.
Lemma nrm_div_nat (v : Complex) N : (0 < N)%nat -> nrm (v / cnat N)%K = nrm v / INR N.
Proof.
  intros HN. assert (HI : 0 < INR N) by (apply lt_0_INR; exact HN). unfold nrm.
  assert (E : Cnorm2 (v / cnat N)%K = Cnorm2 v / (INR N * INR N)).
  { change (@cnat (fring (dfd Complex)) N) with (@cnat Cring N). rewrite cnat_C. unfold Cnorm2. cbn. unfold Cnorm2. cbn. field. lra. }
  rewrite E, sqrt_div by (try apply Cnorm2_nonneg; nra). rewrite sqrt_square by lra. reflexivity.
Qed.
Lemma roundS (x y : list Complex) : let '(xp, yp) := pad_zeros (K := Complex) x y in let N := Nat.max (List.length x) (List.length y) in
  List.length xp = N /\ List.length yp = N /\ (forall z, sampZ xp z = sampZ x z) /\ (forall z, sampZ yp z = sampZ y z) /\ (forall l, xcorr_at xp yp l = xcorr_at x y l) /\ energy xp = energy x /\ energy yp = energy y.
Proof.
  unfold pad_zeros. repeat split; try (intros z; apply sampZ_pad); try (intros l; apply xcorr_pad); try apply energy_pad; rewrite app_length, repeat_length; lia.
Qed.
(** the normalised correlation vector *)
Definition cnv (x y : list Complex) (N : nat) : list R := map (fun i => score x y N (Z.of_nat i - (Z.of_nat N - 1))) (seq 0 (2 * N - 1)).
Lemma cnv_nth x y N i : (i < 2 * N - 1)%nat -> nth i (cnv x y N) 0 = score x y N (Z.of_nat i - (Z.of_nat N - 1)).
Proof. intros H. unfold cnv. rewrite (nth_map_seq (X := R)) by exact H. reflexivity. Qed.
Lemma cnv_length x y N : List.length (cnv x y N) = (2 * N - 1)%nat.
Proof. unfold cnv. rewrite map_length. apply seq_length. Qed.

Definition interp (l : list R) (k : nat) : res R :=
  let* s := vget l k in
  if ((0 <? k) && (k + 1 <? List.length l))%nat%bool then
      let* cn0 := vget l (k - 1) in
      let* cn1 := vget l (k + 1) in
      let* d := qint_loc cn0 s cn1 in
      Ok (if Rlt_dec d (- (1 / 2)) then - (1 / 2) else if Rlt_dec (1 / 2) d then 1 / 2 else d)
    else Ok 0.
Lemma estimation_unfold junk x y k d : let N := Nat.max (List.length x) (List.length y) in (0 < N)%nat -> (3 * N <= 2 ^ 29)%nat ->
  index_max (cnv x y N) = Ok k -> (k < 2 * N - 1)%nat -> interp (cnv x y N) k = Ok d ->
  estimation_delais junk x y = Ok (IZR (Z.of_nat k - (Z.of_nat N - 1)) + d, score x y N (Z.of_nat k - (Z.of_nat N - 1))).
Proof.
  intros N HN HM IM Hk IN. unfold estimation_delais. pose proof (roundS x y) as P. destruct (pad_zeros x y) as [xp yp]. cbv zeta in P. fold N in P.
  destruct P as [L1 [L2 [_ [_ [XC [E1 E2]]]]]]. rewrite L1.
  destruct (C26_xcorr Complex junk xp yp N ltac:(lia) ltac:(lia) HN ltac:(lia)) as [XR _]. rewrite XR. cbn [bind].
  assert (CE : map (fun v => v / (sqrt (moyenne2 xp) * sqrt (moyenne2 yp) + / 10 ^ 50)) (vabs (map (fun i => (xcorr_at xp yp (Z.of_nat i - (Z.of_nat N - 1)) / cnat (List.length xp))%K) (seq 0 (2 * N - 1)))) = cnv x y N).
  { unfold vabs, cnv. rewrite !map_map. apply map_ext. intros i. rewrite !moyenne2_ok, L1, L2, E1, E2. unfold score, kappa. f_equal.
    rewrite XC. apply nrm_div_nat. exact HN. }
  match goal with |- bind (index_max ?l) _ = _ => change l with (map (fun v => v / (sqrt (moyenne2 xp) * sqrt (moyenne2 yp) + / 10 ^ 50)) (vabs (map (fun i => (xcorr_at xp yp (Z.of_nat i - (Z.of_nat N - 1)) / cnat (List.length xp))%K) (seq 0 (2 * N - 1))))) end.
  rewrite CE, IM. cbn [bind]. unfold interp in IN. rewrite (vget_nth _ k 0) in * by (rewrite cnv_length; exact Hk). cbn [bind] in *. rewrite cnv_length in *.
  rewrite IN. cbn [bind]. rewrite cnv_nth by exact Hk. reflexivity.
Qed.
