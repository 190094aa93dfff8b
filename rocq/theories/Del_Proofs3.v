From Coq Require Import Reals ZArith Lra Lia Psatz Field.
From Verif Require Import Base BaseLemmas RField DftSys ComplexSys Rii_Model Biq_Proofs Biq_Props But_Proofs Filters_Proofs Sig_Proofs Vec_Model Fourier_Model Fourier_Spec Fourier_Proofs2 Fourier_Props Fest_Model Fest_Proofs Fest_Proofs3 Fest_Proofs4 Del_Model Del_Spec Del_Proofs Del_Proofs2.
Local Open Scope R_scope.
Local Notation rs := (sum (K := Rring)).

Lemma div_half a b : 0 < b -> - b <= a <= b -> - (1 / 2) <= a / (2 * b) <= 1 / 2.
Proof.
  intros Hb H. replace (a / (2 * b)) with (a / b * (1 / 2)) by (field; lra). assert (- (1) <= a / b <= 1); [|lra]. split.
  - apply (Rmult_le_reg_r b); [exact Hb|]. unfold Rdiv. rewrite Rmult_assoc, Rinv_l by lra. lra.
  - apply (Rmult_le_reg_r b); [exact Hb|]. unfold Rdiv. rewrite Rmult_assoc, Rinv_l by lra. lra.
Qed.
Lemma interp_ok l k : index_max l = Ok k -> exists d, interp l k = Ok d /\ - (1 / 2) <= d <= 1 / 2 /\ (d <> 0 -> (0 < k /\ k + 1 < List.length l)%nat) /\
  ((k + 1 < List.length l)%nat -> nth (k - 1) l 0 = nth (k + 1) l 0 -> d = 0).
Proof.
  intros IM. assert (Nl : l <> []) by (intros ->; discriminate). destruct (index_max_ok l Nl) as [k' [E [Hk M]]]. rewrite IM in E. injection E as <-.
  pose proof (index_max_first l k IM) as F. unfold interp. rewrite (vget_nth l k 0) by exact Hk. cbn [bind].
  destruct (Nat.ltb_spec 0 k) as [Lk|Lk]; cbn [andb]; [|exists 0; repeat split; try lra; lia].
  destruct (Nat.ltb_spec (k + 1) (List.length l)) as [L2|L2]; [|exists 0; repeat split; try lra; lia].
  rewrite (vget_nth l (k - 1) 0), (vget_nth l (k + 1) 0) by lia. cbn [bind].
  specialize (F (k - 1)%nat ltac:(lia)). pose proof (M (k + 1)%nat L2) as G. set (a := nth (k - 1) l 0) in *. set (b := nth k l 0) in *. set (c := nth (k + 1) l 0) in *.
  unfold qint_loc. rewrite rdiv_ok by lra. cbn [bind]. pose proof (div_half (c - a) (2 * b - c - a) ltac:(lra) ltac:(lra)) as B. set (d := (c - a) / (2 * (2 * b - c - a))) in *.
  exists d. split; [destruct (Rlt_dec d (- (1 / 2))); [lra|]; destruct (Rlt_dec (1 / 2) d); [lra|]; reflexivity|]. split; [exact B|]. split; [lia|]. intros _ Eq. unfold d. rewrite Eq. unfold Rdiv. ring.
Qed.

(** ** Any two signals *)
Lemma xabs_mono x y N l m : (0 < N)%nat -> score x y N l <= score x y N m -> xabs x y l <= xabs x y m.
Proof.
  intros HN H. assert (HI : 0 < INR N) by (apply lt_0_INR; exact HN). pose proof (kappa_pos x y N) as KP. unfold score, Rdiv in H. rewrite !Rmult_assoc in H.
  apply (Rmult_le_reg_r (/ INR N * / kappa x y N)); [apply Rmult_lt_0_compat; apply Rinv_0_lt_compat; assumption|exact H].
Qed.
Lemma score_lt x y N l m : (0 < N)%nat -> xabs x y l < xabs x y m -> score x y N l < score x y N m.
Proof.
  intros HN H. destruct (Rlt_dec (score x y N l) (score x y N m)) as [|G]; [assumption|]. apply Rnot_lt_le in G. apply (xabs_mono x y N m l HN) in G. lra.
Qed.
Lemma est_peak junk x y : let N := Nat.max (List.length x) (List.length y) in (0 < N)%nat -> (3 * N <= 2 ^ 29)%nat ->
  exists t s l, estimation_delais junk x y = Ok (t, s) /\ (Z.abs l < Z.of_nat N)%Z /\ Rabs (t - IZR l) <= 1 / 2 /\ Rabs t <= INR N - 1 /\ s = score x y N l /\ forall m, (Z.abs m < Z.of_nat N)%Z -> xabs x y m <= xabs x y l.
Proof.
  intros N HN HM. destruct (index_max_ok (cnv x y N)) as [k [E [Hk M]]]; [intros Z; apply (f_equal (@List.length R)) in Z; rewrite cnv_length in Z; cbn in Z; lia|].
  destruct (interp_ok _ _ E) as [d [I1 [I2 [I3 _]]]]. rewrite cnv_length in *. set (l := (Z.of_nat k - (Z.of_nat N - 1))%Z).
  exists (IZR l + d), (score x y N l), l. split; [apply estimation_unfold; assumption|]. split; [unfold l; lia|]. split; [replace (IZR l + d - IZR l) with d by ring; unfold Rabs; destruct (Rcase_abs d); lra|].
  split; [|split; [reflexivity|]].
  - destruct (Req_EM_T d 0) as [->|Nd].
    + rewrite Rplus_0_r, <- abs_IZR, INR_IZR_INZ, <- minus_IZR. apply IZR_le. unfold l. lia.
    + specialize (I3 Nd). assert (H : (Z.abs l <= Z.of_nat N - 2)%Z) by (unfold l; lia). apply IZR_le in H. rewrite minus_IZR, <- INR_IZR_INZ, abs_IZR in H. unfold Rabs in *. destruct (Rcase_abs (IZR l)), (Rcase_abs (IZR l + d)); lra.
  - intros m Hm. apply (xabs_mono x y N _ _ HN). specialize (M (Z.to_nat (m + (Z.of_nat N - 1))) ltac:(lia)). rewrite !cnv_nth in M by lia.
    replace (Z.of_nat (Z.to_nat (m + (Z.of_nat N - 1))) - (Z.of_nat N - 1))%Z with m in M by lia. exact M.
Qed.

(** ** Autocorrelation *)
Lemma edge (p : Z -> Prop) (dec : forall z, p z \/ ~ p z) N k i0 : (forall z, p z -> (0 <= z < Z.of_nat N)%Z) -> (k <> 0)%Z -> p i0 -> exists i, p i /\ ~ p (i - k)%Z.
Proof.
  intros B Hk H0. assert (G : forall m : nat, (exists i, p i /\ ~ p (i - k)%Z) \/ p (i0 - Z.of_nat m * k)%Z).
  { induction m as [|m [IH|IH]]; [right; replace (i0 - Z.of_nat 0 * k)%Z with i0 by lia; exact H0|left; exact IH|].
    destruct (dec (i0 - Z.of_nat m * k - k)%Z) as [A|A]; [right; replace (i0 - Z.of_nat (S m) * k)%Z with (i0 - Z.of_nat m * k - k)%Z by lia; exact A|left; eexists; split; eassumption]. }
  destruct (G (S N)) as [A|A]; [exact A|]. exfalso. apply B in A. apply B in H0. assert (1 <= Z.abs k)%Z by lia. nia.
Qed.
Lemma auto_strict x k : not_null x -> k <> 0%Z -> xabs x x k < energy x.
Proof.
  intros [i0 H0] Hk. set (N := List.length x).
  destruct (edge (fun z => sampZ x z <> c0) (fun z => match C0_dec (sampZ x z) with left e => or_intror (fun h => h e) | right e => or_introl e end) N k i0) as [i [Hi Hj]]; [|exact Hk|exact H0|].
  { intros z Hz. destruct (Z_lt_dec z 0); [exfalso; apply Hz, sampZ_out; lia|]. destruct (Z_lt_dec z (Z.of_nat N)); [lia|exfalso; apply Hz, sampZ_out; lia]. }
  assert (Hz : sampZ x (i - k) = c0) by (destruct (C0_dec (sampZ x (i - k))) as [e|e]; [exact e|contradiction]).
  set (q := fun z => if (z =? i)%Z then 0 else en x z).
  apply Rle_lt_trans with (rs N (fun a => 1 / 2 * en x (Z.of_nat a) + 1 / 2 * q (Z.of_nat a + k)%Z)).
  { eapply Rle_trans; [apply xabs_le|]. apply rs_le. intros a Ha. unfold q. destruct (Z.eqb_spec (Z.of_nat a + k) i) as [E|E].
    - replace (Z.of_nat a) with (i - k)%Z at 1 2 3 by lia. replace (Z.of_nat a) with (i - k)%Z by lia. rewrite Hz, nrm_0. pose proof (en_pos x (i - k)%Z). lra.
    - unfold en. set (u := nrm (sampZ x (Z.of_nat a))). set (v := nrm (sampZ x (Z.of_nat a + k))). pose proof (Rle_0_sqr (u - v)). unfold Rsqr in *. lra. }
  rewrite rs_add, !rs_mul. rewrite <- (energy_more x N) by (unfold N; lia).
  assert (Q : rs N (fun a => q (Z.of_nat a + k)%Z) <= rs N (fun a => q (Z.of_nat a))).
  { apply shift_le; intros z; unfold q; destruct (Z.eqb_spec z i); try lra; try apply en_pos. intros; apply (en_out x N); [unfold N; lia|assumption]. }
  assert (Q2 : rs N (fun a => q (Z.of_nat a)) + en x i = energy x).
  { assert (Ri : (0 <= i < Z.of_nat N)%Z). { destruct (Z_lt_dec i 0); [exfalso; apply Hi, sampZ_out; lia|]. destruct (Z_lt_dec i (Z.of_nat N)); [lia|exfalso; apply Hi, sampZ_out; lia]. }
    assert (T : rs N (fun a => if (Z.of_nat a =? i)%Z then en x i else 0) = en x i) by (rewrite rs_at; destruct (Z.leb_spec 0 i), (Z.ltb_spec i (Z.of_nat N)); cbn [andb]; try lia; reflexivity).
    rewrite <- T at 1. rewrite <- rs_add, (energy_more x N) by (unfold N; lia). apply rs_ext. intros a Ha. unfold q. destruct (Z.eqb_spec (Z.of_nat a) i) as [->|]; lra. }
  assert (0 < en x i) by (unfold en; pose proof (nrm_ne _ Hi); nra). set (E := energy x) in *. set (q1 := rs N (fun a => q (Z.of_nat a + k)%Z)) in *. set (q2 := rs N (fun a => q (Z.of_nat a))) in *. change (1 / 2 * E + 1 / 2 * q1 < E). lra.
Qed.
Lemma auto_0 x : xabs x x 0 = energy x.
Proof.
  unfold xabs. assert (E : xcorr_at x x 0 = ((energy x, 0) : C)).
  { unfold xcorr_at, energy. induction (List.length x) as [|n IH]; [reflexivity|]. cbn [sum]. rewrite IH. rewrite samp_Z, Z.add_0_r. apply C_ext; cbn; unfold Cnorm2; ring. }
  rewrite E. unfold Cnorm2. cbn [fst snd]. replace (energy x * energy x + 0 * 0) with (energy x * energy x) by ring. apply sqrt_square, energy_pos.
Qed.
Lemma Cconj_sum n (f : nat -> Complex) : conj (sum n f) = sum n (fun i => conj (f i)).
Proof. induction n as [|n IH]; [apply conj_c0|]. cbn [sum]. rewrite <- IH. apply C_ext; cbn; ring. Qed.
Lemma Cadd_0_l (a : Complex) : (c0 + a = a)%K. Proof. apply C_ext; cbn; ring. Qed.
Lemma Cadd_l0 (b s : Complex) : (b * conj c0 + s = s)%K. Proof. apply C_ext; cbn; ring. Qed.
Lemma Cadd_r0 (s b : Complex) : (s + conj (b * conj c0) = s)%K. Proof. apply C_ext; cbn; ring. Qed.
Lemma auto_sym1 x : xabs x x (-1) = xabs x x 1.
Proof.
  assert (E : conj (xcorr_at x x 1) = xcorr_at x x (-1)).
  { unfold xcorr_at. destruct (List.length x) as [|n] eqn:L; [apply conj_c0|]. rewrite Cconj_sum.
    transitivity (sum n (fun i => (conj (sampZ x (Z.of_nat i)) * sampZ x (Z.of_nat i + 1))%K : Complex)).
    - cbn [sum]. rewrite (sampZ_out x (Z.of_nat n + 1)) by lia.
      transitivity (sum n (fun i => conj (samp x i * conj (sampZ x (Z.of_nat i + 1)))%K : Complex)).
      + exact (Cadd_r0 _ _).
      + apply (sum_ext Cring). intros i Hi. change (samp (K := Cring) x) with (samp (K := Complex) x). cbv beta. rewrite !samp_Z. apply C_ext; cbn; ring.
    - symmetry. etransitivity; [apply (sum_S_l Cring)|]. cbv beta. change (samp (K := Cring) x) with (samp (K := Complex) x). change (sampZ (K := Cring) x) with (sampZ (K := Complex) x). rewrite (samp_Z x 0). rewrite (sampZ_out x (Z.of_nat 0 + -1)) by lia.
      transitivity (sum n (fun i => (samp x (S i) * conj (sampZ x (Z.of_nat (S i) + -1)))%K : Complex)).
      + exact (Cadd_l0 _ _).
      + apply (sum_ext Cring). intros i Hi. change (samp (K := Cring) x) with (samp (K := Complex) x). cbv beta. rewrite !samp_Z. replace (Z.of_nat (S i) + -1)%Z with (Z.of_nat i) by lia. replace (Z.of_nat (S i)) with (Z.of_nat i + 1)%Z by lia. apply C_ext; cbn; ring. }
  unfold xabs. rewrite <- E. f_equal. unfold Cnorm2. cbn. ring.
Qed.

(** ** A delayed copy *)
Section Delayed.
  Variables (x y : list Complex) (d : Z) (c : Complex).
  Hypotheses (Dl : delayed x y d c) (Nn : not_null x) (Hc : c <> c0).
  Lemma corr_del l : xabs x y l = nrm c * xabs x x (l - d).
  Proof using Dl.
    unfold xabs. change (nrm (xcorr_at x y l) = nrm c * nrm (xcorr_at x x (l - d))). rewrite <- (nrm_conj c), <- nrm_mul. f_equal.
    unfold xcorr_at. induction (List.length x) as [|n IH]; [apply C_ext; cbn; ring|]. cbn [sum]. rewrite IH, (Dl (Z.of_nat n + l)%Z). replace (Z.of_nat n + l - d)%Z with (Z.of_nat n + (l - d))%Z by lia.
    generalize (sum n (fun a : nat => (samp x a * conj (sampZ x (Z.of_nat a + (l - d))))%K) : Complex) (samp x n) (sampZ x (Z.of_nat n + (l - d))). intros a b e. apply C_ext; cbn; ring.
  Qed.
  Lemma inside z : sampZ x z <> c0 -> (0 <= z < Z.of_nat (List.length x))%Z /\ (0 <= z + d < Z.of_nat (List.length y))%Z.
  Proof using Dl Hc.
    intros H. split.
    - destruct (Z_lt_dec z 0); [exfalso; apply H, sampZ_out; lia|]. destruct (Z_lt_dec z (Z.of_nat (List.length x))); [lia|exfalso; apply H, sampZ_out; lia].
    - assert (G : sampZ y (z + d) <> c0). { rewrite (Dl (z + d)%Z). replace (z + d - d)%Z with z by lia. intros E. apply nrm_ne in H. pose proof (nrm_ne c Hc). apply (f_equal nrm) in E. rewrite nrm_mul, nrm_0 in E. nra. }
      destruct (Z_lt_dec (z + d) 0); [exfalso; apply G, sampZ_out; lia|]. destruct (Z_lt_dec (z + d) (Z.of_nat (List.length y))); [lia|exfalso; apply G, sampZ_out; lia].
  Qed.
  Let N := Nat.max (List.length x) (List.length y).
  Lemma d_range : (- Z.of_nat (List.length x) < d < Z.of_nat (List.length y))%Z.
  Proof using Dl Hc Nn. destruct Nn as [z Hz]. destruct (inside z Hz). lia. Qed.
  Lemma energy_del : energy y = nrm c * nrm c * energy x.
  Proof using Dl Hc.
    rewrite (energy_more y N) by (unfold N; lia). rewrite (energy_more x N) by (unfold N; lia).
    rewrite <- (shift_eq (en x) N (- d)).
    - rewrite <- rs_mul. apply rs_ext. intros i Hi. unfold en. rewrite (Dl (Z.of_nat i)), nrm_mul. replace (Z.of_nat i - d)%Z with (Z.of_nat i + - d)%Z by lia. match goal with |- ?a = ?b => change (@eq R a b) end. ring.
    - intros z Hz. apply (en_out x N); [unfold N; lia|exact Hz].
    - intros a Ha. assert (H : sampZ x (a + - d) <> c0) by (intros E; apply Ha; unfold en; rewrite E, nrm_0; ring). apply inside in H. unfold N. lia.
  Qed.
  Lemma est_exact junk : (3 * N <= 2 ^ 29)%nat -> let s := nrm c * energy x / INR N in
    estimation_delais junk x y = Ok (IZR d, s / (s + / 10 ^ 50)).
  Proof using Dl Hc Nn.
    intros HM s. assert (HN : (0 < N)%nat) by (pose proof d_range; unfold N; lia). assert (HI : 0 < INR N) by (apply lt_0_INR; exact HN). pose proof (nrm_ne c Hc) as PC. pose proof d_range as DR.
    set (k := Z.to_nat (d + (Z.of_nat N - 1))). assert (Hk : (k < 2 * N - 1)%nat) by (unfold k, N in *; lia). assert (Ek : (Z.of_nat k - (Z.of_nat N - 1) = d)%Z) by (unfold k, N in *; lia).
    assert (IM : index_max (cnv x y N) = Ok k).
    { apply index_max_unique; rewrite cnv_length; [exact Hk|]. intros j Hj Nj. rewrite !cnv_nth by assumption. apply score_lt; [exact HN|]. rewrite !corr_del. apply Rmult_lt_compat_l; [exact PC|].
      rewrite Ek. replace (d - d)%Z with 0%Z by lia. rewrite auto_0. apply auto_strict; [exact Nn|]. lia. }
    destruct (interp_ok _ _ IM) as [t [I1 [_ [I3 I4]]]]. rewrite cnv_length in *.
    assert (T : t = 0).
    { destruct (Req_EM_T t 0) as [e|e]; [exact e|]. specialize (I3 e). apply I4; [lia|]. rewrite !cnv_nth by lia. unfold score. rewrite !corr_del.
      replace (Z.of_nat (k - 1) - (Z.of_nat N - 1) - d)%Z with (-1)%Z by lia. replace (Z.of_nat (k + 1) - (Z.of_nat N - 1) - d)%Z with 1%Z by lia. rewrite auto_sym1. reflexivity. }
    rewrite (estimation_unfold junk x y k t HN HM IM Hk I1). fold N. rewrite T, Ek, Rplus_0_r. do 2 f_equal.
    unfold score. rewrite corr_del. replace (d - d)%Z with 0%Z by lia. rewrite auto_0. unfold s, kappa. f_equal. f_equal. rewrite energy_del.
    replace (nrm c * nrm c * energy x / INR N) with ((nrm c * nrm c) * (energy x / INR N)) by (field; lra).
    assert (P : 0 <= energy x / INR N) by (apply Rmult_le_pos; [apply energy_pos|apply Rlt_le, Rinv_0_lt_compat; exact HI]).
    rewrite sqrt_mult by (try exact P; nra). rewrite sqrt_square by lra.
    replace (sqrt (energy x / INR N) * (nrm c * sqrt (energy x / INR N))) with (nrm c * (sqrt (energy x / INR N) * sqrt (energy x / INR N))) by ring. rewrite sqrt_sqrt by exact P. field. lra.
  Qed.
End Delayed.
