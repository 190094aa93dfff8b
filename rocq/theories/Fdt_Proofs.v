From Coq Require Import List Arith ZArith Reals Lia Lra Field.
From Verif Require Import Base BaseLemmas DftSys ComplexSys Filters_Model Filters_Proofs Fourier_Model Fourier_Proofs Fourier_Proofs2 Fourier_Proofs3 Fourier_Spec
  Freq_Proofs2 Del_Model Chn_Spec Fdt_Model Fdt_Spec.
Import ListNotations.

(** ** Segments *)
Lemma hd_get_ok {A} (x : list A) m : m <= length x -> hd_get x m = Ok (vhead m x).
Proof. intros H. unfold hd_get, seg. cbn [Nat.add]. apply Nat.leb_le in H. rewrite H. reflexivity. Qed.
Lemma tl_get_ok {A} (x : list A) m : m <= length x -> tl_get x m = Ok (vtail m x).
Proof.
  intros H. unfold tl_get, seg. destruct (Nat.ltb_spec (length x) m); [lia|].
  replace (length x - m + m) with (length x) by lia. rewrite Nat.leb_refl. unfold vtail. f_equal. apply firstn_all2. rewrite skipn_length. lia.
Qed.
Lemma band_ok {A} (d : A) n2 m (h t : list A) : 2 * m <= n2 -> length h = m -> length t = m ->
  (let* X2 := hd_set (repeat d n2) m h in tl_set X2 m t) = Ok (h ++ repeat d (n2 - 2 * m) ++ t).
Proof.
  intros H Lh Lt. unfold hd_set, set_seg. rewrite repeat_length, Lh. cbn [Nat.add].
  destruct (Nat.leb_spec m n2); [|lia]. cbn [bind firstn app].
  assert (E : skipn m (repeat d n2) = repeat d (n2 - m)).
  { replace n2 with (m + (n2 - m)) at 1 by lia. rewrite repeat_app, skipn_app, skipn_all2 by (rewrite repeat_length; lia).
    rewrite repeat_length, Nat.sub_diag. reflexivity. }
  rewrite E. unfold tl_set, set_seg. rewrite app_length, repeat_length, Lh, Lt.
  destruct (Nat.ltb_spec (m + (n2 - m)) m); [lia|].
  destruct (Nat.leb_spec (m + (n2 - m) - m + m) (m + (n2 - m))); [|lia]. f_equal.
  rewrite firstn_app, Lh, firstn_all2 by lia. rewrite <- app_assoc. f_equal.
  rewrite skipn_all2 by (rewrite app_length, repeat_length, Lh; lia). rewrite app_nil_r. f_equal.
  replace (n2 - m) with ((n2 - 2 * m) + m) at 2 by lia. rewrite repeat_app, firstn_app, repeat_length, firstn_all2 by (rewrite repeat_length; lia).
  replace (m + (n2 - m) - m - m - (n2 - 2 * m)) with 0 by lia. cbn [firstn]. apply app_nil_r.
Qed.

Local Open Scope cring_scope.
Section Band.
Context (F : dsys).
Add Ring Br : (cth F).
Add Field Bf : (fth F).
(** Spectrum with the middle changed in size. *)
Definition band (m n2 : nat) (X : list F) : list F := vhead m X ++ repeat 0 (n2 - 2 * m) ++ vtail m X.
Lemma band_length m n2 X : (m <= length X)%nat -> (2 * m <= n2)%nat -> length (band m n2 X) = n2.
Proof. intros H1 H2. unfold band. rewrite !app_length, repeat_length, vhead_length, vtail_length by lia. lia. Qed.
Lemma band_sum m n2 X (g : nat -> F) : (m <= length X)%nat -> (2 * m <= n2)%nat ->
  sum n2 (fun k => samp (band m n2 X) k * g k) =
  sum m (fun k => samp X k * g k) + sum m (fun k => samp X (length X - m + k) * g (n2 - m + k)%nat).
Proof.
  intros H1 H2. replace n2 with (m + ((n2 - 2 * m) + m))%nat at 1 by lia. rewrite (sum_split F m), (sum_split F (n2 - 2 * m)).
  assert (L1 : length (vhead m X) = m) by (apply vhead_length; lia).
  assert (E2 : sum (n2 - 2 * m) (fun i => samp (band m n2 X) (m + i) * g (m + i)%nat) = 0).
  { apply (sum_zero F). intros i Hi. unfold band. rewrite (samp_app F), L1. destruct (Nat.ltb_spec (m + i) m); [lia|].
    rewrite (samp_app F), repeat_length. destruct (Nat.ltb_spec (m + i - m) (n2 - 2 * m)); [|lia]. rewrite (samp_repeat0 F). ring. }
  rewrite E2.
  assert (E1 : sum m (fun k => samp (band m n2 X) k * g k) = sum m (fun k => samp X k * g k)).
  { apply sum_ext. intros k Hk. f_equal. unfold band. rewrite (samp_app F), L1. destruct (Nat.ltb_spec k m); [|lia]. apply vhead_nth. exact Hk. }
  rewrite E1.
  assert (E3 : sum m (fun i => samp (band m n2 X) (m + (n2 - 2 * m + i)) * g (m + (n2 - 2 * m + i))%nat) = sum m (fun k => samp X (length X - m + k) * g (n2 - m + k)%nat)).
  { apply sum_ext. intros k Hk. unfold band. rewrite (samp_app F), L1. destruct (Nat.ltb_spec (m + (n2 - 2 * m + k)) m); [lia|].
    rewrite (samp_app F), repeat_length. destruct (Nat.ltb_spec (m + (n2 - 2 * m + k) - m) (n2 - 2 * m)); [lia|].
    rewrite vtail_nth. f_equal; f_equal; lia. }
  rewrite E3. ring.
Qed.

(** Value at t of the resampled signal, as a linear functional of the samples. *)
Definition resamp (n n2 m : nat) (t : Z) (x : nat -> F) : F :=
  sum n (fun i => x i * (sum m (fun k => wz n (Z.of_nat i * Z.of_nat k) * wz n2 (- (Z.of_nat k * t))) +
    sum m (fun k => wz n (Z.of_nat i * (Z.of_nat n - Z.of_nat m + Z.of_nat k)) * wz n2 (- ((Z.of_nat n2 - Z.of_nat m + Z.of_nat k) * t))))) / (rt n * rt n2).
Lemma resamp_ok (x : list F) m n2 t : (0 < length x)%nat -> (2 * m <= length x)%nat -> (2 * m <= n2)%nat -> (t < n2)%nat ->
  samp (DFT (-1) (band m n2 (DFT 1 x))) t = resamp (length x) n2 m (Z.of_nat t) (samp x).
Proof.
  intros Hn H1 H2 Ht. assert (LB : length (band m n2 (DFT 1 x)) = n2) by (apply band_length; rewrite ?DFT_length; lia).
  rewrite DFT_nth by (rewrite LB; exact Ht). unfold dft. cbv zeta. rewrite LB.
  rewrite (sum_ext F n2 _ (fun k => samp (band m n2 (DFT 1 x)) k * (fun k => wz n2 (- (Z.of_nat k * Z.of_nat t))) k))
    by (intros k _; f_equal; f_equal; lia).
  rewrite band_sum by (rewrite ?DFT_length; lia). rewrite DFT_length. set (n := length x) in *.
  pose proof (rt_ne F n Hn) as Nn. assert (N2 : (0 < n2)%nat) by lia. pose proof (rt_ne F n2 N2) as Nn2.
  assert (EX : forall k g, (k < n)%nat -> samp (DFT 1 x) k * g = sum n (fun j => samp x j * (wz n (Z.of_nat j * Z.of_nat k) * g)) / rt n).
  { intros k g Hk. rewrite DFT_nth by exact Hk. unfold dft. cbv zeta. fold n.
    transitivity (sum n (fun j => samp x j * wz n (1 * Z.of_nat j * Z.of_nat k)) * g / rt n); [field; exact Nn|]. f_equal. rewrite <- (sum_mul_r F). apply sum_ext. intros j _.
    replace (1 * Z.of_nat j * Z.of_nat k)%Z with (Z.of_nat j * Z.of_nat k)%Z by lia. ring. }
  rewrite (sum_ext F m _ (fun k => sum n (fun j => samp x j * (wz n (Z.of_nat j * Z.of_nat k) * wz n2 (- (Z.of_nat k * Z.of_nat t)))) / rt n)) by (intros k Hk; apply EX; lia).
  rewrite (sum_ext F m (fun k => samp (DFT 1 x) (n - m + k) * _) (fun k => sum n (fun j => samp x j * (wz n (Z.of_nat j * (Z.of_nat n - Z.of_nat m + Z.of_nat k)) * wz n2 (- ((Z.of_nat n2 - Z.of_nat m + Z.of_nat k) * Z.of_nat t)))) / rt n)).
  2:{ intros k Hk. rewrite EX by lia. f_equal. apply sum_ext. intros j _. f_equal. f_equal; f_equal; lia. }
  assert (SD : forall q (f : nat -> F), sum q (fun k => f k / rt n) = sum q f / rt n).
  { intros q f. induction q as [|q IH]; cbn [sum]; [field; exact Nn|]. rewrite IH. field. exact Nn. }
  rewrite !SD. rewrite !(sum_swap F m n).
  unfold resamp.
  match goal with |- (?a / _ + ?b / _) / _ = ?c / _ => assert (E : c = a + b) end.
  { rewrite <- (sum_add F). apply sum_ext. intros i _. rewrite !(sum_mul_l F). ring. }
  rewrite E. field. split; assumption.
Qed.

(** On an exponential of frequency f. *)
Lemma sum_delta n (P : nat -> bool) (g : nat -> F) k0 : (k0 < n)%nat -> (forall k, (k < n)%nat -> P k = true -> k = k0) ->
  sum n (fun k => if P k then g k else 0) = if P k0 then g k0 else 0.
Proof.
  intros H U. apply (sum_single F n (fun k => if P k then g k else 0) k0 H). intros j Hj Hne. destruct (P j) eqn:E; [|reflexivity]. exfalso. apply Hne, U; assumption.
Qed.
Lemma sum_none n (P : nat -> bool) (g : nat -> F) : (forall k, (k < n)%nat -> P k = false) -> sum n (fun k => if P k then g k else 0) = 0.
Proof. intros U. apply (sum_zero F). intros k Hk. rewrite (U k Hk). reflexivity. Qed.
Lemma resamp_exp n n2 m t f : (0 < n)%nat -> (0 < n2)%nat -> (2 * m <= n)%nat -> (2 * m <= n2)%nat ->
  (- Z.of_nat m <= f < Z.of_nat n - Z.of_nat m)%Z ->
  resamp n n2 m t (fun i => wz n (- (f * Z.of_nat i))) =
  if (f <? Z.of_nat m)%Z then rt n / rt n2 * wz n2 (- (f * t)) else 0.
Proof.
  intros Hn H2 Hm Hm2 Hf. pose proof (rt_ne F n Hn) as Nn. pose proof (rt_ne F n2 H2) as Nn2. unfold resamp.
  assert (E : sum n (fun i => wz (F := F) n (- (f * Z.of_nat i)) * (sum m (fun k => wz n (Z.of_nat i * Z.of_nat k) * wz n2 (- (Z.of_nat k * t))) +
    sum m (fun k => wz n (Z.of_nat i * (Z.of_nat n - Z.of_nat m + Z.of_nat k)) * wz n2 (- ((Z.of_nat n2 - Z.of_nat m + Z.of_nat k) * t))))) =
    sum m (fun k => (if (((Z.of_nat k - f) mod Z.of_nat n) =? 0)%Z then cnat n * wz n2 (- (Z.of_nat k * t)) else 0)) +
    sum m (fun k => (if (((Z.of_nat n - Z.of_nat m + Z.of_nat k - f) mod Z.of_nat n) =? 0)%Z then cnat n * wz n2 (- ((Z.of_nat n2 - Z.of_nat m + Z.of_nat k) * t)) else 0))).
  { rewrite (sum_ext F n _ (fun i => sum m (fun k => wz (F := F) n ((Z.of_nat k - f) * Z.of_nat i) * wz n2 (- (Z.of_nat k * t))) +
      sum m (fun k => wz n ((Z.of_nat n - Z.of_nat m + Z.of_nat k - f) * Z.of_nat i) * wz n2 (- ((Z.of_nat n2 - Z.of_nat m + Z.of_nat k) * t))))).
    2:{ intros i _. transitivity (wz (F := F) n (- (f * Z.of_nat i)) * sum m (fun k => wz n (Z.of_nat i * Z.of_nat k) * wz n2 (- (Z.of_nat k * t))) +
         wz n (- (f * Z.of_nat i)) * sum m (fun k => wz n (Z.of_nat i * (Z.of_nat n - Z.of_nat m + Z.of_nat k)) * wz n2 (- ((Z.of_nat n2 - Z.of_nat m + Z.of_nat k) * t)))); [ring|].
        rewrite <- !(sum_mul_l F). f_equal; apply sum_ext; intros k _.
        - replace ((Z.of_nat k - f) * Z.of_nat i)%Z with (- (f * Z.of_nat i) + Z.of_nat i * Z.of_nat k)%Z by ring. rewrite wz_add by exact Hn. ring.
        - replace ((Z.of_nat n - Z.of_nat m + Z.of_nat k - f) * Z.of_nat i)%Z with (- (f * Z.of_nat i) + Z.of_nat i * (Z.of_nat n - Z.of_nat m + Z.of_nat k))%Z by ring. rewrite wz_add by exact Hn. ring. }
    rewrite (sum_add F). rewrite !(sum_swap F n m). f_equal; apply sum_ext; intros k _.
    - rewrite (sum_mul_r F), ortho by exact Hn. destruct (_ =? 0)%Z; ring.
    - rewrite (sum_mul_r F), ortho by exact Hn. destruct (_ =? 0)%Z; ring. }
  rewrite E. clear E.
  assert (MZ : forall d, (0 <= d < Z.of_nat n)%Z -> ((d mod Z.of_nat n =? 0)%Z = (d =? 0)%Z)) by (intros d Hd; rewrite Z.mod_small by exact Hd; reflexivity).
  destruct (Z.ltb_spec f (Z.of_nat m)) as [A|A].
  - destruct (Z.le_gt_cases 0 f) as [P|P].
    + rewrite (sum_delta m _ _ (Z.to_nat f)); [|lia|].
      2:{ intros k Hk Q. apply Z.eqb_eq in Q. apply Z.mod_divide in Q; [|lia]. destruct Q as [q Hq]. assert (q = 0)%Z by nia. lia. }
      rewrite (sum_none m).
      2:{ intros k Hk. apply Z.eqb_neq. intros Q. apply Z.mod_divide in Q; [|lia]. destruct Q as [q Hq]. assert (q = 0 \/ q = 1)%Z as [->| ->] by nia; lia. }
      rewrite Z2Nat.id by exact P. rewrite Z.sub_diag, Z.mod_0_l by lia. cbn [Z.eqb]. rewrite <- rt_sq. field. split; assumption.
    + rewrite (sum_none m).
      2:{ intros k Hk. apply Z.eqb_neq. intros Q. apply Z.mod_divide in Q; [|lia]. destruct Q as [q Hq]. assert (q = 0)%Z by nia. lia. }
      rewrite (sum_delta m _ _ (Z.to_nat (Z.of_nat m + f))); [|lia|].
      2:{ intros k Hk Q. apply Z.eqb_eq in Q. apply Z.mod_divide in Q; [|lia]. destruct Q as [q Hq]. assert (q = 1)%Z by nia. lia. }
      rewrite Z2Nat.id by lia. replace (Z.of_nat n - Z.of_nat m + (Z.of_nat m + f) - f)%Z with (Z.of_nat n) by lia. rewrite Z.mod_same by lia. cbn [Z.eqb].
      replace (- ((Z.of_nat n2 - Z.of_nat m + (Z.of_nat m + f)) * t))%Z with (- (f * t) + (- t) * Z.of_nat n2)%Z by lia.
      rewrite wz_add, wz_mul_n by exact H2. rewrite <- rt_sq. field. split; assumption.
  - rewrite !sum_none; [field; split; assumption| |].
    + intros k Hk. apply Z.eqb_neq. intros Q. apply Z.mod_divide in Q; [|lia]. destruct Q as [q Hq]. assert (q = 0)%Z by nia. lia.
    + intros k Hk. apply Z.eqb_neq. intros Q. apply Z.mod_divide in Q; [|lia]. destruct Q as [q Hq]. assert (q = 0)%Z by nia. lia.
Qed.
Lemma resamp_add n n2 m t (x y : nat -> F) : resamp n n2 m t (fun i => x i + y i) = resamp n n2 m t x + resamp n n2 m t y.
Proof.
  unfold resamp. rewrite (div_as_mul F), (div_as_mul F (sum n _)), (div_as_mul F (sum n (fun i => y i * _))).
  match goal with |- ?a * _ = ?b * _ + ?c * _ => assert (E : a = b + c) end.
  { rewrite <- (sum_add F). apply sum_ext. intros i _. ring. }
  rewrite E. ring.
Qed.
Lemma resamp_mul n n2 m t c (x : nat -> F) : resamp n n2 m t (fun i => c * x i) = c * resamp n n2 m t x.
Proof.
  unfold resamp. rewrite (div_as_mul F), (div_as_mul F (sum n (fun i => x i * _))).
  match goal with |- ?a * _ = c * (?b * _) => assert (E : a = c * b) end.
  { rewrite <- (sum_mul_l F). apply sum_ext. intros i _. ring. }
  rewrite E. ring.
Qed.
Lemma resamp_ext n n2 m t (x y : nat -> F) : (forall i, (i < n)%nat -> x i = y i) -> resamp n n2 m t x = resamp n n2 m t y.
Proof. intros H. unfold resamp. f_equal. apply sum_ext. intros i Hi. rewrite (H i Hi). reflexivity. Qed.
Lemma resamp_0 n n2 m t : resamp n n2 m t (fun _ => 0) = 0.
Proof.
  rewrite (resamp_ext n n2 m t _ (fun i => 0 * 0)) by (intros; ring). rewrite resamp_mul. ring.
Qed.
(** Original samples kept when the size is multiplied and the length is even. *)
Lemma resamp_grid h L i (x : list F) : (0 < h)%nat -> (0 < L)%nat -> length x = (2 * h)%nat -> (i < 2 * h)%nat ->
  resamp (2 * h) (2 * h * L) h (Z.of_nat (L * i)) (samp x) = samp x i / rt L.
Proof.
  intros Hh HL Lx Hi. assert (Hn : (0 < 2 * h)%nat) by lia. assert (HnL : (0 < 2 * h * L)%nat) by nia.
  rewrite <- Lx. replace (length x * L)%nat with (2 * h * L)%nat by lia.
  rewrite <- resamp_ok; [|lia|lia|nia|nia].
  assert (LB : length (band h (2 * h * L) (DFT 1 x)) = (2 * h * L)%nat) by (apply band_length; rewrite ?DFT_length; nia).
  rewrite DFT_nth by (rewrite LB; nia). unfold dft. cbv zeta. rewrite LB.
  rewrite (sum_ext F _ _ (fun k => samp (band h (2 * h * L) (DFT 1 x)) k * (fun k => wz (2 * h) (- (Z.of_nat k * Z.of_nat i))) k)).
  2:{ intros k _. f_equal. cbv beta. rewrite <- (wz_coh F (2 * h) L) by lia. f_equal. lia. }
  rewrite band_sum by (rewrite ?DFT_length; nia). rewrite DFT_length, Lx.
  rewrite (sum_ext F h (fun k => samp (DFT 1 x) (2 * h - h + k) * _) (fun k => samp (DFT 1 x) (h + k) * wz (2 * h) (- (Z.of_nat (h + k) * Z.of_nat i)))).
  2:{ intros k _. f_equal; [f_equal; lia|]. replace (- (Z.of_nat (2 * h * L - h + k) * Z.of_nat i))%Z with (- (Z.of_nat (h + k) * Z.of_nat i) + (- ((Z.of_nat L - 1) * Z.of_nat i)) * Z.of_nat (2 * h))%Z
        by (assert (h <= 2 * h * L)%nat by (rewrite (Nat.mul_comm 2 h), <- Nat.mul_assoc, <- (Nat.mul_1_r h) at 1; apply Nat.mul_le_mono_l; lia); rewrite !Nat2Z.inj_add, Nat2Z.inj_sub, !Nat2Z.inj_mul by assumption; change (Z.of_nat 2) with 2%Z; ring).
      rewrite wz_add, wz_mul_n by exact Hn. ring. }
  rewrite <- (sum_split F h h (fun k => samp (DFT 1 x) k * wz (2 * h) (- (Z.of_nat k * Z.of_nat i)))).
  pose proof (DFT_inverse F 1 x (or_introl eq_refl)) as W. change (- (1))%Z with (-1)%Z in W. replace (samp x i) with (samp (DFT (-1) (DFT 1 x)) i) by (rewrite W; reflexivity).
  rewrite (DFT_nth F (-1)) by (rewrite DFT_length; lia). unfold dft at 1. cbv zeta. rewrite DFT_length, Lx. rewrite (rt_mul F (2 * h) L).
  pose proof (rt_ne F _ Hn). pose proof (rt_ne F _ HL).
  replace (h + h)%nat with (2 * h)%nat by lia.
  rewrite (sum_ext F (2 * h) _ (fun k => samp (DFT 1 x) k * wz (2 * h) (-1 * Z.of_nat k * Z.of_nat i))) by (intros k _; do 2 f_equal; lia).
  field. split; assumption.
Qed.
End Band.
