(** Butterworth prototype: |P(iw)|^2 = 1 + w^(2n). *)
From Coq Require Import Reals Lra Lia.
From Verif Require Import Base BaseLemmas RField DftSys ComplexSys Poly_Model Poly_Spec Poly_Proofs Vec_Model Vec_Proofs Sig_Proofs Rii_Model Riia_Spec Biq_Spec Biq_Proofs Biq_Props Tf_Proofs Tf_Props Factor_Proofs Riia_Proofs.
Local Open Scope R_scope.
Section CF.
Add Field Cf : (fth Cfield).
Lemma eit_add a b : eit (a + b) = (eit a * eit b)%K.
Proof. apply C_ext; cbn; rewrite ?cos_plus, ?sin_plus; ring. Qed.
Lemma eit_0 : eit 0 = (c1 : Cfield).
Proof. apply C_ext; cbn; [apply cos_0|apply sin_0]. Qed.
Lemma eit_PI : eit PI = (copp c1 : Cfield).
Proof. apply C_ext; cbn; rewrite ?cos_PI, ?sin_PI; ring. Qed.
Lemma eit_2PI : eit (2 * PI) = (c1 : Cfield).
Proof. apply C_ext; cbn; rewrite ?cos_2PI, ?sin_2PI; ring. Qed.
Lemma eit_add_2PI t : eit (t + 2 * PI) = eit t.
Proof. rewrite eit_add, eit_2PI. ring. Qed.
Lemma eit_pow t n : cpow (eit t) n = eit (INR n * t).
Proof. induction n as [|n IH]; cbn [cpow]; [rewrite Rmult_0_l, eit_0; reflexivity|]. rewrite IH, <- eit_add, S_INR. f_equal. ring. Qed.
Lemma eit_norm t : Cnorm2 (eit t) = 1.
Proof. unfold Cnorm2, eit. cbn. pose proof (sin2_cos2 t) as H. unfold Rsqr in H. lra. Qed.
Lemma eit_conj t : conj (eit t) = eit (- t).
Proof. apply C_ext; cbn; rewrite ?cos_neg, ?sin_neg; ring. Qed.
Lemma eit_ne0 t : eit t <> (c0 : Cfield).
Proof. intros E. pose proof (eit_norm t) as H. rewrite E in H. unfold Cnorm2 in H. cbn in H. lra. Qed.
Lemma eit_ne1 t : 0 < t < 2 * PI -> eit t <> (c1 : Cfield).
Proof.
  intros H E. apply (f_equal fst) in E. cbn in E. replace t with (2 * (t / 2)) in E by field. rewrite cos_2a_sin in E.
  assert (S0 : 0 < sin (t / 2)) by (apply sin_gt_0; lra). nra.
Qed.
Lemma Cint : forall a b : Cfield, (a * b = c0)%K -> a = c0 \/ b = c0.
Proof. exact C_mul0. Qed.
(** conjugates *)
Lemma Cconj_rprod (l : list Cfield) (z : Cfield) : conj (rprod l z) = rprod (K := Cfield) (map conj l) (conj z).
Proof. induction l as [|r l IH]; cbn [rprod map]; [apply C_ext; cbn; ring|]. rewrite <- IH. apply C_ext; cbn; ring. Qed.
Lemma rprod_rev (l : list Cfield) (x : Cfield) : rprod (rev l) x = rprod l x.
Proof. induction l as [|r l IH]; [reflexivity|]. cbn [rev]. rewrite rprod_app, IH. cbn [rprod]. ring. Qed.
Lemma Cnorm2_conj (z : Cfield) : (z * conj z)%K = re (Cnorm2 z).
Proof. apply C_ext; unfold Cnorm2; cbn; ring. Qed.
(** polynomials closed under conjugation *)
Definition conj_closed (l : list Cfield) : Prop := map conj l = rev l.
Lemma conj_rprod l z : conj_closed l -> conj (rprod l z) = rprod l (conj z).
Proof. intros H. rewrite Cconj_rprod, H. apply rprod_rev. Qed.
Lemma norm_rprod l w : conj_closed l -> re (Cnorm2 (rprod l (im w))) = rprod (map (fun p : Cfield => (- (p * p))%K) l) (re (w * w)).
Proof.
  intros H. rewrite <- Cnorm2_conj, (conj_rprod l _ H). replace (conj (im w)) with (im (- w)) by (apply C_ext; cbn; ring).
  clear H. induction l as [|p l IH]; cbn [rprod map]; [ring|]. rewrite <- IH.
  transitivity (((im w) - p) * (im (- w) - p) * (rprod l (im w) * rprod l (im (- w))))%K; [ring|]. f_equal. destruct p as [x y]. apply C_ext; cbn; ring.
Qed.
(** poles *)
Definition but_pole (n i : nat) : Cfield := eit (PI * (2 * INR i + INR n + 1) / (2 * INR n)).
Lemma lin_1n n : (1 <= n)%nat -> linspace (K := Rfield) 1 (INR n) n = map (fun i => INR i + 1) (seq 0 n).
Proof.
  intros Hn. destruct (linspace_spec (K := Rfield) (1 : R) (INR n) n) as (L & E & E1). destruct (Nat.eq_dec n 1) as [-> |N1].
  - rewrite (E1 eq_refl). cbn. f_equal. ring.
  - apply (list_ext (0 : R)).
    + etransitivity; [exact L|]. rewrite map_length, seq_length. reflexivity.
    + intros i Hi0. assert (Hi : (i < n)%nat) by (rewrite <- L; exact Hi0). etransitivity; [apply E; lia|]. rewrite (Sig_Proofs.nth_map_seq (X := R)) by exact Hi. rewrite !cnat_R. cbn. rewrite minus_INR by lia. cbn. field.
      apply not_eq_sym, Rlt_not_eq. assert (2 <= INR n) by (apply (le_INR 2); lia). lra.
Qed.
Lemma but_poles n : (1 <= n)%nat -> p_coefs (f_den (butterworth_analogique n)) = map (but_pole n) (seq 0 n).
Proof.
  intros Hn. unfold butterworth_analogique. cbn [f_den p_coefs p_from_roots]. rewrite lin_1n by exact Hn. rewrite map_map. apply map_ext. intros i. unfold but_pole. f_equal. f_equal. ring.
Qed.
Lemma INR_pos n : (1 <= n)%nat -> 1 <= INR n.
Proof. intros H. apply (le_INR 1). exact H. Qed.
Lemma but_stable n i : (i < n)%nat -> fst (but_pole n i) < 0.
Proof.
  intros Hi. pose proof PI_RGT_0. pose proof (INR_pos n ltac:(lia)). pose proof (pos_INR i). assert (INR i + 1 <= INR n) by (rewrite <- S_INR; apply le_INR; lia). unfold but_pole. cbn.
  set (t := PI * (2 * INR i + INR n + 1) / (2 * INR n)).
  assert (T1 : t * (2 * INR n) = PI * (2 * INR i + INR n + 1)) by (unfold t; field; lra).
  apply cos_lt_0; nra.
Qed.
Lemma but_closed n : conj_closed (map (but_pole n) (seq 0 n)).
Proof.
  unfold conj_closed. apply (list_ext (c0 : Cfield)).
  - rewrite rev_length, !map_length. reflexivity.
  - rewrite !map_length, seq_length. intros i Hi. rewrite rev_nth by (rewrite map_length, seq_length; exact Hi). rewrite !map_length, seq_length.
    rewrite map_map, !(Sig_Proofs.nth_map_seq (X := C)) by lia. unfold but_pole. rewrite eit_conj. pose proof (INR_pos n ltac:(lia)) as HN.
    replace (PI * (2 * INR (n - S i) + INR n + 1) / (2 * INR n)) with (- (PI * (2 * INR i + INR n + 1) / (2 * INR n)) + 2 * PI).
    + rewrite eit_add, eit_2PI. ring.
    + rewrite minus_INR by lia. rewrite S_INR. field. lra.
Qed.
Lemma but_dc_gen n m : (1 <= n)%nat -> rprod (map (but_pole n) (seq 0 m)) (c0 : Cfield) = eit (PI * (INR m * INR m - INR n * INR m) / (2 * INR n)).
Proof.
  intros Hn. pose proof (INR_pos n Hn). induction m as [|m IH].
  - cbn [seq map rprod]. replace (PI * (INR 0 * INR 0 - INR n * INR 0) / (2 * INR n)) with 0 by (cbn [INR]; field; lra). rewrite eit_0. reflexivity.
  - rewrite seq_S, map_app, rprod_app, IH. cbn [map rprod Nat.add]. transitivity (eit (PI * (INR m * INR m - INR n * INR m) / (2 * INR n)) * (eit (- PI) * but_pole n m))%K.
    + replace (eit (- PI)) with (copp c1 : Cfield) by (rewrite <- eit_conj, eit_PI; apply C_ext; cbn; ring). ring.
    + unfold but_pole. rewrite <- !eit_add. f_equal. rewrite S_INR. field. lra.
Qed.
Lemma but_dc n : (1 <= n)%nat -> rprod (map (but_pole n) (seq 0 n)) (c0 : Cfield) = c1.
Proof. intros Hn. rewrite but_dc_gen by exact Hn. rewrite <- eit_0. f_equal. pose proof (INR_pos n Hn). field. lra. Qed.
Lemma re_cpow x n : cpow (re x) n = re (x ^ n).
Proof. symmetry. apply re_pow. Qed.
Lemma but_norm n w : (1 <= n)%nat -> Cnorm2 (rprod (map (but_pole n) (seq 0 n)) (im w)) = 1 + w ^ (2 * n).
Proof.
  intros Hn. pose proof (INR_pos n Hn) as HN. pose proof PI_RGT_0.
  pose proof (norm_rprod _ w (but_closed n)) as E. rewrite map_map in E.
  assert (PD := pow_diff Cint n (eit (2 * PI / INR n)) (eit (PI / INR n)) (re (w * w)) Hn).
  assert (H1 : cpow (eit (2 * PI / INR n)) n = (c1 : Cfield)). { rewrite eit_pow. replace (INR n * (2 * PI / INR n)) with (2 * PI) by (field; lra). apply eit_2PI. }
  assert (H2 : forall j, (0 < j < n)%nat -> cpow (eit (2 * PI / INR n)) j <> (c1 : Cfield)).
  { intros j Hj. rewrite eit_pow. apply eit_ne1. assert (1 <= INR j) by (apply INR_pos; lia). assert (INR j < INR n) by (apply lt_INR; lia).
    set (t := INR j * (2 * PI / INR n)). assert (T : t * INR n = 2 * PI * INR j) by (unfold t; field; lra). split; nra. }
  specialize (PD H1 H2 (eit_ne0 _)).
  assert (EQ : re (Cnorm2 (rprod (map (but_pole n) (seq 0 n)) (im w))) = re (1 + w ^ (2 * n))).
  { rewrite E. replace (map (fun x : nat => (- (but_pole n x * but_pole n x))%K) (seq 0 n)) with (map (fun k : nat => (eit (PI / INR n) * cpow (eit (2 * PI / INR n)) k)%K) (seq 0 n)).
    - rewrite <- PD, eit_pow, re_cpow. replace (INR n * (PI / INR n)) with PI by (field; lra). rewrite eit_PI, re_add, re_1. replace (w ^ (2 * n)) with ((w * w) ^ n) by (rewrite Rpow_mult_distr, <- pow_add; f_equal; lia). ring.
    - apply map_ext. intros k. rewrite eit_pow, <- eit_add. unfold but_pole. rewrite <- eit_add. transitivity (eit PI * eit (PI * (2 * INR k + INR n + 1) / (2 * INR n) + PI * (2 * INR k + INR n + 1) / (2 * INR n)))%K; [|rewrite eit_PI; ring].
      rewrite <- eit_add. rewrite <- (eit_add_2PI (PI / INR n + INR k * (2 * PI / INR n))). f_equal. field. lra. }
  exact (f_equal fst EQ).
Qed.
End CF.
