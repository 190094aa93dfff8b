(** Proofs about the Gaussian pulses. *)
From Coq Require Import Reals Lra Lia ZArith String.
From Verif Require Import Base BaseLemmas RField Vec_Model Vec_Proofs Filters_Model Filters_Spec Conv_Lemmas Sig_Proofs Special_Model Special_Proofs Design_Model Design_Spec Design_Proofs Design_Proofs2 Win_Model Win_Spec Win_Proofs Win_Proofs2 Rif_Model Rif_Spec Rif_Proofs Rif_Proofs2.
Local Open Scope R_scope.
Lemma lin_centre n i : (i < n)%nat -> nth i (linspace (K := Rfield) (- (INR n - 1) / 2) ((INR n - 1) / 2) n) 0 = INR i - (INR n - 1) / 2.
Proof.
  intros Hi. destruct (Nat.eq_dec n 1) as [-> |N].
  - destruct (linspace_spec (K := Rfield) (- (INR 1 - 1) / 2) ((INR 1 - 1) / 2) 1) as (_ & _ & E). rewrite E by reflexivity. destruct i; [|lia]. cbn [nth INR]. match goal with |- @eq _ ?a ?b => change (@eq R a b) end. lra.
  - rewrite lin_val by lia. assert (2 <= INR n) by (apply (le_INR 2); lia). match goal with |- @eq _ ?a ?b => change (@eq R a b) end. field. lra.
Qed.
Lemma rsum_first n f : rsum (S n) f = f 0%nat + rsum n (fun k => f (S k)).
Proof. induction n as [|n IH]; [rewrite rsum_S; assert (Z : forall g : nat -> R, rsum 0 g = 0) by reflexivity; rewrite !Z; lra|]. rewrite rsum_S, IH, (rsum_S n (fun k => f (S k))). lra. Qed.
Lemma nth_ones n i : (i < n)%nat -> nth i (repeat 1 n) 0 = 1.
Proof. revert i. induction n as [|n IH]; intros i Hi; [lia|]. destruct i; [reflexivity|]. cbn. apply IH. lia. Qed.
Definition gbell (sg t : R) : R := exp (- (t * t) / (2 * sg * sg)).
Lemma gbell_pos sg t : 0 < gbell sg t. Proof. apply exp_pos. Qed.
Lemma gbell_even sg t : gbell sg (- t) = gbell sg t. Proof. unfold gbell. f_equal. f_equal. ring. Qed.
Lemma gbell_le sg t u : sg <> 0 -> Rabs t <= Rabs u -> gbell sg u <= gbell sg t.
Proof.
  intros H L. unfold gbell. assert (t * t <= u * u) by (apply Rsqr_le_abs_1; exact L). assert (P : 0 < / (2 * sg * sg)) by (apply Rinv_0_lt_compat; assert (0 < sg * sg) by (pose proof (Rlt_0_sqr sg H) as X; exact X); lra).
  assert (- (u * u) / (2 * sg * sg) <= - (t * t) / (2 * sg * sg)) by (unfold Rdiv; apply Rmult_le_compat_r; lra). destruct H1 as [X|X]; [left; apply exp_increasing; exact X|right; rewrite X; reflexivity].
Qed.
Lemma rsum_nonneg n (f : nat -> R) : (forall i, (i < n)%nat -> 0 <= f i) -> 0 <= rsum n f.
Proof. intros H. rewrite <- (rsum_0 n). apply sum_le. exact H. Qed.
Lemma rsum_pos n (f : nat -> R) : (1 <= n)%nat -> (forall i, (i < n)%nat -> 0 < f i) -> 0 < rsum n f.
Proof.
  intros Hn. induction n as [|n IH]; [lia|]. intros H. rewrite rsum_S. destruct n as [|n].
  - assert (Z : rsum 0 f = 0) by reflexivity. rewrite Z. specialize (H 0%nat ltac:(lia)). lra.
  - specialize (IH ltac:(lia) (fun i Hi => H i ltac:(lia))). specialize (H (S n) ltac:(lia)). lra.
Qed.
(** every design is a positive multiple of the samples of the Gaussian *)
Lemma gen_ok n sg dt : (1 <= n)%nat -> exists c, 0 < c /\ List.length (design_rif_gaussien_gen n sg dt) = n /\ dc_gain (design_rif_gaussien_gen n sg dt) = 1 /\
  forall i, (i < n)%nat -> nth i (design_rif_gaussien_gen n sg dt) 0 = c * gbell sg (INR i - (INR n - 1) / 2 + dt).
Proof.
  intros Hn. unfold design_rif_gaussien_gen. set (l := linspace (K := Rfield) (- (INR n - 1) / 2) ((INR n - 1) / 2) n). assert (Ll : @List.length R l = n) by exact (proj1 (linspace_spec (K := Rfield) (- (INR n - 1) / 2) ((INR n - 1) / 2) n)).
  set (h := map (fun v => exp (- (v * v) / (2 * sg * sg))) (map (fun v => v + dt) l)). assert (Lh : List.length h = n) by (unfold h; rewrite !map_length; exact Ll).
  assert (V : forall i, (i < n)%nat -> nth i h 0 = gbell sg (INR i - (INR n - 1) / 2 + dt)).
  { intros i Hi. unfold h. rewrite (nth_mapR (fun v => exp (- (v * v) / (2 * sg * sg)))) by (rewrite map_length; lia). rewrite (nth_mapR (fun v => v + dt)) by lia. unfold l. rewrite lin_centre by exact Hi. reflexivity. }
  assert (P : 0 < somme h). { unfold somme. rewrite Lh. apply rsum_pos; [exact Hn|]. intros i Hi. rewrite V by exact Hi. apply gbell_pos. }
  destruct (Rlt_dec 0 (somme h)) as [_|X]; [|contradiction]. exists (/ somme h). split; [apply Rinv_0_lt_compat; exact P|]. split; [rewrite vdiv_length; exact Lh|]. split; [rewrite <- somme_dc, somme_vdiv; field; lra|].
  intros i Hi. rewrite vdiv_nth by lia. rewrite V by exact Hi. unfold Rdiv. apply Rmult_comm.
Qed.
(** the moving average of the pulse *)
Lemma avg_ok osf (h1 : list R) : (1 <= osf)%nat -> exists h2, filtrer_rif (K := Rring) (vdiv (repeat 1 osf) (INR osf)) h1 = Ok h2 /\ List.length h2 = List.length h1 /\
  forall i, (i < List.length h1)%nat -> nth i h2 0 = / INR osf * rsum osf (fun k => if (k <=? i)%nat then nth (i - k) h1 0 else 0).
Proof.
  intros Ho. destruct (filtrer_ok Rring (vdiv (repeat 1 osf) (INR osf)) h1) as (y & E & L & V).
  { intros X. apply (f_equal (@List.length R)) in X. rewrite vdiv_length, repeat_length in X. cbn in X. lia. }
  exists y. split; [exact E|]. split; [exact L|]. intros i Hi. etransitivity; [exact (V i Hi)|]. unfold conv. rewrite vdiv_length, repeat_length. rewrite <- rsum_mul. apply rsum_ext. intros k Hk. unfold samp at 1.
  assert (E1 : nth k (vdiv (repeat 1 osf) (INR osf)) 0 = / INR osf) by (rewrite vdiv_nth by (rewrite repeat_length; exact Hk); rewrite nth_ones by exact Hk; unfold Rdiv; apply Rmult_1_l).
  match goal with |- @eq _ ?a ?b => change (@eq R a b) end. change (@nth (car Rring) k (vdiv (repeat 1 osf) (INR osf)) (@c0 Rring)) with (nth k (vdiv (repeat 1 osf) (INR osf)) 0). rewrite E1. f_equal. unfold sampZ. destruct (Nat.leb_spec k i).
  - destruct (Z.ltb_spec (Z.of_nat i - Z.of_nat k) 0); [lia|]. unfold samp. replace (Z.to_nat (Z.of_nat i - Z.of_nat k)) with (i - k)%nat by lia. reflexivity.
  - destruct (Z.ltb_spec (Z.of_nat i - Z.of_nat k) 0); [reflexivity|lia].
Qed.
(** design_rif_gaussien_telecom in closed form *)
Lemma telecom_ok n BT osf : (1 <= n)%nat -> (1 <= osf)%nat -> exists h c, design_rif_gaussien_telecom n BT osf = Ok h /\ 0 < c /\ List.length h = n /\ dc_gain h = 1 /\
  forall i, (i < n)%nat -> nth i h 0 = c * rsum osf (fun k => if (k <=? i)%nat then gbell (BT_vers_sigma BT * INR osf) (INR i - INR k - (INR n - 1) / 2 + (INR osf - 1) / 2) else 0).
Proof.
  intros Hn Ho. unfold design_rif_gaussien_telecom. destruct (gen_ok n (BT_vers_sigma BT * INR osf) ((INR osf - 1) / 2) Hn) as (c & Pc & L1 & _ & V1). set (h1 := design_rif_gaussien_gen _ _ _) in *.
  destruct (avg_ok osf h1 Ho) as (h2 & E & L2 & V2). rewrite E. cbn [bind]. rewrite L1 in *. assert (L2' : @List.length R h2 = n) by exact L2. clear L2. rename L2' into L2. assert (1 <= INR osf) by (apply (le_INR 1); lia).
  assert (V : forall i, (i < n)%nat -> nth i h2 0 = / INR osf * c * rsum osf (fun k => if (k <=? i)%nat then gbell (BT_vers_sigma BT * INR osf) (INR i - INR k - (INR n - 1) / 2 + (INR osf - 1) / 2) else 0)).
  { intros i Hi. rewrite V2 by exact Hi. rewrite Rmult_assoc. f_equal. rewrite <- rsum_mul. apply rsum_ext. intros k Hk. destruct (Nat.leb_spec k i); [|symmetry; apply Rmult_0_r]. rewrite V1 by lia. do 2 f_equal. rewrite minus_INR by assumption. lra. }
  assert (P : 0 < somme h2).
  { unfold somme. replace (@List.length R h2) with n. apply rsum_pos; [exact Hn|]. intros i Hi. rewrite V by exact Hi. apply Rmult_lt_0_compat; [apply Rmult_lt_0_compat; [apply Rinv_0_lt_compat; lra|exact Pc]|].
    destruct osf as [|o]; [lia|]. rewrite rsum_first. apply Rplus_lt_le_0_compat; [apply gbell_pos|]. apply rsum_nonneg. intros k _. destruct (Nat.leb (S k) i); [left; apply gbell_pos|apply Rle_refl]. }
  eexists. exists (/ somme h2 * (/ INR osf * c)). split; [reflexivity|]. split; [apply Rmult_lt_0_compat; [apply Rinv_0_lt_compat; exact P|apply Rmult_lt_0_compat; [apply Rinv_0_lt_compat; lra|exact Pc]]|].
  split; [rewrite vdiv_length; exact L2|]. split; [rewrite <- somme_dc, somme_vdiv; field; lra|]. intros i Hi. rewrite vdiv_nth by lia. rewrite V by exact Hi. unfold Rdiv. ring.
Qed.
