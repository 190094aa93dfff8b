(** The numbers used by the Fourier transforms: a field with a conjugation, for
    each n >= 1 a primitive n-th root of unity (exp(-2 i pi / n) in the code) and a
    square root of n.  Rounding is not modelled.  The instance of the complex
    numbers is built in ComplexSys.v. *)
From Coq Require Import Field.
From Verif Require Import Base BaseLemmas.
Local Open Scope cring_scope.

Record dsys := {
  dfd :> cfield;
  conj : dfd -> dfd;
  root : nat -> dfd;
  rt : nat -> dfd;
  conj_add : forall x y, conj (x + y) = conj x + conj y;
  conj_mul : forall x y, conj (x * y) = conj x * conj y;
  conj_invol : forall x, conj (conj x) = x;
  root_order : forall n, (0 < n)%nat -> cpow (root n) n = 1;
  root_prim : forall n j, (0 < j < n)%nat -> cpow (root n) j <> 1;
  root_coh : forall n m, (0 < n)%nat -> (0 < m)%nat -> cpow (root (n * m)) m = root n;
  root_conj : forall n, (0 < n)%nat -> conj (root n) * root n = 1;
  rt_sq : forall n, rt n * rt n = cnat n;
  rt_mul : forall n m, rt (n * m) = rt n * rt m;
  rt_conj : forall n, conj (rt n) = rt n;
  char0 : forall n, cnat (K := dfd) (S n) <> 0
}.
Arguments conj {_}. Arguments root {_}. Arguments rt {_}.

(** The e-th power of the n-th root, for an integer e. *)
Definition wz {F : dsys} (n : nat) (e : Z) : F := cpow (root n) (Z.to_nat (e mod Z.of_nat n)).

(** Discrete Fourier transform, normalised by sqrt(n): bin k of the forward
    (e = 1) or inverse (e = -1) transform of x. *)
Definition dft {F : dsys} (e : Z) (x : list F) (k : nat) : F :=
  let n := length x in
  sum n (fun j => samp x j * wz n (e * Z.of_nat j * Z.of_nat k)) / rt n.
Definition DFT {F : dsys} (e : Z) (x : list F) : list F := map (dft e x) (seq 0 (length x)).

Section D.
Context (F : dsys).
Add Ring Dr : (cth F).
Add Field Df : (fth F).
Implicit Types x y : F.

Lemma cancel x y : x <> 0 -> x * y = 0 -> y = 0.
Proof. intros Hx H. replace y with (finv x * (x * y)) by (field; exact Hx). rewrite H. ring. Qed.
Lemma sub_ne x y : x <> y -> x - y <> 0.
Proof. intros H C. apply H. replace x with (x - y + y) by ring. rewrite C. ring. Qed.
Lemma sub_eq x y : x - y = 0 -> x = y.
Proof. intros C. replace x with (x - y + y) by ring. rewrite C. ring. Qed.
Lemma cnat_ne n : (0 < n)%nat -> cnat (K := F) n <> 0.
Proof. destruct n; [lia|]. intros _. apply char0. Qed.
Lemma rt_ne n : (0 < n)%nat -> rt n <> 0 :> F.
Proof. intros H C. apply (cnat_ne n H). rewrite <- rt_sq, C. ring. Qed.
Lemma rt_1_sq : rt 1 * rt 1 = 1 :> F.
Proof. rewrite rt_sq. cbn [cnat]. ring. Qed.
Lemma rt_1 : rt 1 = 1 :> F.
Proof.
  pose proof (rt_mul F 1 1) as H. cbn [Nat.mul Nat.add] in H. rewrite rt_1_sq in H. exact H.
Qed.
Lemma conj_0 : conj 0 = 0 :> F.
Proof.
  pose proof (conj_add F 0 0) as H. replace (0 + 0) with (0 : F) in H by ring.
  replace (conj (0 : F)) with (conj (0 : F) + conj 0 - conj 0) by ring. rewrite <- H. ring.
Qed.
Lemma conj_1 : conj 1 = 1 :> F.
Proof.
  assert (H : conj 1 * conj (conj 1) = conj (conj 1) :> F) by (rewrite <- conj_mul; f_equal; ring).
  rewrite conj_invol in H. replace (conj 1) with (conj 1 * 1 : F) by ring. exact H.
Qed.
Lemma conj_opp x : conj (- x) = - conj x.
Proof.
  replace (conj (- x)) with (conj (- x + x) - conj x) by (rewrite conj_add; ring).
  replace (- x + x) with (0 : F) by ring. rewrite conj_0. ring.
Qed.
Lemma conj_sub x y : conj (x - y) = conj x - conj y.
Proof. replace (x - y) with (x + - y) by ring. rewrite conj_add, conj_opp. ring. Qed.
Lemma conj_sum n f : conj (sum n f) = sum n (fun i => conj (f i)) :> F.
Proof. induction n as [|n IH]; cbn [sum]; [apply conj_0|]. rewrite conj_add, IH. reflexivity. Qed.
Lemma conj_inv x : x <> 0 -> conj (finv x) = finv (conj x).
Proof.
  intros Hx. assert (Hc : conj x <> 0) by (intros C; apply Hx; rewrite <- (conj_invol F x), C; apply conj_0).
  replace (conj (finv x)) with (finv (conj x) * (conj x * conj (finv x))) by (field; exact Hc).
  rewrite <- conj_mul. replace (x * finv x) with (1 : F) by (field; exact Hx). rewrite conj_1. field. exact Hc.
Qed.
Lemma conj_div x y : y <> 0 -> conj (x / y) = conj x / conj y.
Proof.
  intros Hy. rewrite !(Fdiv_def (fth F)), conj_mul, conj_inv by exact Hy. reflexivity.
Qed.

(** ** Powers of the roots *)
Lemma pow_mod n a : (0 < n)%nat -> cpow (root n : F) a = cpow (root n) (a mod n).
Proof.
  intros Hn. rewrite (Nat.div_mod a n) at 1 by lia. rewrite (cpow_add F), (cpow_mul F), root_order, (cpow_1 F) by exact Hn. ring.
Qed.
Lemma wz_nat n a : (0 < n)%nat -> wz n (Z.of_nat a) = cpow (root n) a :> F.
Proof.
  intros Hn. unfold wz. rewrite (pow_mod n a) by exact Hn. f_equal. rewrite <- Nat2Z.inj_mod, Nat2Z.id. reflexivity.
Qed.
Lemma wz_mod n e e' : (e mod Z.of_nat n = e' mod Z.of_nat n)%Z -> wz n e = wz n e' :> F.
Proof. intros H. unfold wz. rewrite H. reflexivity. Qed.
Lemma wz_add n e e' : (0 < n)%nat -> wz n (e + e') = wz n e * wz n e' :> F.
Proof.
  intros Hn. unfold wz at 2 3. rewrite <- (cpow_add F), <- wz_nat by exact Hn. apply wz_mod.
  pose proof (Z.mod_pos_bound e (Z.of_nat n) ltac:(lia)). pose proof (Z.mod_pos_bound e' (Z.of_nat n) ltac:(lia)).
  rewrite Nat2Z.inj_add, !Z2Nat.id by lia. rewrite <- Z.add_mod by lia. reflexivity.
Qed.
Lemma wz_0 n : (0 < n)%nat -> wz n 0 = 1 :> F.
Proof. intros Hn. unfold wz. rewrite Z.mod_0_l by lia. reflexivity. Qed.
Lemma wz_mul_n n e : (0 < n)%nat -> wz n (e * Z.of_nat n) = 1 :> F.
Proof. intros Hn. unfold wz. rewrite Z.mod_mul by lia. reflexivity. Qed.
Lemma wz_inv n e : (0 < n)%nat -> wz n e * wz n (- e) = 1 :> F.
Proof. intros Hn. rewrite <- wz_add by exact Hn. replace (e + - e)%Z with 0%Z by lia. apply wz_0, Hn. Qed.
Lemma wz_ne n e : (0 < n)%nat -> wz n e <> 0 :> F.
Proof. intros Hn C. apply (F_1_neq_0 (fth F)). rewrite <- (wz_inv n e Hn), C. ring. Qed.
Lemma wz_pow n e a : (0 < n)%nat -> cpow (wz n e) a = wz n (e * Z.of_nat a) :> F.
Proof.
  intros Hn. induction a as [|a IH]; [cbn [cpow]; rewrite Z.mul_0_r, wz_0 by exact Hn; reflexivity|].
  cbn [cpow]. rewrite IH, <- wz_add by exact Hn. f_equal. lia.
Qed.
Lemma conj_pow x a : conj (cpow x a) = cpow (conj x) a.
Proof. induction a as [|a IH]; [apply conj_1|]. cbn [cpow]. rewrite conj_mul, IH. reflexivity. Qed.
Lemma conj_wz n e : (0 < n)%nat -> conj (wz n e) = wz n (- e) :> F.
Proof.
  intros Hn. set (c := conj (wz n e : F)). replace c with (c * wz n e * wz n (- e)).
  2:{ transitivity (c * (wz n e * wz n (- e))); [ring|]. rewrite wz_inv by exact Hn. ring. }
  unfold c, wz at 1 2. rewrite conj_pow, <- (cpow_mul_base F), root_conj, (cpow_1 F) by exact Hn. ring.
Qed.
Lemma wz_coh n m e : (0 < n)%nat -> (0 < m)%nat -> wz (n * m) (e * Z.of_nat m) = wz n e :> F.
Proof.
  intros Hn Hm. unfold wz. rewrite Nat2Z.inj_mul, Z.mul_mod_distr_r by lia.
  pose proof (Z.mod_pos_bound e (Z.of_nat n) ltac:(lia)).
  rewrite Z2Nat.inj_mul, Nat2Z.id by lia. rewrite (Nat.mul_comm (Z.to_nat _)), (cpow_mul F), root_coh by assumption. reflexivity.
Qed.
Lemma wz_ne_1 n e : (0 < n)%nat -> (e mod Z.of_nat n <> 0)%Z -> wz n e <> 1 :> F.
Proof.
  intros Hn H. unfold wz. pose proof (Z.mod_pos_bound e (Z.of_nat n) ltac:(lia)). apply root_prim. lia.
Qed.
Lemma wz_half n : (0 < n)%nat -> wz (2 * n) (Z.of_nat n) = - (1) :> F.
Proof.
  intros Hn. set (a := wz (2 * n) (Z.of_nat n)).
  assert (H2 : a * a = 1). { unfold a. rewrite <- wz_add by lia. replace (Z.of_nat n + Z.of_nat n)%Z with (1 * Z.of_nat (2 * n))%Z by lia. apply wz_mul_n. lia. }
  assert (H1 : a <> 1). { apply wz_ne_1; [lia|]. rewrite Z.mod_small; lia. }
  assert (H : a + 1 = 0).
  { apply (cancel (a - 1)); [apply sub_ne; exact H1|]. replace ((a - 1) * (a + 1)) with (a * a - 1) by ring. rewrite H2. ring. }
  replace a with (a + 1 - 1) by ring. rewrite H. ring.
Qed.

(** ** Orthogonality *)
Lemma geom x n : (x - 1) * sum n (cpow x) = cpow x n - 1.
Proof. induction n as [|n IH]; cbn [sum cpow]; [ring|]. replace ((x - 1) * (sum n (cpow x) + cpow x n)) with ((x - 1) * sum n (cpow x) + (x - 1) * cpow x n) by ring. rewrite IH. ring. Qed.
Lemma ortho n e : (0 < n)%nat ->
  sum n (fun k => wz n (e * Z.of_nat k)) = (if (e mod Z.of_nat n =? 0)%Z then cnat n else 0) :> F.
Proof.
  intros Hn. destruct (Z.eqb_spec (e mod Z.of_nat n) 0) as [H|H].
  - rewrite (sum_ext F n _ (fun _ => 1)); [rewrite (sum_const F); ring|]. intros k _.
    rewrite <- (wz_0 n Hn). apply wz_mod. rewrite Z.mul_mod, H, Z.mul_0_l by lia. reflexivity.
  - apply (cancel (wz n e - 1)); [apply sub_ne, wz_ne_1; assumption|].
    rewrite (sum_ext F n _ (cpow (wz n e))) by (intros k _; rewrite wz_pow by exact Hn; reflexivity).
    rewrite geom, wz_pow by exact Hn. rewrite wz_mul_n by exact Hn. ring.
Qed.

(** ** The transform *)
Lemma DFT_length e (x : list F) : length (DFT e x) = length x.
Proof. unfold DFT. rewrite map_length, seq_length. reflexivity. Qed.
Lemma DFT_nth e (x : list F) k : (k < length x)%nat -> samp (DFT e x) k = dft e x k.
Proof.
  intros H. unfold samp, DFT. rewrite nth_indep with (d' := dft e x 0) by (rewrite map_length, seq_length; exact H).
  rewrite (map_nth (dft e x)), seq_nth by exact H. reflexivity.
Qed.
Lemma wz_idx_mod n a b : (0 < n)%nat -> wz n (a * Z.of_nat b) = wz n (a * Z.of_nat (b mod n)) :> F.
Proof.
  intros Hn. apply wz_mod. rewrite (Z.mul_mod a (Z.of_nat b)), (Z.mul_mod a (Z.of_nat (b mod n))) by lia.
  rewrite Nat2Z.inj_mod. rewrite Z.mod_mod by lia. reflexivity.
Qed.
Lemma div_as_mul x y : x / y = x * finv y.
Proof. apply (Fdiv_def (fth F)). Qed.
Theorem DFT_inverse e (x : list F) : (e = 1 \/ e = -1)%Z -> DFT (- e) (DFT e x) = x.
Proof.
  intros He. set (n := length x). apply (list_ext (0 : F)); [rewrite !DFT_length; reflexivity|].
  rewrite !DFT_length. fold n. intros i Hi. fold (samp (DFT (- e) (DFT e x)) i). fold (samp x i).
  assert (Hn : (0 < n)%nat) by lia. pose proof (rt_ne n Hn) as Nr.
  rewrite DFT_nth by (rewrite DFT_length; exact Hi). unfold dft at 1. cbv zeta. rewrite DFT_length. fold n.
  rewrite (sum_ext F n _ (fun k => sum n (fun j => samp x j * (wz n (e * (Z.of_nat j - Z.of_nat i) * Z.of_nat k) / rt n)))).
  2:{ intros k Hk. rewrite DFT_nth by exact Hk. unfold dft. cbv zeta. fold n. rewrite div_as_mul, <- !(sum_mul_r F).
      apply sum_ext. intros j _. rewrite div_as_mul.
      replace (e * (Z.of_nat j - Z.of_nat i) * Z.of_nat k)%Z with (e * Z.of_nat j * Z.of_nat k + - e * Z.of_nat k * Z.of_nat i)%Z by ring.
      rewrite wz_add by exact Hn. ring. }
  rewrite (sum_swap F n n (fun k j => samp x j * (wz n (e * (Z.of_nat j - Z.of_nat i) * Z.of_nat k) / rt n))).
  rewrite (sum_ext F n _ (fun j => samp x j * ((if (e * (Z.of_nat j - Z.of_nat i) mod Z.of_nat n =? 0)%Z then cnat n else 0) / rt n))).
  2:{ intros j _. rewrite (sum_mul_l F). f_equal. rewrite div_as_mul, <- ortho by exact Hn. rewrite <- (sum_mul_r F). apply sum_ext. intros k _. apply div_as_mul. }
  rewrite (sum_single F n _ i Hi).
  - rewrite Z.sub_diag, Z.mul_0_r, Z.mod_0_l by lia. cbn [Z.eqb]. rewrite <- rt_sq. field. exact Nr.
  - intros j Hj Hne. destruct (Z.eqb_spec (e * (Z.of_nat j - Z.of_nat i) mod Z.of_nat n) 0) as [C|_].
    + exfalso. apply Z.mod_divide in C; [|lia]. destruct C as [q Hq].
      assert (q = 0)%Z by (destruct He; subst e; nia). subst q. destruct He; subst e; lia.
    + rewrite div_as_mul. ring.
Qed.
End D.
