(** C30, C31: theorems. *)
From Coq Require Import QArith_base Qcanon. Close Scope Q_scope. Close Scope Qc_scope.
From Verif Require Import Base BaseLemmas Fields Poly_Model Poly_Spec Poly_Proofs.
Local Open Scope cring_scope.

(** ** C30 *)
(** Evaluation gives the mathematical value, in both representations. *)
Theorem C30_horner : forall (K : cring) (p : poly K) x, p_horner p x = value p x.
Proof. exact horner_ok. Qed.
Print Assumptions C30_horner.
Theorem C30_vers_coefs : forall (K : cring) (p : poly K) x, p_roots (p_vers_coefs p) = false /\ p_horner (p_vers_coefs p) x = p_horner p x.
Proof. intros K p x. rewrite !horner_ok. split; [apply vers_coefs_roots|apply vers_coefs_ok]. Qed.
Print Assumptions C30_vers_coefs.
(** Sum, difference, opposite, scaling, adding constants: both representations, any mix. *)
Theorem C30_linear : forall (K : cring) (p q : poly K) s x,
  p_horner (p_add p q) x = p_horner p x + p_horner q x /\
  p_horner (p_sub p q) x = p_horner p x - p_horner q x /\
  p_horner (p_neg p) x = - p_horner p x /\
  p_horner (p_scale p s) x = p_horner p x * s /\
  p_horner (p_addc p s) x = p_horner p x + s /\
  p_horner (p_subc p s) x = p_horner p x - s.
Proof.
  intros K p q s x. rewrite !horner_ok. repeat split; [apply add_ok|apply sub_ok|apply neg_ok|apply scale_ok|apply addc_ok|].
  unfold p_subc. rewrite addc_ok. rewrite (Rsub_def (cth K)). reflexivity.
Qed.
Print Assumptions C30_linear.
Theorem C30_product : forall (K : cring) (p q : poly K) x, (p_roots p = true -> p_roots q = true) ->
  p_horner (p_mul p q) x = p_horner p x * p_horner q x.
Proof. intros K p q x H. rewrite !horner_ok. apply mul_ok. exact H. Qed.
Print Assumptions C30_product.
Theorem C30_power : forall (K : cring) (p : poly K) e x, p_horner (p_pow p e) x = cpow (p_horner p x) e.
Proof. intros. rewrite !horner_ok. apply pow_ok. Qed.
Print Assumptions C30_power.
Theorem C30_shift : forall (K : cring) (p : poly K) i x, p_roots p = false -> p_horner (p_shift p i) x = cpow x i * p_horner p x.
Proof. intros. rewrite !horner_ok. apply shift_ok. assumption. Qed.
Print Assumptions C30_shift.
(** Finding: (roots) * (coefficients) is wrong by the constant 1, for all polynomials and points. *)
Theorem C30_mixed_product_refuted : forall (K : cring) (p q : poly K) x, p_roots p = true -> p_roots q = false ->
  p_horner (p_mul p q) x = p_horner p x * p_horner q x + 1.
Proof. intros K p q x H1 H2. rewrite !horner_ok, mul_gen, H1, H2. reflexivity. Qed.
Print Assumptions C30_mixed_product_refuted.
(** Finding: shifting a polynomial given by its roots forgets that they are roots: (z - 5) << 1 evaluates as 5 z. *)
Theorem C30_shift_roots_refuted : p_horner (K := Zring) (p_shift (p_from_roots (K := Zring) [5%Z]) 1) 2%Z = 10%Z /\
  (cpow (K := Zring) 2%Z 1 * p_horner (K := Zring) (p_from_roots (K := Zring) [5%Z]) 2%Z)%Z = (-6)%Z.
Proof. split; reflexivity. Qed.
Print Assumptions C30_shift_roots_refuted.
Example C30_case : let p := p_from_roots (K := Zring) [1%Z; (-2)%Z] in let q := p_of (K := Zring) [3%Z; 0%Z; 1%Z] in
  p_roots q = false /\ p_horner (K := Zring) p 5%Z = 28%Z /\ p_horner (K := Zring) q 5%Z = 28%Z /\ p_horner (K := Zring) (p_mul q p) 5%Z = 784%Z /\ p_horner (K := Zring) (p_mul p q) 5%Z = 785%Z.
Proof. repeat split. Qed.

(** ** C31 *)
Theorem C31_sum : forall (K : cfield) (f g : frat K) x,
  fits (f_num f) (f_den g) -> fits (f_num g) (f_den f) -> fits (f_den f) (f_den g) ->
  p_horner (f_den f) x <> 0 -> p_horner (f_den g) x <> 0 ->
  f_horner (f_add f g) x = f_horner f x + f_horner g x /\ f_horner (f_sub f g) x = f_horner f x - f_horner g x.
Proof. intros K f g x H1 H2 H3. rewrite !horner_ok, !fhorner_ok. intros. split; [apply fadd_ok|apply fsub_ok]; assumption. Qed.
Print Assumptions C31_sum.
Theorem C31_product : forall (K : cfield) (f g : frat K) x, fits (f_num f) (f_num g) -> fits (f_den f) (f_den g) ->
  p_horner (f_den f) x <> 0 -> p_horner (f_den g) x <> 0 -> f_horner (f_mul f g) x = f_horner f x * f_horner g x.
Proof. intros K f g x H1 H2. rewrite !horner_ok, !fhorner_ok. intros. apply fmul_ok; assumption. Qed.
Print Assumptions C31_product.
(** Division, with the removal of common powers of z: isz is the test for zero. *)
Theorem C31_quotient : forall (K : cfield) (isz : K -> bool), (forall v, isz v = true -> v = 0) ->
  forall (f g : frat K) x, fits (f_num f) (f_den g) -> fits (f_den f) (f_num g) -> x <> 0 ->
  p_horner (f_den f) x <> 0 -> p_horner (f_den g) x <> 0 -> p_horner (f_num g) x <> 0 ->
  f_horner (f_div isz f g) x = f_horner f x / f_horner g x.
Proof. intros K isz Hz f g x H1 H2. rewrite !horner_ok, !fhorner_ok. intros. apply fdiv_ok; assumption. Qed.
Print Assumptions C31_quotient.
Theorem C31_simplify : forall (K : cfield) (isz : K -> bool), (forall v, isz v = true -> v = 0) ->
  forall (f : frat K) x, x <> 0 -> p_horner (f_den f) x <> 0 -> f_horner (f_simplifier isz f) x = f_horner f x.
Proof. intros K isz Hz f x Hx. rewrite !horner_ok, !fhorner_ok. intros. apply simplifier_ok; assumption. Qed.
Print Assumptions C31_simplify.
Theorem C31_scalars : forall (K : cfield) (f : frat K) s x, p_horner (f_den f) x <> 0 ->
  f_horner (f_scale f s) x = f_horner f x * s /\ f_horner (f_neg f) x = - f_horner f x /\
  f_horner (f_addc f s) x = f_horner f x + s /\ f_horner (f_subc f s) x = f_horner f x - s /\
  f_horner (f_csub s f) x = s - f_horner f x.
Proof.
  intros K f s x. rewrite !horner_ok, !fhorner_ok. intros N. split; [apply fscale_ok|]. split; [apply fneg_ok|]. split; [apply faddc_ok; exact N|]. split.
  - unfold f_subc. rewrite faddc_ok by exact N. rewrite (Rsub_def (cth K)). reflexivity.
  - unfold f_csub. rewrite faddc_ok by exact N. rewrite fneg_ok, (Rsub_def (cth K)), (Radd_comm (cth K)). reflexivity.
Qed.
Print Assumptions C31_scalars.
Theorem C31_inverse : forall (K : cfield) (f : frat K) s x, p_horner (f_num f) x <> 0 -> p_horner (f_den f) x <> 0 ->
  f_horner (f_inv f) x = 1 / f_horner f x /\ f_horner (f_cdiv s f) x = 1 / f_horner f x * s.
Proof.
  intros K f s x. rewrite !horner_ok, !fhorner_ok. intros N1 N2. split; [apply finv_ok; assumption|].
  unfold f_cdiv. rewrite fscale_ok, finv_ok by assumption. reflexivity.
Qed.
Print Assumptions C31_inverse.
Theorem C31_power : forall (K : cfield) (f : frat K) n x, p_horner (f_den f) x <> 0 -> f_horner (f_pow f n) x = cpow (f_horner f x) n.
Proof. intros K f n x. rewrite !horner_ok, !fhorner_ok. apply fpow_ok. Qed.
Print Assumptions C31_power.
Theorem C31_developed : forall (K : cfield) (f : frat K) x, f_horner (f_developpe f) x = f_horner f x.
Proof. intros. rewrite !fhorner_ok. unfold fvalue, f_developpe. cbn [f_num f_den]. rewrite !vers_coefs_ok. reflexivity. Qed.
Print Assumptions C31_developed.
(** Transfer functions of the difference equations. *)
Theorem C31_fir : forall (K : cfield) (a : list K) z, a <> [] -> z <> 0 -> exists f, f_rif a = Ok f /\ f_horner f z = transfer a z.
Proof. intros K a z Ha Hz. destruct (rif_ok K a z Ha Hz) as [f [E V]]. exists f. rewrite fhorner_ok. auto. Qed.
Print Assumptions C31_fir.
Theorem C31_fir_back : forall (K : cfield) (isz : K -> bool), isz 0 = true -> forall (a : list K), a <> [] ->
  exists f, f_rif a = Ok f /\ f_coefs_rif isz f = Ok a.
Proof. intros K isz Hz a Ha. apply coefs_rif_ok; assumption. Qed.
Print Assumptions C31_fir_back.
Theorem C31_iir : forall (K : cfield) (a b : list K) z, a <> [] -> (length a <= length b + 1)%nat -> (length b <= length a + 1)%nat ->
  z <> 0 -> transfer b z <> 0 -> exists f, f_rii a b = Ok f /\ f_horner f z = transfer a z / transfer b z.
Proof. intros K a b z H1 H2 H3 H4 H5. destruct (rii_ok K a b z H1 H2 H3 H4 H5) as [f [E V]]. exists f. rewrite fhorner_ok. auto. Qed.
Print Assumptions C31_iir.
Theorem C31_inverse_z : forall (K : cfield) (f : frat K) x, x <> 0 ->
  let a := p_coefs (p_vers_coefs (f_num f)) in let b := p_coefs (p_vers_coefs (f_den f)) in
  a <> [] -> (length a <= length b + 1)%nat -> (length b <= length a + 1)%nat -> p_horner (f_den f) (finv x) <> 0 ->
  f_horner (f_inv_z f) x = f_horner f (finv x).
Proof. intros K f x Hx a b H1 H2 H3. rewrite horner_ok, !fhorner_ok. intros. apply inv_z_ok; assumption. Qed.
Print Assumptions C31_inverse_z.
(** Finding: operator precedence.  H(z) = 2 / (1 + z^-2), at z = 2: 8/5, but the code's fraction gives 16/5. *)
Theorem C31_iir_refuted : exists f, f_rii (K := Qcfield) [qc 2 1] [qc 1 1; qc 0 1; qc 1 1] = Ok f /\
  f_horner f (qc 2 1) = qc 16 5 /\
  transfer (K := Qcfield) [qc 2 1] (qc 2 1) / transfer (K := Qcfield) [qc 1 1; qc 0 1; qc 1 1] (qc 2 1) = qc 8 5.
Proof. eexists. split; [reflexivity|]. split; apply qc_eq; vm_compute; reflexivity. Qed.
Print Assumptions C31_iir_refuted.
(** Finding: 1 / z^2 is a FIR filter with taps (0, 0, 1), coefs_rif answers (1). *)
Definition qisz (v : Qcfield) : bool := if Qc_eq_dec (v : Qc) (qc 0 1) then true else false.
Theorem C31_coefs_rif_refuted : f_coefs_rif qisz (mkfrat (p_of [qc 1 1]) (p_of [qc 0 1; qc 0 1; qc 1 1])) = Ok [qc 1 1] /\
  transfer (K := Qcfield) [qc 1 1] (qc 2 1) <> f_horner (mkfrat (p_of [qc 1 1]) (p_of (K := Qcfield) [qc 0 1; qc 0 1; qc 1 1])) (qc 2 1).
Proof.
  split; [reflexivity|]. intros H. apply (f_equal (fun v : Qcfield => this (v : Qc))) in H. vm_compute in H. discriminate.
Qed.
Print Assumptions C31_coefs_rif_refuted.
(** Powers of z: fine for n >= 0, exception for n < 0 (finding: the sign is not inverted). *)
Theorem C31_z_power : forall (K : cfield) n (x : K), (0 <= n)%Z ->
  exists f, f_z_power n = Ok f /\ f_horner f x = cpow x (Z.to_nat n).
Proof.
  intros K n x Hn. unfold f_z_power. destruct (Z.eqb_spec n 0) as [->|Hn'].
  - eexists. split; [reflexivity|]. rewrite fhorner_ok. unfold fvalue, f_un. cbn [f_num f_den]. rewrite !value_one.
    rewrite (Fdiv_def (fth K)), (Rmul_1_l (cth K)). cbn [cpow Z.to_nat].
    rewrite <- (Rmul_1_l (cth K) (finv 1)), (Rmul_comm (cth K)). apply (Finv_l (fth K)). apply one_ne.
  - destruct (Z.ltb_spec 0 n); [|lia]. eexists. split; [reflexivity|]. rewrite fhorner_ok. unfold fvalue. cbn [f_num f_den].
    change (value (p_of [1]) x) with (value (K := K) p_one x). rewrite value_one, value_of, pval_app, pval_zeros, repeat_length.
    rewrite pval_cons, pval_nil. rewrite (Fdiv_def (fth K)).
    assert (E : finv (1 : K) = 1). { rewrite <- (Rmul_1_l (cth K) (finv 1)), (Rmul_comm (cth K)). apply (Finv_l (fth K)). apply one_ne. }
    rewrite E. rewrite (Rmul_comm (cth K) _ 1), (Rmul_1_l (cth K)), (Radd_0_l (cth K)).
    assert (Z0 : x * 0 = 0 :> K) by (pose proof (sum_mul_l K 0 x (fun _ => 0)) as Q; symmetry; exact Q).
    rewrite Z0, (Radd_comm (cth K) 1 0), (Radd_0_l (cth K)), (Rmul_comm (cth K)), (Rmul_1_l (cth K)). reflexivity.
Qed.
Print Assumptions C31_z_power.
Theorem C31_z_power_refuted : forall (K : cring) n, (n < 0)%Z -> f_z_power (K := K) n = Exc.
Proof. intros K n Hn. unfold f_z_power. destruct (Z.eqb_spec n 0); [lia|]. destruct (Z.ltb_spec 0 n); [lia|reflexivity]. Qed.
Print Assumptions C31_z_power_refuted.
Example C31_case : let f := mkfrat (p_of (K := Qcfield) [qc 0 1; qc 1 1]) (p_of [qc 1 1; qc 1 2]) in
  let g := mkfrat (p_of (K := Qcfield) [qc 0 1; qc 0 1; qc 3 1]) (p_of [qc 1 1; qc 1 1]) in
  fits (f_num f) (f_den g) /\ f_horner f (qc 2 1) = qc 1 1 /\ f_horner g (qc 2 1) = qc 4 1 /\
  f_horner (f_div qisz f g) (qc 2 1) = qc 1 4 /\ map (fun v : Qc => this v) (p_coefs (f_num (f_div qisz f g))) = map (fun v : Qc => this v) [qc 1 1; qc 1 1].
Proof. split; [intros H; discriminate H|]. repeat split; try (apply qc_eq; vm_compute; reflexivity). Qed.
