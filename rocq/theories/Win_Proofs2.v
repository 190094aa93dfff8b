(** Proofs about the Chebyshev and Kaiser windows. *)
From Coq Require Import Reals Lra Lia ZArith.
From Verif Require Import Base BaseLemmas RField Vec_Model Vec_Proofs Sig_Proofs Special_Proofs Design_Proofs2 Ra_Model Ra_Proofs Win_Model Win_Spec Win_Proofs.
Local Open Scope R_scope.

(** Chebyshev polynomial by its recurrence *)
Fixpoint chebT (n : nat) (x : R) : R := match n with O => 1 | S m => match m with O => x | S k => 2 * x * chebT m x - chebT k x end end.
Lemma chebT_SS n x : chebT (S (S n)) x = 2 * x * chebT (S n) x - chebT n x.
Proof. reflexivity. Qed.
Lemma two_step (P : nat -> Prop) : P 0%nat -> P 1%nat -> (forall n, P n -> P (S n) -> P (S (S n))) -> forall n, P n.
Proof. intros H0 H1 H n. assert (P n /\ P (S n)) by (induction n as [|n [A B]]; auto). tauto. Qed.
Lemma chebT_cos t : forall n, chebT n (cos t) = cos (INR n * t).
Proof.
  apply two_step.
  - cbn. rewrite Rmult_0_l, cos_0. reflexivity.
  - cbn. rewrite Rmult_1_l. reflexivity.
  - intros n A B. rewrite chebT_SS, A, B, !S_INR. replace ((INR n + 1 + 1) * t) with ((INR n + 1) * t + t) by ring. replace (INR n * t) with ((INR n + 1) * t - t) by ring. rewrite cos_plus, cos_minus. ring.
Qed.
Lemma cosh_sum a b : cosh (a + b) + cosh (a - b) = 2 * cosh a * cosh b.
Proof. unfold cosh. unfold Rminus. rewrite !exp_plus, !Ropp_plus_distr, !exp_plus, Ropp_involutive. field. Qed.
Lemma chebT_cosh t : forall n, chebT n (cosh t) = cosh (INR n * t).
Proof.
  apply two_step.
  - cbn. rewrite Rmult_0_l. unfold cosh. rewrite Ropp_0, exp_0. field.
  - cbn. rewrite Rmult_1_l. reflexivity.
  - intros n A B. rewrite chebT_SS, A, B, !S_INR. pose proof (cosh_sum ((INR n + 1) * t) t) as E. replace ((INR n + 1) * t + t) with ((INR n + 1 + 1) * t) in E by ring. replace ((INR n + 1) * t - t) with (INR n * t) in E by ring. lra.
Qed.
Lemma chebT_opp x : forall n, chebT n (- x) = (if Nat.odd n then -1 else 1) * chebT n x.
Proof.
  apply two_step; [cbn; ring|cbn; ring|]. intros n A B. rewrite !chebT_SS, A, B. rewrite (Nat.odd_succ (S n)), Nat.even_succ, Nat.odd_succ, <- Nat.negb_odd. destruct (Nat.odd n); cbn [negb]; ring.
Qed.
Lemma acosh_arg x : 1 <= x -> 1 <= x + sqrt (x * x - 1).
Proof. intros H. pose proof (sqrt_pos (x * x - 1)). lra. Qed.
Lemma cosh_acosh x : 1 <= x -> cosh (acosh x) = x.
Proof.
  intros H. unfold cosh, acosh. pose proof (acosh_arg x H). rewrite exp_Ropp, exp_ln by lra. set (s := sqrt (x * x - 1)) in *. assert (Q : s * s = x * x - 1) by (apply sqrt_sqrt; nra).
  apply (Rmult_eq_reg_r (2 * (x + s))); [|lra]. field_simplify; [|lra]. nra.
Qed.
Lemma acosh_nonneg x : 1 <= x -> 0 <= acosh x.
Proof. intros H. unfold acosh. pose proof (acosh_arg x H). rewrite <- ln_1. destruct (Req_dec (x + sqrt (x * x - 1)) 1) as [-> |N]; [lra|]. left. apply ln_increasing; lra. Qed.
Lemma cheb_eval_ok x n : cheb_eval x n = chebT n x.
Proof.
  unfold cheb_eval. destruct (Rle_dec (-1) x) as [H1|H1]; [destruct (Rle_dec x 1) as [H2|H2]|].
  - rewrite <- chebT_cos, cos_acos by lra. reflexivity.
  - rewrite <- chebT_cosh, cosh_acosh by lra. reflexivity.
  - rewrite <- chebT_cosh, cosh_acosh by lra. rewrite <- chebT_opp, Ropp_involutive. reflexivity.
Qed.
(** the coefficients of T_N(beta cos(om / 2)) *)
Fixpoint chc (b : R) (N : nat) : (Z -> R) * (Z -> R) :=
  match N with
  | O => (fun j => if (j =? 0)%Z then 1 else 0, fun j => if (j =? 0)%Z || (j =? 1)%Z then b / 2 else 0)
  | S m => let (p, q) := chc b m in (q, fun j => b * (q j + q (j - 1)%Z) - p (j - 1)%Z)
  end.
Definition cc (b : R) (N : nat) : Z -> R := fst (chc b N).
Lemma chc_snd b N : snd (chc b N) = cc b (S N).
Proof. unfold cc. cbn [chc]. destruct (chc b N). reflexivity. Qed.
Lemma cc_SS b N j : cc b (S (S N)) j = b * (cc b (S N) j + cc b (S N) (j - 1)) - cc b N (j - 1).
Proof. rewrite <- chc_snd. unfold cc. cbn [chc]. destruct (chc b N). reflexivity. Qed.
Lemma cc_0 b j : cc b 0 j = if (j =? 0)%Z then 1 else 0.
Proof. reflexivity. Qed.
Lemma cc_1 b j : cc b 1 j = if (j =? 0)%Z || (j =? 1)%Z then b / 2 else 0.
Proof. reflexivity. Qed.
Lemma cc_out b : forall N j, (j < 0 \/ Z.of_nat N < j)%Z -> cc b N j = 0.
Proof.
  apply (two_step (fun N => forall j, (j < 0 \/ Z.of_nat N < j)%Z -> cc b N j = 0)).
  - intros j Hj. rewrite cc_0. destruct (Z.eqb_spec j 0); [lia|reflexivity].
  - intros j Hj. rewrite cc_1. destruct (Z.eqb_spec j 0), (Z.eqb_spec j 1); cbn [orb]; try lia. reflexivity.
  - intros n A B j Hj. rewrite cc_SS, !B, A by lia. ring.
Qed.
Lemma cc_sym b : forall N j, cc b N (Z.of_nat N - j) = cc b N j.
Proof.
  apply (two_step (fun N => forall j, cc b N (Z.of_nat N - j) = cc b N j)).
  - intros j. rewrite !cc_0. destruct (Z.eqb_spec (Z.of_nat 0 - j) 0), (Z.eqb_spec j 0); try lia; reflexivity.
  - intros j. rewrite !cc_1. destruct (Z.eqb_spec (Z.of_nat 1 - j) 0), (Z.eqb_spec j 0), (Z.eqb_spec (Z.of_nat 1 - j) 1), (Z.eqb_spec j 1); cbn [orb]; try lia; reflexivity.
  - intros n A B j. rewrite !cc_SS. rewrite <- (B (j - 1)%Z), <- (B j), <- (A (j - 1)%Z).
    replace (Z.of_nat (S (S n)) - j)%Z with (Z.of_nat (S n) - (j - 1))%Z by lia. replace (Z.of_nat (S n) - (j - 1) - 1)%Z with (Z.of_nat (S n) - j)%Z by lia. replace (Z.of_nat n - (j - 1))%Z with (Z.of_nat (S n) - j)%Z by lia. ring.
Qed.
(** sum over all j of c_j cos((j - N/2) om) *)
Definition cosum (c : Z -> R) (N : nat) (h om : R) : R := rsum (S N) (fun k => c (Z.of_nat k) * cos ((INR k - h) * om)).
Lemma cosum_ext c d N h om : (forall j, c j = d j) -> cosum c N h om = cosum d N h om.
Proof. intros H. apply rsum_ext. intros k _. rewrite H. reflexivity. Qed.
Lemma cosum_wide c N h om : c (Z.of_nat (S N)) = 0 -> cosum c (S N) h om = cosum c N h om.
Proof. intros H. unfold cosum. rewrite rsum_S, H. rring. Qed.
Lemma cosum_lin a b c d N h om : cosum (fun j => a * c j + b * d j) N h om = a * cosum c N h om + b * cosum d N h om.
Proof. unfold cosum. rewrite <- !rsum_mul, <- rsum_add. apply rsum_ext. intros. rring. Qed.
Lemma cosum_shift c N h om : c (-1)%Z = 0 -> cosum (fun j => c (j - 1)%Z) (S N) h om = cosum c N (h - 1) om.
Proof.
  intros H. unfold cosum. rewrite (sum_S_l Rring). change (Z.of_nat 0 - 1)%Z with (-1)%Z. rewrite H. change (0 * cos ((INR 0 - h) * om) + rsum (S N) (fun k => c (Z.of_nat (S k) - 1)%Z * cos ((INR (S k) - h) * om)) = rsum (S N) (fun k => c (Z.of_nat k) * cos ((INR k - (h - 1)) * om))).
  rewrite Rmult_0_l, Rplus_0_l. apply rsum_ext. intros k _. replace (Z.of_nat (S k) - 1)%Z with (Z.of_nat k) by lia. rewrite S_INR. do 2 f_equal. ring.
Qed.
Lemma cosum_mul c N h om : 2 * cos (om / 2) * cosum c N h om = cosum c N (h - / 2) om + cosum c N (h + / 2) om.
Proof.
  unfold cosum. rewrite <- rsum_mul, <- rsum_add. apply rsum_ext. intros k _. replace ((INR k - (h - / 2)) * om) with ((INR k - h) * om + om / 2) by field.
  replace ((INR k - (h + / 2)) * om) with ((INR k - h) * om - om / 2) by field. rewrite cos_plus, cos_minus. rring.
Qed.
Lemma cc_cosum b om : forall N, cosum (cc b N) N (INR N / 2) om = chebT N (b * cos (om / 2)).
Proof.
  apply two_step.
  - unfold cosum. rewrite rsum_S, cc_0. cbn [sum INR chebT]. change (Z.of_nat 0 =? 0)%Z with true. cbv iota. replace ((0 - 0 / 2) * om) with 0 by field. rewrite cos_0. change (0 + 1 * 1 = 1). ring.
  - unfold cosum. rewrite !rsum_S, !cc_1. cbn [sum INR chebT]. change ((Z.of_nat 0 =? 0) || (Z.of_nat 0 =? 1))%Z with true. change ((Z.of_nat 1 =? 0) || (Z.of_nat 1 =? 1))%Z with true. cbv iota.
    replace ((0 - 1 / 2) * om) with (- (om / 2)) by field. replace ((1 - 1 / 2) * om) with (om / 2) by field. rewrite cos_neg. change (0 + b / 2 * cos (om / 2) + b / 2 * cos (om / 2) = b * cos (om / 2)). field.
  - intros N A B. rewrite chebT_SS, <- A, <- B.
    transitivity (b * (2 * cos (om / 2) * cosum (cc b (S N)) (S N) (INR (S N) / 2) om) - cosum (cc b N) N (INR N / 2) om); [|ring].
    rewrite cosum_mul. rewrite (cosum_ext _ (fun j => b * (fun j => cc b (S N) j + cc b (S N) (j - 1)%Z) j + (-1) * (fun j => cc b N (j - 1)%Z) j)) by (intros j; cbv beta; rewrite cc_SS; ring).
    rewrite cosum_lin. rewrite (cosum_shift (cc b N) (S N)) by (apply cc_out; lia). rewrite (cosum_wide (cc b N) N) by (apply cc_out; lia).
    rewrite (cosum_ext (fun j => cc b (S N) j + cc b (S N) (j - 1)%Z) (fun j => 1 * cc b (S N) j + 1 * (fun j => cc b (S N) (j - 1)%Z) j)) by (intros; ring). rewrite cosum_lin.
    rewrite (cosum_shift (cc b (S N)) (S N)) by (apply cc_out; lia). rewrite (cosum_wide (cc b (S N)) (S N)) by (apply cc_out; lia).
    rewrite !S_INR. replace ((INR N + 1 + 1) / 2 - 1) with (INR N / 2) by field. replace ((INR N + 1 + 1) / 2) with ((INR N + 1) / 2 + / 2) by field. replace ((INR N + 1) / 2 - / 2) with (INR N / 2) by field. ring.
Qed.

(** discrete orthogonality *)
Lemma sumcos N (m : Z) : (0 < N)%nat -> rsum N (fun i => cos (2 * PI * INR i * IZR m / INR N)) = if (m mod Z.of_nat N =? 0)%Z then INR N else 0.
Proof.
  intros HN. assert (0 < INR N) by (apply lt_0_INR; exact HN). pose proof (Z.mod_pos_bound m (Z.of_nat N) ltac:(lia)) as B. pose proof (Z.div_mod m (Z.of_nat N) ltac:(lia)) as E. set (r := (m mod Z.of_nat N)%Z) in *. set (q := (m / Z.of_nat N)%Z) in *.
  assert (Q : forall i, cos (2 * PI * INR i * IZR m / INR N) = cos (0 + 2 * PI * INR (Z.to_nat r) * INR i / INR N)).
  { intros i. rewrite E, plus_IZR, mult_IZR, <- INR_IZR_INZ. rewrite (INR_IZR_INZ (Z.to_nat r)), Z2Nat.id by lia.
    replace (2 * PI * INR i * (INR N * IZR q + IZR r) / INR N) with (0 + 2 * PI * IZR r * INR i / INR N + 2 * IZR (Z.of_nat i * q) * PI); [apply cos_kper|]. rewrite mult_IZR, <- INR_IZR_INZ. field. lra. }
  rewrite (rsum_ext _ _ _ (fun i _ => Q i)). destruct (Z.eqb_spec r 0) as [Z0|Z0].
  - rewrite Z0. rewrite (rsum_ext _ _ (fun _ => 1)). { rewrite rsum_const. rring. } intros i _. change (Z.to_nat 0) with 0%nat. cbn [INR]. replace (0 + 2 * PI * 0 * INR i / INR N) with 0 by (field; lra). apply cos_0.
  - apply cos_sum. lia.
Qed.
Lemma rsum_swap n m (f : nat -> nat -> R) : rsum n (fun i => rsum m (fun j => f i j)) = rsum m (fun j => rsum n (fun i => f i j)).
Proof.
  induction n as [|n IH]; [symmetry; apply rsum_0|]. rewrite rsum_S, IH. rewrite <- rsum_add. apply rsum_ext. intros j _. rewrite rsum_S. reflexivity.
Qed.
Lemma rsum_pick n p (f : nat -> R) : rsum n (fun j => if (j =? p)%nat then f j else 0) = if (p <? n)%nat then f p else 0.
Proof.
  induction n as [|n IH]; [reflexivity|]. rewrite rsum_S, IH. destruct (Nat.ltb_spec p n), (Nat.ltb_spec p (S n)), (Nat.eqb_spec n p); subst; try lia; rring.
Qed.
Lemma modz a N : (0 < N)%nat -> (- Z.of_nat N < a < 2 * Z.of_nat N)%Z -> (a mod Z.of_nat N =? 0)%Z = ((a =? 0) || (a =? Z.of_nat N))%Z.
Proof.
  intros HN B. destruct (Z.eqb_spec a 0) as [-> |N0]; [rewrite Z.mod_0_l by lia; reflexivity|]. destruct (Z.eqb_spec a (Z.of_nat N)) as [-> |N1]; [rewrite Z.mod_same by lia; reflexivity|]. cbn [orb].
  apply Z.eqb_neq. intros H. apply Z.mod_divide in H; [|lia]. destruct H as [q H]. assert (q = 0 \/ q = 1)%Z by nia. destruct H0; subst q; lia.
Qed.
Lemma sign_cos i : (if Nat.odd i then -1 else 1) = cos (INR i * PI).
Proof.
  induction i as [|i IH]; [cbn; rewrite Rmult_0_l, cos_0; reflexivity|]. rewrite S_INR, Rmult_plus_distr_r, Rmult_1_l, neg_cos, <- IH, Nat.odd_succ, <- Nat.negb_odd. destruct (Nat.odd i); cbn [negb]; ring.
Qed.
Lemma cheb_X_val N b i : (i < N)%nat -> nth i (cheb_X (S N) b) 0 = rsum (S N) (fun j => cc b N (Z.of_nat j) * cos (2 * PI * INR i * INR j / INR N)).
Proof.
  intros Hi. unfold cheb_X. replace (S N - 1)%nat with N by lia. rewrite nth_map_seq by exact Hi. rewrite cheb_eval_ok. assert (0 < INR N) by (apply lt_0_INR; lia).
  replace (PI * INR i / INR N) with (2 * PI * INR i / INR N / 2) by (field; lra). rewrite <- cc_cosum. unfold cosum. rewrite <- rsum_mul. apply rsum_ext. intros j _.
  replace ((INR j - INR N / 2) * (2 * PI * INR i / INR N)) with (2 * PI * INR i * INR j / INR N - INR i * PI) by (field; lra). rewrite cos_minus. assert (S0 : sin (INR i * PI) = 0) by (rewrite INR_IZR_INZ; apply sin_int_PI).
  rewrite S0, <- sign_cos. destruct (Nat.odd i); rring.
Qed.
Lemma cheb_idft N b k : (k < N)%nat -> rsum N (fun i => nth i (cheb_X (S N) b) 0 * cos (2 * PI * INR i * INR k / INR N)) = (if (k =? 0)%nat then 2 else 1) * INR N * cc b N (Z.of_nat k).
Proof.
  intros Hk. assert (HN : (0 < N)%nat) by lia. assert (0 < INR N) by (apply lt_0_INR; lia).
  transitivity (rsum N (fun i => rsum (S N) (fun j => cc b N (Z.of_nat j) * / 2 * (cos (2 * PI * INR i * IZR (Z.of_nat j + Z.of_nat k) / INR N) + cos (2 * PI * INR i * IZR (Z.of_nat j - Z.of_nat k) / INR N))))).
  { apply rsum_ext. intros i Hi. rewrite cheb_X_val by exact Hi. rewrite Rmult_comm, <- rsum_mul. apply rsum_ext. intros j _. rewrite plus_IZR, minus_IZR, <- !INR_IZR_INZ.
    replace (2 * PI * INR i * (INR j + INR k) / INR N) with (2 * PI * INR i * INR j / INR N + 2 * PI * INR i * INR k / INR N) by (field; lra). replace (2 * PI * INR i * (INR j - INR k) / INR N) with (2 * PI * INR i * INR j / INR N - 2 * PI * INR i * INR k / INR N) by (field; lra).
    rewrite cos_plus, cos_minus. match goal with |- @eq _ ?a ?b => change (@eq R a b) end. field. }
  rewrite rsum_swap. transitivity (rsum (S N) (fun j => INR N / 2 * (if (j =? (if (k =? 0)%nat then 0 else N - k))%nat then cc b N (Z.of_nat j) else 0) + INR N / 2 * (if (j =? k)%nat then cc b N (Z.of_nat j) else 0)
     + (if (k =? 0)%nat then INR N else 0) * (if (j =? N)%nat then cc b N (Z.of_nat j) else 0))).
  { apply rsum_ext. intros j Hj. rewrite rsum_mul, rsum_add, !sumcos by exact HN. rewrite !modz by lia. destruct (Nat.eqb_spec k 0) as [K0|K0].
    - subst k. change (Z.of_nat 0) with 0%Z. rewrite Z.add_0_r, Z.sub_0_r. destruct (Nat.eqb_spec j 0), (Nat.eqb_spec j N), (Z.eqb_spec (Z.of_nat j) 0), (Z.eqb_spec (Z.of_nat j) (Z.of_nat N)); cbn [orb]; try lia; match goal with |- @eq _ ?a ?b => change (@eq R a b) end; field.
    - destruct (Nat.eqb_spec j (N - k)), (Nat.eqb_spec j k), (Z.eqb_spec (Z.of_nat j + Z.of_nat k) 0), (Z.eqb_spec (Z.of_nat j + Z.of_nat k) (Z.of_nat N)), (Z.eqb_spec (Z.of_nat j - Z.of_nat k) 0), (Z.eqb_spec (Z.of_nat j - Z.of_nat k) (Z.of_nat N)); cbn [orb]; try lia; match goal with |- @eq _ ?a ?b => change (@eq R a b) end; field. }
  rewrite !rsum_add, !rsum_mul, !rsum_pick. destruct (Nat.ltb_spec k (S N)); [|lia]. destruct (Nat.ltb_spec N (S N)); [|lia]. destruct (Nat.eqb_spec k 0) as [K0|K0].
  - subst k. destruct (Nat.ltb_spec 0 (S N)); [|lia]. rewrite <- (cc_sym b N (Z.of_nat N)). replace (Z.of_nat N - Z.of_nat N)%Z with (Z.of_nat 0) by lia. match goal with |- @eq _ ?a ?b => change (@eq R a b) end. field.
  - destruct (Nat.ltb_spec (N - k) (S N)); [|lia]. rewrite <- (cc_sym b N (Z.of_nat (N - k))). replace (Z.of_nat N - Z.of_nat (N - k))%Z with (Z.of_nat k) by lia. match goal with |- @eq _ ?a ?b => change (@eq R a b) end. field.
Qed.
(** the coefficients are not negative *)
Definition wsum (c : Z -> R) (j : Z) (L : nat) : R := rsum L (fun i => c (j - Z.of_nat i)%Z).
Lemma wsum_S c j L : wsum c j (S L) = c j + wsum c (j - 1) L.
Proof.
  unfold wsum. rewrite (sum_S_l Rring). change (c (j - Z.of_nat 0)%Z + rsum L (fun i => c (j - Z.of_nat (S i))%Z) = c j + rsum L (fun i => c (j - 1 - Z.of_nat i)%Z)). f_equal; [f_equal; lia|]. apply rsum_ext. intros i _. f_equal. lia.
Qed.
Lemma wsum_last c j L : wsum c j (S L) = wsum c j L + c (j - Z.of_nat L)%Z.
Proof. unfold wsum. rewrite rsum_S. reflexivity. Qed.
Lemma wsum_SS b N j L : wsum (cc b (S (S N))) j L = b * (wsum (cc b (S N)) j L + wsum (cc b (S N)) (j - 1) L) - wsum (cc b N) (j - 1) L.
Proof.
  unfold wsum. induction L as [|L IH]; [cbn; ring|]. rewrite !rsum_S, IH, cc_SS. replace (j - Z.of_nat L - 1)%Z with (j - 1 - Z.of_nat L)%Z by lia. rring.
Qed.
Lemma wsum_delta j L : wsum (cc 0 0) j L = if (0 <=? j)%Z && (j <? Z.of_nat L)%Z then 1 else 0.
Proof.
  induction L as [|L IH]; [destruct (Z.leb_spec 0 j), (Z.ltb_spec j (Z.of_nat 0)); cbn [andb]; try lia; reflexivity|]. rewrite wsum_last, IH, cc_0.
  destruct (Z.eqb_spec (j - Z.of_nat L) 0), (Z.leb_spec 0 j), (Z.ltb_spec j (Z.of_nat L)), (Z.ltb_spec j (Z.of_nat (S L))); cbn [andb]; try lia; ring.
Qed.
Lemma wsum_one b j L : wsum (cc b 1) j L = b / 2 * (wsum (cc 0 0) j L + wsum (cc 0 0) (j - 1) L).
Proof.
  unfold wsum. induction L as [|L IH]; [cbn; ring|]. rewrite !rsum_S, IH, cc_1, !cc_0. replace (j - 1 - Z.of_nat L =? 0)%Z with (j - Z.of_nat L =? 1)%Z by (apply eq_true_iff_eq; rewrite !Z.eqb_eq; lia).
  destruct (Z.eqb_spec (j - Z.of_nat L) 0), (Z.eqb_spec (j - Z.of_nat L) 1); cbn [orb]; try lia; rring.
Qed.
Lemma cc_00 b : cc b 0 = cc 0 0.
Proof. reflexivity. Qed.
Lemma cc_pos_inv b : 1 <= b -> forall N, (forall j, 0 <= cc b N j) /\ (forall j, 0 <= cc b (S N) j) /\ forall j L, wsum (cc b N) (j - 1) L <= wsum (cc b (S N)) j (S L).
Proof.
  intros Hb. induction N as [|N (P0 & P1 & W)].
  - split; [|split].
    + intros j. rewrite cc_0. destruct (j =? 0)%Z; lra.
    + intros j. rewrite cc_1. destruct ((j =? 0)%Z || (j =? 1)%Z); lra.
    + intros j L. rewrite wsum_one, cc_00, !wsum_delta. destruct (Z.leb_spec 0 j), (Z.leb_spec 0 (j - 1)), (Z.ltb_spec j (Z.of_nat (S L))), (Z.ltb_spec (j - 1) (Z.of_nat (S L))), (Z.ltb_spec (j - 1) (Z.of_nat L)); cbn [andb]; try lia; lra.
  - assert (NN : forall j L, 0 <= wsum (cc b (S N)) j L) by (intros j L; unfold wsum; rewrite <- (rsum_0 L); apply sum_le; intros; apply P1).
    assert (W2 : forall j L, wsum (cc b (S N)) (j - 1) L <= wsum (cc b (S (S N))) j (S L)).
    { intros j L. rewrite wsum_SS. pose proof (W j (S L)) as E1. pose proof (NN j (S L)). pose proof (NN (j - 1)%Z (S L)). rewrite (wsum_S (cc b (S N)) j (S L)) in E1.
      rewrite (wsum_S (cc b (S N)) j L) in *. nra. }
    split; [exact P1|]. split; [|exact W2]. intros j. pose proof (W2 j 0%nat) as E. unfold wsum in E. cbn [sum] in E. change (Z.of_nat 0) with 0%Z in E. rewrite Z.sub_0_r in E. change (0 <= 0 + cc b (S (S N)) j) in E. lra.
Qed.
Lemma cc_pos b N j : 1 <= b -> 0 <= cc b N j.
Proof. intros H. apply (cc_pos_inv b H N). Qed.
(** the window before normalisation *)
Definition cw (b : R) (N : nat) : list R := map (fun k => INR N / sqrt (INR N) * cc b N (Z.of_nat k)) (seq 0 (S N)).
Lemma cheb_X_length n b : length (cheb_X n b) = (n - 1)%nat.
Proof. unfold cheb_X. rewrite map_length, seq_length. reflexivity. Qed.
Lemma raw_window b N : (1 <= N)%nat -> let w := re_ifft (cheb_X (S N) b) in upd w 0 (nth 0 w 0 / 2) ++ [nth 0 w 0 / 2] = cw b N.
Proof.
  intros HN w. assert (LX : length (cheb_X (S N) b) = N) by (rewrite cheb_X_length; lia). assert (Lw : length w = N) by (unfold w, re_ifft; rewrite map_length, seq_length; exact LX).
  assert (V : forall k, (k < N)%nat -> nth k w 0 = (if (k =? 0)%nat then 2 else 1) * (INR N / sqrt (INR N) * cc b N (Z.of_nat k))).
  { intros k Hk. unfold w, re_ifft. rewrite LX, nth_map_seq by exact Hk. rewrite cheb_idft by exact Hk. unfold Rdiv. destruct (k =? 0)%nat; ring. }
  apply (list_ext 0); [rewrite app_length, upd_length, Lw; unfold cw; rewrite map_length, seq_length; cbn [length]; lia|]. intros k Hk. rewrite app_length, upd_length, Lw in Hk. cbn [length] in Hk. unfold cw. rewrite nth_map_seq by lia.
  destruct (Nat.eq_dec k N) as [->|Nk].
  - rewrite app_nth2 by (rewrite upd_length; lia). rewrite upd_length, Lw, Nat.sub_diag. cbn [nth]. rewrite V by lia. cbn [Nat.eqb]. rewrite <- (cc_sym b N (Z.of_nat N)). replace (Z.of_nat N - Z.of_nat N)%Z with (Z.of_nat 0) by lia. field.
    apply Rgt_not_eq. apply sqrt_lt_R0. apply lt_0_INR. lia.
  - rewrite app_nth1 by (rewrite upd_length; lia). rewrite nth_upd, Lw. destruct (Nat.eqb_spec 0 k) as [<-|K0].
    + destruct (Nat.ltb_spec 0 N); [|lia]. cbn [andb]. rewrite V by lia. cbn [Nat.eqb]. field. apply Rgt_not_eq. apply sqrt_lt_R0. apply lt_0_INR. lia.
    + cbn [andb]. rewrite V by lia. destruct (Nat.eqb_spec k 0); [lia|]. ring.
Qed.
Lemma fold_max_ge l : forall a, a <= fold_left Rmax l a /\ forall v, In v l -> v <= fold_left Rmax l a.
Proof.
  induction l as [|b l IH]; intros a; cbn [fold_left]; [split; [lra|intros ? []]|]. destruct (IH (Rmax a b)) as [H1 H2]. pose proof (Rmax_l a b). pose proof (Rmax_r a b). split; [lra|]. intros v [->|Hv]; [lra|apply H2; exact Hv].
Qed.
Lemma fold_max_in l : forall a, fold_left Rmax l a = a \/ In (fold_left Rmax l a) l.
Proof.
  induction l as [|b l IH]; intros a; cbn [fold_left]; [left; reflexivity|]. destruct (IH (Rmax a b)) as [H|H]; [|right; right; exact H]. rewrite H. unfold Rmax. destruct (Rle_dec a b); [right; left; reflexivity|left; reflexivity].
Qed.
Lemma vmax_ge l v : In v l -> v <= vmax l.
Proof. destruct l as [|a l]; [intros []|]. cbn [vmax]. destruct (fold_max_ge l a) as [H1 H2]. intros [<-|H]; [exact H1|apply H2; exact H]. Qed.
Lemma vmax_in l : l <> [] -> In (vmax l) l.
Proof. destruct l as [|a l]; [congruence|]. intros _. cbn [vmax]. destruct (fold_max_in l a) as [H|H]; [rewrite H; left; reflexivity|right; exact H]. Qed.
Lemma cheb_shape n A : (2 <= n)%nat -> exists g, fenetre_chebychev n A = map (fun v => v / vmax g) g /\ g = cw (cheb_beta n A) (n - 1).
Proof.
  intros Hn. exists (cw (cheb_beta n A) (n - 1)). split; [|reflexivity]. unfold fenetre_chebychev. destruct (Nat.leb_spec n 1); [lia|]. pose proof (raw_window (cheb_beta n A) (n - 1) ltac:(lia)) as E. replace (S (n - 1)) with n in E by lia. cbv zeta in *. rewrite E. reflexivity.
Qed.
Lemma alin_ge1 A : 0 <= A -> 1 <= Rpower 10 (A / 20).
Proof. intros H. rewrite <- (Rpower_O 10) by lra. apply Rle_Rpower; lra. Qed.
Lemma cosh_ge1 x : 1 <= cosh x.
Proof. unfold cosh. rewrite exp_Ropp. pose proof (exp_pos x). set (e := exp x) in *. assert (0 < / e) by (apply Rinv_0_lt_compat; assumption). assert (Q : e + / e - 2 = (e - 1) * (e - 1) * / e) by (field; lra). assert (0 <= (e - 1) * (e - 1)) by (apply Rle_0_sqr). assert (0 <= (e - 1) * (e - 1) * / e) by (apply Rmult_le_pos; lra). lra. Qed.
Lemma beta_ge1 n A : 1 <= cheb_beta n A.
Proof. apply cosh_ge1. Qed.
Lemma beta_peak n A : (2 <= n)%nat -> 0 <= A -> chebT (n - 1) (cheb_beta n A) = Rpower 10 (A / 20).
Proof.
  intros Hn HA. unfold cheb_beta. rewrite chebT_cosh. replace (INR (n - 1) * (acosh (Rpower 10 (A / 20)) * (1 / INR (n - 1)))) with (acosh (Rpower 10 (A / 20))) by (field; apply not_0_INR; lia). apply cosh_acosh. apply alin_ge1. exact HA.
Qed.
Lemma cw_length b N : length (cw b N) = S N.
Proof. unfold cw. rewrite map_length, seq_length. reflexivity. Qed.
Lemma cw_response b N om : response (cw b N) om = INR N / sqrt (INR N) * chebT N (b * cos (om / 2)).
Proof.
  unfold response. rewrite cw_length. rewrite <- cc_cosum. unfold cosum. rewrite <- rsum_mul. apply rsum_ext. intros k Hk. unfold cw. rewrite nth_map_seq by exact Hk. rewrite S_INR. replace ((INR N + 1 - 1) / 2) with (INR N / 2) by field. rring.
Qed.
Lemma response_scale w m om : response (map (fun v => v / m) w) om = response w om / m.
Proof.
  unfold response. rewrite map_length. unfold Rdiv. rewrite (Rmult_comm (rsum _ _) (/ m)), <- rsum_mul. apply rsum_ext. intros k Hk. rewrite nth_map0 by exact Hk. rring.
Qed.
Lemma gN N : (1 <= N)%nat -> 0 < INR N / sqrt (INR N).
Proof. intros H. apply Rdiv_lt_0_compat; [apply lt_0_INR; lia|apply sqrt_lt_R0; apply lt_0_INR; lia]. Qed.
Lemma cw_nonneg b N v : 1 <= b -> (1 <= N)%nat -> In v (cw b N) -> 0 <= v.
Proof. intros Hb HN H. unfold cw in H. apply in_map_iff in H. destruct H as (k & <- & _). apply Rmult_le_pos; [left; apply gN; exact HN|apply cc_pos; exact Hb]. Qed.
Lemma chebT_ge1 x : 1 <= x -> forall n, 1 <= chebT n x <= chebT (S n) x.
Proof.
  intros H n. induction n as [|n [A B]]; [cbn; lra|]. split; [lra|]. rewrite chebT_SS. nra.
Qed.
Lemma cw_max_pos b N : 1 <= b -> (1 <= N)%nat -> 0 < vmax (cw b N).
Proof.
  intros Hb HN. assert (Nn : cw b N <> []) by (intros E; apply (f_equal (@length R)) in E; rewrite cw_length in E; discriminate E). pose proof (cw_nonneg b N (vmax (cw b N)) Hb HN (vmax_in _ Nn)) as [P|P]; [exact P|]. exfalso.
  pose proof (cw_response b N 0) as E. replace (0 / 2) with 0 in E by field. rewrite cos_0, Rmult_1_r in E. assert (Q : response (cw b N) 0 = 0).
  { unfold response. etransitivity; [|exact (rsum_0 (length (cw b N)))]. apply rsum_ext. intros k Hk. assert (I : In (nth k (cw b N) 0) (cw b N)) by (apply nth_In; exact Hk). pose proof (vmax_ge _ _ I). pose proof (cw_nonneg b N _ Hb HN I). replace (nth k (cw b N) 0) with 0 by lra. apply Rmult_0_l. }
  rewrite Q in E. pose proof (gN N HN). destruct (chebT_ge1 b Hb N) as [G _]. nra.
Qed.
Lemma chebT_mono x y n : 1 <= x <= y -> chebT n x <= chebT n y.
Proof.
  intros [Hx Hy]. rewrite <- (cosh_acosh x Hx), <- (cosh_acosh y ltac:(lra)), !chebT_cosh. assert (Q : 0 <= acosh x <= acosh y).
  { split; [apply acosh_nonneg; exact Hx|]. unfold acosh. assert (S1 : sqrt (x * x - 1) <= sqrt (y * y - 1)) by (apply sqrt_le_1; nra). pose proof (acosh_arg x Hx). destruct (Req_dec (x + sqrt (x * x - 1)) (y + sqrt (y * y - 1))) as [-> |NE]; [lra|]. left. apply ln_increasing; lra. }
  pose proof (pos_INR n). assert (CM : forall a b, 0 <= a <= b -> cosh a <= cosh b).
  { intros a b [Ha Hb]. unfold cosh. rewrite !exp_Ropp. assert (1 <= exp a) by (rewrite <- exp_0; destruct Ha as [Ha|<-]; [left; apply exp_increasing; exact Ha|lra]). assert (exp a <= exp b) by (destruct Hb as [Hb|<-]; [left; apply exp_increasing; exact Hb|lra]).
    set (u := exp a) in *. set (v := exp b) in *. assert (E : v + / v - (u + / u) = (v - u) * (1 - / (u * v))) by (field; lra). assert (/ (u * v) <= 1) by (rewrite <- Rinv_1; apply Rinv_le_contravar; nra). nra. }
  apply CM. nra.
Qed.
Lemma chebT_small x n : -1 <= x <= 1 -> Rabs (chebT n x) <= 1.
Proof. intros H. rewrite <- (cos_acos x H), chebT_cos. apply Rabs_le. apply COS_bound. Qed.
Lemma chebT_abs x y n : Rabs x <= y -> 1 <= y -> Rabs (chebT n x) <= chebT n y.
Proof.
  intros Hx Hy. destruct (Rle_dec (Rabs x) 1) as [G|G].
  - apply Rle_trans with 1; [apply chebT_small; pose proof (Rle_abs x); pose proof (Rle_abs (- x)) as G2; rewrite Rabs_Ropp in G2; lra|apply (chebT_ge1 y Hy n)].
  - assert (P : Rabs (chebT n x) = Rabs (chebT n (Rabs x))).
    { unfold Rabs at 3. destruct (Rcase_abs x); [|reflexivity]. rewrite chebT_opp. destruct (Nat.odd n); [replace (-1 * chebT n x) with (- chebT n x) by ring; rewrite Rabs_Ropp|rewrite Rmult_1_l]; reflexivity. }
    rewrite P, Rabs_right; [apply chebT_mono; lra|]. destruct (chebT_ge1 (Rabs x) ltac:(lra) n). lra.
Qed.
