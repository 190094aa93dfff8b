(** Proofs about the special functions. *)
From Coq Require Import Reals Lra Lia ZArith.
From Coquelicot Require Import Coquelicot.
From Verif Require Import Base BaseLemmas RField Poly_Model Poly_Spec Poly_Proofs Phase_Model Phase_Spec Phase_Proofs Special_Model Special_Spec.

Section Ring.
  Variable K : cring.
  Add Ring Kr : (cth K).
  Local Open Scope cring_scope.
  Definition cst (e : bool) (n : nat) : poly K * poly K := Nat.iter n cheb_body (p_one, if e then p_z else p_scale p_z (1 + 1)).
  Lemma cst_fst e n : fst (cst e (S n)) = snd (cst e n).
  Proof. reflexivity. Qed.
  (** the polynomial of index n *)
  Definition cpoly (e : bool) (n : nat) : poly K := fst (cst e n).
  Lemma TU_cpoly e n : Chebychev_TU (Z.of_nat n) e = cpoly e n.
  Proof.
    unfold Chebychev_TU, cpoly. destruct n as [|[|n]]; [reflexivity|reflexivity|].
    rewrite cst_fst. replace (Z.of_nat (S (S n)) =? 0)%Z with false by (symmetry; apply Z.eqb_neq; lia).
    replace (Z.of_nat (S (S n)) =? 1)%Z with false by (symmetry; apply Z.eqb_neq; lia).
    replace (Z.to_nat (Z.of_nat (S (S n)) - 1)) with (S n) by lia. reflexivity.
  Qed.
  Lemma cpoly_SS e n : cpoly e (S (S n)) = p_sub (p_mul (p_scale p_z (1 + 1)) (cpoly e (S n))) (cpoly e n).
  Proof. reflexivity. Qed.
  Lemma v_one x : value (K := K) p_one x = 1.
  Proof. unfold value, p_one, p_of, pval. cbn. ring. Qed.
  Lemma v_z x : value (K := K) p_z x = x.
  Proof. unfold value, p_z, p_of, pval. cbn. ring. Qed.
  Lemma v_SS e n x : value (cpoly e (S (S n))) x = (1 + 1) * x * value (cpoly e (S n)) x - value (cpoly e n) x.
  Proof. rewrite cpoly_SS, sub_ok, mul_ok by discriminate. rewrite scale_ok, v_z. ring. Qed.
  Lemma v_0 e x : value (cpoly e 0) x = 1.
  Proof. apply v_one. Qed.
  Lemma v_1 e x : value (cpoly e 1) x = if e then x else (1 + 1) * x.
  Proof. unfold cpoly, cst. cbn [Nat.iter nat_rect cheb_body fst snd]. destruct e; [apply v_z|]. rewrite scale_ok, v_z. ring. Qed.
  (** product formula *)
  Lemma T_product x : forall n m, (n <= m)%nat ->
    (1 + 1) * (value (cpoly true m) x * value (cpoly true n) x) = value (cpoly true (m + n)) x + value (cpoly true (m - n)) x.
  Proof.
    intros n. induction n as [n IH] using (well_founded_induction Wf_nat.lt_wf). intros m H.
    destruct n as [|[|n]].
    - rewrite v_0, Nat.add_0_r, Nat.sub_0_r. ring.
    - rewrite v_1. destruct m as [|m]; [lia|]. replace (S m + 1)%nat with (S (S m)) by lia. replace (S m - 1)%nat with m by lia. rewrite v_SS. ring.
    - rewrite (v_SS true n).
      pose proof (IH (S n) ltac:(lia) m ltac:(lia)) as A. pose proof (IH n ltac:(lia) m ltac:(lia)) as B.
      replace (m + S (S n))%nat with (S (S (m + n))) by lia. rewrite v_SS. replace (S (m + n)) with (m + S n)%nat by lia.
      replace (m - n)%nat with (S (S (m - S (S n)))) in B by lia. rewrite v_SS in B.
      replace (S (m - S (S n))) with (m - S n)%nat in B by lia.
      set (u := value (cpoly true (m - S (S n))) x) in *. set (a := value (cpoly true (m + S n)) x) in *. set (b := value (cpoly true (m + n)) x) in *.
      set (c := value (cpoly true (m - S n)) x) in *. set (p := value (cpoly true m) x) in *. set (q := value (cpoly true (S n)) x) in *. set (r := value (cpoly true n) x) in *.
      transitivity ((1 + 1) * x * ((1 + 1) * (p * q)) - (1 + 1) * (p * r)); [ring|]. rewrite A, B. ring.
  Qed.
  (** composition *)
  Lemma T_compose x m : forall n, value (cpoly true n) (value (cpoly true m) x) = value (cpoly true (n * m)) x.
  Proof.
    intros n. induction n as [n IH] using (well_founded_induction Wf_nat.lt_wf). destruct n as [|[|n]].
    - rewrite !v_0. reflexivity.
    - rewrite v_1, Nat.mul_1_l. reflexivity.
    - rewrite v_SS, (IH (S n)), (IH n) by lia.
      pose proof (T_product x m (S n * m)%nat ltac:(lia)) as A.
      replace (S n * m + m)%nat with (S (S n) * m)%nat in A by lia. replace (S n * m - m)%nat with (n * m)%nat in A by lia.
      transitivity ((1 + 1) * (value (cpoly true (S n * m)) x * value (cpoly true m) x) - value (cpoly true (n * m)) x); [ring|]. rewrite A. ring.
  Qed.
  (** coefficients *)
  Lemma nth_add_head : forall (l s : list K) i, (length s <= length l)%nat -> nth i (add_head l s) 0 = nth i l 0 + nth i s 0.
  Proof.
    induction l as [|a l IH]; intros [|b s] i H; cbn [length] in H; try lia.
    - destruct i; cbn; ring.
    - cbn [add_head]. destruct i; cbn [nth]; ring.
    - cbn [add_head]. destruct i; cbn [nth]; [ring|]. apply IH. lia.
  Qed.
  Lemma add_head_length : forall (l s : list K), (length s <= length l)%nat -> length (add_head l s) = length l.
  Proof. induction l as [|a l IH]; intros [|b s] H; cbn [length add_head] in *; try lia. rewrite IH by lia. reflexivity. Qed.
  Lemma nth_add_coefs (a b : list K) i : nth i (add_coefs a b) 0 = nth i a 0 + nth i b 0.
  Proof. unfold add_coefs. destruct (Nat.leb_spec (length b) (length a)); rewrite nth_add_head by lia; ring. Qed.
  Lemma add_coefs_length (a b : list K) : length (add_coefs a b) = Nat.max (length a) (length b).
  Proof. unfold add_coefs. destruct (Nat.leb_spec (length b) (length a)); rewrite add_head_length by lia; lia. Qed.
  (** 2 z * q *)
  Definition shift2 : list K := [0 * (1 + 1); 1 * (1 + 1)].
  Lemma mul2_gen : forall (b r : list K) s,
    let f := fold_left (fun r kb => add_coefs r (repeat 0 (fst kb) ++ map (fun v => v * snd kb) shift2)) (combine (seq s (length b)) b) r in
    length f = (match b with [] => length r | _ => Nat.max (length r) (s + length b + 1) end) /\
    forall i, nth i f 0 = nth i r 0 + (if (s <? i)%nat then (1 + 1) * nth (i - 1 - s) b 0 else 0).
  Proof.
    induction b as [|c b IH]; intros r s f.
    - cbn in f. subst f. split; [reflexivity|]. intros i. destruct (s <? i)%nat; [|ring]. destruct (i - 1 - s)%nat; cbn [nth]; ring.
    - subst f. cbn [length seq combine fold_left fst snd]. destruct (IH (add_coefs r (repeat 0 s ++ map (fun v => v * c) shift2)) (S s)) as [A B].
      rewrite A. split.
      + rewrite add_coefs_length, app_length, repeat_length. unfold shift2. cbn [map length]. destruct b; cbn [length]; lia.
      + intros i. rewrite B, nth_add_coefs. unfold shift2. cbn [map].
        destruct (Nat.ltb_spec (S s) i) as [H|H]; destruct (Nat.ltb_spec s i) as [G|G]; try lia.
        * rewrite app_nth2; rewrite repeat_length; [|lia]. rewrite (nth_overflow _ _ (n := (i - s)%nat)) by (cbn [length]; lia).
          replace (i - 1 - s)%nat with (S (i - 1 - S s)) by lia. cbn [nth]. ring.
        * rewrite app_nth2; rewrite repeat_length; [|lia]. replace (i - s)%nat with 1%nat by lia. replace (i - 1 - s)%nat with 0%nat by lia. cbn [nth]. ring.
        * destruct (Nat.eq_dec i s) as [E|E].
          -- rewrite app_nth2; rewrite repeat_length; [|lia]. replace (i - s)%nat with 0%nat by lia. cbn [nth]. ring.
          -- rewrite app_nth1 by (rewrite repeat_length; lia). rewrite nth_repeat. ring.
  Qed.
  Lemma cpoly_mode e n : p_roots (cpoly e n) = false.
  Proof. destruct n as [|[|n]]; [reflexivity|destruct e; reflexivity|]. rewrite cpoly_SS. reflexivity. Qed.
  Lemma vers_id (p : poly K) : p_roots p = false -> p_vers_coefs p = p.
  Proof. intros H. unfold p_vers_coefs. rewrite H. reflexivity. Qed.
  Lemma coefs_SS e n : p_coefs (cpoly e (S n)) <> [] ->
    p_coefs (cpoly e (S (S n))) = add_coefs (mul_coefs [] shift2 (p_coefs (cpoly e (S n)))) (map (fun v => - v) (p_coefs (cpoly e n))).
  Proof.
    intros N. rewrite cpoly_SS. unfold p_sub, p_add. cbn [p_of p_coefs].
    rewrite (vers_id (p_mul _ _)) by (apply mul_mode_coefs; reflexivity).
    rewrite (vers_id (p_neg _)) by (unfold p_neg; rewrite cpoly_mode; reflexivity).
    unfold p_neg. rewrite cpoly_mode. cbn [p_coefs]. f_equal.
    unfold p_mul. cbn [p_roots p_scale p_z p_of andb]. rewrite (vers_id (cpoly e (S n))) by apply cpoly_mode.
    destruct (p_coefs (cpoly e (S n))) eqn:E; [congruence|]. reflexivity.
  Qed.
  Lemma coefs_shape e : forall n, length (p_coefs (cpoly e n)) = S n /\ length (p_coefs (cpoly e (S n))) = S (S n) /\ nth (S n) (p_coefs (cpoly e (S n))) 0 = (if e then 1 else 1 + 1) * cpow (1 + 1) n.
  Proof.
    induction n as [|n (A & B & C)].
    - destruct e; (split; [reflexivity|split; [reflexivity|]]); cbn; ring.
    - split; [exact B|]. assert (N : p_coefs (cpoly e (S n)) <> []) by (intros E; rewrite E in B; discriminate).
      rewrite coefs_SS by exact N. unfold mul_coefs.
      destruct (mul2_gen (p_coefs (cpoly e (S n))) [] 0) as [L V]. split.
      + rewrite add_coefs_length, L, map_length, A. destruct (p_coefs (cpoly e (S n))) eqn:E; [congruence|]. rewrite B. cbn [length]. lia.
      + rewrite nth_add_coefs, V. rewrite (nth_overflow (map _ _)) by (rewrite map_length; lia).
        replace (S (S n) - 1 - 0)%nat with (S n) by lia. cbn [Nat.ltb Nat.leb]. rewrite C.
        replace (nth (S (S n)) [] 0) with (0 : K) by reflexivity. cbn [cpow]. ring.
  Qed.
End Ring.

Section Real.
  Local Open Scope R_scope.
  Lemma T_cos t : forall n, value (K := Rring) (cpoly Rring true n) (cos t) = cos (INR n * t).
  Proof.
    intros n. assert (H : value (K := Rring) (cpoly Rring true n) (cos t) = cos (INR n * t) /\ value (K := Rring) (cpoly Rring true (S n)) (cos t) = cos (INR (S n) * t)).
    { induction n as [|n [A B]].
      - rewrite v_0, v_1. cbn [INR]. rewrite Rmult_0_l, cos_0, Rmult_1_l. split; reflexivity.
      - split; [exact B|]. rewrite v_SS, A, B. change ((1 + 1) * cos t * cos (INR (S n) * t) - cos (INR n * t) = cos (INR (S (S n)) * t)).
        rewrite !S_INR. replace ((INR n + 1 + 1) * t) with ((INR n + 1) * t + t) by ring. replace (INR n * t) with ((INR n + 1) * t - t) by ring.
        rewrite cos_plus, cos_minus. ring. }
    apply H.
  Qed.
  Lemma U_sin t : forall n, value (K := Rring) (cpoly Rring false n) (cos t) * sin t = sin ((INR n + 1) * t).
  Proof.
    intros n. assert (H : value (K := Rring) (cpoly Rring false n) (cos t) * sin t = sin ((INR n + 1) * t) /\ value (K := Rring) (cpoly Rring false (S n)) (cos t) * sin t = sin ((INR (S n) + 1) * t)).
    { induction n as [|n [A B]].
      - rewrite v_0, v_1. cbn [INR]. split; [change (1 * sin t = sin ((0 + 1) * t)); replace ((0 + 1) * t) with t by ring; ring|]. change ((1 + 1) * cos t * sin t = sin ((1 + 1) * t)). replace ((1 + 1) * t) with (2 * t) by ring. rewrite sin_2a. ring.
      - split; [exact B|]. rewrite v_SS. change (((1 + 1) * cos t * value (K := Rring) (cpoly Rring false (S n)) (cos t) - value (K := Rring) (cpoly Rring false n) (cos t)) * sin t = sin ((INR (S (S n)) + 1) * t)).
        rewrite Rmult_minus_distr_r, A, Rmult_assoc, B. rewrite !S_INR. replace ((INR n + 1 + 1 + 1) * t) with ((INR n + 1 + 1) * t + t) by ring.
        replace ((INR n + 1) * t) with ((INR n + 1 + 1) * t - t) by ring. rewrite sin_plus, sin_minus. ring. }
    apply H.
  Qed.
  Lemma T_ge1 x : 1 <= x -> forall n, 1 <= value (K := Rring) (cpoly Rring true n) x <= value (K := Rring) (cpoly Rring true (S n)) x.
  Proof.
    intros H n. induction n as [|n [A B]].
    - rewrite v_0, v_1. cbn. lra.
    - split; [lra|]. rewrite v_SS. change (value (K := Rring) (cpoly Rring true (S n)) x <= (1 + 1) * x * value (K := Rring) (cpoly Rring true (S n)) x - value (K := Rring) (cpoly Rring true n) x).
      assert (G : forall a b : R, 1 <= b -> b <= a -> a <= (1 + 1) * x * a - b) by (intros; nra). apply G; assumption.
  Qed.
  (** Dirichlet *)
  Lemma sum_opp n (f : nat -> R) : sum (K := Rring) n (fun i => - f i) = - sum (K := Rring) n f.
  Proof. induction n as [|n IH]; cbn [sum]; [cbn; lra|]. rewrite IH. cbn. lra. Qed.
  Lemma dir_im0 N w : dirichlet_im N w = 0.
  Proof.
    unfold dirichlet_im. rewrite sum_opp. assert (E : sum (K := Rring) (2 * N + 1) (fun j => sin ((INR j - INR N) * w)) = - sum (K := Rring) (2 * N + 1) (fun j => sin ((INR j - INR N) * w))).
    { rewrite sum_rev at 1. rewrite <- sum_opp. apply sum_ext. intros i Hi. rewrite <- sin_neg. f_equal.
      rewrite !minus_INR by lia. rewrite plus_INR, mult_INR. cbn [INR]. ring. }
    assert (G : forall s : R, s = - s -> - s = 0) by (intros; lra). apply G. exact E.
  Qed.
  Lemma dir_tel w : forall n, forall a, 2 * sin (w / 2) * sum (K := Rring) n (fun j => cos ((INR j + a) * w)) = sin ((INR n - / 2 + a) * w) - sin ((a - / 2) * w).
  Proof.
    induction n as [|n IH]; intros a.
    - cbn [sum INR]. replace (0 - / 2 + a) with (a - / 2) by ring. change (2 * sin (w / 2) * 0 = sin ((a - / 2) * w) - sin ((a - / 2) * w)). ring.
    - cbn [sum]. change (2 * sin (w / 2) * (sum (K := Rring) n (fun j => cos ((INR j + a) * w)) + cos ((INR n + a) * w)) = sin ((INR (S n) - / 2 + a) * w) - sin ((a - / 2) * w)).
      rewrite Rmult_plus_distr_l, IH, S_INR.
      replace ((INR n + 1 - / 2 + a) * w) with ((INR n + a) * w + w / 2) by field. replace ((INR n - / 2 + a) * w) with ((INR n + a) * w - w / 2) by field.
      rewrite sin_plus, sin_minus. ring.
  Qed.
  Lemma dir_closed N w : sin (w / 2) <> 0 -> dirichlet_re N w = sin ((INR N + / 2) * w) / sin (w / 2).
  Proof.
    intros H. pose proof (dir_tel w (2 * N + 1) (- INR N)) as E. unfold dirichlet_re.
    replace (INR (2 * N + 1) - / 2 + - INR N) with (INR N + / 2) in E by (rewrite plus_INR, mult_INR; cbn [INR]; field).
    replace ((- INR N - / 2) * w) with (- ((INR N + / 2) * w)) in E by ring. rewrite sin_neg in E.
    rewrite (sum_ext Rring _ (fun j => cos ((INR j - INR N) * w)) (fun j => cos ((INR j + - INR N) * w))) by (intros; reflexivity).
    apply (Rmult_eq_reg_l (2 * sin (w / 2))); [|lra]. etransitivity; [exact E|]. field. exact H.
  Qed.
  Lemma cos_kper x k : cos (x + 2 * IZR k * PI) = cos x.
  Proof.
    destruct (Z_le_gt_dec 0 k) as [H|H].
    - rewrite <- (Z2Nat.id k) by exact H. rewrite <- INR_IZR_INZ. apply cos_period.
    - rewrite <- (cos_period (x + 2 * IZR k * PI) (Z.to_nat (- k))). f_equal. rewrite INR_IZR_INZ, Z2Nat.id by lia. rewrite opp_IZR. ring.
  Qed.
  Lemma dir_period N w k : dirichlet_re N (w + IZR k * (2 * PI)) = dirichlet_re N w.
  Proof.
    unfold dirichlet_re. apply (sum_ext Rring). intros j _. replace ((INR j - INR N) * (w + IZR k * (2 * PI))) with ((INR j - INR N) * w + 2 * IZR ((Z.of_nat j - Z.of_nat N) * k) * PI).
    - apply cos_kper.
    - rewrite mult_IZR, minus_IZR, <- !INR_IZR_INZ. ring.
  Qed.

  (** 1 - cos x <= x^2 / 2 *)
  Lemma sin_sq_le x : sin x * sin x <= x * x.
  Proof.
    assert (P : forall y, 0 <= y -> sin y * sin y <= y * y).
    { intros y [Hy|<-]; [|rewrite sin_0; lra]. destruct (Rle_dec 1 y) as [H|H].
      - pose proof (SIN_bound y). nra.
      - pose proof (sin_lt_x y Hy). pose proof (sin_ge_0 y ltac:(lra) ltac:(pose proof PI2_1; pose proof PI_RGT_0; lra)). nra. }
    destruct (Rle_dec 0 x) as [H|H]; [auto|]. specialize (P (- x) ltac:(lra)). rewrite sin_neg in P. lra.
  Qed.
  Lemma cos_low x : 1 - x * x / 2 <= cos x.
  Proof. replace (cos x) with (cos (2 * (x / 2))) by (f_equal; field). rewrite cos_2a_sin. pose proof (sin_sq_le (x / 2)). lra. Qed.
  Lemma sum_le n (f g : nat -> R) : (forall i, (i < n)%nat -> f i <= g i) -> sum (K := Rring) n f <= sum (K := Rring) n g.
  Proof.
    induction n as [|n IH]; intros H; cbn [sum]; [apply Rle_refl|]. apply Rplus_le_compat; [apply IH; intros; apply H; lia|apply H; lia].
  Qed.
  Lemma sum_sq N : sum (K := Rring) (2 * N + 1) (fun j => (INR j - INR N) * (INR j - INR N)) = INR N * (INR N + 1) * (2 * INR N + 1) / 3.
  Proof.
    assert (G : forall n a, sum (K := Rring) n (fun j => (INR j + a) * (INR j + a)) = INR n * (INR n - 1) * (2 * INR n - 1) / 6 + a * INR n * (INR n - 1) + a * a * INR n).
    { induction n as [|n IH]; intros a; [cbn; field|]. cbn [sum]. rewrite IH, S_INR.
      match goal with |- cadd ?a ?b = ?c => change (@eq R (Rplus a b) c) end. field. }
    rewrite (sum_ext Rring _ _ (fun j => (INR j + - INR N) * (INR j + - INR N))) by (intros; reflexivity). rewrite G, plus_INR, mult_INR. cbn [INR].
    match goal with |- ?a = ?b => change (@eq R a b) end. field.
  Qed.
  Lemma dir_near N w : (INR 2 * INR N + 1) - INR N * (INR N + 1) * (2 * INR N + 1) / 6 * (w * w) <= dirichlet_re N w <= 2 * INR N + 1.
  Proof.
    split.
    - apply Rle_trans with (sum (K := Rring) (2 * N + 1) (fun j => 1 + (INR j - INR N) * (INR j - INR N) * (- (w * w) / 2))).
      + right. etransitivity; [|symmetry; exact (sum_add Rring (2 * N + 1) (fun _ => 1) (fun j => (INR j - INR N) * (INR j - INR N) * (- (w * w) / 2)))].
        rewrite (sum_const Rring), cnat_R. rewrite (sum_mul_r Rring (2 * N + 1) (- (w * w) / 2) (fun j => (INR j - INR N) * (INR j - INR N)) : sum (K := Rring) (2 * N + 1) (fun j => (INR j - INR N) * (INR j - INR N) * (- (w * w) / 2)) = _), sum_sq.
        change (INR 2 * INR N + 1 - INR N * (INR N + 1) * (2 * INR N + 1) / 6 * (w * w) = INR (2 * N + 1) * 1 + INR N * (INR N + 1) * (2 * INR N + 1) / 3 * (- (w * w) / 2)).
        rewrite plus_INR, mult_INR. cbn [INR]. field.
      + apply sum_le. intros i _. pose proof (cos_low ((INR i - INR N) * w)). lra.
    - apply Rle_trans with (sum (K := Rring) (2 * N + 1) (fun j => 1)).
      + apply sum_le. intros i _. apply COS_bound.
      + rewrite (sum_const Rring), cnat_R. change (INR (2 * N + 1) * 1 <= 2 * INR N + 1). rewrite plus_INR, mult_INR. cbn [INR]. lra.
  Qed.
  Lemma dir_even N w : dirichlet_re N (- w) = dirichlet_re N w.
  Proof. unfold dirichlet_re. apply (sum_ext Rring). intros j _. rewrite <- (cos_neg ((INR j - INR N) * w)). f_equal. ring. Qed.
  Lemma dir_modulo N W : dirichlet_re N W = dirichlet_re N (modulo_2pi W).
  Proof.
    unfold modulo_2pi. destruct (modulo_spec W (2 * PI) ltac:(pose proof PI_RGT_0; lra)) as [_ [k Hk]].
    rewrite <- (dir_period N (modulo W (2 * PI)) k). f_equal. lra.
  Qed.
  Lemma Dirichlet_ok N W : Dirichlet (Z.of_nat N) W = dirichlet_re N W \/
    (Dirichlet (Z.of_nat N) W = 2 * INR N + 1 /\ exists k : Z, Rabs (W - IZR k * (2 * PI)) < / 10 ^ 5).
  Proof.
    rewrite (dir_modulo N W). unfold Dirichlet. rewrite <- INR_IZR_INZ. unfold modulo_2pi.
    destruct (modulo_spec W (2 * PI) ltac:(pose proof PI_RGT_0; lra)) as [[A B] [k Hk]].
    set (w := modulo W (2 * PI)) in *.
    destruct (Rlt_dec w (/ 10 ^ 5)) as [H|H]; [right; split; [reflexivity|exists k; rewrite Rabs_right; lra]|].
    destruct (Rlt_dec (2 * PI - w) (/ 10 ^ 5)) as [G|G].
    - right. split; [reflexivity|]. exists (k + 1)%Z. rewrite plus_IZR. rewrite Rabs_left1; lra.
    - left. symmetry. apply dir_closed. apply Rgt_not_eq. apply sin_gt_0; [|lra].
      assert (0 < / 10 ^ 5) by (apply Rinv_0_lt_compat; lra). lra.
  Qed.
  Lemma sin_int_PI k : sin (IZR k * PI) = 0.
  Proof. apply sin_eq_0_1. exists k. reflexivity. Qed.
  Lemma sin_near a : 0 < a -> a - a * a * a / 2 <= sin a <= a.
  Proof.
    intros H. destruct (MVT_cor2 sin cos 0 a H) as (c & E & A & B); [intros; apply derivable_pt_lim_sin|].
    rewrite sin_0 in E. pose proof (cos_low c). pose proof (COS_bound c). assert (c * c <= a * a) by nra. replace (sin a) with (cos c * a) by lra. split; nra.
  Qed.
  Lemma cos_int T f : f <> 0 -> is_RInt (fun t => cos (2 * PI * f * t)) (- T / 2) (T / 2) (sin (PI * T * f) / (PI * f)).
  Proof.
    intros Hf. pose proof PI_RGT_0 as HP.
    replace (sin (PI * T * f) / (PI * f)) with (minus (sin (2 * PI * f * (T / 2)) / (2 * PI * f)) (sin (2 * PI * f * (- T / 2)) / (2 * PI * f))).
    - apply (is_RInt_derive (fun t => sin (2 * PI * f * t) / (2 * PI * f)) (fun t => cos (2 * PI * f * t))).
      + intros x _. auto_derive; [trivial|]. field. split; lra.
      + intros x _. apply (ex_derive_continuous (fun t => cos (2 * PI * f * t))). auto_derive. trivial.
    - unfold minus, plus, opp. cbn. replace (2 * PI * f * (T / 2)) with (PI * T * f) by field. replace (2 * PI * f * (- T / 2)) with (- (PI * T * f)) by field.
      rewrite sin_neg. field. split; lra.
  Qed.
  Lemma sin_int T f : is_RInt (fun t => - sin (2 * PI * f * t)) (- T / 2) (T / 2) 0.
  Proof.
    pose proof PI_RGT_0 as HP. destruct (Req_dec f 0) as [->|Hf].
    - apply (is_RInt_ext (fun _ => 0)); [intros x _; rewrite Rmult_0_r, Rmult_0_l, sin_0; symmetry; exact Ropp_0|].
      pose proof (is_RInt_const (- T / 2) (T / 2) 0) as H. unfold scal in H. cbn in H. unfold mult in H. cbn in H. rewrite Rmult_0_r in H. exact H.
    - replace 0 with (minus (cos (2 * PI * f * (T / 2)) / (2 * PI * f)) (cos (2 * PI * f * (- T / 2)) / (2 * PI * f))).
      + apply (is_RInt_derive (fun t => cos (2 * PI * f * t) / (2 * PI * f)) (fun t => - sin (2 * PI * f * t))).
        * intros x _. auto_derive; [trivial|]. field. split; lra.
        * intros x _. apply (ex_derive_continuous (fun t => - sin (2 * PI * f * t))). auto_derive. trivial.
      + unfold minus, plus, opp. cbn. replace (2 * PI * f * (- T / 2)) with (- (2 * PI * f * (T / 2))) by field. rewrite cos_neg. field. split; lra.
  Qed.
  Lemma sinc_zero T : is_RInt (fun t => cos (2 * PI * 0 * t)) (- T / 2) (T / 2) T.
  Proof.
    apply (is_RInt_ext (fun _ => 1)); [intros x _; rewrite Rmult_0_r, Rmult_0_l, cos_0; reflexivity|].
    pose proof (is_RInt_const (- T / 2) (T / 2) 1) as H. unfold scal in H. cbn in H. unfold mult in H. cbn in H.
    assert (E : (T / 2 - - T / 2) * 1 = T :> R) by field. exact (eq_ind _ (fun v => is_RInt _ (- T / 2) (T / 2) v) H _ E).
  Qed.
End Real.
