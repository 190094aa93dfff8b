(** Proofs about the windows. *)
From Coq Require Import Reals Lra Lia ZArith.
From Verif Require Import Base BaseLemmas RField Vec_Model Vec_Proofs Sig_Proofs Special_Proofs Design_Proofs2 Win_Model Win_Spec.
Local Open Scope R_scope.

Lemma inter_length n sym : length (fen_inter n sym) = n.
Proof. unfold fen_inter. apply (linspace_spec (K := Rfield)). Qed.
Lemma lin_val a b n i : (i < n)%nat -> (2 <= n)%nat -> nth i (linspace (K := Rfield) a b n) 0 = a + (b - a) / (INR n - 1) * INR i.
Proof.
  intros Hi Hn. destruct (linspace_spec (K := Rfield) a b n) as (_ & E & _). etransitivity; [exact (E i Hi Hn)|]. change (cnat (K := Rfield)) with (cnat (K := Rring)). rewrite !cnat_R, minus_INR by lia. reflexivity.
Qed.
Lemma quot_even h : Z.quot (Z.of_nat (2 * h)) 2 = Z.of_nat h.
Proof. rewrite Z.quot_div_nonneg by lia. symmetry. apply (Z.div_unique _ 2 _ 0); lia. Qed.
Lemma quot_odd h : Z.quot (Z.of_nat (2 * h + 1)) 2 = Z.of_nat h.
Proof. rewrite Z.quot_div_nonneg by lia. symmetry. apply (Z.div_unique _ 2 _ 1); lia. Qed.
Lemma quot_pred h : (1 <= h)%nat -> Z.quot (Z.of_nat (2 * h) - 1) 2 = (Z.of_nat h - 1)%Z.
Proof. intros H. rewrite Z.quot_div_nonneg by lia. symmetry. apply (Z.div_unique _ 2 _ 1); lia. Qed.
Lemma even_2 h : Nat.even (2 * h) = true.
Proof. apply Nat.even_spec. exists h. reflexivity. Qed.
Lemma odd_2 h : Nat.even (2 * h + 1) = false.
Proof. rewrite Nat.even_add, even_2. reflexivity. Qed.
Lemma inter_even_sym h i : (i < 2 * h)%nat -> nth i (fen_inter (2 * h) true) 0 = - / 2 + INR i / (INR (2 * h) - 1).
Proof.
  intros Hi. unfold fen_inter. rewrite even_2, lin_val by lia. rewrite Z.quot_opp_l, quot_even by lia. rewrite opp_IZR, <- INR_IZR_INZ. assert (2 <= INR (2 * h)) by (apply (le_INR 2); lia).
  assert (1 <= INR h) by (apply (le_INR 1); lia). rewrite mult_INR in *. change (INR 2) with 2 in *. field. lra.
Qed.
Lemma inter_even_per h i : (i < 2 * h)%nat -> nth i (fen_inter (2 * h) false) 0 = (INR i - INR h) / INR (2 * h).
Proof.
  intros Hi. unfold fen_inter. rewrite even_2, lin_val by lia. rewrite Z.quot_opp_l, quot_even, quot_pred by lia. rewrite opp_IZR, minus_IZR, <- INR_IZR_INZ.
  assert (1 <= INR h) by (apply (le_INR 1); lia). rewrite mult_INR. change (INR 2) with 2. field. lra.
Qed.
Lemma inter_1 sym : fen_inter 1 sym = [0].
Proof. unfold fen_inter. change (Nat.even 1) with false. destruct (linspace_spec (K := Rfield)  (IZR (Z.quot (- Z.of_nat 1) 2) / INR 1)
   ((if sym then IZR (Z.quot (Z.of_nat 1) 2) else IZR (Z.quot (Z.of_nat 1) 2) - (INR 1 - 1) / INR 1) / INR 1) 1) as (_ & _ & E). cbv iota. etransitivity; [exact (E eq_refl)|]. f_equal. change (Z.quot (- Z.of_nat 1) 2) with 0%Z. cbn [INR]. match goal with |- @eq _ ?a ?b => change (@eq R a b) end. lra. Qed.
Lemma inter_odd_sym h i : (i < 2 * h + 1)%nat -> nth i (fen_inter (2 * h + 1) true) 0 = (INR i - INR h) / INR (2 * h + 1).
Proof.
  intros Hi. destruct h as [|h].
  - replace i with 0%nat by lia. change (2 * 0 + 1)%nat with 1%nat. rewrite inter_1. cbn [nth INR]. lra.
  - unfold fen_inter. rewrite odd_2, lin_val by lia. rewrite Z.quot_opp_l, quot_odd by lia. rewrite opp_IZR, <- INR_IZR_INZ.
    assert (1 <= INR (S h)) by (apply (le_INR 1); lia). rewrite plus_INR, mult_INR. change (INR 2) with 2. change (INR 1) with 1. field. lra.
Qed.
Lemma inter_odd_per h i : (i < 2 * h + 1)%nat -> nth i (fen_inter (2 * h + 1) false) 0 = - INR h / INR (2 * h + 1) + INR i * (INR (2 * h) / (INR (2 * h + 1) * INR (2 * h + 1))).
Proof.
  intros Hi. destruct h as [|h].
  - replace i with 0%nat by lia. change (2 * 0 + 1)%nat with 1%nat. rewrite inter_1. cbn [nth INR]. lra.
  - unfold fen_inter. rewrite odd_2, lin_val by lia. rewrite Z.quot_opp_l, quot_odd by lia. rewrite opp_IZR, <- INR_IZR_INZ.
    assert (1 <= INR (S h)) by (apply (le_INR 1); lia). rewrite plus_INR, mult_INR. change (INR 2) with 2. change (INR 1) with 1. field. lra.
Qed.
Lemma parity n : exists h, n = (2 * h)%nat \/ n = (2 * h + 1)%nat.
Proof. exists (n / 2)%nat. pose proof (Nat.div_mod n 2 ltac:(lia)). pose proof (Nat.mod_upper_bound n 2 ltac:(lia)). lia. Qed.
Lemma div_range a b : 0 < b -> - b <= 2 * a <= b -> - / 2 <= a / b <= / 2.
Proof.
  intros Hb H. split; apply (Rmult_le_reg_r b); try lra; unfold Rdiv; rewrite ?Rmult_assoc, ?Rinv_l by lra; lra.
Qed.
Lemma inter_range n sym i : (i < n)%nat -> - / 2 <= nth i (fen_inter n sym) 0 <= / 2.
Proof.
  intros Hi. pose proof (pos_INR i). destruct (parity n) as (h & [-> | ->]); destruct sym.
  - rewrite inter_even_sym by exact Hi. assert (1 <= INR h) by (apply (le_INR 1); lia). assert (Q : INR i <= INR (2 * h) - 1) by (change 1 with (INR 1); rewrite <- (minus_INR (2 * h) 1) by lia; apply le_INR; lia).
    rewrite mult_INR in *. change (INR 2) with 2 in *. assert (0 <= INR i / (2 * INR h - 1)) by (apply Rmult_le_pos; [assumption|left; apply Rinv_0_lt_compat; lra]).
    assert (INR i / (2 * INR h - 1) <= 1); [|lra]. apply (Rmult_le_reg_r (2 * INR h - 1)); [lra|]. unfold Rdiv. rewrite Rmult_assoc, Rinv_l by lra. lra.
  - rewrite inter_even_per by exact Hi. assert (1 <= INR h) by (apply (le_INR 1); lia). apply lt_INR in Hi. rewrite mult_INR in *. change (INR 2) with 2 in *. apply div_range; lra.
  - rewrite inter_odd_sym by exact Hi. pose proof (pos_INR h). assert (INR i <= 2 * INR h) by (change 2 with (INR 2); rewrite <- mult_INR; apply le_INR; lia). rewrite plus_INR, mult_INR. change (INR 2) with 2. change (INR 1) with 1. apply div_range; lra.
  - rewrite inter_odd_per by exact Hi. pose proof (pos_INR h). assert (INR i <= 2 * INR h) by (change 2 with (INR 2); rewrite <- mult_INR; apply le_INR; lia). rewrite plus_INR, mult_INR. change (INR 2) with 2. change (INR 1) with 1.
    replace (- INR h / (2 * INR h + 1) + INR i * (2 * INR h / ((2 * INR h + 1) * (2 * INR h + 1)))) with ((- INR h + INR i * (2 * INR h / (2 * INR h + 1))) / (2 * INR h + 1)) by (field; lra).
    assert (0 <= 2 * INR h / (2 * INR h + 1) <= 1). { split; [apply Rmult_le_pos; [lra|left; apply Rinv_0_lt_compat; lra]|]. apply (Rmult_le_reg_r (2 * INR h + 1)); [lra|]. unfold Rdiv. rewrite Rmult_assoc, Rinv_l by lra. lra. }
    apply div_range; nra.
Qed.
Lemma inter_sym n i : (i < n)%nat -> nth (n - 1 - i) (fen_inter n true) 0 = - nth i (fen_inter n true) 0.
Proof.
  intros Hi. destruct (parity n) as (h & [-> | ->]).
  - assert (1 <= INR h) by (apply (le_INR 1); lia). rewrite !inter_even_sym by lia. rewrite !minus_INR, mult_INR by lia. change (INR 2) with 2. change (INR 1) with 1. field. lra.
  - rewrite !inter_odd_sym by lia. pose proof (pos_INR h). rewrite !minus_INR, plus_INR, mult_INR by lia. change (INR 2) with 2. change (INR 1) with 1. field. lra.
Qed.
(** the shape function of each window *)
Definition shape (type : fenetre) (t : R) : R :=
  match type with
  | AUCUNE | CHEBYCHEV => 1
  | HANN => 1 / 2 + (1 - 1 / 2) * cos (2 * PI * t)
  | HAMMING => 54 / 100 + (1 - 54 / 100) * cos (2 * PI * t)
  | TRIANGLE => if Rlt_dec t 0 then 2 * (1 / 2 + t) else 2 * (1 / 2 - t)
  | BLACKMAN => 42 / 100 + 1 / 2 * cos (2 * PI * t) + 8 / 100 * cos (2 * (2 * PI * t))
  end.
Lemma nth_map0 (f : R -> R) l i : (i < length l)%nat -> nth i (map f l) 0 = f (nth i l 0).
Proof. intros H. rewrite (nth_indep _ 0 (f 0)) by (rewrite map_length; exact H). apply map_nth. Qed.
Lemma fen_length type n sym : type <> CHEBYCHEV -> length (fen type n sym) = n.
Proof. intros H. destruct type; cbn [fen]; unfold hamming_gen; rewrite ?repeat_length, ?map_length, ?inter_length; try reflexivity. congruence. Qed.
Lemma fen_val type n sym i : type <> CHEBYCHEV -> (i < n)%nat -> nth i (fen type n sym) 0 = shape type (nth i (fen_inter n sym) 0).
Proof.
  intros H Hi. destruct type; cbn [fen shape]; unfold hamming_gen; rewrite ?nth_map0 by (rewrite inter_length; exact Hi); try reflexivity; try congruence.
  - apply nth_error_nth. revert i Hi. induction n as [|n IH]; intros [|i] Hi; cbn; try lia; [reflexivity|]. apply IH. lia.
  - cbv zeta. set (u := 2 * PI * nth i (fen_inter n sym) 0). rewrite neg_cos. replace (2 * (u + PI)) with (2 * u + 2 * IZR 1 * PI) by ring. rewrite cos_kper. field.
Qed.
Lemma shape_even type t : type <> TRIANGLE \/ True -> shape type (- t) = shape type t.
Proof.
  intros _. destruct type; cbn [shape]; try reflexivity.
  - replace (2 * PI * - t) with (- (2 * PI * t)) by ring. rewrite cos_neg. reflexivity.
  - destruct (Rlt_dec t 0), (Rlt_dec (- t) 0); lra.
  - replace (2 * PI * - t) with (- (2 * PI * t)) by ring. rewrite cos_neg. reflexivity.
  - replace (2 * PI * - t) with (- (2 * PI * t)) by ring. replace (2 * - (2 * PI * t)) with (- (2 * (2 * PI * t))) by ring. rewrite !cos_neg. reflexivity.
Qed.
Lemma shape_range type t : - / 2 <= t <= / 2 -> 0 <= shape type t <= 1.
Proof.
  intros H. pose proof (COS_bound (2 * PI * t)). destruct type; cbn [shape]; try lra.
  - destruct (Rlt_dec t 0); lra.
  - rewrite cos_2a_cos. set (u := cos (2 * PI * t)) in *. nra.
Qed.
Lemma shape_0 type : shape type 0 = 1.
Proof. destruct type; cbn [shape]; try reflexivity; rewrite ?Rmult_0_r, ?cos_0; try lra. destruct (Rlt_dec 0 0); lra. Qed.
(** sums of cosines over a period *)
Lemma cos_sum M q th : (0 < q < M)%nat -> rsum M (fun k => cos (th + 2 * PI * INR q * INR k / INR M)) = 0.
Proof.
  intros H. assert (0 < INR M) by (apply lt_0_INR; lia). assert (0 < INR q) by (apply lt_0_INR; lia). pose proof PI_RGT_0.
  set (w := 2 * PI * INR q / INR M). assert (W : w <> 0) by (unfold w; apply Rgt_not_eq; apply Rdiv_lt_0_compat; [nra|assumption]).
  rewrite (rsum_ext _ _ (fun j => cos ((INR j + th / w) * w))).
  2: { intros k _. f_equal. rewrite Rmult_plus_distr_r. replace (th / w * w) with th by (field; exact W). unfold w. field. lra. }
  pose proof (dir_tel w M (th / w)) as E. replace ((INR M - / 2 + th / w) * w) with ((th / w - / 2) * w + 2 * IZR (Z.of_nat q) * PI) in E.
  2: { rewrite <- INR_IZR_INZ. replace (2 * INR q * PI) with (INR M * w) by (unfold w; field; lra). ring. }
  assert (SP : forall x, sin (x + 2 * IZR (Z.of_nat q) * PI) = sin x) by (intros x; rewrite <- INR_IZR_INZ; apply sin_period). rewrite SP in E.
  assert (S0 : 0 < sin (w / 2)).
  { apply sin_gt_0; unfold w; replace (2 * PI * INR q / INR M / 2) with (PI * (INR q / INR M)) by (field; lra).
    - apply Rmult_lt_0_compat; [assumption|]. apply Rdiv_lt_0_compat; assumption.
    - rewrite <- (Rmult_1_r PI) at 2. apply Rmult_lt_compat_l; [assumption|]. apply (Rmult_lt_reg_r (INR M)); [assumption|]. unfold Rdiv. rewrite Rmult_assoc, Rinv_l, Rmult_1_l, Rmult_1_r by lra. apply lt_INR. lia. }
  change (rsum M (fun j => cos ((INR j + th / w) * w)) = 0). apply (Rmult_eq_reg_l (2 * sin (w / 2))); [|lra]. etransitivity; [exact E|]. ring.
Qed.
(** windows of period n: even periodic and odd symmetric *)
Definition cyclic (n : nat) (sym : bool) : Prop := (0 < n)%nat /\ sym = Nat.odd n.
Lemma inter_cyclic n sym : cyclic n sym -> forall i, (i < n)%nat -> nth i (fen_inter n sym) 0 = (INR i - INR (n / 2)) / INR n.
Proof.
  intros [Hn ->] i Hi. destruct (parity n) as (h & [-> | ->]).
  - replace (2 * h / 2)%nat with h by (apply (Nat.div_unique _ 2 h 0); lia). replace (Nat.odd (2 * h)) with false by (rewrite <- Nat.negb_even, even_2; reflexivity). apply inter_even_per. exact Hi.
  - replace ((2 * h + 1) / 2)%nat with h by (apply (Nat.div_unique _ 2 h 1); lia). replace (Nat.odd (2 * h + 1)) with true by (rewrite <- Nat.negb_even, odd_2; reflexivity). apply inter_odd_sym. exact Hi.
Qed.
Lemma rsum_const n (c : R) : rsum n (fun _ => c) = INR n * c.
Proof. induction n as [|n IH]; [cbn; ring|]. rewrite rsum_S, IH, S_INR. rring. Qed.
Lemma overlap_val type M H sym i : type <> CHEBYCHEV -> cyclic (M * H) sym -> (i < H)%nat ->
  overlap (fen type (M * H) sym) M H i = rsum M (fun k => shape type ((INR i - INR (M * H / 2)) / INR (M * H) + INR k / INR M)).
Proof.
  intros Ht Hc Hi. unfold overlap. apply rsum_ext. intros k Hk. assert (i + k * H < M * H)%nat by nia. rewrite fen_val by assumption. f_equal. rewrite inter_cyclic by assumption.
  assert (INR M <> 0) by (apply not_0_INR; lia). assert (INR H <> 0) by (apply not_0_INR; lia). rewrite plus_INR, !mult_INR. field. split; assumption.
Qed.
Lemma overlap_cos q M th : (0 < q < M)%nat -> rsum M (fun k => cos (INR q * (2 * PI * (th + INR k / INR M)))) = 0.
Proof.
  intros H. rewrite <- (cos_sum M q (INR q * (2 * PI * th)) H). apply rsum_ext. intros k _. f_equal. field. apply not_0_INR. lia.
Qed.
Definition mean (type : fenetre) : R := match type with AUCUNE | CHEBYCHEV => 1 | HANN => 1 / 2 | TRIANGLE => 1 / 2 | HAMMING => 54 / 100 | BLACKMAN => 42 / 100 end.
Lemma cola_gen a M th : (2 <= M)%nat -> rsum M (fun k => a + (1 - a) * cos (2 * PI * (th + INR k / INR M))) = INR M * a.
Proof.
  intros HM. rewrite rsum_add, rsum_const, rsum_mul. rewrite (rsum_ext M (fun k => cos (2 * PI * (th + INR k / INR M))) (fun k => cos (INR 1 * (2 * PI * (th + INR k / INR M))))) by (intros; f_equal; cbn [INR]; ring).
  rewrite overlap_cos by lia. rring.
Qed.
Lemma cola_bm M th : (3 <= M)%nat -> rsum M (fun k => shape BLACKMAN (th + INR k / INR M)) = INR M * (42 / 100).
Proof.
  intros HM. cbn [shape]. rewrite !rsum_add, rsum_const, !rsum_mul. rewrite (rsum_ext M (fun k => cos (2 * PI * (th + INR k / INR M))) (fun k => cos (INR 1 * (2 * PI * (th + INR k / INR M))))) by (intros; f_equal; cbn [INR]; ring).
  rewrite (rsum_ext M (fun k => cos (2 * (2 * PI * (th + INR k / INR M)))) (fun k => cos (INR 2 * (2 * PI * (th + INR k / INR M))))) by (intros; f_equal; cbn [INR]; ring).
  rewrite !overlap_cos by lia. rring.
Qed.

Lemma rsum_app a b (f : nat -> R) : rsum (a + b) f = (rsum a f + rsum b (fun k => f (k + a)%nat))%R.
Proof.
  induction b as [|b IH]; [rewrite Nat.add_0_r; symmetry; apply Rplus_0_r|]. rewrite Nat.add_succ_r, !rsum_S, IH. replace (a + b)%nat with (b + a)%nat by lia. rring.
Qed.
Lemma rsum_split m (f : nat -> R) : rsum (m + m) f = rsum m (fun k => f k + f (k + m)%nat).
Proof. rewrite rsum_add. apply rsum_app. Qed.
Lemma cola_tri m th : (1 <= m)%nat -> - / 2 <= th -> th < - / 2 + / INR (2 * m) -> rsum (2 * m) (fun k => shape TRIANGLE (th + INR k / INR (2 * m))) = INR (2 * m) * (1 / 2).
Proof.
  intros Hm H1 H2. assert (1 <= INR m) by (apply (le_INR 1); exact Hm). replace (2 * m)%nat with (m + m)%nat at 1 by lia. rewrite rsum_split, (rsum_ext _ _ (fun _ => 1)).
  - rewrite rsum_const, mult_INR. change (INR 2) with 2. match goal with |- @eq _ ?a ?b => change (@eq R a b) end; field.
  - intros k Hk. assert (Q : INR k + 1 <= INR m) by (rewrite <- S_INR; apply le_INR; lia). pose proof (pos_INR k). rewrite plus_INR. replace ((INR k + INR m) / INR (2 * m)) with (INR k / INR (2 * m) + / 2) by (rewrite mult_INR; change (INR 2) with 2; field; lra).
    assert (B : 0 <= INR k / INR (2 * m) /\ INR k / INR (2 * m) + / INR (2 * m) <= / 2).
    { rewrite mult_INR. change (INR 2) with 2. split; [apply Rmult_le_pos; [assumption|left; apply Rinv_0_lt_compat; lra]|].
      replace (INR k / (2 * INR m) + / (2 * INR m)) with ((INR k + 1) / (2 * INR m)) by (field; lra). apply (Rmult_le_reg_r (2 * INR m)); [lra|]. unfold Rdiv. rewrite Rmult_assoc, Rinv_l by lra. lra. }
    cbn [shape]. destruct (Rlt_dec (th + INR k / INR (2 * m)) 0), (Rlt_dec (th + (INR k / INR (2 * m) + / 2)) 0); lra.
Qed.
