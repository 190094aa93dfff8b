From Coq Require Import Reals ZArith Lra Lia Psatz.
From Verif Require Import Base BaseLemmas RField DftSys ComplexSys Rii_Model Filters_Model Filters_Proofs Interp_Model Interp_Props Interp_Proofs Fest_Proofs3 Clk_Model Clk_Spec.
Local Open Scope R_scope.

Lemma clamp_range v a : 0 <= a -> - a <= clamp v (- a) a <= a.
Proof. intros H. unfold clamp. destruct (Rlt_dec v (- a)); [lra|]. destruct (Rlt_dec a v); lra. Qed.
Lemma ceil_spec r : IZR (ceilZ r) - 1 < r <= IZR (ceilZ r).
Proof. unfold ceilZ. rewrite opp_IZR. destruct (base_Int_part (- r)). lra. Qed.
Lemma ceil_unique r (z : Z) : IZR z - 1 < r <= IZR z -> ceilZ r = z.
Proof.
  intros H. pose proof (ceil_spec r) as G. assert (IZR (ceilZ r) < IZR z + 1 /\ IZR z < IZR (ceilZ r) + 1) as [A B] by lra.
  rewrite <- (plus_IZR _ 1) in A. rewrite <- (plus_IZR _ 1) in B. apply lt_IZR in A, B. lia.
Qed.

(** ** The circular window *)
Definition winok (X : list Complex) (K n : nat) (win : list Complex) : Prop :=
  List.length win = K /\ forall m, (m < K)%nat -> samp win ((n + m) mod K) = sampZ X (Z.of_nat n - Z.of_nat K + Z.of_nat m).
Lemma winok_init X K : winok X K 0 (repeat c0 K).
Proof.
  split; [apply repeat_length|]. intros m Hm. unfold samp. rewrite nth_repeat. unfold sampZ. destruct (Z.ltb_spec (Z.of_nat 0 - Z.of_nat K + Z.of_nat m) 0); [reflexivity|lia].
Qed.
Lemma winok_step X K n win : (0 < K)%nat -> winok X K n win -> exists w, vset win (n mod K) (samp X n) = Ok w /\ winok X K (S n) w.
Proof.
  intros HK [L W]. assert (B : (n mod K < List.length win)%nat) by (rewrite L; apply Nat.mod_upper_bound; lia).
  exists (upd win (n mod K) (samp X n)). split; [apply vset_ok; exact B|]. split; [rewrite upd_length; exact L|]. intros m Hm.
  unfold samp at 1. rewrite nth_upd. rewrite (proj2 (Nat.ltb_lt _ _) B), Bool.andb_true_r. destruct (Nat.eqb_spec (n mod K) ((S n + m) mod K)) as [E|E]; [apply eq_sym in E|].
  - destruct (Nat.eq_dec (S m) K) as [Em|Em].
    + replace (Z.of_nat (S n) - Z.of_nat K + Z.of_nat m)%Z with (Z.of_nat n) by lia. symmetry. apply (sampZ_nat Complex).
    + exfalso. replace (S n + m)%nat with (n + S m)%nat in E by lia. rewrite Nat.add_mod in E by lia. rewrite (Nat.mod_small (S m)) in E by lia.
      pose proof (Nat.mod_upper_bound n K ltac:(lia)) as U. set (r := (n mod K)%nat) in *. destruct (Nat.lt_ge_cases (r + S m) K) as [Q|Q].
      * rewrite Nat.mod_small in E by exact Q. lia.
      * assert (M : ((r + S m) mod K = r + S m - K)%nat) by (symmetry; apply (Nat.mod_unique _ _ 1); lia). lia.
  - fold (samp win ((S n + m) mod K)). replace (S n + m)%nat with (n + S m)%nat by lia. destruct (Nat.eq_dec (S m) K) as [Em|Em].
    + exfalso. apply E. rewrite <- (Nat.mod_add n 1 K) by lia. f_equal; lia.
    + rewrite (W (S m)) by lia. f_equal. lia.
Qed.

(** ** The interpolator *)
Definition valid (it : itrp) (h : R -> list R) : Prop := (0 < it_K it)%nat /\ forall tau, 0 < tau <= 1 -> it_coefs it tau = Ok (h tau) /\ List.length (h tau) = it_K it.
Lemma itrp_sum (hh : list Complex) (win : list Complex) K k n : (K <= n)%nat -> (0 < K)%nat -> List.length hh = n -> List.length win = K -> forall m, (m <= K)%nat ->
  loop m (fun i s => let* j := imod (i + k) K in let* v := vget win j in let* c := vget hh i in Ok (s + c * v)%K) (c0 : Cfield) = Ok (sum m (fun i => samp hh i * samp win ((k + i) mod K))%K : Cfield).
Proof.
  intros Hn HK L1 L2. induction m as [|m IH]; intros Hm; [reflexivity|]. cbn [loop]. rewrite IH by lia. cbn [bind]. unfold imod. destruct (Nat.eqb_spec K 0); [lia|]. cbn [bind].
  rewrite (vget_nth win ((m + k) mod K) c0) by (rewrite L2; apply Nat.mod_upper_bound; lia). cbn [bind]. rewrite (vget_nth hh m c0) by lia. cbn [bind sum]. rewrite (Nat.add_comm k m). reflexivity.
Qed.
Lemma itrp_run_ok it h win k tau : valid it h -> List.length win = it_K it -> 0 < tau <= 1 ->
  itrp_run it win k tau = Ok (sum (it_K it) (fun m => ((nth m (h tau) 0%R, 0%R) : Complex) * samp win ((k + m) mod it_K it))%K).
Proof.
  intros [HK V] L T. destruct (V tau T) as [E Lh]. unfold itrp_run. rewrite E. cbn [bind]. unfold itrp_step. rewrite map_length, Lh, Nat.eqb_refl. cbn [negb].
  rewrite (itrp_sum _ win (it_K it) k (it_K it)); [|lia|exact HK|rewrite map_length; exact Lh|exact L|lia]. f_equal. apply (sum_ext Cring). intros i Hi. f_equal.
  unfold samp. rewrite (nth_indep _ _ ((0, 0) : C)) by (rewrite map_length; lia). change ((0, 0) : C) with ((fun a => (a, 0) : C) 0). rewrite map_nth. reflexivity.
Qed.
