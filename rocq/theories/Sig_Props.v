(** Properties C52 (test signals) and C53 (oscillators). *)
From Coq Require Import Reals Lra Lia ZifyNat.
From Verif Require Import Base BaseLemmas Phase_Model Phase_Spec Phase_Proofs Phase_Props Sig_Model Sig_Spec Sig_Proofs.
Open Scope R_scope.

(** ** C52: test signals *)
(** Sawtooth of period p >= 2: n samples, linear from -1 to 1 over each period. *)
Theorem C52_sawtooth p n : (2 <= p)%nat -> exists x, sigscie p n = Ok x /\ length x = n /\
  (forall i, (i < n)%nat -> nth i x 0 = 2 * INR (i mod p) / (INR p - 1) - 1 /\ -1 <= nth i x 0 <= 1) /\
  (forall i, (i + p < n)%nat -> nth (i + p) x 0 = nth i x 0).
Proof.
  intros Hp. destruct (sigscie_ok p n Hp) as (x & E & L & N). exists x. repeat split; try assumption; try (apply N; assumption).
  intros i Hi. destruct (N i) as [-> _]; [lia|]. destruct (N (i + p)%nat) as [-> _]; [lia|].
  replace (i + p)%nat with (i + 1 * p)%nat by lia. rewrite Nat.mod_add by lia. reflexivity.
Qed.
Print Assumptions C52_sawtooth.
(** Triangle of even period p = 2h: -1 at multiples of p, +1 at h + multiples of p,
    linear in between, always in [-1, 1]. *)
Theorem C52_triangle h n : (1 <= h)%nat -> exists x, sigtri (2 * h) n = Ok x /\ length x = n /\
  (forall i, (i < n)%nat -> let j := (i mod (2 * h))%nat in
     nth i x 0 = 4 * INR (Nat.min j (2 * h - j)) / INR (2 * h) - 1 /\ -1 <= nth i x 0 <= 1) /\
  (forall i, (i + 2 * h < n)%nat -> nth (i + 2 * h) x 0 = nth i x 0).
Proof.
  intros Hh. destruct (sigtri_even h n Hh) as (x & E & L & N). exists x. split; [exact E|]. split; [exact L|]. split; [exact N|].
  intros i Hi. destruct (N i) as [-> _]; [lia|]. destruct (N (i + 2 * h)%nat) as [-> _]; [lia|].
  replace (i + 2 * h)%nat with (i + 1 * (2 * h))%nat by lia. rewrite Nat.mod_add by lia. reflexivity.
Qed.
Print Assumptions C52_triangle.
(** Finding: for every odd period p = 2h+1 >= 3 the triangle exceeds 1, although the code
    says its values lie between -1 and 1. *)
Theorem C52_triangle_odd_refuted h n : (1 <= h)%nat -> (h < n)%nat -> exists x, sigtri (2 * h + 1) n = Ok x /\ nth h x 0 > 1.
Proof. apply sigtri_odd. Qed.
Print Assumptions C52_triangle_odd_refuted.
(** Square wave: only -1 and 1, each level held p/2 samples, -1 first; for even p it has period p. *)
Theorem C52_square p n : (2 <= p)%nat -> exists x, sigcar p n = Ok x /\ length x = n /\
  (forall i, (i < n)%nat -> nth i x 0 = if Nat.even (i / (p / 2)) then -1 else 1) /\
  (Nat.Even p -> forall i, (i + p < n)%nat -> nth (i + p) x 0 = nth i x 0).
Proof.
  intros Hp. destruct (sigcar_ok p n Hp) as (x & E & L & N). exists x. split; [exact E|]. split; [exact L|]. split; [exact N|].
  intros [h Hh] i Hi. rewrite !N by lia. subst p. rewrite (Nat.mul_comm 2 h), Nat.div_mul by lia. 
  replace (i + h * 2)%nat with (i + 2 * h)%nat by lia. rewrite Nat.div_add by lia. rewrite Nat.even_add. cbn [Nat.even].
  destruct (Nat.even (i / h)); reflexivity.
Qed.
Print Assumptions C52_square.
(** Finding: for every odd p >= 3 the square wave does not have period p. *)
Theorem C52_square_odd_refuted h n : (1 <= h)%nat -> (3 * h < n)%nat ->
  exists x, sigcar (2 * h + 1) n = Ok x /\ exists i, (i + (2 * h + 1) < n)%nat /\ nth i x 0 <> nth (i + (2 * h + 1)) x 0.
Proof.
  intros Hh Hn. destruct (sigcar_odd h n Hh Hn) as (x & E & D). exists x. split; [exact E|]. exists (h - 1)%nat. split; [lia|exact D].
Qed.
Print Assumptions C52_square_odd_refuted.
(** Finding: sigcar divides by zero (undefined behaviour) for p = 0 and 1, the two others for p = 0. *)
Theorem C52_small_period_refuted n : (0 < n)%nat ->
  sigcar 0 n = UB /\ sigcar 1 n = UB /\ sigscie 0 n = UB /\ sigtri 0 n = UB.
Proof. intros H. unfold sigcar, sigscie, sigtri. destruct (Nat.eqb_spec n 0); [lia|]. repeat split; reflexivity. Qed.
Print Assumptions C52_small_period_refuted.
(** Impulse: 1 at p, 0 elsewhere; throws exactly when p is not an index. *)
Theorem C52_impulse n p :
  ((0 <= p < Z.of_nat n)%Z -> exists x, sigimp n p = Ok x /\ length x = n /\ forall i, (i < n)%nat -> nth i x 0 = if (Z.of_nat i =? p)%Z then 1 else 0)
  /\ (~ (0 <= p < Z.of_nat n)%Z -> sigimp n p = Exc).
Proof. apply sigimp_ok. Qed.
Print Assumptions C52_impulse.
Theorem C52_nyquist n : length (signyquist n) = n /\ forall i, (i < n)%nat -> nth i (signyquist n) 0 = (-1) ^ (i + 1).
Proof.
  destruct (signyquist_ok n) as [L N]. split; [exact L|]. intros i Hi. rewrite N by exact Hi. clear.
  assert (G : forall k, ((-1) ^ (2 * k + 1) = -1 /\ (-1) ^ (2 * k + 1 + 1) = 1)).
  { intros k. rewrite !pow_add, pow_mult. replace ((-1) ^ 2) with 1 by (simpl; lra). rewrite pow1. simpl. lra. }
  destruct (Nat.Even_or_Odd i) as [[k ->]|[k ->]].
  - replace (Nat.even (2 * k)) with true by (symmetry; apply Nat.even_spec; exists k; reflexivity). symmetry. apply G.
  - replace (Nat.even (2 * k + 1)) with false.
    + symmetry. apply G.
    + symmetry. rewrite <- Nat.negb_odd. apply Bool.negb_false_iff. apply Nat.odd_spec. exists k. reflexivity.
Qed.
Print Assumptions C52_nyquist.

(** ** C53: oscillators *)
(** source_ohc(f): for every sequence of block sizes, the concatenated output is
    the exact complex exponential e^(2 i pi f k), k = 0, 1, ... *)
Theorem C53_source_complex f ns : snd (ohc_run (ohc_new f) ns) = tone 0 f (list_sum ns).
Proof. unfold ohc_new, ohc_conf. rewrite unit_0. change (cos (2 * PI * f), sin (2 * PI * f)) with (unit_at (2 * PI * f)). now rewrite ohc_run_ok. Qed.
Print Assumptions C53_source_complex.
Theorem C53_source_real f ns : ohr_run f ns = map (fun k => cos (2 * PI * f * INR k)) (seq 0 (list_sum ns)).
Proof.
  unfold ohr_run. rewrite C53_source_complex. unfold tone. rewrite map_map. apply map_ext. intros k. unfold unit_at. cbn [fst]. f_equal. ring.
Qed.
Print Assumptions C53_source_real.
(** Changing the frequency between blocks keeps the phase continuous, for every
    sequence of reconfigurations. *)
Theorem C53_retune f l : ohc_prog (ohc_new f) l = tones 0 l.
Proof. unfold ohc_new, ohc_conf. rewrite unit_0. apply ohc_prog_ok. Qed.
Print Assumptions C53_retune.
(** sigexp, sigcos, sigsin: the documented formulas, at every length (the modulus
    correction every 1000 samples has no effect in exact arithmetic). *)
Theorem C53_sigexp f n :
  sigexp f n = map (fun k => (cos (2 * PI * INR k * f), sin (2 * PI * INR k * f))) (seq 0 n) /\
  sigcos f n = map (fun k => cos (2 * PI * INR k * f)) (seq 0 n) /\
  sigsin f n = map (fun k => sin (2 * PI * INR k * f)) (seq 0 n).
Proof.
  assert (E : sigexp f n = map (fun k => (cos (2 * PI * INR k * f), sin (2 * PI * INR k * f))) (seq 0 n)).
  { rewrite sigexp_ok. unfold tone, unit_at. apply map_ext. intros k. replace (0 + 2 * PI * f * INR k) with (2 * PI * INR k * f) by ring. reflexivity. }
  split; [exact E|]. unfold sigcos, sigsin. rewrite E, !map_map. split; reflexivity.
Qed.
Print Assumptions C53_sigexp.

(** OLUT(N).step(t): in exact arithmetic it never throws, for any angle, and it is the
    chord interpolation between the two neighbouring points of the unit circle. *)
Theorem C53_table_interpolates N t : (1 <= N)%nat -> exists k f, (k < N)%nat /\ 0 <= f < 1 /\
  congruent (2 * PI) t (2 * PI * (INR k + f) / INR N) /\
  let a := unit_at (2 * PI * INR k / INR N) in let b := unit_at (2 * PI * (INR k + 1) / INR N) in
  olut_step N t = Ok (fst a * (1 - f) + fst b * f, snd a * (1 - f) + snd b * f).
Proof.
  intros HN. destruct (olut_eq N t HN) as (k & f & Hk & Hf & E & R). exists k, f. split; [exact Hk|]. split; [exact Hf|]. split.
  - rewrite <- E. apply C40_modulo_2pi.
  - cbv zeta. rewrite <- olut_next by exact Hk. exact R.
Qed.
Print Assumptions C53_table_interpolates.
(** It is exact on the N table angles, and 2 pi periodic. *)
Theorem C53_table_grid N k : (1 <= N)%nat -> (k < N)%nat -> olut_step N (2 * PI * INR k / INR N) = Ok (unit_at (2 * PI * INR k / INR N)).
Proof.
  intros HN Hk. destruct (C53_table_interpolates N (2 * PI * INR k / INR N) HN) as (j & f & Hj & Hf & [z Hz] & R).
  cbv zeta in R. pose proof PI_RGT_0 as Hpi. assert (HNR : 1 <= INR N) by (apply (le_INR 1); exact HN).
  assert (HK : INR k <= INR N - 1) by (replace (INR N - 1) with (INR (N - 1)) by (rewrite minus_INR by lia; reflexivity); apply le_INR; lia).
  assert (HJ : INR j <= INR N - 1) by (replace (INR N - 1) with (INR (N - 1)) by (rewrite minus_INR by lia; reflexivity); apply le_INR; lia).
  pose proof (pos_INR k) as K0. pose proof (pos_INR j) as J0.
  assert (D : INR k - (INR j + f) = IZR z * INR N).
  { apply (Rmult_eq_reg_l (2 * PI / INR N)); [|apply Rgt_not_eq; apply Rdiv_lt_0_compat; lra].
    transitivity (IZR z * (2 * PI)); [rewrite <- Hz; field; lra|field; lra]. }
  assert (z = 0%Z).
  { assert (-1 < z < 1)%Z; [|lia]. split; apply lt_IZR; apply (Rmult_lt_reg_r (INR N)); lra. }
  subst z. assert (F : f = IZR (Z.of_nat k - Z.of_nat j)) by (rewrite minus_IZR, <- !INR_IZR_INZ; lra).
  assert (Z.of_nat k - Z.of_nat j = 0)%Z.
  { assert (-1 < Z.of_nat k - Z.of_nat j < 1)%Z; [|lia]. split; apply lt_IZR; rewrite <- F; lra. }
  assert (k = j) by lia. subst j. assert (f = 0) by lra. rewrite R. subst f. rewrite H0. rewrite Rminus_0_r, !Rmult_1_r, !Rmult_0_r, !Rplus_0_r. reflexivity.
Qed.
Print Assumptions C53_table_grid.
Theorem C53_table_periodic N t z : olut_step N (t + IZR z * (2 * PI)) = olut_step N t.
Proof.
  unfold olut_step. assert (E : modulo_2pi (t + IZR z * (2 * PI)) = modulo_2pi t); [|now rewrite E].
  pose proof PI_RGT_0. symmetry. apply (C40_modulo (t + IZR z * (2 * PI)) (2 * PI)); [lra| |].
  - apply (C40_modulo_2pi t).
  - destruct (C40_modulo_2pi t) as (_ & [k Hk] & _). exists (k + z)%Z. rewrite plus_IZR. lra.
Qed.
Print Assumptions C53_table_periodic.
(** Its modulus lies between cos(pi/N) and 1: the documented resolution N bounds the amplitude error. *)
Theorem C53_table_modulus N t : (2 <= N)%nat -> exists y, olut_step N t = Ok y /\
  cos (PI / INR N) * cos (PI / INR N) <= fst y * fst y + snd y * snd y <= 1.
Proof.
  intros HN. destruct (olut_eq N t ltac:(lia)) as (k & f & Hk & Hf & _ & R). eexists. split; [exact R|].
  rewrite (olut_modulus N k f Hk). assert (HNR : 2 <= INR N) by (apply (le_INR 2); exact HN).
  replace (2 * PI / INR N) with (2 * (PI / INR N)) by (field; lra). set (a := PI / INR N). rewrite cos_2a_cos.
  pose proof (COS_bound a) as [B1 B2]. set (c := cos a) in *.
  assert (0 <= 1 - c * c) by (replace (1 - c * c) with ((1 - c) * (1 + c)) by ring; apply Rmult_le_pos; lra).
  assert (Q : 0 <= 4 * (f * (1 - f)) <= 1).
  { split; [apply Rmult_le_pos; [lra|apply Rmult_le_pos; lra]|]. pose proof (Rle_0_sqr (2 * f - 1)) as S. unfold Rsqr in S. lra. }
  replace (1 - 2 * f * (1 - f) * (1 - (2 * c * c - 1))) with (1 - 4 * (f * (1 - f)) * (1 - c * c)) by ring.
  set (q := 4 * (f * (1 - f))) in *. assert (0 <= q * (1 - c * c)) by (apply Rmult_le_pos; lra).
  assert (0 <= (1 - q) * (1 - c * c)) by (apply Rmult_le_pos; lra). lra.
Qed.
Print Assumptions C53_table_modulus.

(** ** Non-vacuity *)
Example C52_triangle_case : exists x, sigtri 4 6 = Ok x /\ x = [-1; 0; 1; 0; -1; 0].
Proof. eexists. split; [reflexivity|]. cbv -[Rplus Rmult Rminus Ropp Rinv Rdiv IZR]. repeat (apply f_equal2; [field; try lra|]); reflexivity. Qed.
Example C52_square_case : exists x, sigcar 4 6 = Ok x /\ x = [-1; -1; 1; 1; -1; -1].
Proof. eexists. split; [reflexivity|]. cbv -[Rplus Rmult Rminus Ropp Rinv Rdiv IZR]. repeat (apply f_equal2; [field; try lra|]); reflexivity. Qed.
Example C52_sawtooth_case : exists x, sigscie 3 4 = Ok x /\ x = [-1; 0; 1; -1].
Proof. eexists. split; [reflexivity|]. cbv -[Rplus Rmult Rminus Ropp Rinv Rdiv IZR]. repeat (apply f_equal2; [field; try lra|]); reflexivity. Qed.
(** quarter turn per sample, blocks of 1, 0 and 3 samples *)
Example C53_quarter_case : snd (ohc_run (ohc_new (/ 4)) [1; 0; 1]%nat) = [(1, 0); (0, 1)].
Proof.
  rewrite C53_source_complex. unfold tone, unit_at. cbn [list_sum fold_right Nat.add seq map INR].
  replace (0 + 2 * PI * / 4 * 0) with 0 by ring. replace (0 + 2 * PI * / 4 * 1) with (PI / 2) by field.
  rewrite cos_0, sin_0, cos_PI2, sin_PI2. reflexivity.
Qed.
