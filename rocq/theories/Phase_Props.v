(** Property C40: modulo and phase unwrapping. *)
From Coq Require Import Reals Lra.
From Flocq Require Import Core IEEE754.BinarySingleNaN IEEE754.Binary IEEE754.Bits.
From Verif Require Import Base Phase_Model Phase_Spec Phase_Proofs.
Open Scope R_scope.

(** modulo(x, m), m > 0, is the representative of x in [0, m), and the only one. *)
Theorem C40_modulo x m : 0 < m -> 0 <= modulo x m < m /\ congruent m x (modulo x m)
  /\ forall r, 0 <= r < m -> congruent m x r -> r = modulo x m.
Proof.
  intros Hm. destruct (modulo_spec x m Hm) as [B C]. repeat split; try apply B; [exact C|]. intros r Hr Hc.
  apply (congruent_unique m); auto. apply congruent_trans with x; [apply congruent_sym; exact Hc|exact C].
Qed.
Print Assumptions C40_modulo.
(** A negative modulus gives a representative in (m, 0]; modulus 0 returns x. *)
Theorem C40_modulo_other x m : (m < 0 -> m < modulo x m <= 0 /\ congruent m x (modulo x m)) /\ modulo x 0 = x.
Proof. split; [apply modulo_neg|]. unfold modulo. destruct (Req_EM_T 0 0); [reflexivity|lra]. Qed.
Print Assumptions C40_modulo_other.
Theorem C40_modulo_2pi x : 0 <= modulo_2pi x < 2 * PI /\ congruent (2 * PI) x (modulo_2pi x)
  /\ cos (modulo_2pi x) = cos x /\ sin (modulo_2pi x) = sin x.
Proof.
  pose proof PI_RGT_0. destruct (modulo_spec x (2 * PI) ltac:(lra)) as [B C]. split; [exact B|]. split; [exact C|].
  assert (T : forall a b, congruent (2 * PI) a b -> cos b = cos a /\ sin b = sin a).
  { intros a b [k Hk]. destruct (Z_le_gt_dec 0 k) as [Hp|Hp].
    - replace a with (b + 2 * INR (Z.to_nat k) * PI) by (rewrite INR_IZR_INZ, Z2Nat.id by exact Hp; lra). rewrite cos_period, sin_period. split; reflexivity.
    - replace b with (a + 2 * INR (Z.to_nat (- k)) * PI) by (rewrite INR_IZR_INZ, Z2Nat.id, opp_IZR by lia; lra). rewrite cos_period, sin_period. split; reflexivity. }
  apply T. exact C.
Qed.
Print Assumptions C40_modulo_2pi.
Theorem C40_modulo_pm_pi x : - PI <= modulo_pm_pi x < PI /\ congruent (2 * PI) x (modulo_pm_pi x).
Proof.
  pose proof PI_RGT_0. unfold modulo_pm_pi, modulo_2pi. destruct (modulo_spec (x + PI) (2 * PI) ltac:(lra)) as [B [k Hk]].
  split; [lra|]. exists k. lra.
Qed.
Print Assumptions C40_modulo_pm_pi.

(** déplie_phase: for every range r > 0, same length, first sample unchanged,
    and every sample changes by a whole number of ranges. *)
Theorem C40_unwrap_congruent r a x : 0 < r ->
  exists y, deplie_phase (a :: x) r = Ok (a :: y) /\ Forall2 (congruent r) (a :: x) (a :: y).
Proof.
  intros Hr. eexists. split; [reflexivity|]. constructor; [apply congruent_refl|apply deplie_from_congruent; exact Hr].
Qed.
Print Assumptions C40_unwrap_congruent.
(** With the default range 2 pi, no jump exceeds pi. *)
Theorem C40_unwrap_continuous a x : exists y, deplie_phase (a :: x) (2 * PI) = Ok y /\ jumps_within PI y.
Proof. eexists. split; [reflexivity|apply deplie_from_jumps]. Qed.
Print Assumptions C40_unwrap_continuous.
(** It inverts wrapping: if every step of the true phase phi is less than half a
    turn, then from any samples equal to phi modulo 2 pi it recovers phi, up to
    the whole number of turns missing from the first sample. *)
Theorem C40_unwrap_inverts f0 phi x0 x : slow PI (f0 :: phi) -> Forall2 (congruent (2 * PI)) (x0 :: x) (f0 :: phi) ->
  deplie_phase (x0 :: x) (2 * PI) = Ok (map (fun f => f + (x0 - f0)) (f0 :: phi)).
Proof.
  intros Hs Hx. inversion Hx; subst. cbn [deplie_phase map]. replace (f0 + (x0 - f0)) with x0 by ring. f_equal. f_equal.
  replace x0 with (f0 + (x0 - f0)) at 1 by ring. apply deplie_from_slow; auto.
  destruct H2 as [k Hk]. exists k. lra.
Qed.
Print Assumptions C40_unwrap_inverts.
(** In particular it is the inverse of modulo_pm_pi on slow phases starting in [-pi, pi). *)
Theorem C40_unwrap_modulo f0 phi : slow PI (f0 :: phi) -> - PI <= f0 < PI ->
  deplie_phase (map modulo_pm_pi (f0 :: phi)) (2 * PI) = Ok (f0 :: phi).
Proof.
  intros Hs H0. pose proof PI_RGT_0. cbn [map].
  assert (E : modulo_pm_pi f0 = f0).
  { destruct (C40_modulo_pm_pi f0) as [B [k Hk]]. symmetry. apply (small_congruent (2 * PI)); [lra|exists k; exact Hk|apply Rabs_def1; lra]. }
  rewrite (C40_unwrap_inverts f0 phi (modulo_pm_pi f0) (map modulo_pm_pi phi)); [|exact Hs|].
  - rewrite E. f_equal. rewrite <- (map_id (f0 :: phi)) at 2. apply map_ext. intros f. ring.
  - constructor; [rewrite E; apply congruent_refl|]. clear. induction phi as [|f t IH]; cbn; constructor; [|exact IH].
    apply congruent_sym. apply C40_modulo_pm_pi.
Qed.
Print Assumptions C40_unwrap_modulo.
(** Finding: with any other range r the result can still jump by more than r/2
    (the code compares with -pi instead of -r/2). *)
Theorem C40_unwrap_other_range_refuted r : 0 < r -> r <> 2 * PI ->
  exists a y, deplie_phase [0; a] r = Ok [0; y] /\ Rabs (y - 0) > r / 2.
Proof.
  intros Hr Hn. destruct (other_range r Hr Hn) as [a Ha]. exists a. eexists. split; [reflexivity|]. rewrite Rminus_0_r. exact Ha.
Qed.
Print Assumptions C40_unwrap_other_range_refuted.
(** Finding: the empty vector throws. *)
Theorem C40_unwrap_empty r : deplie_phase [] r = Exc.
Proof. reflexivity. Qed.
Print Assumptions C40_unwrap_empty.

(** Finding: in float arithmetic modulo(x, 2 pi) can be negative, or reach 2 pi
    and more (0x41fb53d1 = 31.415926f gives -2^-19). *)
Theorem C40_float_modulo_refuted :
  b32_compare (modulo32 (b32_of_bits 1106990033) twopi32) (B754_zero _ _ false) = Some Lt /\
  b32_compare (modulo32 (b32_of_bits 1158349814) twopi32) twopi32 = Some Gt /\
  is_finite _ _ (b32_of_bits 1106990033) = true /\ is_finite _ _ (b32_of_bits 1158349814) = true.
Proof. vm_compute. repeat split; reflexivity. Qed.
Print Assumptions C40_float_modulo_refuted.

(** ** Non-vacuity *)
Example C40_slow_case : slow PI [3; 4; 5] /\ - PI <= 3 < PI.
Proof. pose proof PI_4. pose proof PI2_3_2. cbn [slow]. repeat split; try lra; apply Rabs_def1; unfold PI2 in *; lra. Qed.
(** the wrapped phase of C40_slow_case really jumps: 4 is sent below 0 *)
Example C40_wrap_case : modulo_pm_pi 4 = 4 - 2 * PI.
Proof.
  pose proof PI_4. pose proof PI2_3_2 as H2. unfold PI2 in H2. destruct (C40_modulo_pm_pi 4) as [B C].
  destruct C as [k Hk]. apply (small_congruent (2 * PI)); [lra| |apply Rabs_def1; lra].
  exists (1 - k)%Z. rewrite minus_IZR. lra.
Qed.
