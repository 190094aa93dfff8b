From Coq Require Import Reals Lra Lia.
From Coquelicot Require Import Coquelicot.
Local Open Scope R_scope.

(** ** Linear recurrences with complex poles in the unit disc *)
Definition ult (v : nat -> C) (L : R) : Prop := forall eta, 0 < eta -> exists n, forall k, (n <= k)%nat -> Cmod (v k) <= L + eta.
Section First.
  Variables (p : C) (v w : nat -> C).
  Hypothesis Hp : Cmod p < 1.
  Hypothesis Hv : forall k, v (S k) = Cplus (Cmult p (v k)) (w k).
  Lemma first_step k : Cmod (v (S k)) <= Cmod p * Cmod (v k) + Cmod (w k).
  Proof. rewrite Hv. eapply Rle_trans; [apply Cmod_triangle|]. rewrite Cmod_mult. lra. Qed.
  Lemma first_bound W : (forall k, Cmod (w k) <= W) -> forall k, Cmod (v k) <= Cmod (v 0%nat) + W / (1 - Cmod p).
  Proof.
    intros Hw. assert (P : 0 < 1 - Cmod p) by lra. pose proof (Cmod_ge_0 p) as P0.
    assert (W0 : 0 <= W) by (eapply Rle_trans; [apply Cmod_ge_0|apply (Hw 0%nat)]).
    assert (Q : 0 <= W / (1 - Cmod p)) by (apply Rmult_le_pos; [exact W0|left; apply Rinv_0_lt_compat; exact P]).
    assert (E : W = (1 - Cmod p) * (W / (1 - Cmod p))) by (field; lra).
    set (B := W / (1 - Cmod p)) in *. pose proof (Cmod_ge_0 (v 0%nat)).
    induction k as [|k IH]; [lra|]. eapply Rle_trans; [apply first_step|]. pose proof (Hw k). nra.
  Qed.
  (** after a time from which w is bounded, the excess decays geometrically *)
  Lemma first_tail W n : 0 <= W -> (forall k, (n <= k)%nat -> Cmod (w k) <= W) ->
    forall j, Cmod (v (n + j)%nat) <= W / (1 - Cmod p) + Cmod p ^ j * Cmod (v n).
  Proof.
    intros W0 Hw. assert (P : 0 < 1 - Cmod p) by lra. pose proof (Cmod_ge_0 p) as P0.
    assert (Q : 0 <= W / (1 - Cmod p)) by (apply Rmult_le_pos; [exact W0|left; apply Rinv_0_lt_compat; exact P]).
    assert (E : W = (1 - Cmod p) * (W / (1 - Cmod p))) by (field; lra).
    set (B := W / (1 - Cmod p)) in *. pose proof (Cmod_ge_0 (v n)).
    induction j as [|j IH]; [rewrite Nat.add_0_r; cbn; lra|]. rewrite Nat.add_succ_r. eapply Rle_trans; [apply first_step|].
    pose proof (Hw (n + j)%nat ltac:(lia)). cbn [pow].
    assert (0 <= Cmod p ^ j * Cmod (v n)) by (apply Rmult_le_pos; [apply pow_le; exact P0|lra]). nra.
  Qed.
  Lemma first_ult W : 0 <= W -> ult w W -> ult v (W / (1 - Cmod p)).
  Proof.
    intros W0 Hw eta He. assert (P : 0 < 1 - Cmod p) by lra. pose proof (Cmod_ge_0 p) as P0.
    destruct (Hw ((1 - Cmod p) * (eta / 2)) ltac:(apply Rmult_lt_0_compat; lra)) as [n Hn].
    assert (W1 : 0 <= W + (1 - Cmod p) * (eta / 2)) by (assert (0 < (1 - Cmod p) * (eta / 2)) by (apply Rmult_lt_0_compat; lra); lra).
    pose proof (first_tail _ n W1 Hn) as T.
    pose proof (Cmod_ge_0 (v n)) as V0.
    destruct (pow_lt_1_zero (Cmod p) ltac:(rewrite Rabs_pos_eq; lra) (eta / 2 / (Cmod (v n) + 1))) as [m Hm].
    { apply Rdiv_lt_0_compat; lra. }
    exists (n + m)%nat. intros k Hk. replace k with (n + (k - n))%nat by lia. eapply Rle_trans; [apply T|].
    specialize (Hm (k - n)%nat ltac:(lia)). rewrite Rabs_pos_eq in Hm by (apply pow_le; exact P0).
    assert (Cmod p ^ (k - n) * Cmod (v n) <= eta / 2).
    { apply Rle_trans with (eta / 2 / (Cmod (v n) + 1) * (Cmod (v n) + 1)); [|right; field; lra].
      apply Rmult_le_compat; [apply pow_le; exact P0|exact V0|lra|lra]. }
    replace ((W + (1 - Cmod p) * (eta / 2)) / (1 - Cmod p)) with (W / (1 - Cmod p) + eta / 2) by (field; lra). lra.
  Qed.
End First.

(** third order: three poles in the unit disc *)
Section Third.
  Variables (p q r : C) (e f : nat -> C).
  Hypotheses (Hp : Cmod p < 1) (Hq : Cmod q < 1) (Hr : Cmod r < 1).
  Let s1 := (p + q + r)%C. Let s2 := (p * q + p * r + q * r)%C. Let s3 := (p * q * r)%C.
  Hypothesis He : forall k, e (S (S (S k))) = (s1 * e (S (S k)) - s2 * e (S k) + s3 * e k + f k)%C.
  Let u k := (e (S k) - r * e k)%C.
  Let t k := (u (S k) - q * u k)%C.
  Let G := / ((1 - Cmod p) * (1 - Cmod q) * (1 - Cmod r)).
  Lemma t_rec k : t (S k) = (p * t k + f k)%C.
  Proof. unfold t, u. rewrite He. unfold s1, s2, s3. ring. Qed.
  Lemma u_rec k : u (S k) = (q * u k + t k)%C.
  Proof. unfold t. ring. Qed.
  Lemma e_rec k : e (S k) = (r * e k + u k)%C.
  Proof. unfold u. ring. Qed.
  Lemma third_ult W : 0 <= W -> ult f W -> ult e (G * W).
  Proof.
    intros W0 Hf. pose proof (Cmod_ge_0 p). pose proof (Cmod_ge_0 q). pose proof (Cmod_ge_0 r).
    assert (T := first_ult p t f Hp t_rec W W0 Hf).
    assert (W1 : 0 <= W / (1 - Cmod p)) by (apply Rmult_le_pos; [exact W0|left; apply Rinv_0_lt_compat; lra]).
    assert (U := first_ult q u t Hq u_rec _ W1 T).
    assert (W2 : 0 <= W / (1 - Cmod p) / (1 - Cmod q)) by (apply Rmult_le_pos; [exact W1|left; apply Rinv_0_lt_compat; lra]).
    assert (E := first_ult r e u Hr e_rec _ W2 U).
    replace (G * W) with (W / (1 - Cmod p) / (1 - Cmod q) / (1 - Cmod r)); [exact E|]. unfold G. field. repeat split; lra.
  Qed.
  Lemma third_bound W : (forall k, Cmod (f k) <= W) ->
    forall k, Cmod (e k) <= 9 * G * (Cmod (e 0%nat) + Cmod (e 1%nat) + Cmod (e 2%nat) + W).
  Proof.
    intros Hf k. assert (W0 : 0 <= W) by (eapply Rle_trans; [apply Cmod_ge_0|apply (Hf 0%nat)]).
    pose proof (Cmod_ge_0 p). pose proof (Cmod_ge_0 q). pose proof (Cmod_ge_0 r).
    pose proof (Cmod_ge_0 (e 0%nat)). pose proof (Cmod_ge_0 (e 1%nat)). pose proof (Cmod_ge_0 (e 2%nat)).
    set (E0 := Cmod (e 0%nat) + Cmod (e 1%nat) + Cmod (e 2%nat)) in *.
    assert (U0 : Cmod (u 0%nat) <= E0).
    { unfold u. eapply Rle_trans; [apply Cmod_triangle|]. rewrite Cmod_opp, Cmod_mult. unfold E0. nra. }
    assert (U1 : Cmod (u 1%nat) <= E0).
    { unfold u. eapply Rle_trans; [apply Cmod_triangle|]. rewrite Cmod_opp, Cmod_mult. unfold E0. nra. }
    assert (T0 : Cmod (t 0%nat) <= 2 * E0).
    { unfold t. eapply Rle_trans; [apply Cmod_triangle|]. rewrite Cmod_opp, Cmod_mult. pose proof (Cmod_ge_0 (u 0%nat)). nra. }
    set (a := / (1 - Cmod p)). set (b := / (1 - Cmod q)). set (c := / (1 - Cmod r)).
    assert (A1 : 1 <= a) by (unfold a; rewrite <- Rinv_1; apply Rinv_le_contravar; lra).
    assert (B1 : 1 <= b) by (unfold b; rewrite <- Rinv_1; apply Rinv_le_contravar; lra).
    assert (C1 : 1 <= c) by (unfold c; rewrite <- Rinv_1; apply Rinv_le_contravar; lra).
    assert (E00 : 0 <= E0) by (unfold E0; lra).
    assert (T : forall k, Cmod (t k) <= a * (2 * E0 + W)).
    { intros j. eapply Rle_trans; [apply (first_bound p t f Hp t_rec W Hf)|]. unfold Rdiv. fold a. nra. }
    assert (U : forall k, Cmod (u k) <= a * b * (3 * E0 + W)).
    { intros j. eapply Rle_trans; [apply (first_bound q u t Hq u_rec _ T)|]. unfold Rdiv. fold b.
      assert (1 <= a * b) by nra. assert (E0 <= a * b * E0) by nra. nra. }
    eapply Rle_trans; [apply (first_bound r e u Hr e_rec _ U)|]. unfold Rdiv. fold c.
    replace G with (a * b * c) by (unfold G, a, b, c; field; repeat split; lra).
    assert (AB : 1 <= a * b) by nra. assert (ABC : 1 <= a * b * c) by nra.
    assert (Cmod (e 0%nat) <= a * b * c * E0) by (unfold E0; nra).
    assert (0 <= a * b * c * W) by (apply Rmult_le_pos; lra).
    replace (a * b * (3 * E0 + W) * c) with (3 * (a * b * c * E0) + a * b * c * W) by ring.
    replace (9 * (a * b * c) * (E0 + W)) with (9 * (a * b * c * E0) + 9 * (a * b * c * W)) by ring.
    assert (0 <= a * b * c * E0) by (apply Rmult_le_pos; lra). lra.
  Qed.
End Third.

(** a real quadratic z^2 + a z + b with |b| < 1, |a| < 1 + b splits over C with roots in the unit disc *)
Lemma quad_roots a b : -1 < b < 1 -> - (1 + b) < a < 1 + b ->
  exists p q : C, Cmod p < 1 /\ Cmod q < 1 /\ (p + q)%C = RtoC (- a) /\ (p * q)%C = RtoC b.
Proof.
  intros Hb Ha. destruct (Rle_lt_dec 0 (a * a - 4 * b)) as [D|D].
  - set (d := sqrt (a * a - 4 * b)). assert (Dd : d * d = a * a - 4 * b) by (apply sqrt_def; exact D).
    assert (D0 : 0 <= d) by apply sqrt_pos.
    assert (d < 2 + a) by (apply Rsqr_incrst_0; unfold Rsqr; nra).
    assert (d < 2 - a) by (apply Rsqr_incrst_0; unfold Rsqr; nra).
    exists (RtoC ((- a + d) / 2)), (RtoC ((- a - d) / 2)). rewrite !Cmod_R. repeat split.
    + apply Rabs_def1; lra.
    + apply Rabs_def1; lra.
    + rewrite <- RtoC_plus. f_equal. field.
    + rewrite <- RtoC_mult. f_equal. nra.
  - set (d := sqrt (4 * b - a * a)). assert (Dd : d * d = 4 * b - a * a) by (apply sqrt_def; lra).
    exists (- a / 2, d / 2)%R, (- a / 2, - d / 2)%R. repeat split.
    + unfold Cmod. cbn [fst snd]. rewrite <- sqrt_1. apply sqrt_lt_1_alt. split; [nra|]. nra.
    + unfold Cmod. cbn [fst snd]. rewrite <- sqrt_1. apply sqrt_lt_1_alt. split; [nra|]. nra.
    + unfold Cplus, RtoC. cbn. f_equal; field.
    + unfold Cmult, RtoC. cbn. f_equal; [nra|field].
Qed.

(** ** The error of the second-order loop *)
Section Cubic.
  Variables g h : R.
  Hypotheses (Hg : 0 < g) (Hh : 0 < h).
  Let cub x := x * (1 - x) * (1 - x) - g * (1 - (1 + h) * x).
  Lemma cub_cont : continuity cub.
  Proof. unfold cub. reg. Qed.
  (** real root r of x^3 - 2 x^2 + (1 + g + g h) x - g; t = g / r is the product of the two other ones *)
  Lemma loop_root : exists r, 0 < r < 1 /\ cub r = 0 /\ (g + h < 1 -> g < r) /\ (1 <= g + h -> r <= g) /\ r * (1 - r) < g.
  Proof.
    assert (K : forall r, 0 < r < 1 -> cub r = 0 -> r * (1 - r) < g).
    { intros r Hr E. unfold cub in E. assert (E2 : r * (1 - r) * (1 - r) = g * (1 - r) - g * h * r) by lra.
      assert (0 < g * h * r) by (repeat apply Rmult_lt_0_compat; lra).
      apply (Rmult_lt_reg_r (1 - r)); lra. }
    assert (C0 : cub 0 < 0) by (unfold cub; lra). assert (C1 : 0 < cub 1) by (unfold cub; assert (0 < g * h) by (apply Rmult_lt_0_compat; lra); lra).
    assert (Cg : cub g = g * g * (g + h - 1)) by (unfold cub; ring).
    destruct (Rlt_le_dec (g + h) 1) as [S0|S0].
    - assert (cub g < 0) by (rewrite Cg; assert (0 < g * g) by nra; nra).
      destruct (IVT cub g 1 cub_cont ltac:(lra) H C1) as (r & R1 & R2).
      assert (r <> g) by (intros ->; lra). assert (r <> 1) by (intros ->; lra).
      exists r. assert (0 < r < 1) by lra. repeat split; try lra; try assumption. apply K; assumption.
    - assert (G0 : 0 <= cub g) by (rewrite Cg; assert (0 < g * g) by nra; nra).
      destruct (Rlt_le_dec g 1) as [L|L].
      + destruct (Rle_lt_or_eq_dec _ _ G0) as [P|P].
        * destruct (IVT cub 0 g cub_cont Hg C0 P) as (r & R1 & R2).
          assert (r <> 0) by (intros ->; lra). exists r. assert (0 < r < 1) by lra. repeat split; try lra; try assumption. apply K; assumption.
        * exists g. assert (0 < g < 1) by lra. repeat split; try lra; try assumption. apply K; [assumption|lra].
      + destruct (IVT cub 0 1 cub_cont ltac:(lra) C0 C1) as (r & R1 & R2).
        assert (r <> 0) by (intros ->; lra). assert (r <> 1) by (intros ->; lra). exists r. assert (0 < r < 1) by lra. repeat split; try lra; try assumption. apply K; assumption.
  Qed.
  Lemma loop_poles : g + h < 1 -> exists p q r : C, Cmod p < 1 /\ Cmod q < 1 /\ Cmod r < 1 /\
    (p + q + r)%C = RtoC 2 /\ (p * q + p * r + q * r)%C = RtoC (1 + g + g * h) /\ (p * q * r)%C = RtoC g.
  Proof.
    intros S0. destruct loop_root as (r & Hr & E & Gr & _ & K). specialize (Gr S0).
    assert (T : 0 < g / r < 1).
    { split; [apply Rdiv_lt_0_compat; lra|]. apply (Rmult_lt_reg_r r); [lra|]. unfold Rdiv. rewrite Rmult_assoc, Rinv_l by lra. lra. }
    assert (T2 : 1 - r < g / r). { apply (Rmult_lt_reg_r r); [lra|]. unfold Rdiv. rewrite Rmult_assoc, Rinv_l by lra. lra. }
    destruct (quad_roots (r - 2) (g / r)) as (p & q & Hp & Hq & Es & Ep); [lra|lra|].
    exists p, q, (RtoC r). split; [exact Hp|]. split; [exact Hq|]. split; [rewrite Cmod_R; apply Rabs_def1; lra|].
    rewrite Es. replace (p * q + p * r + q * r)%C with (p * q + (p + q) * r)%C by ring. rewrite Es, Ep.
    rewrite <- !RtoC_mult, <- !RtoC_plus. repeat split; f_equal; [ring| |field; lra].
    unfold cub in E. apply (Rmult_eq_reg_r r); [|lra]. field_simplify; [|lra]. nra.
  Qed.
End Cubic.

(** real version: constants that only depend on the loop *)
Lemma loop_stable g h : 0 < g -> 0 < h -> g + h < 1 -> exists G, 1 <= G /\ forall e f : nat -> R,
  (forall k, e (S (S (S k))) = 2 * e (S (S k)) - (1 + g + g * h) * e (S k) + g * e k + f k) ->
  (forall W, (forall k, Rabs (f k) <= W) -> forall k, Rabs (e k) <= G * (Rabs (e 0%nat) + Rabs (e 1%nat) + Rabs (e 2%nat) + W)) /\
  (forall W, 0 <= W -> (forall k, Rabs (f k) <= W) -> forall eta, 0 < eta -> exists n, forall k, (n <= k)%nat -> Rabs (e k) <= G * W + eta).
Proof.
  intros Hg Hh S0. destruct (loop_poles g h Hg Hh S0) as (p & q & r & Hp & Hq & Hr & E1 & E2 & E3).
  set (G := / ((1 - Cmod p) * (1 - Cmod q) * (1 - Cmod r))).
  pose proof (Cmod_ge_0 p). pose proof (Cmod_ge_0 q). pose proof (Cmod_ge_0 r).
  assert (D : 0 < (1 - Cmod p) * (1 - Cmod q) * (1 - Cmod r)) by (repeat apply Rmult_lt_0_compat; lra).
  assert (G1 : 1 <= G).
  { unfold G. apply Rle_trans with (/ 1); [rewrite Rinv_1; lra|]. apply Rinv_le_contravar; [exact D|].
    assert ((1 - Cmod p) * (1 - Cmod q) <= 1) by nra. assert (0 <= (1 - Cmod p) * (1 - Cmod q)) by nra. nra. }
  exists (9 * G). split; [lra|]. intros e f Hrec.
  assert (R3 : forall k, RtoC (e (S (S (S k)))) = ((p + q + r) * RtoC (e (S (S k))) - (p * q + p * r + q * r) * RtoC (e (S k)) + (p * q * r) * RtoC (e k) + RtoC (f k))%C).
  { intros k. rewrite E1, E2, E3, Hrec. rewrite <- !RtoC_mult, <- RtoC_minus, <- !RtoC_plus. reflexivity. }
  split.
  - intros W Hf k. pose proof (third_bound p q r (fun k => RtoC (e k)) (fun k => RtoC (f k)) Hp Hq Hr R3 W) as B. cbv beta in B.
    specialize (B ltac:(intros j; rewrite Cmod_R; apply Hf) k). rewrite !Cmod_R in B. exact B.
  - intros W W0 Hf eta He. destruct (third_ult p q r (fun k => RtoC (e k)) (fun k => RtoC (f k)) Hp Hq Hr R3 W W0) with (eta := eta) as [n Hn]; [|exact He|].
    + intros z Hz. exists 0%nat. intros k _. rewrite Cmod_R. pose proof (Hf k). lra.
    + exists n. intros k Hk. specialize (Hn k Hk). rewrite Cmod_R in Hn. fold G in Hn. eapply Rle_trans; [exact Hn|]. nra.
Qed.

(** instability: the Casoratian of u does not decrease *)
Lemma loop_unstable g h e : 0 < g -> 0 < h -> 1 <= g + h ->
  (forall k, e (S (S (S k))) = 2 * e (S (S k)) - (1 + g + g * h) * e (S k) + g * e k) ->
  e 0%nat = 0 -> e 2%nat = 2 * e 1%nat -> e 1%nat <> 0 ->
  ~ (forall eta, 0 < eta -> exists n, forall k, (n <= k)%nat -> Rabs (e k) <= eta).
Proof.
  intros Hg Hh S0 Hrec E0 E2 E1 L. destruct (loop_root g h Hg Hh) as (r & Hr & E & _ & Gr & K). specialize (Gr S0).
  set (t := g / r). assert (T1 : 1 <= t). { unfold t. apply (Rmult_le_reg_r r); [lra|]. unfold Rdiv. rewrite Rmult_assoc, Rinv_l by lra. lra. }
  assert (Tr : g = t * r) by (unfold t; field; lra).
  set (u k := e (S k) - r * e k).
  assert (U : forall k, u (S (S k)) = (2 - r) * u (S k) - t * u k).
  { intros k. unfold u. rewrite Hrec. assert (C : 1 + g + g * h = r * (2 - r) + t).
    { apply (Rmult_eq_reg_r r); [|lra]. transitivity (r * (2 - r) * r + g); [lra|rewrite Tr; ring]. }
    rewrite C, Tr. ring. }
  set (W k := u (S k) * u (S k) - u k * u (S (S k))).
  assert (WS : forall k, W k = t ^ S k * (e 1%nat * e 1%nat)).
  { induction k as [|k IH].
    - unfold W. rewrite U. unfold u. rewrite E0, E2. ring.
    - transitivity (t * W k); [|rewrite IH; cbn [pow]; ring]. unfold W. rewrite (U (S k)). rewrite (U k). ring. }
  assert (W0 : 0 < e 1%nat * e 1%nat) by nra.
  assert (WB : forall k, e 1%nat * e 1%nat <= W k).
  { intros k. rewrite WS. assert (1 <= t ^ S k) by (apply pow_R1_Rle; exact T1). nra. }
  set (m := e 1%nat * e 1%nat) in *. set (eta := Rmin 1 (m / 16)).
  assert (P : 0 < eta) by (unfold eta; apply Rmin_glb_lt; lra). assert (eta <= 1) by apply Rmin_l. assert (eta <= m / 16) by apply Rmin_r.
  destruct (L eta P) as [n Hn].
  assert (UB : forall k, (n <= k)%nat -> Rabs (u k) <= 2 * eta).
  { intros k Hk. unfold u. eapply Rle_trans; [apply Rabs_triang|]. rewrite Rabs_Ropp, Rabs_mult, (Rabs_pos_eq r) by lra.
    pose proof (Hn k Hk). pose proof (Hn (S k) ltac:(lia)). pose proof (Rabs_pos (e k)). nra. }
  assert (W n <= 8 * (eta * eta)).
  { unfold W. eapply Rle_trans; [apply Rle_abs|]. eapply Rle_trans; [apply Rabs_triang|]. rewrite Rabs_Ropp, !Rabs_mult.
    pose proof (UB n ltac:(lia)). pose proof (UB (S n) ltac:(lia)). pose proof (UB (S (S n)) ltac:(lia)).
    pose proof (Rabs_pos (u n)). pose proof (Rabs_pos (u (S n))). pose proof (Rabs_pos (u (S (S n)))).
    assert (Rabs (u (S n)) * Rabs (u (S n)) <= 2 * eta * (2 * eta)) by (apply Rmult_le_compat; lra).
    assert (Rabs (u n) * Rabs (u (S (S n))) <= 2 * eta * (2 * eta)) by (apply Rmult_le_compat; lra). lra. }
  pose proof (WB n). assert (eta * eta <= eta) by nra. lra.
Qed.
