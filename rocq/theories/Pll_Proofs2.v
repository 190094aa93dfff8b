From Coq Require Import Reals Lra Lia.
From Verif Require Import Base BaseLemmas Design_Model Geo_Model Geo_Proofs2 Demod_Model Sig_Model Pll_Model Pll_Spec Pll_Proofs Sig_Spec Sig_Props Phase_Spec.
Local Open Scope R_scope.

Lemma angle_mul a b s t : cmulr (at_angle a s) (at_angle b t) = at_angle (a * b) (s + t).
Proof. unfold cmulr, at_angle. cbn. rewrite cos_plus, sin_plus. f_equal; ring. Qed.
Lemma arg_angle a t : 0 < a -> - PI < t <= PI -> arg (at_angle a t) = t.
Proof. intros Ha Ht. unfold arg, at_angle. cbn [fst snd]. apply atan2_of_polar; assumption. Qed.
(** extraction of the angle error of an oscillator *)
Definition osc_val (osc : R -> res (R * R)) (t : R) : R * R := match osc t with Ok z => z | _ => (1, 0) end.
Definition osc_d osc t := arg (cmulr (osc_val osc t) (at_angle 1 (- t))).
Definition osc_a osc t := fst (cmulr (osc_val osc t) (at_angle 1 (- t - osc_d osc t))).
Lemma osc_split osc eps t : eps < PI -> osc_within eps osc ->
  0 < osc_a osc t <= 1 /\ Rabs (osc_d osc t) <= eps /\ osc t = Ok (at_angle (osc_a osc t) (t + osc_d osc t)).
Proof.
  intros He H. destruct (H t) as (a & d & Ha & Hd & E).
  assert (D : osc_d osc t = d).
  { unfold osc_d, osc_val. rewrite E, angle_mul. replace (t + d + - t) with d by ring. rewrite Rmult_1_r. apply arg_angle; [lra|].
    unfold Rabs in Hd. destruct (Rcase_abs d); lra. }
  assert (Aa : osc_a osc t = a).
  { unfold osc_a, osc_val. rewrite D, E, angle_mul. replace (t + d + (- t - d)) with 0 by ring. unfold at_angle. cbn. rewrite cos_0. ring. }
  rewrite D, Aa. split; [exact Ha|]. split; [exact Hd|exact E].
Qed.

Section Loop.
  Variables (osc : R -> res (R * R)) (eps : R) (p : ped) (B : R) (symbol : R -> Prop).
  Variables (A : nat -> R) (phi w : R) (psi : nat -> R).
  Hypotheses (He : eps < PI) (Ho : osc_within eps osc) (Hp : detects p B symbol) (HA : forall k, 0 < A k) (Hs : forall k, symbol (psi k)).
  Let d t := osc_d osc (- t).
  (** the linear loop *)
  Fixpoint lin (s : lf) (th : R) (k : nat) : lf * R :=
    match k with
    | O => (s, th)
    | S k => let (s', th') := lin s th k in lf_step s' (phi + w * INR k - th' + d th')
    end.
  Definition lth (s : lf) (k : nat) : R := snd (lin s 0 k).
  Definition err (s : lf) (k : nat) : R := phi + w * INR k - lth s k + d (lth s k).
  Lemma lin_S s k : lin s 0 (S k) = lf_step (fst (lin s 0 k)) (err s k).
  Proof. cbn [lin]. unfold err, lth. destruct (lin s 0 k). reflexivity. Qed.
  Lemma run_lin s n : (forall k, (k < n)%nat -> Rabs (err s k) < B) ->
    cpll_step osc (mkcpll s 0 p) (modulated A phi w psi n) =
    Ok (mkcpll (fst (lin s 0 n)) (snd (lin s 0 n)) p, map (fun k => at_angle (osc_a osc (- snd (lin s 0 k)) * A k) (err s k + psi k)) (seq 0 n)).
  Proof.
    induction n as [|n IH]; intros HB; [reflexivity|]. unfold cpll_step in *. unfold modulated in *. rewrite !seq_S, !map_app, map_st_app. cbn [map Nat.add].
    rewrite IH by (intros k Hk; apply HB; lia). cbn [bind map_st]. unfold cpll_sample at 1. cbn [l_theta l_ped l_lf].
    destruct (osc_split osc eps (- snd (lin s 0 n)) He Ho) as (Ha & _ & E). rewrite E. cbn [bind]. rewrite angle_mul.
    assert (F : phi + w * INR n + psi n + (- snd (lin s 0 n) + osc_d osc (- snd (lin s 0 n))) = err s n + psi n) by (unfold err, lth, d; ring).
    rewrite F. rewrite Hp; [|apply Rmult_lt_0_compat; [apply HA|lra]|apply HB; lia|apply Hs]. cbn [bind].
    rewrite lin_S. rewrite (surjective_pairing (lf_step (fst (lin s 0 n)) (err s n))). cbn [fst snd bind]. rewrite (Rmult_comm (A n)). reflexivity.
  Qed.
  Lemma d_le t : Rabs (d t) <= eps.
  Proof. unfold d. apply (osc_split osc eps (- t) He Ho). Qed.
  Lemma eps_pos : 0 <= eps.
  Proof. eapply Rle_trans; [apply Rabs_pos|apply (d_le 0)]. Qed.
  (** order 1 *)
  Section One.
    Variable a : R.
    Hypothesis Ha : 0 < a < 1.
    Lemma lin1 k : lin (LF1 a 0) 0 k = (LF1 a (lth (LF1 a 0) k), lth (LF1 a 0) k) /\
      lth (LF1 a 0) (S k) = lth (LF1 a 0) k + a * err (LF1 a 0) k.
    Proof.
      set (s := LF1 a 0).
      assert (G : forall j, lin s 0 j = (LF1 a (lth s j), lth s j)).
      { induction j as [|j IH]; [reflexivity|]. unfold lth at 1 2. rewrite lin_S. rewrite IH. cbn [fst lf_step snd]. reflexivity. }
      split; [apply G|]. unfold lth at 1. rewrite lin_S, G. reflexivity.
    Qed.
    Definition ideal1 (k : nat) : R := w / a + (1 - a) ^ k * (phi - w / a).
    Lemma order1 k : Rabs (phi + w * INR k - lth (LF1 a 0) k - ideal1 k) <= eps.
    Proof.
      induction k as [|k IH].
      - unfold ideal1. cbn [INR pow lth lin snd]. unfold lth. cbn [lin snd]. replace (phi + w * 0 - 0 - _) with 0 by ring. rewrite Rabs_R0. apply eps_pos.
      - destruct (lin1 k) as [_ E]. rewrite E, S_INR. unfold err. pose proof (d_le (lth (LF1 a 0) k)) as D. set (t := lth (LF1 a 0) k) in *.
        replace (phi + w * (INR k + 1) - (t + a * (phi + w * INR k - t + d t)) - ideal1 (S k))
          with ((1 - a) * (phi + w * INR k - t - ideal1 k) + a * - d t) by (unfold ideal1; cbn [pow]; field; lra).
        eapply Rle_trans; [apply Rabs_triang|]. rewrite !Rabs_mult, Rabs_Ropp, (Rabs_pos_eq a), (Rabs_pos_eq (1 - a)) by lra.
        assert ((1 - a) * Rabs (phi + w * INR k - t - ideal1 k) <= (1 - a) * eps) by (apply Rmult_le_compat_l; [lra|exact IH]). assert (a * Rabs (d t) <= a * eps) by (apply Rmult_le_compat_l; lra). lra.
    Qed.
    Lemma ideal1_le k : Rabs (ideal1 k) <= Rmax (Rabs phi) (Rabs w / a).
    Proof.
      unfold ideal1. assert (P : 0 <= (1 - a) ^ k <= 1) by (split; [apply pow_le; lra|]; apply Rle_trans with (1 ^ k); [apply pow_incr; split; lra|rewrite pow1; lra]).
      set (q := (1 - a) ^ k) in *. replace (w / a + q * (phi - w / a)) with ((1 - q) * (w / a) + q * phi) by ring.
      eapply Rle_trans; [apply Rabs_triang|]. rewrite !Rabs_mult, (Rabs_pos_eq q), (Rabs_pos_eq (1 - q)) by lra.
      assert (Rabs (w / a) = Rabs w / a) as -> by (unfold Rdiv; rewrite Rabs_mult, Rabs_inv, (Rabs_pos_eq a) by lra; reflexivity).
      pose proof (Rmax_l (Rabs phi) (Rabs w / a)). pose proof (Rmax_r (Rabs phi) (Rabs w / a)). nra.
    Qed.
  End One.
  (** order 2 *)
  Section Two.
    Variables g h : R.
    Let s := LF2 g h 0 0 0.
    Definition lmu (k : nat) : R := match fst (lin s 0 k) with LF2 _ _ _ m _ => m | _ => 0 end.
    Definition llast (k : nat) : R := match fst (lin s 0 k) with LF2 _ _ _ _ l => l | _ => 0 end.
    Lemma lin2 k : lin s 0 k = (LF2 g h (lth s k) (lmu k) (llast k), lth s k).
    Proof.
      induction k as [|k IH]; [reflexivity|]. unfold lmu, llast, lth. rewrite lin_S, IH. reflexivity.
    Qed.
    Lemma lin2_S k : lth s (S k) = lth s k + lmu k /\ lmu (S k) = lmu k + g * ((1 + h) * err s k - llast k) /\ llast (S k) = err s k.
    Proof.
      unfold lth at 1, lmu at 2, llast at 2. rewrite lin_S, lin2. cbn [fst lf_step snd]. repeat split; reflexivity.
    Qed.
    Let e k := phi + w * INR k - lth s k.
    Lemma order2_rec k : e (S (S (S k))) = 2 * e (S (S k)) - (1 + g + g * h) * e (S k) + g * e k + (g * d (lth s k) - g * (1 + h) * d (lth s (S k))).
    Proof.
      unfold e. destruct (lin2_S k) as (_ & _ & L). destruct (lin2_S (S k)) as (A1 & A2 & _). destruct (lin2_S (S (S k))) as (B1 & _ & _).
      rewrite B1, A2, L, A1. unfold err. rewrite !S_INR. ring.
    Qed.
    Lemma order2_init : e 0%nat = phi /\ e 1%nat = phi + w /\ e 2%nat = phi + 2 * w - g * (1 + h) * err s 0.
    Proof.
      unfold e. destruct (lin2_S 1) as (A1 & _). destruct (lin2_S 0) as (B1 & B2 & _). rewrite A1, B1, B2.
      change (lth s 0) with 0. change (lmu 0) with 0. change (llast 0) with 0. cbn [INR]. repeat split; ring.
    Qed.
  End Two.
End Loop.
