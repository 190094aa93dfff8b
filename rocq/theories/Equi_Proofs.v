From Coq Require Import List Arith ZArith Reals Lia Lra Field.
From Verif Require Import Base BaseLemmas ComplexSys RField Filters_Model Fourier_Proofs Chn_Spec Chn_Proofs Vec_Model Vec_Proofs Equi_Model Equi_Spec.
Import ListNotations.
Local Open Scope R_scope.

(** ** Sums *)
Lemma total_split a b f : total (a + b) f = total a f + total b (fun j => f (a + j)%nat).
Proof. induction b as [|b IH]; [rewrite Nat.add_0_r; cbn [total]; ring|]. rewrite Nat.add_succ_r. cbn [total]. rewrite IH. ring. Qed.
Lemma total_S_l n f : total (S n) f = f 0%nat + total n (fun k => f (S k)).
Proof. induction n as [|n IH]; [cbn; ring|]. cbn [total] in *. rewrite IH. ring. Qed.
Lemma total_rev n f : total n (fun k => f (n - 1 - k)%nat) = total n f.
Proof.
  induction n as [|n IH]; [reflexivity|]. rewrite total_S_l. cbn [total]. rewrite Nat.sub_0_r. replace (S n - 1)%nat with n by lia. rewrite <- IH. rewrite Rplus_comm. f_equal. apply total_ext. intros k Hk. f_equal. lia.
Qed.
Lemma total_half n f : total n f = total (n / 2) (fun k => f k + f (n - 1 - k)%nat) + (if Nat.odd n then f (n / 2)%nat else 0).
Proof.
  assert (A : forall q, total (2 * q) f = total q (fun k => f k + f (2 * q - 1 - k)%nat)).
  { intros q. replace (2 * q)%nat with (q + q)%nat by lia. rewrite total_split. rewrite <- (total_rev q (fun j => f (q + j)%nat)).
    assert (T : forall m u v, total m (fun k => u k + v k) = total m u + total m v) by (clear; intros m u v; induction m as [|m IH]; cbn [total]; [ring|rewrite IH; ring]).
    rewrite T. f_equal. apply total_ext. intros k Hk. f_equal. lia. }
  destruct (Nat.odd n) eqn:O.
  - apply Nat.odd_spec in O. destruct O as [q ->]. replace ((2 * q + 1) / 2)%nat with q by (rewrite Nat.mul_comm, Nat.div_add_l by lia; cbn; lia).
    replace (2 * q + 1)%nat with (q + (1 + q))%nat by lia. rewrite total_split, total_split. cbn [total]. rewrite Nat.add_0_r, <- (total_rev q (fun j => f (q + (1 + j))%nat)).
    assert (T : forall m u v, total m (fun k => u k + v k) = total m u + total m v) by (clear; intros m u v; induction m as [|m IH]; cbn [total]; [ring|rewrite IH; ring]).
    rewrite T. rewrite (total_ext q (fun k => f (q + (1 + q) - 1 - k)%nat) (fun k => f (q + (1 + (q - 1 - k)))%nat)) by (intros k Hk; f_equal; lia). ring.
  - assert (E : Nat.even n = true) by (rewrite <- Nat.negb_odd, O; reflexivity). apply Nat.even_spec in E. destruct E as [q ->].
    replace (2 * q / 2)%nat with q by (rewrite Nat.mul_comm, Nat.div_mul; lia). rewrite A. ring.
Qed.
Lemma fold_total (g : nat -> R) n s : fold_left (fun s k => s + g k) (seq 0 n) s = s + total n g.
Proof. induction n as [|n IH]; [cbn; ring|]. rewrite seq_S, fold_left_app, IH. cbn [fold_left total Nat.add]. ring. Qed.
Lemma total_opp n f : total n (fun k => - f k) = - total n f.
Proof. induction n as [|n IH]; cbn [total]; [ring|]. rewrite IH. ring. Qed.

(** ** Amplitudes *)
Definition ampc (h : list R) (w : R) : R := total (length h) (fun k => nth k h 0 * cos (w * (middle h - INR k))).
Definition amps (h : list R) (w : R) : R := total (length h) (fun k => nth k h 0 * sin (w * (middle h - INR k))).
Lemma amp_ampc h f : amp h f = ampc h (2 * PI * f).
Proof. reflexivity. Qed.
Lemma mid_rev h k : (k < length h)%nat -> middle h - INR (length h - 1 - k) = - (middle h - INR k).
Proof. intros H. unfold middle. replace (length h - 1 - k)%nat with (length h - (1 + k))%nat by lia. rewrite minus_INR by lia. rewrite plus_INR. change (INR 1) with 1. field. Qed.
Lemma mid_odd h : Nat.odd (length h) = true -> middle h - INR (length h / 2) = 0.
Proof.
  intros O. apply Nat.odd_spec in O. destruct O as [q E]. unfold middle. rewrite E. replace ((2 * q + 1) / 2)%nat with q by (rewrite Nat.mul_comm, Nat.div_add_l by lia; cbn; lia).
  rewrite plus_INR, mult_INR. change (INR 1) with 1. replace (INR 2) with 2 by (cbn; ring). field.
Qed.
Lemma impl_sym h w : symmetric h -> rifamp_impl h w (if Nat.even (length h) then 2 else 1) = Ok (ampc h w).
Proof.
  intros Hs. unfold rifamp_impl.
  replace (((if Nat.even (length h) then 2 else 1) =? 1) || ((if Nat.even (length h) then 2 else 1) =? 2))%nat%bool with true by (destruct (Nat.even (length h)); reflexivity).
  set (n := length h) in *. rewrite (fold_total (fun k => nth k h 0 * 2 * cos (w * (1 / 2 * (INR n - 1) - INR k))) (n / 2) 0), Rplus_0_l.
  assert (E : ampc h w = total (n / 2) (fun k => nth k h 0 * 2 * cos (w * (1 / 2 * (INR n - 1) - INR k))) + (if Nat.odd n then nth (n / 2) h 0 else 0)).
  { unfold ampc. fold n. rewrite total_half. f_equal.
    - apply total_ext. intros k Hk. assert (k < n)%nat by (pose proof (Nat.div_lt_upper_bound n 2 (S n)); pose proof (Nat.div_le_upper_bound n 2 n); lia).
      unfold n. rewrite (Hs k) by assumption. rewrite (mid_rev h k) by assumption. rewrite Ropp_mult_distr_r_reverse, cos_neg. unfold middle. fold n.
      replace (1 / 2 * (INR n - 1)) with ((INR n - 1) / 2) by field. ring.
    - destruct (Nat.odd n) eqn:O; [|reflexivity]. unfold n. rewrite (mid_odd h O). rewrite Rmult_0_r, cos_0. ring. }
  destruct (Nat.even n) eqn:Ev.
  - assert (O : Nat.odd n = false) by (rewrite <- Nat.negb_even, Ev; reflexivity). rewrite O in E. rewrite E, Rplus_0_r. reflexivity.
  - assert (O : Nat.odd n = true) by (rewrite <- Nat.negb_even, Ev; reflexivity). rewrite O in E. cbn [Nat.eqb].
    assert (n / 2 < n)%nat by (apply Nat.odd_spec in O; destruct O as [q O]; apply Nat.div_lt; lia). rewrite (vget_ok h (n / 2) 0) by assumption. cbn [bind]. rewrite E. reflexivity.
Qed.
Lemma impl_anti h w : antisymmetric h -> rifamp_impl h w (if Nat.even (length h) then 4 else 3) = Ok (amps h w).
Proof.
  intros Hs. unfold rifamp_impl.
  replace (((if Nat.even (length h) then 4 else 3) =? 1) || ((if Nat.even (length h) then 4 else 3) =? 2))%nat%bool with false by (destruct (Nat.even (length h)); reflexivity).
  replace ((if Nat.even (length h) then 4 else 3) =? 1)%nat with false by (destruct (Nat.even (length h)); reflexivity).
  set (n := length h) in *. rewrite (fold_total (fun k => nth k h 0 * 2 * sin (w * (1 / 2 * (INR n - 1) - INR k))) (n / 2) 0), Rplus_0_l. f_equal.
  unfold amps. fold n. rewrite (total_half n). replace (if Nat.odd n then nth (n / 2) h 0 * sin (w * (middle h - INR (n / 2))) else 0) with 0.
  2:{ destruct (Nat.odd n) eqn:O; [|reflexivity]. unfold n. rewrite (mid_odd h O). rewrite Rmult_0_r, sin_0. ring. }
  rewrite Rplus_0_r. apply total_ext. intros k Hk. assert (k < n)%nat by (pose proof (Nat.div_le_upper_bound n 2 n); lia).
  unfold n. rewrite (Hs k) by assumption. rewrite (mid_rev h k) by assumption. rewrite Ropp_mult_distr_r_reverse, sin_neg. unfold middle. fold n.
  replace (1 / 2 * (INR n - 1)) with ((INR n - 1) / 2) by field. ring.
Qed.
Lemma sym_zero h w : symmetric h -> amps h w = 0.
Proof.
  intros Hs. assert (E : amps h w = - amps h w); [|lra]. unfold amps at 1. rewrite <- total_rev. unfold amps. rewrite <- total_opp. apply total_ext. intros k Hk.
  rewrite (Hs k Hk), (mid_rev h k Hk). rewrite Ropp_mult_distr_r_reverse, sin_neg. ring.
Qed.
Lemma anti_zero h w : antisymmetric h -> ampc h w = 0.
Proof.
  intros Hs. assert (E : ampc h w = - ampc h w); [|lra]. unfold ampc at 1. rewrite <- total_rev. unfold ampc. rewrite <- total_opp. apply total_ext. intros k Hk.
  rewrite (Hs k Hk), (mid_rev h k Hk). rewrite Ropp_mult_distr_r_reverse, cos_neg. ring.
Qed.
Lemma response_ok h f : response h f = Cmul (ampc h (2 * PI * f), amps h (2 * PI * f)) (delay_phase (2 * PI * f * middle h)).
Proof.
  set (w := 2 * PI * f). unfold response, Cmul, delay_phase. cbn [fst snd]. fold w. set (t := w * middle h).
  assert (D : forall k, w * (middle h - INR k) = t - w * INR k) by (intros k; unfold t; ring).
  assert (TA : forall n u v, total n (fun k => u k + v k) = total n u + total n v) by (clear; intros m u v; induction m as [|m IH]; cbn [total]; [ring|rewrite IH; ring]).
  f_equal.
  - unfold ampc, amps. transitivity (cos t * total (length h) (fun k => nth k h 0 * cos (w * (middle h - INR k))) + sin t * total (length h) (fun k => nth k h 0 * sin (w * (middle h - INR k)))); [|ring].
    rewrite <- !total_scal, <- TA. apply total_ext. intros k _. rewrite D. replace (w * INR k) with (t - (t - w * INR k)) at 1 by ring. rewrite (cos_minus t). ring.
  - unfold ampc, amps. transitivity ((- sin t) * total (length h) (fun k => nth k h 0 * cos (w * (middle h - INR k))) + cos t * total (length h) (fun k => nth k h 0 * sin (w * (middle h - INR k)))); [|ring].
    rewrite <- !total_scal, <- TA, <- total_opp. apply total_ext. intros k _. rewrite D. replace (w * INR k) with (t - (t - w * INR k)) at 1 by ring. rewrite (sin_minus t). ring.
Qed.
Lemma response_sym h f : symmetric h -> has_amplitude h f (amp h f).
Proof. intros H. unfold has_amplitude. rewrite response_ok, (sym_zero h _ H). reflexivity. Qed.
Lemma response_anti h f : antisymmetric h -> has_amplitude_i h f (amps h (2 * PI * f)).
Proof. intros H. unfold has_amplitude_i. rewrite response_ok, (anti_zero h _ H). reflexivity. Qed.

(** ** Types *)
Lemma riftype_sym h : (0 < length h)%nat -> symmetric h -> riftype h = Ok (if Nat.even (length h) then 2 else 1)%nat.
Proof.
  intros Hn Hs. unfold riftype. rewrite (vget_ok h 0 0) by exact Hn. cbn [bind].
  rewrite (vgetZ_ok h _ 0) by lia. cbn [bind]. replace (Z.to_nat (Z.of_nat (length h) - 1)) with (length h - 1 - 0)%nat by lia. rewrite (Hs 0%nat Hn).
  destruct (Req_EM_T (nth 0 h 0) (nth 0 h 0)); [reflexivity|contradiction].
Qed.
Lemma riftype_anti h : (0 < length h)%nat -> antisymmetric h -> nth 0 h 0 <> 0 -> riftype h = Ok (if Nat.even (length h) then 4 else 3)%nat.
Proof.
  intros Hn Hs H0. unfold riftype. rewrite (vget_ok h 0 0) by exact Hn. cbn [bind].
  rewrite (vgetZ_ok h _ 0) by lia. cbn [bind]. replace (Z.to_nat (Z.of_nat (length h) - 1)) with (length h - 1 - 0)%nat by lia. rewrite (Hs 0%nat Hn).
  destruct (Req_EM_T (nth 0 h 0) (- nth 0 h 0)); [lra|reflexivity].
Qed.
Lemma mapr_ok {A B} (f : A -> res B) (g : A -> B) l : (forall a, In a l -> f a = Ok (g a)) -> mapr f l = Ok (map g l).
Proof. induction l as [|a l IH]; intros H; [reflexivity|]. cbn [mapr map]. rewrite H by (left; reflexivity). cbn [bind]. rewrite IH by (intros b Hb; apply H; right; exact Hb). reflexivity. Qed.
Lemma linspace_grid L : linspace (K := Rfield) 0 (1 / 2 - (1 / 2) / INR L) L = map (fun i => INR i / (2 * INR L)) (seq 0 L).
Proof.
  destruct (linspace_spec (K := Rfield) 0 (1 / 2 - (1 / 2) / INR L) L) as (A & B & C0).
  apply (list_ext 0); [rewrite map_length, seq_length; exact A|]. intros i Hi. assert (Hi' : (i < L)%nat) by (rewrite <- A; exact Hi). clear Hi. rename Hi' into Hi.
  rewrite (Fourier_Proofs.map_nth0 (fun i => INR i / (2 * INR L)) (seq 0 L) i 0%nat) by (rewrite seq_length; exact Hi). rewrite seq_nth, Nat.add_0_l by exact Hi.
  destruct (Nat.eq_dec L 1) as [->|H1].
  - rewrite C0 by reflexivity. replace i with 0%nat by lia. cbn [nth]. cbn. field.
  - etransitivity; [exact (B i Hi ltac:(lia))|]. cbn. rewrite !cnat_R. rewrite minus_INR by lia. change (INR 1) with 1. assert (1 < INR L) by (change 1 with (INR 1); apply lt_INR; lia). field. split; lra.
Qed.
