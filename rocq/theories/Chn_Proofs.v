From Coq Require Import List Arith ZArith Lia Bool Reals Lra.
From Verif Require Import Base BaseLemmas ComplexSys Sig_Model Sig_Spec Sig_Proofs Filters_Proofs Kal_Spec Chn_Model Chn_Spec.
Import ListNotations.
Local Open Scope R_scope.

(** ** Lists *)
Lemma map2_length {A B D} (f : A -> B -> D) a b : length (map2 f a b) = Nat.min (length a) (length b).
Proof. unfold map2. rewrite map_length. apply combine_length. Qed.

Lemma map2_nth {A B D} (f : A -> B -> D) da db dd : forall a b k, (k < length a)%nat -> (k < length b)%nat ->
  nth k (map2 f a b) dd = f (nth k a da) (nth k b db).
Proof.
  induction a as [|x a IH]; intros [|y b] [|k] Ha Hb; cbn in *; try lia; [reflexivity|].
  apply (IH b k); lia.
Qed.

Lemma map2_app {A B D} (f : A -> B -> D) : forall a b a' b', length a = length b ->
  map2 f (a ++ a') (b ++ b') = map2 f a b ++ map2 f a' b'.
Proof.
  unfold map2. induction a as [|x a IH]; intros [|y b] a' b' H; cbn in *; try discriminate; [reflexivity|].
  f_equal. apply IH. lia.
Qed.

Lemma rsumf_total : forall (l : list R), rsumf l = total (length l) (fun k => nth k l 0).
Proof.
  assert (A : forall n f, total (S n) f = f 0%nat + total n (fun k => f (S k))).
  { induction n as [|n IH]; intros f; [cbn; ring|]. cbn [total] in *. rewrite IH. ring. }
  induction l as [|x l IH]; [reflexivity|]. cbn [length]. rewrite A. cbn [nth rsumf fold_right].
  fold (rsumf l). rewrite IH. reflexivity.
Qed.

Lemma total_ext n f g : (forall k, (k < n)%nat -> f k = g k) -> total n f = total n g.
Proof. intros H. induction n as [|n IH]; [reflexivity|]. cbn. rewrite IH, H by (intros; auto). reflexivity. Qed.

Lemma total_scal n a f : total n (fun k => a * f k) = a * total n f.
Proof. induction n as [|n IH]; cbn; [ring|]. rewrite IH. ring. Qed.
Lemma total_const n a : total n (fun _ => a) = INR n * a.
Proof. induction n as [|n IH]; [cbn; ring|]. cbn [total]. rewrite IH, S_INR. ring. Qed.
Lemma total_pos n f : (forall k, (k < n)%nat -> 0 <= f k) -> 0 <= total n f.
Proof.
  intros H. induction n as [|n IH]; [cbn; lra|]. cbn [total].
  assert (0 <= f n) by (apply H; lia). assert (0 <= total n f) by (apply IH; intros; apply H; lia). lra.
Qed.

Lemma mean2_power x : mean2 x = power x.
Proof.
  unfold mean2, power, mean. rewrite rsumf_total, map_length. f_equal. apply total_ext. intros k Hk.
  erewrite nth_indep by (rewrite map_length; exact Hk). apply map_nth.
Qed.

Lemma Cnorm2_pos z : 0 <= Cnorm2 z.
Proof. unfold Cnorm2. nra. Qed.

Lemma power_pos x : 0 <= power x.
Proof.
  unfold power, mean. destruct x as [|z x]; [cbn; unfold Rdiv; rewrite Rmult_0_l; lra|].
  apply Rmult_le_pos; [apply total_pos; intros; apply Cnorm2_pos|]. left. apply Rinv_0_lt_compat.
  apply lt_0_INR. cbn; lia.
Qed.

(** ** Noise level *)
Lemma Rpower_pos a b : 0 < Rpower a b.
Proof. unfold Rpower. apply exp_pos. Qed.

Lemma sigma_ok c x : 0 < ec_fe c -> 0 < ec_fbit c ->
  0 <= ecp_sigma c x /\
  2 * (ecp_sigma c x * ecp_sigma c x) * Rpower 10 (ec_ebn0 c / 10) = power x * (ec_fe c / ec_fbit c).
Proof.
  intros H1 H2. unfold ecp_sigma. rewrite mean2_power.
  pose proof (power_pos x) as P. pose proof (Rpower_pos 10 (ec_ebn0 c / 10)) as Q.
  set (q := Rpower 10 (ec_ebn0 c / 10)) in *.
  assert (F : 0 < ec_fe c / ec_fbit c) by (apply Rdiv_lt_0_compat; assumption).
  assert (G : 0 <= 0.5 * (ec_fe c / ec_fbit c) / q).
  { apply Rmult_le_pos; [lra|]. left; apply Rinv_0_lt_compat; exact Q. }
  split; [apply Rmult_le_pos; apply sqrt_pos|].
  set (a := sqrt (power x)). set (b := sqrt (0.5 * (ec_fe c / ec_fbit c) / q)).
  replace (2 * (a * b * (a * b)) * q) with (2 * (a * a) * (b * b) * q) by ring.
  unfold a, b. rewrite !sqrt_sqrt by assumption. replace 0.5 with (/ 2) by lra. field. split; lra.
Qed.

(** ** Emulator *)
Lemma tone_nth t f n k : (k < n)%nat -> nth k (tone t f n) (0, 0) = unit_at (t + 2 * PI * f * INR k).
Proof. intros H. unfold tone. rewrite (nth_map_seq (X := (R * R)%type)) by exact H. reflexivity. Qed.

Definition used_delay (c : ecp_cfg) (i : ecp_in) : nat :=
  Z.to_nat (if (ec_delay c <? 0)%Z then ei_r i else ec_delay c).

Definition delay_ok (c : ecp_cfg) (i : ecp_in) : Prop :=
  ((ec_delay c < 0)%Z -> (0 <= ei_r i)%Z) /\ (used_delay c i <= length (ei_x i))%nat.

Lemma ecp_step_ok c t i : delay_ok c i ->
  exists y, ecp_step c (unit_at t, unit_at (2 * PI * (ec_df c / ec_fe c))) i
    = Ok ((unit_at (t + 2 * PI * (ec_df c / ec_fe c) * INR (length (ei_x i))), unit_at (2 * PI * (ec_df c / ec_fe c))), y)
  /\ length y = (length (ei_x i) - used_delay c i)%nat
  /\ forall k, (k < length (ei_x i) - used_delay c i)%nat ->
       smp y k = Cadd (Cmul (smp (ei_x i) (used_delay c i + k))
                            (unit_at (t + 2 * PI * (ec_df c / ec_fe c) * INR (used_delay c i + k) + ec_phase c)))
                      (ecp_sigma c (ei_x i) * ei_wr i (used_delay c i + k)%nat,
                       ecp_sigma c (ei_x i) * ei_wi i (used_delay c i + k)%nat).
Proof.
  intros [Hr Hd]. unfold ecp_step. rewrite ohc_step_ok.
  set (f := ec_df c / ec_fe c) in *. set (n := length (ei_x i)) in *.
  set (sg := ecp_sigma c (ei_x i)).
  set (y0 := map (fun z => Cmul z (cos (ec_phase c), sin (ec_phase c))) (map2 Cmul (ei_x i) (tone t f n))).
  assert (Lt : @length C (tone t f n) = n) by (unfold tone; rewrite map_length, seq_length; reflexivity).
  assert (L0 : length y0 = n).
  { unfold y0. rewrite map_length, map2_length, Lt. fold n. apply Nat.min_id. }
  set (y := awgn y0 sg (ei_wr i) (ei_wi i)).
  assert (Ly : length y = n) by (unfold y, awgn; rewrite map_length, seq_length; exact L0).
  assert (Vy : forall k, (k < n)%nat -> nth k y (0, 0)
    = Cadd (Cmul (smp (ei_x i) k) (unit_at (t + 2 * PI * f * INR k + ec_phase c))) (sg * ei_wr i k, sg * ei_wi i k)).
  { intros k Hk. unfold y, awgn. rewrite L0, (nth_map_seq (X := C)) by exact Hk.
    assert (V0 : nth k y0 (0, 0) = Cmul (smp (ei_x i) k) (unit_at (t + 2 * PI * f * INR k + ec_phase c))).
    { unfold y0.
      assert (Lm : (k < length (map2 Cmul (ei_x i) (tone t f n)))%nat) by (rewrite map2_length, Lt; fold n; lia).
      erewrite nth_indep by (rewrite map_length; exact Lm).
      rewrite (map_nth (fun z => Cmul z (cos (ec_phase c), sin (ec_phase c))) _ (0, 0)).
      rewrite (map2_nth Cmul (0, 0) (0, 0)) by (rewrite ?Lt; assumption).
      rewrite tone_nth by exact Hk. fold (smp (ei_x i) k).
      rewrite <- (unit_mul (t + 2 * PI * f * INR k) (ec_phase c)). unfold smp.
      apply C_ext; cbn; ring. }
    rewrite V0. reflexivity. }
  unfold used_delay in *. set (d := if (ec_delay c <? 0)%Z then ei_r i else ec_delay c) in *.
  assert (D0 : (0 <= d)%Z).
  { unfold d. destruct (ec_delay c <? 0)%Z eqn:E; [apply Hr, Z.ltb_lt, E|apply Z.ltb_ge, E]. }
  cbv zeta. fold y0. fold y. change sg with (ecp_sigma c (ei_x i)) in *.
  destruct (0 <? d)%Z eqn:E.
  - apply Z.ltb_lt in E. replace (d <=? Z.of_nat n)%Z with true by (symmetry; apply Z.leb_le; lia).
    exists (skipn (Z.to_nat d) y). split; [reflexivity|]. split; [rewrite skipn_length, Ly; reflexivity|].
    intros k Hk. unfold smp at 1. rewrite nth_skipn'. apply Vy. lia.
  - apply Z.ltb_ge in E. assert (Z : Z.to_nat d = 0%nat) by lia. rewrite Z in *. exists y. split; [reflexivity|].
    split; [lia|]. intros k Hk. rewrite Nat.add_0_l. apply Vy. lia.
Qed.

(** Total length of the first blocks. *)
Definition offset (l : list ecp_in) (b : nat) : nat := list_sum (map (fun i => length (ei_x i)) (firstn b l)).

Lemma ecp_run_ok c l : forall t, Forall (delay_ok c) l ->
  exists ys, map_st (ecp_step c) (unit_at t, unit_at (2 * PI * (ec_df c / ec_fe c))) l
    = Ok ((unit_at (t + 2 * PI * (ec_df c / ec_fe c) * INR (list_sum (map (fun i => length (ei_x i)) l))),
           unit_at (2 * PI * (ec_df c / ec_fe c))), ys)
  /\ length ys = length l
  /\ forall b i, nth_error l b = Some i ->
     length (nth b ys []) = (length (ei_x i) - used_delay c i)%nat /\
     forall k, (k < length (ei_x i) - used_delay c i)%nat ->
       smp (nth b ys []) k
       = Cadd (Cmul (smp (ei_x i) (used_delay c i + k))
                    (unit_at (t + 2 * PI * (ec_df c / ec_fe c) * INR (offset l b + (used_delay c i + k)) + ec_phase c)))
              (ecp_sigma c (ei_x i) * ei_wr i (used_delay c i + k)%nat,
               ecp_sigma c (ei_x i) * ei_wi i (used_delay c i + k)%nat).
Proof.
  induction l as [|i l IH]; intros t F.
  - exists []. cbn. replace (t + 2 * PI * (ec_df c / ec_fe c) * 0) with t by ring. split; [reflexivity|].
    split; [reflexivity|]. intros [|b] i H; discriminate H.
  - inversion F as [|? ? Hi F']; subst. destruct (ecp_step_ok c t i Hi) as (y & E & L & V).
    cbn [map_st]. rewrite E. cbn [bind].
    destruct (IH (t + 2 * PI * (ec_df c / ec_fe c) * INR (length (ei_x i))) F') as (ys & E' & L' & V').
    rewrite E'. cbn [bind]. exists (y :: ys). split; [|split].
    + do 3 f_equal. f_equal. cbn [map list_sum fold_right]. fold (list_sum (map (fun i => length (ei_x i)) l)).
      rewrite plus_INR. ring.
    + cbn. rewrite L'. reflexivity.
    + intros [|b] j H.
      * cbn in H. inversion H; subst j. cbn [nth]. split; [exact L|]. intros k Hk. rewrite V by exact Hk. reflexivity.
      * cbn in H. cbn [nth]. destruct (V' b j H) as [L2 V2]. split; [exact L2|]. intros k Hk.
        rewrite V2 by exact Hk. unfold offset. cbn [firstn map list_sum fold_right].
        fold (list_sum (map (fun i => length (ei_x i)) (firstn b l))). f_equal. f_equal.
        f_equal. rewrite !plus_INR. ring.
Qed.
