(** C82: channel simulators (propagation channel emulator, white noise, dispersive channel). *)
From Coq Require Import List Arith ZArith Lia Bool Reals Lra.
From Coquelicot Require Import Coquelicot.
From Verif Require Import Base BaseLemmas ComplexSys Sig_Model Sig_Spec Sig_Proofs Filters_Proofs Kal_Spec Chn_Model Chn_Spec
  Chn_Proofs Chn_Proofs2.
Import ListNotations.
Local Open Scope R_scope.

(** The delay applied to a block is the configured one, or the drawn one when the configured one is negative. *)
Definition delay_of (c : ecp_cfg) (i : ecp_in) : nat :=
  Z.to_nat (if (ec_delay c <? 0)%Z then ei_r i else ec_delay c).
Definition block_ok (c : ecp_cfg) (i : ecp_in) : Prop :=
  ((ec_delay c < 0)%Z -> (0 <= ei_r i)%Z) /\ (delay_of c i <= length (ei_x i))%nat.

(** Channel emulator: for every sequence of blocks not shorter than the delay, each output block is the input block
    rotated by the frequency and phase offsets, the phase running on from block to block, plus noise of standard
    deviation s on both components, minus its first samples; and 2 s^2 = P (fe / fbit) / 10^(Eb_N0 / 10), P being the
    power of the block. *)
Theorem C82_emulator :
  forall c l, 0 < ec_fe c -> 0 < ec_fbit c -> Forall (block_ok c) l ->
  exists s ys, ecp_run c l = Ok (s, ys) /\ length ys = length l /\
    forall b i, nth_error l b = Some i ->
      length (nth b ys []) = (length (ei_x i) - delay_of c i)%nat /\
      exists sigma, 0 <= sigma /\
        2 * (sigma * sigma) * Rpower 10 (ec_ebn0 c / 10) = power (ei_x i) * (ec_fe c / ec_fbit c) /\
        forall k, (k < length (ei_x i) - delay_of c i)%nat ->
          smp (nth b ys []) k
          = Cadd (rotated (ec_df c / ec_fe c) (ec_phase c)
                    (list_sum (map (fun j => length (ei_x j)) (firstn b l)) + (delay_of c i + k))
                    (smp (ei_x i) (delay_of c i + k)))
                 (sigma * ei_wr i (delay_of c i + k)%nat, sigma * ei_wi i (delay_of c i + k)%nat).
Proof.
  intros c l H1 H2 F. unfold ecp_run, ecp_init, ohc_new, ohc_conf. rewrite unit_0.
  change (cos (2 * PI * (ec_df c / ec_fe c)), sin (2 * PI * (ec_df c / ec_fe c)))
    with (unit_at (2 * PI * (ec_df c / ec_fe c))).
  destruct (ecp_run_ok c l 0 F) as (ys & E & L & V).
  eexists; exists ys. split; [exact E|]. split; [exact L|]. intros b i Hb. destruct (V b i Hb) as [Lb Vb].
  split; [exact Lb|]. destruct (sigma_ok c (ei_x i) H1 H2) as [P Q].
  exists (ecp_sigma c (ei_x i)). split; [exact P|]. split; [exact Q|].
  intros k Hk. rewrite Vb by exact Hk. unfold rotated, offset, used_delay. fold (delay_of c i).
  rewrite Rplus_0_l. reflexivity.
Qed.
Print Assumptions C82_emulator.

(** Without noise and without delay, the output does not depend on the way the signal is cut into blocks. *)
Theorem C82_emulator_stream :
  forall c l, 0 < ec_fe c -> 0 < ec_fbit c -> ec_delay c = 0%Z ->
  (forall i, In i l -> forall k, ei_wr i k = 0 /\ ei_wi i k = 0) ->
  exists s ys, ecp_run c l = Ok (s, ys) /\
    let x := concat (map ei_x l) in
    length (concat ys) = length x /\
    forall k, (k < length x)%nat ->
      smp (concat ys) k = rotated (ec_df c / ec_fe c) (ec_phase c) k (smp x k).
Proof.
  intros c l H1 H2 Hd Hw.
  unfold ecp_run, ecp_init, ohc_new, ohc_conf. rewrite unit_0.
  change (cos (2 * PI * (ec_df c / ec_fe c)), sin (2 * PI * (ec_df c / ec_fe c)))
    with (unit_at (2 * PI * (ec_df c / ec_fe c))).
  assert (G : forall t, exists s ys, map_st (ecp_step c) (unit_at t, unit_at (2 * PI * (ec_df c / ec_fe c))) l = Ok (s, ys) /\
    length (concat ys) = length (concat (map ei_x l)) /\
    forall k, (k < length (concat (map ei_x l)))%nat ->
      smp (concat ys) k = Cmul (smp (concat (map ei_x l)) k)
        (unit_at (t + 2 * PI * (ec_df c / ec_fe c) * INR k + ec_phase c))).
  { induction l as [|i l IH]; intros t.
    - eexists; exists []. split; [reflexivity|]. split; [reflexivity|]. intros k Hk; cbn in Hk; lia.
    - assert (U : used_delay c i = 0%nat) by (unfold used_delay; rewrite Hd; reflexivity).
      destruct (ecp_step_ok c t i) as (y & E & L & V).
      { split; [rewrite Hd; lia|rewrite U; lia]. }
      rewrite U, Nat.sub_0_r in L, V.
      destruct (IH ltac:(intros j Hj; apply Hw; right; exact Hj)
                  (t + 2 * PI * (ec_df c / ec_fe c) * INR (length (ei_x i)))) as (s & ys & E' & L' & V').
      cbn [map_st]. rewrite E. cbn [bind]. rewrite E'. cbn [bind]. exists s, (y :: ys). split; [reflexivity|].
      cbn [map concat]. rewrite !app_length, L, L'. split; [reflexivity|].
      intros k Hk. unfold smp. destruct (Nat.lt_ge_cases k (length (ei_x i))) as [K|K].
      + rewrite !app_nth1 by (rewrite ?L; exact K). fold (smp y k). rewrite V by exact K.
        destruct (Hw i ltac:(left; reflexivity) (0 + k)%nat) as [W1 W2]. rewrite W1, W2, Nat.add_0_l.
        unfold smp. apply C_ext; cbn; ring.
      + rewrite !app_nth2 by (rewrite ?L; exact K). rewrite L. fold (smp (concat ys) (k - length (ei_x i))).
        rewrite V' by lia. unfold smp. f_equal. f_equal. rewrite minus_INR by exact K. ring. }
  destruct (G 0) as (s & ys & E & L & V). exists s, ys. split; [exact E|]. cbv zeta. split; [exact L|].
  intros k Hk. rewrite V by exact Hk. unfold rotated. rewrite Rplus_0_l. reflexivity.
Qed.
Print Assumptions C82_emulator_stream.

Lemma E_ext {Om} (E : (Om -> R) -> R) f g : (forall o, f o = g o) -> E f = E g.
Proof. intros H. f_equal. apply FunctionalExtensionality.functional_extensionality, H. Qed.

Lemma E_total {Om} (E : (Om -> R) -> R) (HE : expectation E) n (f : nat -> Om -> R) :
  E (fun o => total n (fun k => f k o)) = total n (fun k => E (f k)).
Proof.
  induction n as [|n IH]; cbn [total].
  - transitivity (0 * E (fun _ => 1)); [|ring]. rewrite <- (E_scal E HE). apply E_ext. intros; ring.
  - rewrite (E_add E HE), IH. reflexivity.
Qed.

(** Ratio Eb/N0: after any blocks, the expected power of the noise added to the next block is such that
    (P / fbit) / (noise power / fe) is the requested ratio 10^(Eb_N0 / 10). *)
Theorem C82_emulator_ebn0 :
  forall (Om : Type) (E : (Om -> R) -> R) c pre (x : list ComplexSys.C) (wr wi : nat -> Om -> R) r,
  expectation E -> 0 < ec_fe c -> 0 < ec_fbit c -> ec_delay c = 0%Z -> Forall (block_ok c) pre -> x <> [] ->
  (forall k, (k < length x)%nat -> E (fun o => wr k o * wr k o) = 1 /\ E (fun o => wi k o * wi k o) = 1) ->
  exists out : Om -> list ComplexSys.C,
    (forall o, exists s ys, ecp_run c (pre ++ [EcpIn x (fun k => wr k o) (fun k => wi k o) r]) = Ok (s, ys ++ [out o])
               /\ length ys = length pre) /\
    let k0 := list_sum (map (fun j => length (ei_x j)) pre) in
    let clean k := rotated (ec_df c / ec_fe c) (ec_phase c) (k0 + k) (smp x k) in
    (power x / ec_fbit c)
    = Rpower 10 (ec_ebn0 c / 10)
      * (E (fun o => mean (length x) (fun k => Cnorm2 (Csub (smp (out o) k) (clean k)))) / ec_fe c).
Proof.
  intros Om E c pre x wr wi r HE H1 H2 Hd F Hx Hw.
  unfold ecp_run, ecp_init, ohc_new, ohc_conf. rewrite unit_0.
  change (cos (2 * PI * (ec_df c / ec_fe c)), sin (2 * PI * (ec_df c / ec_fe c)))
    with (unit_at (2 * PI * (ec_df c / ec_fe c))).
  destruct (ecp_run_ok c pre 0 F) as (ys & Ep & Lp & _).
  set (k0 := list_sum (map (fun j => length (ei_x j)) pre)) in *.
  set (f := ec_df c / ec_fe c) in *. set (t := 0 + 2 * PI * f * INR k0) in *.
  set (inp := fun o => EcpIn x (fun k => wr k o) (fun k => wi k o) r).
  assert (U : forall o, used_delay c (inp o) = 0%nat) by (intros; unfold used_delay; rewrite Hd; reflexivity).
  set (out := fun o => match ecp_step c (unit_at t, unit_at (2 * PI * f)) (inp o) with Ok (_, y) => y | _ => [] end).
  assert (St : forall o, exists s, ecp_step c (unit_at t, unit_at (2 * PI * f)) (inp o) = Ok (s, out o) /\
    length (out o) = length x /\
    forall k, (k < length x)%nat -> smp (out o) k
      = Cadd (Cmul (smp x k) (unit_at (t + 2 * PI * f * INR k + ec_phase c)))
             (ecp_sigma c x * wr k o, ecp_sigma c x * wi k o)).
  { intros o. destruct (ecp_step_ok c t (inp o)) as (y & Es & L & V).
    { split; [rewrite Hd; lia|rewrite U; lia]. }
    rewrite U, Nat.sub_0_r in L, V. cbn [inp ei_x ei_wr ei_wi] in L, V. fold f in Es.
    assert (O : out o = y) by (unfold out; rewrite Es; reflexivity).
    eexists. rewrite O. split; [exact Es|]. split; [exact L|]. intros k Hk. exact (V k Hk). }
  exists out. split.
  - intros o. destruct (St o) as (s & Es & _). exists s, ys. split; [|exact Lp].
    rewrite map_st_app, Ep. cbn [bind map_st]. unfold inp in Es. rewrite Es. cbn [bind]. reflexivity.
  - cbv zeta.
    assert (N : E (fun o => mean (length x) (fun k => Cnorm2 (Csub (smp (out o) k)
        (rotated f (ec_phase c) (k0 + k) (smp x k))))) = 2 * (ecp_sigma c x * ecp_sigma c x)).
    { set (sg := ecp_sigma c x) in *.
      transitivity (E (fun o => / INR (length x) * total (length x) (fun k => sg * sg * (wr k o * wr k o + wi k o * wi k o)))).
      { apply E_ext. intros o. destruct (St o) as (s & _ & L & V). unfold mean, Rdiv. rewrite Rmult_comm. f_equal.
        apply total_ext. intros k Hk. rewrite V by exact Hk. unfold rotated.
        replace (t + 2 * PI * f * INR k + ec_phase c) with (2 * PI * f * INR (k0 + k) + ec_phase c)
          by (unfold t; rewrite plus_INR; ring).
        set (z := Cmul (smp x k) (unit_at (2 * PI * f * INR (k0 + k) + ec_phase c))).
        destruct z as [a b]. unfold Cnorm2, Csub, Cadd; cbn. ring. }
      rewrite (E_scal E HE), (E_total E HE _ (fun k o => sg * sg * (wr k o * wr k o + wi k o * wi k o))).
      rewrite (total_ext _ _ (fun _ => 2 * (sg * sg))).
      - rewrite total_const. assert (0 < INR (length x)).
        { apply lt_0_INR. destruct x; [congruence|cbn; lia]. }
        field. lra.
      - intros k Hk. destruct (Hw k Hk) as [W1 W2].
        rewrite (E_scal E HE), (E_add E HE), W1, W2. ring. }
    rewrite N. destruct (sigma_ok c x H1 H2) as [_ Q].
    apply (Rmult_eq_reg_r (ec_fe c)); [|lra].
    replace (Rpower 10 (ec_ebn0 c / 10) * (2 * (ecp_sigma c x * ecp_sigma c x) / ec_fe c) * ec_fe c)
      with (2 * (ecp_sigma c x * ecp_sigma c x) * Rpower 10 (ec_ebn0 c / 10)) by (field; lra).
    rewrite Q. field. lra.
Qed.
Print Assumptions C82_emulator_ebn0.

(** Finding: the clock delay is applied again to each block: cutting a signal in two loses the delay twice. *)
Theorem C82_emulator_delay_refuted :
  forall c x1 x2 wr wi, 0 < ec_fe c -> 0 < ec_fbit c -> (0 < ec_delay c)%Z ->
  (Z.to_nat (ec_delay c) <= length x1)%nat -> (Z.to_nat (ec_delay c) <= length x2)%nat ->
  exists s y s' y1 y2,
    ecp_run c [EcpIn (x1 ++ x2) wr wi 0] = Ok (s, [y]) /\
    ecp_run c [EcpIn x1 wr wi 0; EcpIn x2 wr wi 0] = Ok (s', [y1; y2]) /\
    length (y1 ++ y2) = (length y - Z.to_nat (ec_delay c))%nat /\ (length (y1 ++ y2) < length y)%nat.
Proof.
  intros c x1 x2 wr wi H1 H2 Hd L1 L2.
  assert (U : forall i, delay_of c i = Z.to_nat (ec_delay c)).
  { intros i. unfold delay_of. destruct (ec_delay c <? 0)%Z eqn:E; [apply Z.ltb_lt in E; lia|reflexivity]. }
  destruct (C82_emulator c [EcpIn (x1 ++ x2) wr wi 0] H1 H2) as (s & ys & E & L & V).
  { constructor; [|constructor]. split; [lia|]. rewrite U. cbn [ei_x]. rewrite app_length. lia. }
  destruct (C82_emulator c [EcpIn x1 wr wi 0; EcpIn x2 wr wi 0] H1 H2) as (s' & ys' & E' & L' & V').
  { constructor; [|constructor; [|constructor]]; (split; [lia|]); rewrite U; assumption. }
  destruct ys as [|y [|]]; try discriminate L. destruct ys' as [|y1 [|y2 [|]]]; try discriminate L'.
  exists s, y, s', y1, y2. split; [exact E|]. split; [exact E'|].
  destruct (V 0%nat _ eq_refl) as [A _]. destruct (V' 0%nat _ eq_refl) as [A1 _]. destruct (V' 1%nat _ eq_refl) as [A2 _].
  cbn [nth] in A, A1, A2. rewrite U in A, A1, A2. cbn [ei_x] in A, A1, A2. rewrite app_length in A.
  rewrite app_length, A, A1, A2. lia.
Qed.
Print Assumptions C82_emulator_delay_refuted.

(** Finding: the noise level follows the level of each block: no noise at all is added to a silent block. *)
Theorem C82_emulator_silence_refuted :
  forall c pre n wr wi, 0 < ec_fe c -> 0 < ec_fbit c -> ec_delay c = 0%Z -> Forall (block_ok c) pre ->
  exists s ys, ecp_run c (pre ++ [EcpIn (repeat (0, 0) n) wr wi 0]) = Ok (s, ys ++ [repeat (0, 0) n]).
Proof.
  intros c pre n wr wi H1 H2 Hd F.
  unfold ecp_run, ecp_init, ohc_new, ohc_conf. rewrite unit_0.
  change (cos (2 * PI * (ec_df c / ec_fe c)), sin (2 * PI * (ec_df c / ec_fe c)))
    with (unit_at (2 * PI * (ec_df c / ec_fe c))).
  destruct (ecp_run_ok c pre 0 F) as (ys & Ep & Lp & _). rewrite map_st_app, Ep. cbn [bind map_st].
  set (i := EcpIn (repeat (0, 0) n) wr wi 0).
  assert (U : used_delay c i = 0%nat) by (unfold used_delay; rewrite Hd; reflexivity).
  destruct (ecp_step_ok c (0 + 2 * PI * (ec_df c / ec_fe c) * INR (list_sum (map (fun i => length (ei_x i)) pre))) i)
    as (y & Es & L & V).
  { split; [rewrite Hd; lia|rewrite U; lia]. }
  rewrite Es. cbn [bind]. eexists; exists ys. do 4 f_equal.
  rewrite U, Nat.sub_0_r in L, V. unfold i in L, V. cbn [ei_x ei_wr ei_wi] in L, V. rewrite repeat_length in L, V.
  assert (Z : forall k, smp (repeat (0, 0) n) k = (0, 0)).
  { intros k. unfold smp. destruct (Nat.lt_ge_cases k n); [apply nth_repeat|].
    apply nth_overflow. rewrite repeat_length. assumption. }
  assert (S0 : ecp_sigma c (repeat (0, 0) n) = 0).
  { destruct (sigma_ok c (repeat (0, 0) n) H1 H2) as [_ Q].
    assert (P0 : power (repeat (0, 0) n) = 0).
    { unfold power, mean. rewrite (total_ext _ _ (fun _ => 0)).
      - rewrite total_const. unfold Rdiv. ring.
      - intros k _. fold (smp (repeat (0, 0) n) k). rewrite Z. unfold Cnorm2; cbn; ring. }
    rewrite P0, Rmult_0_l in Q. pose proof (Rpower_pos 10 (ec_ebn0 c / 10)).
    destruct (Rmult_integral _ _ Q) as [Q'|Q']; [|lra].
    assert (Q2 : ecp_sigma c (repeat (0, 0) n) * ecp_sigma c (repeat (0, 0) n) = 0) by lra.
    destruct (Rmult_integral _ _ Q2); assumption. }
  f_equal. apply (nth_ext _ _ (0, 0) (0, 0)); [rewrite repeat_length; exact L|].
  intros k Hk. assert (Hk' : (k < n)%nat) by (rewrite <- L; exact Hk).
  change (smp y k = smp (repeat (0, 0) n) k). rewrite V by exact Hk'. rewrite !Z, S0.
  apply C_ext; cbn; ring.
Qed.
Print Assumptions C82_emulator_silence_refuted.

(** White noise: each component is shifted by sigma times its own draw; the expected power added is 2 sigma^2 for
    complex signals and sigma^2 for real ones. *)
Theorem C82_awgn :
  forall (Om : Type) (E : (Om -> R) -> R) (x : list ComplexSys.C) (xr : list R) sigma (wr wi : nat -> Om -> R),
  expectation E -> x <> [] -> length xr = length x ->
  (forall k, (k < length x)%nat -> E (fun o => wr k o * wr k o) = 1 /\ E (fun o => wi k o * wi k o) = 1) ->
  (forall o, length (awgn x sigma (fun k => wr k o) (fun k => wi k o)) = length x) /\
  E (fun o => mean (length x) (fun k => Cnorm2 (Csub (smp (awgn x sigma (fun k => wr k o) (fun k => wi k o)) k) (smp x k))))
    = 2 * (sigma * sigma) /\
  (forall o, length (awgn_real xr sigma (fun k => wr k o)) = length x) /\
  E (fun o => mean (length x) (fun k => (nth k (awgn_real xr sigma (fun k => wr k o)) 0 - nth k xr 0)
                                      * (nth k (awgn_real xr sigma (fun k => wr k o)) 0 - nth k xr 0))) = sigma * sigma.
Proof.
  intros Om E x xr sg wr wi HE Hx Lr Hw.
  assert (Hn : 0 < INR (length x)) by (apply lt_0_INR; destruct x; [congruence|cbn; lia]).
  repeat split.
  - intros o. unfold awgn. rewrite map_length, seq_length. reflexivity.
  - transitivity (E (fun o => / INR (length x) * total (length x) (fun k => sg * sg * (wr k o * wr k o + wi k o * wi k o)))).
    { apply E_ext. intros o. unfold mean, Rdiv. rewrite Rmult_comm. f_equal. apply total_ext. intros k Hk.
      unfold smp, awgn. rewrite (nth_map_seq (X := ComplexSys.C)) by exact Hk.
      destruct (nth k x (0, 0)) as [a b]. unfold Cnorm2, Csub; cbn. ring. }
    rewrite (E_scal E HE), (E_total E HE _ (fun k o => sg * sg * (wr k o * wr k o + wi k o * wi k o))).
    rewrite (total_ext _ _ (fun _ => 2 * (sg * sg))); [rewrite total_const; field; lra|].
    intros k Hk. destruct (Hw k Hk) as [W1 W2]. rewrite (E_scal E HE), (E_add E HE), W1, W2. ring.
  - intros o. unfold awgn_real. rewrite map_length, seq_length. exact Lr.
  - transitivity (E (fun o => / INR (length x) * total (length x) (fun k => sg * sg * (wr k o * wr k o)))).
    { apply E_ext. intros o. unfold mean, Rdiv. rewrite Rmult_comm. f_equal. apply total_ext. intros k Hk.
      unfold awgn_real. rewrite (nth_map_seq (X := R)) by (rewrite Lr; exact Hk). ring. }
    rewrite (E_scal E HE), (E_total E HE _ (fun k o => sg * sg * (wr k o * wr k o))).
    rewrite (total_ext _ _ (fun _ => sg * sg)); [rewrite total_const; field; lra|].
    intros k Hk. destruct (Hw k Hk) as [W1 _]. rewrite (E_scal E HE), W1. ring.
Qed.
Print Assumptions C82_awgn.

(** Dispersive channel: for every source of gains and every sequence of blocks accepted, the output is the product,
    sample by sample, of the input stream and of the stream of gains delivered after the first (discarded) delivery;
    no gain is lost or used twice, whatever the cut into blocks. *)
Theorem C82_dispersive :
  forall (S : Type) (gen : S -> nat -> res (S * list ComplexSys.C)) fd fe nh s0 l s ys,
  cd_run gen fd fe nh s0 l = Ok (s, ys) -> l <> [] ->
  exists s1 g gs s2, gen s0 nh = Ok (s1, g) /\ delivers gen s1 gs s2 /\ length gs = length l /\
    map (@length _) ys = map (@length _) l /\
    (length (concat l) <= length (concat gs))%nat /\
    forall k, (k < length (concat l))%nat ->
      smp (concat ys) k = Cmul (smp (concat l) k) (smp (concat gs) k).
Proof.
  intros S gen fd fe nh s0 l s ys H NE. unfold cd_run in H.
  destruct (cd_run_ok gen fd fe nh l _ _ _ H NE) as (g0 & gs & [g G] & Dl & Lg & L & M & Y & _).
  cbn [cd_gen cd_rest app] in *.
  exists g0, g, gs, (cd_gen s). repeat split; try assumption.
  intros k Hk. unfold smp. rewrite Y. apply map2_nth; [exact Hk|]. lia.
Qed.
Print Assumptions C82_dispersive.

(** Finding: once more gains have been delivered than used, every block shorter than the surplus is rejected. *)
Theorem C82_dispersive_short_block_refuted :
  forall (S : Type) (gen : S -> nat -> res (S * list ComplexSys.C)) fd fe nh s0 l s ys x,
  cd_run gen fd fe nh s0 l = Ok (s, ys) -> (length x < length (cd_rest s))%nat ->
  forall r, cd_run gen fd fe nh s0 (l ++ [x]) <> Ok r.
Proof.
  intros S gen fd fe nh s0 l s ys x H Hx r. unfold cd_run in *. rewrite map_st_app, H. cbn [bind map_st].
  destruct (cd_step gen fd fe nh s x) as [[]| | |] eqn:E; cbn [bind]; try discriminate.
  exfalso. exact (cd_small gen fd fe nh s x Hx _ E).
Qed.
Print Assumptions C82_dispersive_short_block_refuted.

(** In particular with an interpolation ratio of 4 (fe = 16 fd), a signal cannot be processed sample by sample. *)
Definition four (s : unit) (m : nat) : res (unit * list ComplexSys.C) := Ok (tt, repeat (1, 0) (4 * m)).
Example C82_dispersive_sample_by_sample z z' :
  (exists s y, cd_run four 1 16 512 tt [[z]] = Ok (s, [y]) /\ length (cd_rest s) = 3%nat) /\
  forall r, cd_run four 1 16 512 tt [[z]; [z']] <> Ok r.
Proof.
  assert (Cl : Zceil (IZR (Z.of_nat 1 - Z.of_nat 0 + 1) * (4 * 1) / 16) = 1%Z).
  { change (Z.of_nat 1 - Z.of_nat 0 + 1)%Z with 2%Z. unfold Zceil. rewrite (Int_part_spec (-1)); [reflexivity|]. lra. }
  assert (H : exists s y, cd_run four 1 16 512 tt [[z]] = Ok (s, [y]) /\ length (cd_rest s) = 3%nat).
  { unfold cd_run. cbn [map_st]. unfold cd_step. cbn [cd_rest cd_first cd_gen length]. rewrite Cl.
    unfold four at 1. cbn [bind fst]. change (1 <? 0)%Z with false. cbv iota.
    change (Z.to_nat 1) with 1%nat. unfold four. cbn. eexists; eexists; split; reflexivity. }
  split; [exact H|]. destruct H as (s & y & E & L).
  apply (C82_dispersive_short_block_refuted _ four 1 16 512 tt [[z]] s [y] [z'] E). rewrite L. cbn; lia.
Qed.

(** Rayleigh fading: the expected power of the generated samples is 1. *)
Theorem C82_rayleigh :
  forall (Om : Type) (E : (Om -> R) -> R) csqrt K n (wr wi : nat -> Om -> R),
  expectation E -> (0 < n)%nat ->
  (forall k, (k < n)%nat -> E (fun o => wr k o * wr k o) = 1 /\ E (fun o => wi k o * wi k o) = 1) ->
  E (fun o => power (gen_bruit csqrt false K n (fun k => wr k o) (fun k => wi k o))) = 1.
Proof.
  intros Om E csqrt K n wr wi HE Hn Hw. assert (Hn' : 0 < INR n) by (apply lt_0_INR; exact Hn).
  assert (Q : sqrt 2 * sqrt 2 = 2) by (apply sqrt_sqrt; lra).
  assert (Q0 : sqrt 2 <> 0) by (intros Z; rewrite Z in Q; lra).
  transitivity (E (fun o => / INR n * total n (fun k => / 2 * (wr k o * wr k o + wi k o * wi k o)))).
  { apply E_ext. intros o. unfold gen_bruit, randnc, power, mean. rewrite map_length, seq_length.
    unfold Rdiv at 1. rewrite Rmult_comm. f_equal. apply total_ext. intros k Hk.
    rewrite (nth_map_seq (X := ComplexSys.C)) by exact Hk. unfold Cnorm2; cbn [fst snd].
    replace (/ 2) with (/ (sqrt 2 * sqrt 2)) by (rewrite Q; reflexivity). field. exact Q0. }
  rewrite (E_scal E HE), (E_total E HE _ (fun k o => / 2 * (wr k o * wr k o + wi k o * wi k o))).
  rewrite (total_ext _ _ (fun _ => 1)); [rewrite total_const; field; lra|].
  intros k Hk. destruct (Hw k Hk) as [W1 W2]. rewrite (E_scal E HE), (E_add E HE), W1, W2. field.
Qed.
Print Assumptions C82_rayleigh.

(** Rice fading: the samples are divided by the root of the mean of their complex squares, so that the power obtained is
    the power before the division over the modulus of that mean. *)
Theorem C82_rice :
  forall csqrt K n wr wi, (forall z, Cmul (csqrt z) (csqrt z) = z) ->
  let b : list ComplexSys.C := map (fun k => (wr k / sqrt 2 + sqrt K, wi k / sqrt 2)) (seq 0 n) in
  let m := (mean n (fun k => fst (Cmul (smp b k) (smp b k))), mean n (fun k => snd (Cmul (smp b k) (smp b k)))) in
  m <> (0, 0) -> power (gen_bruit csqrt true K n wr wi) = power b / sqrt (Cnorm2 m).
Proof.
  intros csqrt K n wr wi Hs b m Hm.
  assert (B : map (fun z : ComplexSys.C => (fst z + sqrt K, snd z)) (randnc n wr wi) = b)
    by (unfold randnc, b; rewrite map_map; reflexivity).
  set (b1 := map (fun z : ComplexSys.C => (fst z + sqrt K, snd z)) (randnc n wr wi)) in B.
  change (power (map (fun z => Cdiv z (csqrt (cmean (map (fun z => Cmul z z) b1)))) b1) = power b / sqrt (Cnorm2 m)).
  rewrite B.
  assert (Lb : length b = n) by (unfold b; rewrite map_length, seq_length; reflexivity).
  assert (Mm : cmean (map (fun z => Cmul z z) b) = m).
  { unfold cmean, m, mean. rewrite !map_map, map_length, Lb, !rsumf_total, !map_length, Lb. f_equal; f_equal.
    - apply total_ext. intros k Hk. erewrite nth_indep by (rewrite map_length, Lb; exact Hk).
      exact (map_nth (fun z => fst (Cmul z z)) b (0, 0) k).
    - apply total_ext. intros k Hk. erewrite nth_indep by (rewrite map_length, Lb; exact Hk).
      exact (map_nth (fun z => snd (Cmul z z)) b (0, 0) k). }
  rewrite Mm. assert (G : csqrt m <> (0, 0)).
  { intros Z. apply Hm. rewrite <- (Hs m), Z. apply C_ext; cbn; ring. }
  rewrite (power_div b _ G). f_equal. rewrite <- (Hs m) at 2. rewrite Cnorm2_mul. symmetry. apply sqrt_square. apply Cnorm2_pos.
Qed.
Print Assumptions C82_rice.

(** Finding: the power of the Rice gains is not normalised: for K = 1 and the noise samples i/2, -i/2 it is 5/3. *)
Theorem C82_rice_refuted :
  forall csqrt, (forall z, Cmul (csqrt z) (csqrt z) = z) ->
  power (gen_bruit csqrt true 1 2 (fun _ => 0) (fun k => if (k =? 0)%nat then sqrt 2 / 2 else - (sqrt 2 / 2))) = 5 / 3.
Proof.
  intros csqrt Hs. assert (Q : sqrt 2 * sqrt 2 = 2) by (apply sqrt_sqrt; lra).
  assert (Q0 : sqrt 2 <> 0) by (intros Z; rewrite Z in Q; lra).
  assert (W1 : sqrt 2 / 2 / sqrt 2 = / 2) by (field; exact Q0).
  assert (W2 : - (sqrt 2 / 2) / sqrt 2 = - / 2) by (field; exact Q0).
  assert (W0 : 0 / sqrt 2 = 0) by (field; exact Q0).
  pose proof (C82_rice csqrt 1 2 (fun _ => 0) (fun k => if (k =? 0)%nat then sqrt 2 / 2 else - (sqrt 2 / 2)) Hs) as T.
  cbv zeta in T. cbn [seq map Nat.eqb] in T. rewrite W1, W2, W0, sqrt_1 in T.
  assert (M1 : mean 2 (fun k => fst (Cmul (smp [(0 + 1, / 2); (0 + 1, - / 2)] k) (smp [(0 + 1, / 2); (0 + 1, - / 2)] k))) = 3 / 4)
    by (unfold mean, smp, Cmul; cbn; field).
  assert (M2 : mean 2 (fun k => snd (Cmul (smp [(0 + 1, / 2); (0 + 1, - / 2)] k) (smp [(0 + 1, / 2); (0 + 1, - / 2)] k))) = 0)
    by (unfold mean, smp, Cmul; cbn; field).
  rewrite M1, M2 in T. rewrite T by (intros Z; injection Z; lra).
  replace (Cnorm2 (3 / 4, 0)) with (3 / 4 * (3 / 4)) by (unfold Cnorm2; cbn; ring).
  rewrite sqrt_square by lra. unfold power, mean, Cnorm2. cbn. field.
Qed.
Print Assumptions C82_rice_refuted.

(** Doppler distribution: nonnegative, null beyond the maximum Doppler, symmetric around the carrier; the probability of
    a shift smaller than fd sin t is 2 t / pi (incidence angles equally likely), so that the total tends to 1. *)
Theorem C82_doppler :
  forall fd fc, 0 < fd ->
  (forall f, 0 <= doppler_distri f fd fc) /\
  (forall f, fd <= Rabs (f - fc) -> doppler_distri f fd fc = 0) /\
  (forall d, doppler_distri (fc + d) fd fc = doppler_distri (fc - d) fd fc) /\
  (forall t, 0 < t < PI / 2 ->
     is_RInt (fun f => doppler_distri f fd fc) (fc - fd * sin t) (fc + fd * sin t) (2 * t / PI)).
Proof.
  intros fd fc Hfd. repeat split.
  - intros f. destruct (Rlt_dec (Rabs (f - fc)) fd) as [H|H].
    + rewrite doppler_in by exact H. pose proof (sqrt_lt_R0 _ (doppler_root f fd fc H)). pose proof PI_RGT_0.
      left. apply Rdiv_lt_0_compat; [lra|]. apply Rmult_lt_0_compat; [apply Rmult_lt_0_compat; assumption|assumption].
    + unfold doppler_distri. destruct (Rle_dec _ _); lra.
  - intros f H. unfold doppler_distri. destruct (Rle_dec _ _); [reflexivity|lra].
  - intros d. unfold doppler_distri. replace (fc + d - fc) with d by ring. replace (fc - d - fc) with (- d) by ring.
    rewrite Rabs_Ropp. destruct (Rle_dec _ _); [reflexivity|]. do 4 f_equal. field. lra.
  - intros t Ht. apply doppler_int; assumption.
Qed.
Print Assumptions C82_doppler.

(** Thermal noise: within one millionth of k_B T_K B, k_B being the exact SI value of the Boltzmann constant. *)
Theorem C82_thermal :
  forall bp t, 0 <= bp -> -273.15 <= t ->
  Rabs (bruit_thermique bp t - 1.380649e-23 * (t + 273.15) * bp) <= 1e-6 * (1.380649e-23 * (t + 273.15) * bp).
Proof.
  intros bp t H1 H2. unfold bruit_thermique.
  assert (P : 0 <= (t + 273.15) * bp) by (apply Rmult_le_pos; lra).
  set (q := (t + 273.15) * bp) in *.
  replace (1.380650e-23 * (t + 273.15) * bp - 1.380649e-23 * (t + 273.15) * bp) with (1e-29 * q) by (unfold q; lra).
  replace (1e-6 * (1.380649e-23 * (t + 273.15) * bp)) with (1.380649e-29 * q) by (unfold q; lra).
  rewrite Rabs_pos_eq by lra. lra.
Qed.
Print Assumptions C82_thermal.

(** ** Non-vacuity *)
(** One call with a delay of one sample, a frequency offset of a quarter and no noise. *)
Example C82_emulator_case :
  exists s y, ecp_run (Ecp 10 0 1 1 4 1) [EcpIn [(1, 0); (1, 0); (1, 0)] (fun _ => 0) (fun _ => 0) 0] = Ok (s, [y]) /\
    length y = 2%nat /\ smp y 0 = (0, 1) /\ smp y 1 = (-1, 0).
Proof.
  set (c := Ecp 10 0 1 1 4 1). set (i := EcpIn [(1, 0); (1, 0); (1, 0)] (fun _ => 0) (fun _ => 0) 0).
  destruct (C82_emulator c [i]) as (s & ys & E & L & V); try (cbn; lra).
  { constructor; [|constructor]. split; cbn; [lia|]. apply Nat.leb_le. vm_compute. reflexivity. }
  destruct ys as [|y [|]]; try discriminate L. exists s, y. split; [exact E|].
  destruct (V 0%nat i eq_refl) as (Ly & sg & _ & _ & Vy). cbn [nth] in *.
  assert (D : delay_of c i = 1%nat) by reflexivity. rewrite D in *. split; [exact Ly|].
  rewrite !Vy by (cbn; lia). unfold rotated. cbn [firstn map list_sum fold_right].
  assert (C1 : 2 * PI * (ec_df c / ec_fe c) * INR (0 + (1 + 0)) + ec_phase c = PI / 2) by (cbn; field).
  assert (C2 : 2 * PI * (ec_df c / ec_fe c) * INR (0 + (1 + 1)) + ec_phase c = PI) by (cbn; field).
  rewrite C1, C2. unfold unit_at. rewrite cos_PI2, sin_PI2, cos_PI, sin_PI.
  split; apply C_ext; cbn; ring.
Qed.

(** The draws of C82_awgn exist: independent signs. *)
Example C82_noise_case :
  let E := fun f : bool -> R => (f true + f false) / 2 in
  let w := fun (k : nat) (o : bool) => if o then 1 else -1 in
  expectation E /\ forall k, E (fun o => w k o * w k o) = 1.
Proof.
  split; [split|].
  - intros; cbn; field.
  - intros; cbn; field.
  - cbn; field.
  - intros f H. pose proof (H true). pose proof (H false). lra.
  - intros k. cbn. field.
Qed.

(** A square root of complex numbers exists (C82_rice). *)
Example C82_sqrt_case : exists csqrt, forall z : ComplexSys.C, Cmul (csqrt z) (csqrt z) = z.
Proof.
  exists (fun z => let m := sqrt (Cnorm2 z) in
    (sqrt ((m + fst z) / 2), (if Rle_dec 0 (snd z) then 1 else -1) * sqrt ((m - fst z) / 2))).
  intros [a b]. cbv zeta. unfold Cnorm2. cbn [fst snd].
  set (m := sqrt (a * a + b * b)).
  assert (M0 : 0 <= m) by apply sqrt_pos.
  assert (M2 : m * m = a * a + b * b) by (apply sqrt_sqrt; nra).
  assert (A1 : 0 <= (m + a) / 2) by (destruct (Rle_dec 0 a); nra).
  assert (A2 : 0 <= (m - a) / 2) by (destruct (Rle_dec a 0); nra).
  assert (P : sqrt ((m + a) / 2) * sqrt ((m - a) / 2) = Rabs b / 2).
  { rewrite <- sqrt_mult by assumption. rewrite <- (sqrt_square (Rabs b / 2)) by (pose proof (Rabs_pos b); lra).
    f_equal. pose proof (Rsqr_abs b) as Q. unfold Rsqr in Q.
    replace ((m + a) / 2 * ((m - a) / 2)) with ((m * m - a * a) / 4) by field. rewrite M2.
    replace (Rabs b / 2 * (Rabs b / 2)) with (Rabs b * Rabs b / 4) by field. rewrite <- Q. field. }
  pose proof (sqrt_sqrt _ A1) as S1. pose proof (sqrt_sqrt _ A2) as S2.
  set (u := sqrt ((m + a) / 2)) in *. set (v := sqrt ((m - a) / 2)) in *.
  destruct (Rle_dec 0 b) as [Hb|Hb].
  - rewrite Rabs_pos_eq in P by exact Hb. apply C_ext; cbn; nra.
  - rewrite Rabs_left in P by lra. apply C_ext; cbn; nra.
Qed.
