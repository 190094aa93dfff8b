(** C84: real-time spectrum; C85: cost of the block filter; see DESIGN.md. *)
From Coq Require Import List Arith ZArith Reals Lia Lra Field.
From Verif Require Import Base BaseLemmas DftSys ComplexSys Filters_Model Fourier_Model Fourier_Proofs Fourier_Proofs2 Fourier_Spec
  Freq_Proofs2 Chn_Spec Chn_Proofs Fdt_Model Fdt_Spec Fdt_Proofs Fdt_Proofs2 Fdt_Proofs3 Fdt_Proofs4 Fdt_Proofs5 Fdt_Proofs6.
Import ListNotations.
Local Open Scope R_scope.

(** ** rt_spectrum, without frequency sweep.
    One spectrum for each group of nmeans blocks (the remainder waits for the next blocks): bin k is the power at the frequency
    (k - Nf/2)/Nf, averaged over the blocks of the group and over the sub-blocks, in decibels. *)
Theorem C84_spectra : forall c (w : list R) junk (blocks : list (list C)), let Nf := (BS c / nsubs c)%nat in
  sw c = false -> (0 < nsubs c)%nat -> (0 < nmeans c)%nat -> (0 < Nf <= 2 ^ 29)%nat -> length w = Nf ->
  (sw_hf c <= Nf)%nat -> (sw_bf c <= Nf / 2)%nat -> Forall (fun x => length x = BS c) blocks ->
  exists s0 s, sp_conf c w = Ok s0 /\
  run (sp_step c junk) s0 blocks = Ok (s, concat (map (fun g => map (fun k =>
      dB (total (length g) (fun b => total (nsubs c) (fun i => sub_power Nf (unit_window Nf (fun i => nth i w 0)) (nth b g []) i k))
          / INR (nmeans c * nsubs c * Nf) + / 2 ^ 126)) (seq 0 Nf)) (groups (nmeans c) blocks))).
Proof.
  cbv zeta. intros c w junk blocks Sw Hs Hm HN Lw Hh Hb HF.
  assert (V : valid c w) by (repeat split; assumption || apply HN). 
  destruct (sp_run_ok c w junk V Hm blocks [] HF Hm) as [s E].
  exists (conf_state c w (fun _ => 0) 0), s. split; [apply sp_conf_ok; exact V|].
  cbn [length total app] in E. rewrite E. f_equal. f_equal. f_equal. apply map_ext. intros g. unfold spectrum, tab, sNs. rewrite Sw. apply map_ext. intros k.
  unfold final, block_power. rewrite Sw. cbn [andb]. f_equal. unfold flt_min. f_equal. unfold Rdiv at 1. rewrite Rinv_1, Rmult_1_r. reflexivity.
Qed.
Print Assumptions C84_spectra.

(** With a frequency sweep (at least two sub-blocks): the sub-block number i is placed at the offset i * step, the masked bins are not
    added, and each bin is divided by the number of sub-blocks which cover it unmasked (at least one). *)
Theorem C84_sweep : forall c (w : list R) junk (blocks : list (list C)), let Nf := (BS c / nsubs c)%nat in
  sw c = true -> (2 <= nsubs c)%nat -> (0 < nmeans c)%nat -> (0 < Nf <= 2 ^ 29)%nat -> length w = Nf ->
  (sw_hf c <= Nf)%nat -> (sw_bf c <= Nf / 2)%nat -> Forall (fun x => length x = BS c) blocks ->
  exists s0 s, sp_conf c w = Ok s0 /\
  run (sp_step c junk) s0 blocks = Ok (s, concat (map (fun g => map (fun k =>
      dB (total (length g) (fun b => sweep_power Nf (sw_step c) (sw_bf c) (sw_hf c) (nsubs c) (unit_window Nf (fun i => nth i w 0)) (nth b g []) k)
          / INR (nmeans c * nsubs c * Nf) / Rmax (sweep_count Nf (sw_step c) (sw_bf c) (sw_hf c) (nsubs c) k) 1 + / 2 ^ 126))
      (seq 0 (Nf + (nsubs c - 1) * sw_step c))) (groups (nmeans c) blocks))).
Proof.
  cbv zeta. intros c w junk blocks Sw Hs Hm HN Lw Hh Hb HF.
  assert (V : valid c w) by (repeat split; lia || assumption || apply HN). 
  destruct (sp_run_ok c w junk V Hm blocks [] HF Hm) as [s E].
  exists (conf_state c w (fun _ => 0) 0), s. split; [apply sp_conf_ok; exact V|].
  cbn [length total app] in E. rewrite E. f_equal. f_equal. f_equal. apply map_ext. intros g. unfold spectrum, tab, sNs. rewrite Sw. apply map_ext. intros k.
  unfold final, block_power. rewrite Sw. destruct (Nat.ltb_spec 1 (nsubs c)); [|lia]. cbn [andb]. reflexivity.
Qed.
Print Assumptions C84_sweep.

(** A block of another size is refused, in every state; so is a mask larger than the spectrum. *)
Theorem C84_bad_block : forall c junk s x, length x <> BS c -> sp_step c junk s x = Exc.
Proof. intros c junk s x H. unfold sp_step. apply Nat.eqb_neq in H. rewrite H. reflexivity. Qed.
Print Assumptions C84_bad_block.
Theorem C84_mask_too_large : forall c w, (0 < nsubs c)%nat -> (BS c / nsubs c < sw_hf c)%nat -> sp_conf c w = Exc.
Proof.
  intros c w Hs H. unfold sp_conf. destruct (Nat.eqb_spec (nsubs c) 0); [lia|]. cbv zeta. fold (sNf c) in H. destruct (Nat.ltb_spec 0 (sw_hf c)); [|lia].
  unfold hd_set, set_seg. rewrite !repeat_length. destruct (Nat.leb_spec (0 + sw_hf c) (sNf c)); [lia|]. reflexivity.
Qed.
Print Assumptions C84_mask_too_large.

(** ** Power.
    The sum over all the bins of the displayed powers is the mean power of the windowed samples; with a rectangular window and sub-blocks
    which fill the block, it is the mean power of the received blocks. *)
Theorem C84_power : forall c (w : list R) junk (g : list (list C)), let Nf := (BS c / nsubs c)%nat in
  sw c = false -> (0 < nsubs c)%nat -> (0 < nmeans c)%nat -> (0 < Nf <= 2 ^ 29)%nat -> length w = Nf ->
  (sw_hf c <= Nf)%nat -> (sw_bf c <= Nf / 2)%nat -> length g = nmeans c -> Forall (fun x => length x = BS c) g ->
  exists s0 s y, sp_conf c w = Ok s0 /\ run (sp_step c junk) s0 g = Ok (s, y) /\ length y = Nf /\
  total Nf (fun k => Rpower 10 (nth k y 0 / 10) - / 2 ^ 126) =
    total (nmeans c) (fun b => total (nsubs c) (fun i => total Nf (fun j =>
      unit_window Nf (fun i => nth i w 0) j ^ 2 * Cnorm2 (smp (nth b g []) (i * Nf + j))))) / INR (nmeans c * nsubs c * Nf) /\
  ((forall j, (j < Nf)%nat -> nth j w 0 = 1) -> (nsubs c * Nf = BS c)%nat ->
    total Nf (fun k => Rpower 10 (nth k y 0 / 10) - / 2 ^ 126) = mean (nmeans c) (fun b => power (nth b g []))).
Proof.
  cbv zeta. intros c w junk g Sw Hs Hm HN Lw Hh Hb Lg HF. set (N := (BS c / nsubs c)%nat) in *. set (f := unit_window N (fun i => nth i w 0)).
  destruct (C84_spectra c w junk g Sw Hs Hm HN Lw Hh Hb HF) as [s0 [s [E1 E2]]]. fold N f in E2.
  assert (EG : groups (nmeans c) g = [g]). { rewrite <- (app_nil_r g) at 1. rewrite groups_cons by assumption. rewrite groups_small by (cbn; lia). reflexivity. }
  rewrite EG in E2. cbn [map concat] in E2. rewrite app_nil_r in E2. rewrite Lg in E2.
  assert (PN : 0 < INR N) by (apply lt_0_INR; lia). assert (Pm : 0 < INR (nmeans c)) by (apply lt_0_INR; lia). assert (Ps : 0 < INR (nsubs c)) by (apply lt_0_INR; lia).
  assert (PD : 0 < INR (nmeans c * nsubs c * N)) by (apply lt_0_INR; nia).
  match type of E2 with _ = Ok (s, ?y0) => set (y := y0) in E2 end. exists s0, s, y. split; [exact E1|]. split; [exact E2|]. split; [unfold y; rewrite map_length, seq_length; reflexivity|].
  assert (EP : total N (fun k => Rpower 10 (nth k y 0 / 10) - / 2 ^ 126) = total (nmeans c) (fun b => total (nsubs c) (fun i => total N (fun j => f j ^ 2 * Cnorm2 (smp (nth b g []) (i * N + j))))) / INR (nmeans c * nsubs c * N)).
  { rewrite (total_ext N _ (fun k => / INR (nmeans c * nsubs c * N) * total (nmeans c) (fun b => total (nsubs c) (fun i => sub_power N f (nth b g []) i k)))).
    - rewrite total_scal. unfold Rdiv. rewrite Rmult_comm. f_equal. rewrite total_swap. apply total_ext. intros b _. rewrite total_swap. apply total_ext. intros i _. apply sub_power_total. lia.
    - intros k Hk. unfold y. rewrite (map_nth0 _ (seq 0 N) k 0%nat) by (rewrite seq_length; exact Hk). rewrite seq_nth, Nat.add_0_l by exact Hk.
      rewrite dB_inv.
      + unfold Rdiv. ring.
      + apply Rplus_le_lt_0_compat; [|apply Rinv_0_lt_compat, pow_lt; lra]. apply Rmult_le_pos; [|left; apply Rinv_0_lt_compat; exact PD].
        apply total_pos. intros b _. apply total_pos. intros i _. unfold sub_power. apply periodogram_pos. lia. }
  split; [exact EP|]. intros Hw HB. rewrite EP. unfold mean.
  rewrite (total_ext (nmeans c) _ (fun b => INR (nsubs c * N) * power (nth b g []))).
  - rewrite total_scal. rewrite !mult_INR. field. repeat split; lra.
  - intros b Hb'. rewrite (total_ext (nsubs c) _ (fun i => total N (fun j => Cnorm2 (smp (nth b g []) (i * N + j))))).
    + rewrite (total_prod (nsubs c) N (fun t => Cnorm2 (smp (nth b g []) t))). unfold power, mean. assert (Lb : length (nth b g []) = (nsubs c * N)%nat).
      { rewrite HB. rewrite Forall_forall in HF. apply HF. apply nth_In. lia. }
      change (@length (car Cring) (nth b g [])) with (length (nth b g [])). rewrite Lb. assert (INR (nsubs c * N) <> 0) by (apply not_0_INR; nia). unfold smp. field. assumption.
    + intros i _. apply total_ext. intros j Hj. unfold f. rewrite (unit_ext N _ (fun _ => 1) j Hj Hw), unit_rect by lia. ring.
Qed.
Print Assumptions C84_power.

(** ** A pure tone of amplitude A at a whole frequency f (rectangular window; the phase of each block is arbitrary): A^2 in the bin of f, nothing elsewhere. *)
Definition tone_block (n N : nat) (A : R) (f : Z) (phi : R) : list C :=
  map (fun j => (A * cos (2 * PI * IZR f * INR j / INR N + phi), A * sin (2 * PI * IZR f * INR j / INR N + phi))) (seq 0 n).
Lemma tone_sub N n A f phi i k : (0 < N)%nat -> (i * N + N <= n)%nat ->
  sub_power N (unit_window N (fun _ => 1)) (tone_block n N A f phi) i k = if ((Z.of_nat k - Z.of_nat (N / 2) - f) mod Z.of_nat N =? 0)%Z then A ^ 2 * INR N else 0.
Proof.
  intros HN H. assert (PN : 0 < INR N) by (apply lt_0_INR; lia). unfold sub_power. rewrite <- (tone_periodogram N A f (2 * PI * IZR f * INR i + phi) _ HN). apply periodogram_ext. intros j Hj.
  unfold windowed. rewrite unit_rect by exact HN. unfold smp, tone_block. rewrite (map_nth0 _ (seq 0 n) (i * N + j)%nat 0%nat) by (rewrite seq_length; lia). rewrite seq_nth by lia. cbn [fst snd Nat.add].
  replace (2 * PI * IZR f * INR (i * N + j) / INR N + phi) with (2 * PI * IZR f * INR j / INR N + (2 * PI * IZR f * INR i + phi)) by (rewrite plus_INR, mult_INR; field; lra).
  f_equal; ring.
Qed.
Lemma rect_nth N i : (i < N)%nat -> nth i (repeat 1 N) 0 = 1.
Proof. intros H. rewrite (nth_indep _ 0 1) by (rewrite repeat_length; exact H). apply nth_repeat. Qed.
Theorem C84_tone : forall c junk A f (phis : list R), let Nf := (BS c / nsubs c)%nat in
  sw c = false -> (0 < nsubs c)%nat -> (0 < nmeans c)%nat -> (0 < Nf <= 2 ^ 29)%nat -> (sw_hf c <= Nf)%nat -> (sw_bf c <= Nf / 2)%nat -> length phis = nmeans c ->
  exists s0 s, sp_conf c (repeat 1 Nf) = Ok s0 /\
  run (sp_step c junk) s0 (map (tone_block (BS c) Nf A f) phis) =
    Ok (s, map (fun k => dB ((if ((Z.of_nat k - Z.of_nat (Nf / 2) - f) mod Z.of_nat Nf =? 0)%Z then A ^ 2 else 0) + / 2 ^ 126)) (seq 0 Nf)).
Proof.
  cbv zeta. intros c junk A f phis Sw Hs Hm HN Hh Hb Lp. set (N := (BS c / nsubs c)%nat) in *.
  assert (HBS : (nsubs c * N <= BS c)%nat) by (apply Nat.mul_div_le; lia).
  assert (HF : Forall (fun x => length x = BS c) (map (tone_block (BS c) N A f) phis)).
  { apply Forall_forall. intros x Hx. apply in_map_iff in Hx. destruct Hx as [p [<- _]]. unfold tone_block. rewrite map_length, seq_length. reflexivity. }
  destruct (C84_spectra c (repeat 1 N) junk _ Sw Hs Hm HN (repeat_length _ _) Hh Hb HF) as [s0 [s [E1 E2]]]. exists s0, s. split; [exact E1|].
  rewrite E2. f_equal. f_equal. fold N. set (g := map (tone_block (BS c) N A f) phis).
  assert (Lg : length g = nmeans c) by (unfold g; rewrite map_length; exact Lp).
  assert (EG : groups (nmeans c) g = [g]). { rewrite <- (app_nil_r g) at 1. rewrite groups_cons by assumption. rewrite groups_small by (cbn; lia). reflexivity. }
  rewrite EG. cbn [map concat]. rewrite app_nil_r. apply map_ext_in. intros k Hk. f_equal. f_equal. rewrite Lg.
  set (v := if ((Z.of_nat k - Z.of_nat (N / 2) - f) mod Z.of_nat N =? 0)%Z then A ^ 2 else 0).
  rewrite (total_ext (nmeans c) _ (fun _ => INR (nsubs c) * (v * INR N))).
  - rewrite total_const, !mult_INR. assert (0 < INR N) by (apply lt_0_INR; lia). assert (0 < INR (nmeans c)) by (apply lt_0_INR; lia). assert (0 < INR (nsubs c)) by (apply lt_0_INR; lia). field. repeat split; lra.
  - intros b Hb'. rewrite <- total_const. apply total_ext. intros i Hi. unfold g. rewrite (map_nth0 _ phis b 0) by lia.
    rewrite (sub_power_ext N _ (unit_window N (fun _ => 1))) by (intros j Hj; apply unit_ext; [exact Hj|intros i' Hi'; apply rect_nth; exact Hi']).
    rewrite tone_sub by nia. unfold v. destruct (_ =? 0)%Z; ring.
Qed.
Print Assumptions C84_tone.
Example C84_case : let c := {| BS := 8; nmeans := 2; nsubs := 2; sw := false; sw_step := 0; sw_bf := 1; sw_hf := 1 |} in forall junk,
  exists s0 s, sp_conf c (repeat 1 4) = Ok s0 /\
  run (sp_step c junk) s0 [tone_block 8 4 3 1 0; tone_block 8 4 3 1 (PI / 3)] = Ok (s, [dB (0 + / 2 ^ 126); dB (0 + / 2 ^ 126); dB (0 + / 2 ^ 126); dB (3 ^ 2 + / 2 ^ 126)]).
Proof.
  cbv zeta. intros junk. set (c := {| BS := 8; nmeans := 2; nsubs := 2; sw := false; sw_step := 0; sw_bf := 1; sw_hf := 1 |}).
  assert (B : (4 <= 2 ^ 29)%nat) by (apply Nat.le_trans with (2 ^ 3)%nat; [cbn; lia|apply Nat.pow_le_mono_r; lia]).
  destruct (C84_tone c junk 3 1 [0; PI / 3] eq_refl (le_n_S _ _ (Nat.le_0_l _)) (le_n_S _ _ (Nat.le_0_l _)) (Logic.conj (le_n_S _ _ (Nat.le_0_l _)) B)) as [s0 [s [E1 E2]]].
  - apply Nat.leb_le. reflexivity.
  - apply Nat.leb_le. reflexivity.
  - reflexivity.
  - exists s0, s. split; [exact E1|exact E2].
Qed.

(** FINDING: in a sweep, the accumulated power is divided both by the number of sub-blocks and by the number of contributions of the bin: a bin which is
    covered by a single sub-block shows the power of that sub-block divided by the number of sub-blocks (no overlap, no mask: a tone of amplitude A in
    every sub-block shows A^2 / nsubs, instead of A^2 without sweep). *)
Theorem C84_sweep_level_refuted : forall q N A f junk phi, (2 <= q)%nat -> (0 < N <= 2 ^ 29)%nat ->
  let c := {| BS := q * N; nmeans := 1; nsubs := q; sw := true; sw_step := N; sw_bf := 0; sw_hf := 0 |} in
  exists s0 s, sp_conf c (repeat 1 N) = Ok s0 /\
  run (sp_step c junk) s0 [tone_block (q * N) N A f phi] =
    Ok (s, map (fun k => dB ((if ((Z.of_nat (k mod N) - Z.of_nat (N / 2) - f) mod Z.of_nat N =? 0)%Z then A ^ 2 / INR q else 0) + / 2 ^ 126)) (seq 0 (q * N))).
Proof.
  intros q N A f junk phi Hq HN c. assert (ENf : (BS c / nsubs c = N)%nat) by (cbn [BS nsubs c]; rewrite Nat.mul_comm; apply Nat.div_mul; lia).
  assert (PN : 0 < INR N) by (apply lt_0_INR; lia). assert (Pq : 0 < INR q) by (apply lt_0_INR; lia).
  pose proof (C84_sweep c (repeat 1 N) junk [tone_block (q * N) N A f phi]) as T. cbv zeta in T. rewrite ENf in T.
  destruct T as [s0 [s [E1 E2]]]; try (cbn [sw c nsubs nmeans sw_hf sw_bf]; lia || reflexivity || exact HN).
  - apply repeat_length.
  - constructor; [unfold tone_block; rewrite map_length, seq_length; reflexivity|constructor].
  - exists s0, s. split; [exact E1|]. rewrite E2. f_equal. f_equal.
    set (x := tone_block (q * N) N A f phi). change (groups (nmeans c) [x]) with [[x]]. cbn [map concat]. rewrite app_nil_r.
    cbn [nsubs nmeans sw_step sw_bf sw_hf c]. replace (N + (q - 1) * N)%nat with (q * N)%nat by nia. apply map_ext_in. intros k Hk. apply in_seq in Hk. f_equal. f_equal.
    set (p := (k / N)%nat). set (r := (k mod N)%nat). pose proof (Nat.div_mod k N ltac:(lia)) as D. fold p r in D. pose proof (Nat.mod_upper_bound k N ltac:(lia)) as Br. fold r in Br.
    assert (Hp : (p < q)%nat) by (apply Nat.div_lt_upper_bound; lia).
    assert (CV : forall i, covers N N i k = (i =? p)%nat).
    { intros i. unfold covers. destruct (Nat.eqb_spec i p) as [->|Hne].
      - destruct (Nat.leb_spec (p * N) k); [|nia]. destruct (Nat.ltb_spec k (p * N + N)); [reflexivity|nia].
      - destruct (Nat.leb_spec (i * N) k); [|reflexivity]. destruct (Nat.ltb_spec k (i * N + N)); [nia|reflexivity]. }
    assert (Kr : (k - p * N = r)%nat) by nia.
    assert (MK : mask_at N 0 0 r = 1).
    { unfold mask_at. rewrite !Nat.sub_0_r, Nat.add_0_r. destruct (Nat.ltb_spec r N); [|lia]. destruct (Nat.leb_spec (N / 2) r); destruct (Nat.ltb_spec r (N / 2)); try reflexivity; lia. }
    assert (SG : forall n h, total n (fun i => if (i =? p)%nat then h i else 0) = if (p <? n)%nat then h p else 0).
    { clear. intros n h. induction n as [|n IH]; [reflexivity|]. cbn [total]. rewrite IH. destruct (Nat.ltb_spec p n); destruct (Nat.eqb_spec n p); destruct (Nat.ltb_spec p (S n)); subst; try lia; try ring. }
    assert (SP : sweep_power N N 0 0 q (unit_window N (fun i => nth i (repeat 1 N) 0)) x k = if ((Z.of_nat r - Z.of_nat (N / 2) - f) mod Z.of_nat N =? 0)%Z then A ^ 2 * INR N else 0).
    { unfold sweep_power. rewrite (total_ext q _ (fun i => if (i =? p)%nat then mask_at N 0 0 (k - i * N) * sub_power N (unit_window N (fun i => nth i (repeat 1 N) 0)) x i (k - i * N) else 0)) by (intros i _; rewrite CV; reflexivity).
      rewrite SG. destruct (Nat.ltb_spec p q); [|lia]. rewrite Kr, MK, Rmult_1_l.
      rewrite (sub_power_ext N _ (unit_window N (fun _ => 1))) by (intros j Hj; apply unit_ext; [exact Hj|intros i' Hi'; apply rect_nth; exact Hi']).
      unfold x. apply tone_sub; nia. }
    assert (SC : sweep_count N N 0 0 q k = 1).
    { unfold sweep_count. rewrite (total_ext q _ (fun i => if (i =? p)%nat then mask_at N 0 0 (k - i * N) else 0)) by (intros i _; rewrite CV; reflexivity).
      rewrite SG. destruct (Nat.ltb_spec p q); [|lia]. rewrite Kr. exact MK. }
    cbn [length total nth]. rewrite SP, SC, Rplus_0_l. rewrite Rmax_left by lra. rewrite !mult_INR. change (INR 1) with 1.
    destruct (_ =? 0)%Z; field; split; lra.
Qed.
Print Assumptions C84_sweep_level_refuted.

(** FINDING: the normalisation flag given to the transform plan is ignored: both values give the same (normalised) transform.
    Asked for the plain sum over [1; 1], the plan returns sqrt 2 at the null frequency. *)
Theorem C84_plan_refuted : (forall n junk x, fplan_step (fplan_conf fplan_new n false) junk x = fplan_step (fplan_conf fplan_new n true) junk x) /\
  forall junk, exists X, fplan_step (fplan_conf fplan_new 2 false) junk [(1, 0); (1, 0)] = Ok X /\ smp X 0 = (sqrt 2, 0) /\ smp X 0 <> (2, 0).
Proof.
  split; [reflexivity|]. intros junk. unfold fplan_step. cbn [fplan_conf fplan_new fp_norm].
  assert (B : (2 <= 2 ^ 29)%nat) by (apply Nat.le_trans with (2 ^ 1)%nat; [cbn; lia|apply Nat.pow_le_mono_r; lia]).
  rewrite (fft_ok Complex) by (split; [cbn; lia|exact B]). cbn [bind]. eexists. split; [reflexivity|].
  assert (S2 : sqrt 2 * sqrt 2 = 2) by (apply sqrt_sqrt; lra). assert (P2 : 0 < sqrt 2) by (apply sqrt_lt_R0; lra).
  assert (E : smp (DFT (F := Complex) 1 ([(1, 0); (1, 0)] : list C)) 0 = (sqrt 2, 0)).
  { change (samp (K := Complex) (DFT (F := Complex) 1 ([(1, 0); (1, 0)] : list C)) 0 = (sqrt 2, 0)). rewrite (samp_DFT Complex 1 _ 0 0%Z 0) by (cbn; lia).
    unfold dftZ. cbn [length sum]. rewrite !Z.mul_0_r. rewrite !wz_complex by lia. unfold Rdiv. rewrite !Rmult_0_r, !Rmult_0_l. rewrite cos_0, sin_0, Ropp_0.
    change (Cdiv (Cadd (Cadd (0, 0) (Cmul (1, 0) (1, 0))) (Cmul (1, 0) (1, 0))) (sqrt (INR 2), 0) = (sqrt 2, 0)). replace (INR 2) with 2 by (cbn; ring).
    unfold Cdiv, Cinv, Cmul, Cadd, Cnorm2. cbn [fst snd]. set (r := sqrt 2) in *. clearbody r. assert (I : / r = r / 2) by (rewrite <- S2; field; lra).
    f_equal; [transitivity (2 * / r); [field; lra|rewrite I; field]|field; lra]. }
  rewrite E. split; [reflexivity|]. intros H. apply (f_equal fst) in H. cbn [fst] in H. rewrite H in S2. lra.
Qed.
Print Assumptions C84_plan_refuted.

(** ** ola_complexité: size of the transform = smallest power of two which holds the block and the tail of the filter. *)
Theorem C85_cost : forall M Ne, (0 < M)%nat -> (0 < Ne)%nat -> exists k,
  ola_complexite M Ne = (10 * INR (2 ^ k) * INR k / INR Ne, (2 ^ k)%nat, (2 ^ k - Ne)%nat) /\
  (Ne + M - 1 <= 2 ^ k)%nat /\ (forall k', (Ne + M - 1 <= 2 ^ k')%nat -> (k <= k')%nat).
Proof.
  intros M Ne HM HN. exists (Nat.log2_up (Ne + M - 1)). split; [apply (ola_c_ok M Ne HM HN)|].
  destruct (np2_spec (Ne + M - 1) ltac:(lia)) as [k [_ [B [_ ->]]]]. split; [exact B|]. intros k' H. apply Nat.log2_up_le_pow2; [lia|exact H].
Qed.
Print Assumptions C85_cost.
(** The sizes returned by the optimiser: blocks of Ne samples which fill, with the M - 1 zeros, a transform of 2^k points, and no filter made of
    blocks of Ne' samples and transforms of 2^k' <= 2^30 points has a lower cost per sample. *)
Theorem C85_optimal : forall M o, (0 < M <= 2 ^ 30)%nat -> exists k Ne,
  ola_opt M o = (10 * INR (2 ^ k) * INR k / INR Ne, (2 ^ k)%nat, (M - 1)%nat, Ne) /\ (0 < Ne)%nat /\ (Ne + M - 1 = 2 ^ k)%nat /\
  forall k' Ne', (0 < Ne')%nat -> (k' <= 30)%nat -> (Ne' + M - 1 <= 2 ^ k')%nat ->
    10 * INR (2 ^ k) * INR k / INR Ne <= 10 * INR (2 ^ k') * INR k' / INR Ne'.
Proof.
  intros M o [HM HMax]. set (q := Nat.log2_up M). assert (Hq : (q <= 30)%nat) by (apply Nat.log2_up_le_pow2; assumption).
  assert (EL : (exists n, Nat.min (q + 20) 31 - q = S n /\ q + S n = Nat.min (q + 20) 31)%nat) by (exists (Nat.min (q + 20) 31 - q - 1)%nat; lia). destruct EL as [n [En En']].
  destruct (ola_fold M HM n o) as [k [Hk [E Hmin]]]. fold q in Hk, E, Hmin.
  pose proof (pow2_M M k HM ltac:(fold q; lia)) as Bk. exists k, (2 ^ k - (M - 1))%nat. split; [unfold ola_opt; fold q; rewrite En; exact E|].
  split; [lia|]. split; [lia|]. intros k' Ne' HN' Hk' HB. change (cand M k <= fft_cost k' Ne').
  assert (Hq' : (q <= k')%nat) by (apply Nat.log2_up_le_pow2; lia).
  destruct (Nat.lt_ge_cases k' (q + 20)) as [L|L].
  - apply Rle_trans with (cand M k'); [apply Hmin; lia|]. unfold cand. apply fft_cost_anti. lia.
  - apply Rle_trans with (cand M (q + 5)); [apply Hmin; lia|]. apply Rle_trans with (10 * INR (q + 20)); [apply cand_upper; [exact HM|fold q; lia]|].
    apply Rle_trans with (10 * INR k'); [apply Rmult_le_compat_l; [lra|apply le_INR; exact L]|]. apply fft_cost_lower. lia.
Qed.
Print Assumptions C85_optimal.
(** FINDING: for a filter of more than 2^30 taps no candidate is examined and the four results are not assigned. *)
Theorem C85_large_refuted : forall M o, (2 ^ 30 < M)%nat -> ola_opt M o = o.
Proof.
  intros M o H. assert (Hq : (30 < Nat.log2_up M)%nat) by (apply Nat.log2_up_lt_pow2; lia).
  unfold ola_opt. replace (Nat.min (Nat.log2_up M + 20) 31 - Nat.log2_up M)%nat with 0%nat by lia. reflexivity.
Qed.
Print Assumptions C85_large_refuted.
Example C85_case : exists k Ne, ola_opt 100 (0, 0%nat, 0%nat, 0%nat) = (10 * INR (2 ^ k) * INR k / INR Ne, (2 ^ k)%nat, 99%nat, Ne) /\ (Ne + 99 = 2 ^ k)%nat.
Proof.
  assert (B : (100 <= 2 ^ 30)%nat) by (apply Nat.le_trans with (2 ^ 7)%nat; [apply Nat.leb_le; vm_compute; reflexivity|apply Nat.pow_le_mono_r; lia]).
  destruct (C85_optimal 100 (0, 0%nat, 0%nat, 0%nat)) as [k [Ne [E [_ [E2 _]]]]]; [split; [lia|exact B]|]. exists k, Ne. split; [exact E|lia].
Qed.
