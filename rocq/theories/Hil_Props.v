(** Hilbert transform. *)
From Coq Require Import Reals Lra Lia ZArith String.
From Verif Require Import Base BaseLemmas RField DftSys ComplexSys Fourier_Model Fourier_Spec Fourier_Proofs2 Fourier_Proofs3 Filters_Model Filters_Spec Filters_Proofs Filters_Props Special_Proofs Design_Proofs2 Win_Model Win_Spec Win_Proofs Win_Props Rif_Model Rif_Spec Rif_Proofs Rif_Proofs2 Gauss_Proofs Hil_Model Hil_Spec Hil_Proofs Hil_Proofs2.
Local Open Scope R_scope.
Local Open Scope string_scope.

(** ** C61: the FIR Hilbert filter of odd order: ideal taps 2 / (pi k) for odd k, 0 for even k, times the window; antisymmetric. *)
Theorem C61_design : forall m win ty, parse_fenetre win = Ok ty ->
  exists h, design_rif_hilbert (2 * m + 1) win = Ok h /\ List.length h = (2 * m + 1)%nat /\ antisymmetric h /\ dc_gain h = 0 /\
  forall i, (i < 2 * m + 1)%nat -> nth i h 0 = ideal_hilbert (Z.of_nat i - Z.of_nat m) * nth i (fen ty (2 * m + 1) true) 0.
Proof.
  intros m win ty Hw. destruct (hil_design m win ty Hw) as (h & E & L & V). exists h. split; [exact E|]. split; [exact L|]. pose proof (hil_anti m win ty h Hw E) as A. split; [exact A|]. split; [|exact V].
  assert (D : dc_gain h = - dc_gain h); [|lra]. unfold dc_gain at 1. rewrite L, (sum_rev Rring). unfold dc_gain. rewrite L. replace (- rsum (2 * m + 1) (fun i => nth i h 0)) with (-1 * rsum (2 * m + 1) (fun i => nth i h 0)) by (match goal with |- @eq _ ?a ?b => change (@eq R a b) end; ring). rewrite <- rsum_mul. apply rsum_ext. intros i Hi.
  rewrite A by lia. rewrite L. match goal with |- @eq _ ?a ?b => change (@eq R a b) end. replace (2 * m + 1 - 1 - (2 * m + 1 - 1 - i))%nat with i by lia. ring.
Qed.
Print Assumptions C61_design.
(** Even orders and unknown windows throw. *)
Theorem C61_errors : forall n win, Nat.even n = true \/ (forall f, ~ In (win, f) fen_table) -> design_rif_hilbert n win = Exc /\ hil_init n win = Exc.
Proof.
  intros n win H. assert (E : design_rif_hilbert n win = Exc); [|split; [exact E|unfold hil_init; rewrite E; reflexivity]].
  unfold design_rif_hilbert. destruct (Nat.odd n) eqn:O; [|reflexivity]. cbn [negb]. destruct H as [H|H]; [rewrite <- Nat.negb_odd, O in H; discriminate|]. unfold fen_nom. rewrite (proj2 C57_names win H). reflexivity.
Qed.
Print Assumptions C61_errors.
(** The transformer, for any partition of the input in blocks: the real part is the input delayed by m samples, the imaginary part the filtered input. *)
Theorem C61_stream : forall m win ty blocks, parse_fenetre win = Ok ty ->
  exists h s0 s y, design_rif_hilbert (2 * m + 1) win = Ok h /\ hil_init (2 * m + 1) win = Ok s0 /\ run hil_step s0 blocks = Ok (s, y) /\
  List.length y = List.length (concat blocks) /\
  forall n, (n < List.length y)%nat -> nth n y (0, 0) = (sampZ (K := Rring) (concat blocks) (Z.of_nat n - Z.of_nat m), conv (K := Rring) h (concat blocks) n).
Proof.
  intros m win ty blocks Hw. destruct (hil_design m win ty Hw) as (h & E & L & V). exists h. unfold hil_init. rewrite E. cbn [bind]. replace ((2 * m + 1) / 2)%nat with m by (apply (Nat.div_unique _ 2 m 1); lia).
  destruct (C10_convolution Rring h blocks) as (f' & x2 & E1 & L1 & V1); [intros X; rewrite X in L; cbn in L; lia|]. destruct (C11_delay Rring m blocks) as (d' & y2 & E2 & L2 & V2).
  eexists. eexists. eexists. split; [reflexivity|]. split; [reflexivity|]. split; [exact (hil_run blocks _ _ _ _ _ _ E1 E2)|]. assert (L12 : List.length y2 = List.length x2) by (transitivity (List.length (concat blocks)); [exact L2|symmetry; exact L1]).
  assert (Lc : List.length (combine y2 x2) = List.length y2) by (rewrite combine_length, <- L12; apply Nat.min_id). split; [transitivity (List.length y2); [exact Lc|exact L2]|]. intros n Hn. apply (fun X => Nat.lt_le_trans _ _ _ X (Nat.eq_le_incl _ _ Lc)) in Hn.
  pose proof (combine_nth y2 x2 n 0 0 L12) as CN. etransitivity; [exact CN|]. f_equal; [exact (V2 n Hn)|apply (V1 n); rewrite <- L12; exact Hn].
Qed.
Print Assumptions C61_stream.
(** In steady state, a tone of frequency om comes out as (cos theta, A sin theta), with theta the phase of the delayed tone; A does not depend on the instant. *)
Theorem C61_tone : forall m win ty om phi blocks, parse_fenetre win = Ok ty ->
  (forall j, (j < List.length (concat blocks))%nat -> nth j (concat blocks) 0 = cos (om * INR j + phi)) ->
  exists h s0 s y, design_rif_hilbert (2 * m + 1) win = Ok h /\ hil_init (2 * m + 1) win = Ok s0 /\ run hil_step s0 blocks = Ok (s, y) /\ List.length y = List.length (concat blocks) /\
  forall n, (2 * m <= n < List.length y)%nat -> let theta := om * (INR n - INR m) + phi in nth n y (0, 0) = (cos theta, amplitude h m om * sin theta).
Proof.
  intros m win ty om phi blocks Hw Hx. destruct (C61_stream m win ty blocks Hw) as (h & s0 & s & y & E & E0 & Er & L & V). exists h, s0, s, y. split; [exact E|]. split; [exact E0|]. split; [exact Er|]. split; [exact L|].
  intros n Hn th. rewrite V by lia. destruct (hil_design m win ty Hw) as (h' & E' & Lh & _). rewrite E in E'. injection E' as <-. f_equal.
  - unfold sampZ. destruct (Z.ltb_spec (Z.of_nat n - Z.of_nat m) 0); [lia|]. replace (Z.to_nat (Z.of_nat n - Z.of_nat m)) with (n - m)%nat by lia. etransitivity; [apply (Hx (n - m)%nat); lia|]. unfold th. rewrite minus_INR by lia. reflexivity.
  - apply conv_tone; [exact Lh|exact (hil_anti m win ty h Hw E)|lia|exact Hx].
Qed.
Print Assumptions C61_tone.
(** The amplitude A is never negative at positive frequencies (the negative image is never the stronger one), symmetric around a quarter of the sampling frequency,
    null at 0 and at the Nyquist frequency; it is positive in between if the first side sample of the window is. *)
Theorem C61_quadrature : forall m win ty h, parse_fenetre win = Ok ty -> ty <> CHEBYCHEV -> design_rif_hilbert (2 * m + 1) win = Ok h ->
  (forall om, 0 <= om <= PI -> 0 <= amplitude h m om) /\ (forall om, amplitude h m (PI - om) = amplitude h m om) /\ amplitude h m 0 = 0 /\ amplitude h m PI = 0 /\
  (forall om, 0 < om < PI -> (1 <= m)%nat -> 0 < nth (m + 1) (fen ty (2 * m + 1) true) 0 -> 0 < amplitude h m om).
Proof.
  intros m win ty h Hw Ht E. pose proof PI_RGT_0 as PP. set (w := fen ty (2 * m + 1) true).
  assert (H0 : amplitude h m 0 = 0). { unfold amplitude. etransitivity; [|exact (rsum_0 m)]. apply rsum_ext. intros k _. rewrite Rmult_0_r, sin_0. apply Rmult_0_r. }
  assert (Sy : forall om, amplitude h m (PI - om) = amplitude h m om).
  { intros om. rewrite !(hil_amplitude m win ty h) by assumption. apply rsum_ext. intros j _. f_equal. replace (INR (2 * j + 1) * (PI - om)) with (PI - INR (2 * j + 1) * om + 2 * INR j * PI) by (rewrite plus_INR, mult_INR; cbn [INR]; ring). rewrite sin_period. apply sin_PI_x. }
  set (c := fun j => 4 / PI * nth (m + 1 + 2 * j) w 0 / INR (2 * j + 1)).
  assert (Mono : forall i j, (i <= j <= m)%nat -> nth (m + j) w 0 <= nth (m + i) w 0).
  { intros i j Hij. destruct Hij as [H1 H2]. induction j as [|j IH]; [replace i with 0%nat by lia; apply Rle_refl|]. destruct (Nat.eq_dec i (S j)) as [-> |N]; [apply Rle_refl|]. apply (Rle_trans _ (nth (m + j) w 0)); [|apply IH; lia].
    pose proof (fen_step ty m j Ht ltac:(lia)) as [_ X]. replace (m + S j)%nat with (m + 1 + j)%nat by lia. exact X. }
  assert (Pw : forall i, (i < 2 * m + 1)%nat -> 0 <= nth i w 0) by (intros i Hi; apply C57_length_range; exact Hi).
  assert (Q : forall j, (j < (m + 1) / 2)%nat -> (2 * j < m)%nat) by (intros j Hj; pose proof (Nat.div_mod (m + 1) 2 ltac:(lia)); lia).
  assert (P4 : 0 < 4 / PI) by (apply Rdiv_lt_0_compat; lra). assert (Pi : forall j, 0 < INR (2 * j + 1)) by (intros j; apply lt_0_INR; lia).
  assert (Pc : forall j, (j < (m + 1) / 2)%nat -> 0 <= c j). { intros j Hj. specialize (Q j Hj). unfold c. apply Rmult_le_pos; [apply Rmult_le_pos; [lra|apply Pw; lia]|left; apply Rinv_0_lt_compat; apply Pi]. }
  assert (Dc : forall j, (S j < (m + 1) / 2)%nat -> c (S j) <= c j).
  { intros j Hj. pose proof (Q (S j) Hj). unfold c. apply Rmult_le_compat; [apply Rmult_le_pos; [lra|apply Pw; lia]|left; apply Rinv_0_lt_compat; apply Pi| |].
    - apply Rmult_le_compat_l; [lra|]. replace (m + 1 + 2 * S j)%nat with (m + (1 + 2 * S j))%nat by lia. replace (m + 1 + 2 * j)%nat with (m + (1 + 2 * j))%nat by lia. apply Mono. lia.
    - apply Rinv_le_contravar; [apply Pi|]. apply le_INR. lia. }
  assert (Pos : forall om, 0 < om < PI -> 0 <= amplitude h m om).
  { intros om Ho. rewrite (hil_amplitude m win ty h) by assumption. fold w. destruct ((m + 1) / 2)%nat as [|q] eqn:Eq; [apply Rle_refl|]. apply (abel q c (fun j => sin (INR (2 * j + 1) * om))).
    - intros k Hk. apply Pc. lia.
    - intros k Hk. apply Dc. lia.
    - intros k _. apply odd_sines_pos. exact Ho. }
  split; [|split; [exact Sy|split; [exact H0|split]]].
  - intros om [A B]. destruct A as [A|<-]; [|rewrite H0; apply Rle_refl]. destruct B as [B|B]; [apply Pos; split; assumption|]. rewrite B, <- (Sy PI), Rminus_diag_eq by reflexivity. rewrite H0. apply Rle_refl.
  - rewrite <- (Sy PI), Rminus_diag_eq by reflexivity. exact H0.
  - intros om Ho Hm W1. rewrite (hil_amplitude m win ty h) by assumption. fold w. destruct ((m + 1) / 2)%nat as [|q] eqn:Eq; [pose proof (Nat.div_mod (m + 1) 2 ltac:(lia)); pose proof (Nat.mod_upper_bound (m + 1) 2 ltac:(lia)); lia|].
    assert (S0 : 0 < sin om) by (apply sin_gt_0; lra). assert (C0 : 0 < c 0%nat) by (unfold c; cbn [Nat.mul Nat.add INR]; rewrite Nat.add_0_r; apply Rmult_lt_0_compat; [apply Rmult_lt_0_compat; [exact P4|exact W1]|lra]).
    set (d := if Nat.eqb q 0 then 0 else c 1%nat). assert (Dlt : d < c 0%nat).
    { unfold d. destruct (Nat.eqb_spec q 0); [exact C0|]. assert (H1 : nth (m + 1 + 2 * 1) w 0 <= nth (m + 1 + 2 * 0) w 0). { replace (m + 1 + 2 * 1)%nat with (m + 3)%nat by lia. replace (m + 1 + 2 * 0)%nat with (m + 1)%nat by lia. apply Mono. specialize (Q 1%nat ltac:(lia)). lia. }
      unfold c. cbn [INR]. replace (INR (2 * 1 + 1)) with 3 by (cbn; ring). replace (INR (2 * 0 + 1)) with 1 by (cbn; ring). replace (m + 1 + 2 * 0)%nat with (m + 1)%nat in * by lia. set (a := nth (m + 1) w 0) in *. set (b := nth (m + 1 + 2 * 1) w 0) in *.
      assert (4 / PI * b <= 4 / PI * a) by (apply Rmult_le_compat_l; lra). assert (0 < 4 / PI * a) by (apply Rmult_lt_0_compat; assumption). lra. }
    assert (D0 : 0 <= d) by (unfold d; destruct (Nat.eqb_spec q 0); [apply Rle_refl|apply Pc; lia]).
    set (c' := fun j => if Nat.eqb j 0 then d else c j). change (0 < rsum (S q) (fun j => c j * sin (INR (2 * j + 1) * om))).
    assert (Sp : rsum (S q) (fun j => c j * sin (INR (2 * j + 1) * om)) = (c 0%nat - d) * sin om + rsum (S q) (fun j => c' j * sin (INR (2 * j + 1) * om))).
    { rewrite !rsum_first. rewrite (rsum_ext q (fun k => c' (S k) * sin (INR (2 * S k + 1) * om)) (fun k => c (S k) * sin (INR (2 * S k + 1) * om))) by (intros; reflexivity). unfold c' at 1. cbn [Nat.eqb]. replace (INR (2 * 0 + 1) * om) with om by (cbn; ring). match goal with |- @eq _ ?a ?b => change (@eq R a b) end. ring. }
    rewrite Sp. apply Rplus_lt_le_0_compat; [apply Rmult_lt_0_compat; lra|]. apply (abel q c' (fun j => sin (INR (2 * j + 1) * om))).
    + intros k Hk. unfold c'. destruct (Nat.eqb_spec k 0); [exact D0|]. apply Pc. lia.
    + intros k Hk. unfold c'. destruct k as [|k]; cbn [Nat.eqb]; [unfold d; destruct (Nat.eqb_spec q 0); [lia|apply Rle_refl]|]. apply Dc. lia.
    + intros k _. apply odd_sines_pos. exact Ho.
Qed.
Print Assumptions C61_quadrature.
(** The DFT version: the bins of negative frequency are null, the others are doubled; the real part is the input plus its mean, minus its component at the Nyquist
    frequency for even lengths. *)
Theorem C61_dft : forall (F : dsys) (junk : F) (x : list F), (0 < List.length x <= 2 ^ 29)%nat -> is_real x ->
  let n := List.length x in exists X y Y, fft junk x = Ok X /\ hilbert_tfd junk x = Ok y /\ fft junk y = Ok Y /\ List.length y = n /\
  (forall k, (k < n)%nat -> samp Y k = if (k <? n - n / 2)%nat then (cnat 2 * samp X k)%K else c0) /\
  (forall t, (t < n)%nat -> re_only (samp y t) = (samp x t + sum n (samp x) / cnat n -
     (if Nat.eqb (n mod 2) 0 then sum n (fun j => samp x j * wz n (Z.of_nat (n / 2) * (Z.of_nat j - Z.of_nat t))) / cnat n else c0))%K).
Proof.
  intros F junk x Hn Hx n. destruct (tfd_ok F junk x Hn Hx) as (y & E & L & B & V). exists (DFT 1 x), y, (DFT 1 y). split; [apply fft_ok; exact Hn|]. split; [exact E|]. split; [apply fft_ok; rewrite L; exact Hn|]. split; [exact L|]. split; [exact B|exact V].
Qed.
Print Assumptions C61_dft.
(** Finding: the real part is not the input when it has a DC component (its bin is doubled too): a constant 1 gives 2, for every length. *)
Theorem C61_dft_real_part_refuted : forall (F : dsys) (junk : F) n, (0 < n <= 2 ^ 29)%nat ->
  exists y, hilbert_tfd junk (repeat (c1 : F) n) = Ok y /\ List.length y = n /\ forall t, (t < n)%nat -> re_only (samp y t) = cnat 2 /\ re_only (samp y t) <> samp (repeat (c1 : F) n) t.
Proof.
  intros F junk n Hn. destruct (tfd_const F junk n Hn) as (y & E & L & V). exists y. split; [exact E|]. split; [exact L|]. intros t Ht. split; [apply V; exact Ht|]. rewrite V by exact Ht. unfold samp. rewrite (nth_indep _ (@c0 F) (@c1 F)) by (rewrite repeat_length; exact Ht). rewrite nth_repeat.
  intros X. cbn [cnat] in X. apply (cnat_ne F 1); [lia|]. cbn [cnat]. apply (f_equal (fun v => (v - c1)%K)) in X. assert (A1 : (c0 + c1 + c1 - c1 = c0 + c1 :> F)%K) by (rewrite (Rsub_def (cth F)), <- (Radd_assoc (cth F)), (Ropp_def (cth F)), (Radd_comm (cth F)), (Radd_0_l (cth F)); reflexivity). rewrite A1 in X. rewrite X, (Rsub_def (cth F)). apply (Ropp_def (cth F)).
Qed.
Print Assumptions C61_dft_real_part_refuted.
Example C61_example : parse_fenetre "hn" = Ok HANN /\ (exists s0, hil_init 31 "hn" = Ok s0) /\ 0 < nth (2 + 1) (fen HANN (2 * 2 + 1) true) 0.
Proof.
  split; [reflexivity|]. split; [destruct (hil_design 15 "hn" HANN eq_refl) as (h & E & _); unfold hil_init; change 31%nat with (2 * 15 + 1)%nat; rewrite E; eexists; reflexivity|].
  rewrite fen_val by (lia || discriminate). rewrite inter_odd_sym by lia. unfold shape. pose proof PI_RGT_0. replace ((INR (2 + 1) - INR 2) / INR (2 * 2 + 1)) with (/ 5) by (cbn [INR Nat.mul Nat.add]; field).
  assert (0 < cos (2 * PI * / 5)) by (apply cos_gt_0; lra). lra.
Qed.
