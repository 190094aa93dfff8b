(** FIR design: windowed ideal filters, Hilbert filters, raised cosines, Gaussian filters. *)
From Coq Require Import Reals Lra Lia ZArith String.
From Verif Require Import Base BaseLemmas RField Vec_Model Vec_Proofs Sig_Proofs Special_Model Special_Proofs Design_Proofs2 Win_Model Win_Spec Win_Proofs Win_Proofs2 Win_Props Rif_Model Rif_Spec Rif_Proofs Rif_Proofs2.
Local Open Scope R_scope.
Local Open Scope string_scope.

(** ** C59: windowed design.  [names] lists the names of the four kinds of filter; w is the window designated by its name. *)
(** Low-pass, odd order: the taps are those of the ideal filter (inverse transform of the gate [-fc, fc]) times the window. *)
Theorem C59_lowpass_taps : forall m win ty fc fc2, parse_fenetre win = Ok ty -> / 10 ^ 7 <= 2 * PI * fc ->
  exists h, design_rif_fen (2 * m + 1) "pb" fc win fc2 = Ok h /\ List.length h = (2 * m + 1)%nat /\
  forall i, (i < 2 * m + 1)%nat -> nth i h 0 = ideal_lp fc (Z.of_nat i - Z.of_nat m) * nth i (fen ty (2 * m + 1) true) 0.
Proof.
  intros m win ty fc fc2 Hw Hf. unfold design_rif_fen. rewrite (nom_ok _ _ _ _ Hw). cbn [bind]. destruct (design_odd LP "pb" m (fen ty (2 * m + 1) true) fc fc2 (fen_len _ _ _)) as (h & E & L & V); [right; left; reflexivity|].
  exists h. split; [exact E|]. split; [exact L|]. intros i Hi. rewrite V by exact Hi. cbn [rawtap]. rewrite sinc_ideal; [reflexivity|]. pose proof PI_RGT_0. pose proof eps_pos. rewrite Rabs_pos_eq; [exact Hf|]. nra.
Qed.
Print Assumptions C59_lowpass_taps.
(** The low-pass filter named lp is the filter named pb divided by its DC gain, which is positive: its own DC gain is exactly 1. *)
Theorem C59_lowpass_gain : forall m win ty fc fc2, parse_fenetre win = Ok ty -> ty <> CHEBYCHEV -> 0 < fc <= 1 / 2 ->
  exists h g, design_rif_fen (2 * m + 1) "lp" fc win fc2 = Ok h /\ design_rif_fen (2 * m + 1) "pb" fc win fc2 = Ok g /\
  0 < dc_gain g /\ dc_gain h = 1 /\ List.length h = (2 * m + 1)%nat /\ forall i, (i < 2 * m + 1)%nat -> nth i h 0 = nth i g 0 / dc_gain g.
Proof.
  intros m win ty fc fc2 Hw Ht Hf. unfold design_rif_fen. rewrite (nom_ok _ _ _ _ Hw). cbn [bind].
  destruct (design_odd LP "pb" m (fen ty (2 * m + 1) true) fc fc2 (fen_len _ _ _)) as (g & E & L & V); [right; left; reflexivity|].
  destruct (design_odd LP "lp" m (fen ty (2 * m + 1) true) fc fc2 (fen_len _ _ _)) as (g' & E' & L' & V'); [left; reflexivity|].
  assert (G : g' = g) by (apply (list_ext 0); [lia|intros i Hi; rewrite V, V' by lia; reflexivity]). subst g'. cbn [String.eqb Ascii.eqb Bool.eqb] in E, E'.
  assert (P : 0 < dc_gain g). { unfold dc_gain. rewrite L. erewrite rsum_ext by (intros i Hi; exact (V i Hi)). cbn [rawtap]. apply taps_sum_pos; [exact Hf|rewrite fen_centre by exact Ht; lra|intros; apply fen_mirror; assumption|intros; apply fen_step; assumption]. }
  exists (vdiv g (somme g)), g. split; [exact E'|]. split; [exact E|]. split; [exact P|]. split; [rewrite <- somme_dc, somme_vdiv, somme_dc; field; lra|]. split; [rewrite vdiv_length; exact L|]. intros i Hi. apply vdiv_nth. lia.
Qed.
Print Assumptions C59_lowpass_gain.
(** Every kind of filter of odd order has a symmetric impulse response (linear phase). *)
Theorem C59_linear_phase : forall m win ty t s fc fc2, parse_fenetre win = Ok ty -> In s (names t) ->
  exists h, design_rif_fen (2 * m + 1) s fc win fc2 = Ok h /\ List.length h = (2 * m + 1)%nat /\ symmetric h.
Proof.
  intros m win ty t s fc fc2 Hw Hs. unfold design_rif_fen. rewrite (nom_ok _ _ _ _ Hw). cbn [bind]. apply (design_symmetric t); [apply fen_len|apply C57_symmetric|exact Hs].
Qed.
Print Assumptions C59_linear_phase.
(** Low-pass and high-pass filters are complementary, and so are band-pass and band-stop filters: their zero-phase responses add up to 1 at every frequency. *)
Theorem C59_complementary : forall m win ty fc fc2 s1 s2, parse_fenetre win = Ok ty -> ty <> CHEBYCHEV ->
  (s1 = "pb" /\ In s2 ["hp"; "ph"]) \/ (In s1 ["bp"; "pm"] /\ s2 = "sb") ->
  exists h g, design_rif_fen (2 * m + 1) s1 fc win fc2 = Ok h /\ design_rif_fen (2 * m + 1) s2 fc win fc2 = Ok g /\ forall om, response h om + response g om = 1.
Proof.
  intros m win ty fc fc2 s1 s2 Hw Ht Hs. unfold design_rif_fen. rewrite (nom_ok _ _ _ _ Hw). cbn [bind]. set (f := fen ty (2 * m + 1) true). assert (Lf : List.length f = (2 * m + 1)%nat) by apply fen_len.
  assert (Fc : forall i, (i < 2 * m + 1)%nat -> i = m -> nth i f 0 = 1) by (intros i _ ->; apply fen_centre; exact Ht).
  assert (Cp : forall t1 t2, (forall k, rawtap t1 fc fc2 k + rawtap t2 fc fc2 k = one_at0 k) -> In s1 (names t1) -> In s2 (names t2) -> String.eqb s1 "lp" = false -> String.eqb s2 "lp" = false ->
    exists h g, design_fen s1 fc f fc2 = Ok h /\ design_fen s2 fc f fc2 = Ok g /\ forall om, response h om + response g om = 1).
  { intros t1 t2 Hr H1 H2 N1 N2. destruct (design_odd t1 s1 m f fc fc2 Lf H1) as (h & E1 & L1 & V1). destruct (design_odd t2 s2 m f fc fc2 Lf H2) as (g & E2 & L2 & V2). rewrite N1 in E1. rewrite N2 in E2.
    exists h, g. split; [exact E1|]. split; [exact E2|]. apply (response_sum h g m L1 L2). intros i Hi. rewrite V1, V2 by exact Hi. rewrite <- Rmult_plus_distr_r, Hr, <- imp_centre. apply impulse_mul. intros; apply Fc; assumption. }
  destruct Hs as [[-> H]|[H ->]].
  - apply (Cp LP HP); [intros k; cbn [rawtap]; ring|right; left; reflexivity|exact H|reflexivity|destruct H as [<- |[<- |[]]]; reflexivity].
  - apply (Cp BP SB); [intros k; cbn [rawtap]; ring|exact H|left; reflexivity|destruct H as [<- |[<- |[]]]; reflexivity|reflexivity].
Qed.
Print Assumptions C59_complementary.
(** The band-pass filter [fl, fh] is the difference of the low-pass filters of cut-off fh and fl. *)
Theorem C59_bandpass : forall m win ty fl fh, parse_fenetre win = Ok ty -> / 10 ^ 7 <= 2 * PI * fl -> / 10 ^ 7 <= PI * (fh - fl) ->
  exists b h l, design_rif_fen (2 * m + 1) "bp" fl win fh = Ok b /\ design_rif_fen (2 * m + 1) "pb" fh win 0 = Ok h /\ design_rif_fen (2 * m + 1) "pb" fl win 0 = Ok l /\
  List.length b = (2 * m + 1)%nat /\ forall i, (i < 2 * m + 1)%nat -> nth i b 0 = nth i h 0 - nth i l 0.
Proof.
  intros m win ty fl fh Hw Hl Hd. pose proof PI_RGT_0 as PP. pose proof eps_pos as EP. destruct (C59_lowpass_taps m win ty fl 0 Hw Hl) as (l & El & Ll & Vl). destruct (C59_lowpass_taps m win ty fh 0 Hw ltac:(nra)) as (h & Eh & Lh & Vh).
  unfold design_rif_fen at 1. rewrite (nom_ok _ _ _ _ Hw). cbn [bind]. destruct (design_odd BP "bp" m (fen ty (2 * m + 1) true) fl fh (fen_len _ _ _)) as (b & E & L & V); [left; reflexivity|].
  exists b, h, l. split; [exact E|]. split; [exact Eh|]. split; [exact El|]. split; [exact L|]. intros i Hi. rewrite V, Vh, Vl by exact Hi. rewrite <- Rmult_minus_distr_r. f_equal. cbn [rawtap]. unfold band.
  set (k := (Z.of_nat i - Z.of_nat m)%Z). rewrite sinc_ideal by (rewrite Rabs_pos_eq by nra; lra). unfold ideal_lp. destruct (Z.eqb_spec k 0) as [-> |N]; [rewrite Rmult_0_r, cos_0; field|].
  assert (IZR k <> 0) by (apply (IZR_neq _ 0); exact N). set (x := IZR k) in *. replace (2 * PI * fh * x) with (PI * (fh + fl) * x + 2 * PI * ((fh - fl) / 2) * x) by field. replace (2 * PI * fl * x) with (PI * (fh + fl) * x - 2 * PI * ((fh - fl) / 2) * x) by field.
  rewrite sin_plus, sin_minus. field. split; lra.
Qed.
Print Assumptions C59_bandpass.
(** Cut-off 1/4 (half-band): the taps of even rank except the middle one are zero, and the response is symmetric around the cut-off, where it is exactly 1/2.
    Cut-off 1/2: the filter is the delay of m samples. *)
Theorem C59_halfband : forall m win ty fc2, parse_fenetre win = Ok ty -> ty <> CHEBYCHEV ->
  exists h, design_rif_fen (2 * m + 1) "pb" (1 / 4) win fc2 = Ok h /\
  (forall j, (j <= m)%nat -> (j <> 0)%nat -> Nat.even j = true -> nth (m + j) h 0 = 0 /\ nth (m - j) h 0 = 0) /\
  (forall om, response h om + response h (PI - om) = 1) /\ response h (PI / 2) = 1 / 2.
Proof.
  intros m win ty fc2 Hw Ht. pose proof PI_RGT_0 as PP. destruct (C59_lowpass_taps m win ty (1 / 4) fc2 Hw) as (h & E & L & V). { assert (/ 10 ^ 7 <= 1) by (rewrite <- Rinv_1; apply Rinv_le_contravar; lra). pose proof PI2_3_2. unfold PI2 in *. lra. }
  exists h. split; [exact E|].
  assert (Z0 : forall k, Z.even k = true -> k <> 0%Z -> ideal_lp (1 / 4) k = 0).
  { intros k Hk N. unfold ideal_lp. destruct (Z.eqb_spec k 0); [contradiction|]. apply Z.even_spec in Hk. destruct Hk as [q ->]. rewrite mult_IZR. replace (2 * PI * (1 / 4) * (2 * IZR q)) with (IZR q * PI) by field. rewrite sin_int_PI. unfold Rdiv. apply Rmult_0_l. }
  assert (Ze : forall j, Nat.even j = true -> Z.even (Z.of_nat j) = true) by (intros j Hj; apply Z.even_spec; apply Nat.even_spec in Hj; destruct Hj as [q ->]; exists (Z.of_nat q); lia).
  assert (Sy : forall om, response h om + response h (PI - om) = 1).
  { intros om. unfold response. rewrite L, <- rsum_add. assert (Ec : (INR (2 * m + 1) - 1) / 2 = INR m) by (rewrite plus_INR, mult_INR; cbn [INR]; field).
    rewrite (rsum_ext _ _ (fun i => if (i =? m)%nat then 1 else 0)).
    - rewrite (rsum_pick _ _ (fun _ => 1)). destruct (Nat.ltb_spec m (2 * m + 1)); [reflexivity|lia].
    - intros i Hi. rewrite Ec, V by exact Hi. destruct (Nat.eqb_spec i m) as [-> |N].
      + rewrite fen_centre by exact Ht. rewrite Z.sub_diag, !Rminus_eq_0, !Rmult_0_l, cos_0. unfold ideal_lp. cbn. match goal with |- @eq _ ?a ?b => change (@eq R a b) end. field.
      + rewrite (INR_IZR_INZ i), (INR_IZR_INZ m), <- minus_IZR. set (k := (Z.of_nat i - Z.of_nat m)%Z). assert (K : k <> 0%Z) by lia. destruct (Z.even k) eqn:P; [rewrite Z0 by assumption; rring|].
        rewrite <- Z.negb_odd in P. apply Bool.negb_false_iff in P. apply Z.odd_spec in P. destruct P as [q P]. replace (IZR k * (PI - om)) with (- (IZR k * om) + PI + 2 * IZR q * PI) by (rewrite P, plus_IZR, mult_IZR; ring).
        rewrite cos_kper, neg_cos, cos_neg. rring. }
  split; [|split; [exact Sy|]].
  - intros j Hj N Pj. split.
    + rewrite V by lia. rewrite Z0; [apply Rmult_0_l| |lia]. replace (Z.of_nat (m + j) - Z.of_nat m)%Z with (Z.of_nat j) by lia. apply Ze. exact Pj.
    + rewrite V by lia. rewrite Z0; [apply Rmult_0_l| |lia]. replace (Z.of_nat (m - j) - Z.of_nat m)%Z with (- Z.of_nat j)%Z by lia. rewrite Z.even_opp. apply Ze. exact Pj.
  - pose proof (Sy (PI / 2)) as S. replace (PI - PI / 2) with (PI / 2) in S by field. lra.
Qed.
Print Assumptions C59_halfband.
Theorem C59_allpass : forall m win ty fc2, parse_fenetre win = Ok ty -> ty <> CHEBYCHEV ->
  exists h, design_rif_fen (2 * m + 1) "pb" (1 / 2) win fc2 = Ok h /\ List.length h = (2 * m + 1)%nat /\ forall i, (i < 2 * m + 1)%nat -> nth i h 0 = impulse m i.
Proof.
  intros m win ty fc2 Hw Ht. pose proof PI_RGT_0 as PP. destruct (C59_lowpass_taps m win ty (1 / 2) fc2 Hw) as (h & E & L & V). { assert (/ 10 ^ 7 <= 1) by (rewrite <- Rinv_1; apply Rinv_le_contravar; lra). pose proof PI2_3_2. unfold PI2 in *. lra. }
  exists h. split; [exact E|]. split; [exact L|]. intros i Hi. rewrite V by exact Hi. unfold ideal_lp, impulse. destruct (Z.eqb_spec (Z.of_nat i - Z.of_nat m) 0) as [Z0|N], (Nat.eqb_spec i m); try lia.
  - subst i. rewrite fen_centre by exact Ht. field.
  - replace (2 * PI * (1 / 2) * IZR (Z.of_nat i - Z.of_nat m)) with (IZR (Z.of_nat i - Z.of_nat m) * PI) by field. rewrite sin_int_PI. unfold Rdiv. rewrite !Rmult_0_l. reflexivity.
Qed.
Print Assumptions C59_allpass.
(** Kaiser design: the order is always odd, every kind of filter exists, with a symmetric response; lp has DC gain 1.
    I0 (std::cyl_bessel_i) is any positive increasing function. *)
Theorem C59_kaiser : forall (I0 : R -> R) t s fc A df fc2, (forall x y, 0 <= x <= y -> 0 < I0 x <= I0 y) -> 0 < df -> In s (names t) ->
  exists h m, design_rif_fen_kaiser I0 s fc A df fc2 = Ok h /\ List.length h = (2 * m + 1)%nat /\ symmetric h /\
  (s = "lp" -> 0 < fc <= 1 / 2 -> dc_gain h = 1).
Proof.
  intros I0 t s fc A df fc2 HI Hd Hs. unfold design_rif_fen_kaiser, fenetre_kaiser. pose proof (C58_kaiser_param A df Hd) as KP. destruct (kaiser_param A df) as [beta n] eqn:Ek. destruct KP as (On & N1 & _ & _ & Hb).
  apply Z.odd_spec in On. destruct On as [q Hq]. set (m := Z.to_nat q). assert (En : Z.to_nat n = (2 * m + 1)%nat) by lia. rewrite En. set (w := fenetre_kaiser1 I0 (2 * m + 1) beta true).
  destruct (C58_kaiser I0 (2 * m + 1) beta HI Hb) as (KL & KS & KC & KM). destruct (KL true) as [Lw Rw]. fold w in Lw, Rw, KS. rewrite odd_2m in KC, KM. fold w in KC, KM. replace ((2 * m + 1) / 2)%nat with m in KC, KM by (apply (Nat.div_unique _ 2 m 1); lia).
  destruct (design_symmetric t s m w fc fc2 Lw KS Hs) as (h & E & L & Sh). exists h, m. split; [exact E|]. split; [exact L|]. split; [exact Sh|]. intros -> Hf.
  destruct (design_odd t "lp" m w fc fc2 Lw Hs) as (g & Eg & Lg & Vg). cbn [String.eqb Ascii.eqb Bool.eqb] in Eg. assert (Hh : h = vdiv g (somme g)) by congruence. subst h. rewrite <- somme_dc, somme_vdiv.
  assert (Et : t = LP) by (destruct t; cbn in Hs; try reflexivity; repeat destruct Hs as [Hs|Hs]; discriminate || contradiction). subst t.
  assert (Mi : forall j, (j < m)%nat -> nth (m - 1 - j) w 0 = nth (m + 1 + j) w 0). { intros j Hj. rewrite (KS (m - 1 - j)%nat) by lia. f_equal. lia. }
  assert (P : 0 < somme g). { unfold somme. rewrite Lg. erewrite rsum_ext by (intros i Hi; exact (Vg i Hi)). cbn [rawtap]. apply taps_sum_pos; [exact Hf|apply Rw; lia|exact Mi|].
    intros j Hj. split; [left; apply Rw; lia|]. rewrite <- Mi by exact Hj. destruct j as [|j]; [rewrite Nat.add_0_r; apply KM; lia|]. replace (m + S j)%nat with (m + 1 + j)%nat by lia. rewrite <- Mi by lia. apply KM; lia. }
  field. lra.
Qed.
Print Assumptions C59_kaiser.
(** Chebyshev design, odd order: every kind of filter exists, with a symmetric response. *)
Theorem C59_chebyshev : forall m t s fc A fc2, In s (names t) -> exists h, design_rif_fen_chebychev (2 * m + 1) s fc A fc2 = Ok h /\ List.length h = (2 * m + 1)%nat /\ symmetric h.
Proof. intros m t s fc A fc2 Hs. apply (design_symmetric t); [apply cheb_length|apply cheb_symmetric|exact Hs]. Qed.
Print Assumptions C59_chebyshev.
(** Errors: an unknown kind of filter or an unknown window throws. *)
Theorem C59_errors : forall n s fc win fc2, (forall t, ~ In s (names t)) \/ (forall f, ~ In (win, f) fen_table) -> design_rif_fen n s fc win fc2 = Exc.
Proof.
  intros n s fc win fc2 H. unfold design_rif_fen, fen_nom. destruct (parse_fenetre win) as [ty| | |] eqn:E.
  - destruct H as [H|H]; [|pose proof (proj2 C57_names win H); congruence]. cbn [bind]. unfold design_fen.
    assert (Q : forall a, (exists t, In a (names t)) -> String.eqb s a = false). { intros a [t Ht]. destruct (String.eqb_spec s a) as [-> |]; [destruct (H t Ht)|reflexivity]. }
    rewrite !Q; [reflexivity|exists SB|exists BP|exists BP|exists HP|exists HP|exists LP|exists LP]; cbn; auto.
  - reflexivity.
  - unfold parse_fenetre in E. exfalso. revert E. clear. induction fen_table as [|[k v] l IH]; cbn; [discriminate|]. destruct (String.eqb k win); [discriminate|exact IH].
  - unfold parse_fenetre in E. exfalso. revert E. clear. induction fen_table as [|[k v] l IH]; cbn; [discriminate|]. destruct (String.eqb k win); [discriminate|exact IH].
Qed.
Print Assumptions C59_errors.
(** Findings.  Even orders: a band-pass design always throws and a band-stop design is undefined behaviour (vectors of n and n - 1 elements are multiplied). *)
Theorem C59_even_band_refuted : forall m win ty fl fh, parse_fenetre win = Ok ty ->
  design_rif_fen (2 * m) "bp" fl win fh = Exc /\ design_rif_fen (2 * m) "pm" fl win fh = Exc /\ design_rif_fen (2 * m) "sb" fl win fh = UB.
Proof.
  intros m win ty fl fh Hw. unfold design_rif_fen. rewrite (nom_ok _ _ _ _ Hw). cbn [bind]. unfold design_fen. rewrite fen_len. cbn -[Nat.mul rif_fen_pm rif_fen_sb].
  assert (Lc : forall wc, List.length (cosines wc (Z.quot (Z.of_nat (2 * m) - 1) 2)) <> (2 * m)%nat).
  { intros wc. unfold cosines, intervalle_entier. rewrite !map_length, seq_length. destruct m as [|m]; [cbn; lia|]. rewrite quot_pred by lia. lia. }
  set (q := Z.quot (Z.of_nat (2 * m) - 1) 2) in *.
  assert (B1 : vmul (vscale 2 (coefs_filtre_sinc (2 * m) ((fh - fl) / 2))) (cosines (PI * (fh + fl)) q) = Exc).
  { apply vmul_bad. unfold vscale. rewrite map_length, taps_length. intros H. apply (Lc (PI * (fh + fl))). symmetry. exact H. }
  assert (B2 : vmul_eq (vneg (coefs_filtre_sinc (2 * m) ((fh - fl) / 2))) (vscale 2 (cosines (PI * (fh + fl)) q)) = UB).
  { apply vmul_bad. unfold vscale, vneg. rewrite !map_length, taps_length. intros H. apply (Lc (PI * (fh + fl))). symmetry. exact H. }
  unfold rif_fen_pm, rif_fen_sb. fold q. rewrite B1, B2. repeat split; reflexivity.
Qed.
Print Assumptions C59_even_band_refuted.
(** Even orders: the impulse response is not symmetric (it is centred on sample n/2 - 1, the window is not); order 2 with the default Hann window gives
    a sum of zero, by which the low-pass filter is divided. *)
Theorem C59_even_refuted : (exists h, design_rif_fen 4 "pb" (1 / 4) "re" 0 = Ok h /\ ~ symmetric h) /\
  forall fc fc2, exists h, design_rif_fen 2 "pb" fc "hn" fc2 = Ok h /\ dc_gain h = 0.
Proof.
  pose proof PI_RGT_0 as PP. split.
  - unfold design_rif_fen, fen_nom. cbn [parse_fenetre fen_table assoc String.eqb Ascii.eqb Bool.eqb bind fen]. unfold design_fen. cbn -[sinc_T coefs_filtre_sinc vmul]. destruct (vmul_ok (coefs_filtre_sinc 4 (1 / 4)) (repeat 1 4)) as (z & E & _ & L & V); [rewrite taps_length; reflexivity|].
    rewrite taps_length. cbn [Nat.eqb negb]. cbn [repeat] in E. rewrite E. cbn [bind]. exists z. split; [reflexivity|]. intros S. rewrite taps_length in L, V. specialize (S 0%nat). rewrite L in S. specialize (S ltac:(lia)). cbn [Nat.sub] in S.
    rewrite !V in S by lia. rewrite !(taps_even 2) in S by lia. cbn [repeat nth] in S. rewrite !Rmult_1_r in S.
    assert (EP : / 10 ^ 7 <= 2 * PI * Rabs (1 / 4)). { rewrite Rabs_pos_eq by lra. assert (/ 10 ^ 7 <= 1) by (rewrite <- Rinv_1; apply Rinv_le_contravar; lra). pose proof PI2_3_2. unfold PI2 in *. lra. }
    rewrite !sinc_ideal in S by exact EP. unfold ideal_lp in S. cbn [Z.of_nat Pos.of_succ_nat Pos.succ] in S. change (0 - (2 - 1))%Z with (-1)%Z in S. change (3 - (2 - 1))%Z with 2%Z in S. change (-1 =? 0)%Z with false in S. change (2 =? 0)%Z with false in S. cbv iota in S. replace (2 * PI * (1 / 4) * 2) with PI in S by field. rewrite sin_PI in S. replace (2 * PI * (1 / 4) * -1) with (- (PI / 2)) in S by field. rewrite sin_neg, sin_PI2 in S.
    revert S. unfold Rdiv. rewrite Rmult_0_l. intros S. apply Rmult_integral in S. destruct S as [S|S]; [lra|]. revert S. apply Rinv_neq_0_compat. lra.
  - intros fc fc2. unfold design_rif_fen. rewrite (nom_ok "hn" HANN 2 true eq_refl). cbn [bind]. unfold design_fen. rewrite fen_len. cbn -[coefs_filtre_sinc vmul fen]. rewrite taps_length. cbn [Nat.eqb negb].
    destruct (vmul_ok (coefs_filtre_sinc 2 fc) (fen HANN 2 true)) as (z & E & _ & L & V); [rewrite taps_length, fen_len; reflexivity|]. rewrite E. cbn [bind]. exists z. split; [reflexivity|]. unfold dc_gain. rewrite L. rewrite taps_length in *.
    destruct (C57_ends HANN 1 (or_introl eq_refl) ltac:(lia)) as [A B]. change (2 * 1)%nat with 2%nat in *. cbn [Nat.sub] in B. rewrite !rsum_S, !V by lia. rewrite A, B. assert (Z0 : forall f, rsum 0 f = 0) by reflexivity. rewrite Z0, !Rmult_0_r, !Rplus_0_r. reflexivity.
Qed.
Print Assumptions C59_even_refuted.
(** The names lp and pb are documented as equivalent but give different filters. *)
Theorem C59_alias_refuted : exists h g, design_rif_fen 1 "lp" (1 / 4) "hn" 0 = Ok h /\ design_rif_fen 1 "pb" (1 / 4) "hn" 0 = Ok g /\ h <> g.
Proof.
  destruct (C59_lowpass_gain 0 "hn" HANN (1 / 4) 0 eq_refl ltac:(discriminate) ltac:(lra)) as (h & g & E & G & P & D & _ & _). exists h, g. split; [exact E|]. split; [exact G|]. intros <-.
  destruct (C59_halfband 0 "hn" HANN 0 eq_refl ltac:(discriminate)) as (h' & E' & _ & S & _). assert (h' = h) by congruence. subst h'. specialize (S 0). rewrite response_0 in S. assert (R0 : response h (PI - 0) = response h 0).
  { destruct (C59_linear_phase 0 "hn" HANN LP "pb" (1 / 4) 0 eq_refl) as (h2 & E2 & L2 & _); [right; left; reflexivity|]. assert (h2 = h) by congruence. subst h2. unfold response. rewrite L2. change (2 * 0 + 1)%nat with 1%nat. apply rsum_ext. intros i Hi. replace i with 0%nat by lia. cbn [INR]. do 2 f_equal. field. }
  rewrite R0, response_0 in S. lra.
Qed.
Print Assumptions C59_alias_refuted.
(** The hypotheses are met by the default window. *)
Example C59_example : parse_fenetre "hn" = Ok HANN /\ / 10 ^ 7 <= 2 * PI * (1 / 10) /\ In "sb" (names SB).
Proof.
  split; [reflexivity|]. split; [|left; reflexivity]. assert (/ 10 ^ 7 <= / 10) by (apply Rinv_le_contravar; lra). pose proof PI2_3_2. unfold PI2 in *. lra.
Qed.
