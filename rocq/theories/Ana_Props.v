(** C80: analogue modulations: FM discriminator, AM modulator and demodulator, FM demodulator. *)
From Coq Require Import Reals Lra String.
From Verif Require Import Base BaseLemmas RField ComplexSys DftSys Filters_Model Filters_Spec Filters_Proofs Filters_Props Polyphase_Model Sig_Model Sig_Spec Sig_Proofs Win_Model Win_Spec Win_Proofs Rif_Model Hil_Model Hil_Spec Hil_Proofs2 Hil_Props Geo_Model Geo_Proofs2 Phase_Spec Phase_Proofs Pll_Model Ana_Model Ana_Spec Ana_Proofs Fz_Proofs2.
Local Open Scope R_scope.

(** ** FM discriminator *)
Lemma discri_map : forall x last, exists s y, map_st discri_sample last x = Ok (s, y) /\ List.length y = List.length x /\ forall n, (n < List.length x)%nat -> nth n y 0 = arg (mulz (nth n x (0, 0)) (conjz (nth n (last :: x) (0, 0)))).
Proof.
  induction x as [|a x IH]; intros last; [exists last, []; split; [reflexivity|split; [reflexivity|intros n H; cbn in H; lia]]|]. cbn [map_st discri_sample bind]. destruct (IH a) as (s & y & E & L & V). rewrite E. cbn [bind]. exists s, (arg (mulz a (conjz last)) :: y). split; [reflexivity|]. split; [cbn; lia|].
  intros n Hn. destruct n as [|n]; [reflexivity|]. cbn [nth]. apply V. cbn in Hn. lia.
Qed.
(** For every splitting into blocks, of a signal of positive amplitudes a_k and phases
    p_k: 0 first, then the increments of the phase brought into (-pi, pi]; the
    increments themselves when they lie there; the amplitudes have no effect. *)
Theorem C80_discriminator blocks a p N : concat blocks = polar_samples a p N -> (forall k, 0 < a k) ->
  exists s y, run discri_step discri_init blocks = Ok (s, y) /\ List.length y = N /\ ((0 < N)%nat -> nth 0 y 0 = 0) /\
    forall n, (S n < N)%nat -> - PI < nth (S n) y 0 <= PI /\ congruent (2 * PI) (nth (S n) y 0) (p (S n) - p n) /\ (- PI < p (S n) - p n <= PI -> nth (S n) y 0 = p (S n) - p n).
Proof.
  intros Hx Ha. unfold discri_step. rewrite run_map_st, Hx. destruct (discri_map (polar_samples a p N) discri_init) as (s & y & E & L & V). assert (LN : List.length (polar_samples a p N) = N) by (unfold polar_samples; rewrite map_length, seq_length; reflexivity). rewrite LN in *.
  exists s, y. split; [exact E|]. split; [exact L|]. split.
  - intros HN. rewrite V by exact HN. cbn [nth discri_init conjz]. unfold mulz, conjz, discri_init, arg. cbn [fst snd]. rewrite Ropp_0, !Rmult_0_r. unfold atan2. replace (0 - 0) with 0 by ring. replace (0 + 0) with 0 by ring. destruct (Rlt_dec 0 0); [lra|reflexivity].
  - intros n Hn. rewrite V by exact Hn. cbn [nth]. unfold polar_samples. rewrite !(nth_map_seq (X := R * R)) by lia. unfold mulz, conjz. cbn [fst snd]. set (d := p (S n) - p n). set (g := a (S n) * a n). assert (Hg : 0 < g) by (apply Rmult_lt_0_compat; apply Ha).
    match goal with |- context [arg ?z] => replace z with (g * cos d, g * sin d) end; [|unfold g, d; rewrite cos_minus, sin_minus; f_equal; ring].
    split; [apply atan2_range|]. split; [apply arg_congruent; exact Hg|]. intros B. apply atan2_of_polar; assumption.
Qed.
Print Assumptions C80_discriminator.

(** ** AM modulator: us are the blocks given by the resampler *)
(** Double side band: each block is divided by its own peak *)
Theorem C80_dsb {Sra} (ra : Sra -> list R -> res (Sra * list R)) r0 indice nu blocks us : outs ra r0 blocks = Ok us -> (forall u, In u us -> u <> [] -> exists v, In v u /\ v <> 0) ->
  exists s0 s y, am_init DSB r0 nu = Ok s0 /\ run (am_step ra DSB indice) s0 blocks = Ok (s, y) /\ List.length y = List.length (concat us) /\
    forall n, (n < List.length y)%nat -> nth n y 0 = nth n (concat (map (fun u => map (fun v => 1 + indice * v / peak u) u) us)) 0 * cos (2 * PI * nu * INR n).
Proof.
  intros E Hu. eexists. destruct (dsb_run indice nu None us 0) as (s1 & R1).
  { intros u Iu Nu. destruct (Hu u Iu Nu) as (v & Iv & Nv). destruct (peak_ok u Nu) as (B & _). specialize (B v Iv). pose proof (Rabs_pos_lt v Nv). lra. }
  destruct (am_run ra DSB indice blocks r0 (ost 0 nu) None us E s1 _ R1) as (s & R2). exists s. eexists. split; [unfold am_init; cbn [est_BLU]; rewrite ost_new; reflexivity|]. split; [exact R2|].
  assert (Le : List.length (concat (map (env indice) us)) = List.length (concat us)). { clear. induction us as [|u us IH]; [reflexivity|]. cbn [map concat]. rewrite !app_length, IH. unfold env. rewrite map_length. reflexivity. }
  assert (Lt : List.length (concat (map (env indice) us)) = List.length (tone 0 nu (List.length (concat us)))) by (rewrite tone_length; exact Le).
  split; [rewrite times_length by exact Lt; exact Le|]. intros n Hn. rewrite times_length in Hn by exact Lt. rewrite times_nth by (try exact Lt; exact Hn). rewrite tone_nth by lia. unfold unit_at. cbn [fst]. rewrite Rplus_0_l. reflexivity.
Qed.
(** ... so the envelope stays within indice of 1 *)
Theorem C80_envelope u v indice : In v u -> v <> 0 \/ (exists w, In w u /\ w <> 0) -> is_peak u (peak u) /\ Rabs (1 + indice * v / peak u - 1) <= Rabs indice.
Proof.
  intros Iv Hw. assert (Nu : u <> []) by (intros ->; destruct Iv). pose proof (peak_ok u Nu) as P. split; [exact P|]. destruct P as (B & _). assert (Pp : 0 < peak u). { destruct Hw as [Hv|(w & Iw & Hw)]; [specialize (B v Iv); pose proof (Rabs_pos_lt v Hv); lra|specialize (B w Iw); pose proof (Rabs_pos_lt w Hw); lra]. }
  replace (1 + indice * v / peak u - 1) with (indice * (v / peak u)) by (field; lra). rewrite Rabs_mult. rewrite <- (Rmult_1_r (Rabs indice)) at 2. apply Rmult_le_compat_l; [apply Rabs_pos|]. unfold Rdiv. rewrite Rabs_mult, (Rabs_right (/ peak u)) by (left; apply Rinv_0_lt_compat; exact Pp). apply (Rmult_le_reg_r (peak u)); [exact Pp|]. rewrite Rmult_assoc, Rinv_l by lra. specialize (B v Iv). lra.
Qed.
(** Finding: the gain changes from block to block: the same signal in one or two blocks
    gives two different outputs; a silent block gives not-a-number *)
Theorem C80_dsb_blocks_refuted : exists s0 s1 s2 y1 y2, am_init DSB tt 0 = Ok s0 /\ run (am_step idra DSB 1) s0 [[1; 2]] = Ok (s1, y1) /\ run (am_step idra DSB 1) s0 [[1]; [2]] = Ok (s2, y2) /\ nth 0 y1 0 = 3 / 2 /\ nth 0 y2 0 = 2.
Proof.
  destruct (C80_dsb idra tt 1 0 [[1; 2]] [[1; 2]] eq_refl) as (s0 & s1 & y1 & E0 & E1 & L1 & V1); [intros u [<-|[]] _; exists 1; split; [left; reflexivity|lra]|].
  destruct (C80_dsb idra tt 1 0 [[1]; [2]] [[1]; [2]] eq_refl) as (s0' & s2 & y2 & E0' & E2 & L2 & V2); [intros u [<-|[<-|[]]] _; [exists 1|exists 2]; (split; [left; reflexivity|lra])|].
  rewrite E0 in E0'. injection E0' as <-. exists s0, s1, s2, y1, y2. split; [exact E0|]. split; [exact E1|]. split; [exact E2|]. cbn [concat List.length app] in L1, L2. split.
  - rewrite V1 by lia. cbn [map concat app nth INR]. rewrite !Rmult_0_r, cos_0. unfold peak. cbn [fold_right]. rewrite (Rabs_right 2), (Rabs_right 1), (Rmax_left 2 0), (Rmax_right 1 2) by lra. field.
  - rewrite V2 by lia. cbn [map concat app nth INR]. rewrite !Rmult_0_r, cos_0. unfold peak. cbn [fold_right]. rewrite (Rabs_right 1), (Rmax_left 1 0) by lra. field.
Qed.
Theorem C80_dsb_silence_refuted indice s n : (0 < n)%nat -> am_step idra DSB indice s (repeat 0 n) = UB.
Proof.
  intros Hn. unfold am_step, idra. cbn [bind]. rewrite repeat_length. destruct (Nat.eqb_spec n 0); [lia|]. cbn [negb andb]. assert (P : peak (repeat 0 n) = 0) by (clear; induction n as [|n IH]; [reflexivity|]; cbn [repeat peak fold_right]; unfold peak in IH; rewrite IH, Rabs_R0; apply Rmax_left; lra). rewrite P. destruct (Req_EM_T 0 0); [reflexivity|congruence].
Qed.
(** Suppressed carrier: the resampled signal times the carrier, whatever the blocks *)
Theorem C80_dsb_sc {Sra} (ra : Sra -> list R -> res (Sra * list R)) r0 r' indice nu blocks u : run ra r0 blocks = Ok (r', u) ->
  exists s0 s y, am_init DSB_SC r0 nu = Ok s0 /\ run (am_step ra DSB_SC indice) s0 blocks = Ok (s, y) /\ List.length y = List.length u /\
    forall n, (n < List.length y)%nat -> nth n y 0 = nth n u 0 * cos (2 * PI * nu * INR n).
Proof.
  intros Er. destruct (run_outs ra blocks r0 r' u Er) as (us & E & <-). eexists. destruct (sc_run indice nu None us 0) as (s1 & R1). destruct (am_run ra DSB_SC indice blocks r0 (ost 0 nu) None us E s1 _ R1) as (s & R2). exists s. eexists. split; [unfold am_init; cbn [est_BLU]; rewrite ost_new; reflexivity|]. split; [exact R2|].
  assert (Lt : List.length (concat us) = List.length (tone 0 nu (List.length (concat us)))) by (rewrite tone_length; reflexivity).
  split; [apply times_length; exact Lt|]. intros n Hn. rewrite times_length in Hn by exact Lt. rewrite times_nth by (try exact Lt; exact Hn). rewrite tone_nth by lia. unfold unit_at. cbn [fst]. rewrite Rplus_0_l. reflexivity.
Qed.
(** Single side band: h are the taps of the 255-tap Hilbert filter with Hann window *)
Theorem C80_ssb {Sra} (ra : Sra -> list R -> res (Sra * list R)) r0 r' m indice nu blocks u : est_BLU m = true -> run ra r0 blocks = Ok (r', u) ->
  exists h s0 s y, design_rif_hilbert 255 "hn" = Ok h /\ am_init m r0 nu = Ok s0 /\ run (am_step ra m indice) s0 blocks = Ok (s, y) /\ List.length y = List.length u /\
    forall n, (n < List.length y)%nat -> nth n y 0 = sampZ (K := Rring) u (Z.of_nat n - 127) * cos (2 * PI * nu * INR n) + (match m with LSB => -1 | _ => 1 end) * conv (K := Rring) h u n * sin (2 * PI * nu * INR n).
Proof.
  intros Hm Er. destruct (run_outs ra blocks r0 r' u Er) as (us & E & <-). destruct (C61_stream 127 "hn" HANN us eq_refl) as (h & h0 & h1 & z & Eh & Ei & Rz & Lz & Vz). exists h. change (2 * 127 + 1)%nat with 255%nat in *.
  destruct (ssb_run m indice nu Hm us 0 h0 h1 z Rz) as (s1 & R1). destruct (am_run ra m indice blocks r0 (ost 0 nu) (Some h0) us E s1 _ R1) as (s & R2). exists (mkam r0 (ost 0 nu) (Some h0)), s. eexists. split; [exact Eh|]. split; [unfold am_init; rewrite Hm, Ei; cbn [bind]; rewrite ost_new; reflexivity|]. split; [exact R2|].
  assert (Lt : List.length z = List.length (tone 0 nu (List.length z))) by (rewrite tone_length; reflexivity). split; [rewrite ssb_length by exact Lt; exact Lz|]. intros n Hn. rewrite ssb_length in Hn by exact Lt. rewrite ssb_nth by assumption. rewrite tone_nth by exact Hn. rewrite Vz by exact Hn. unfold unit_at. cbn [fst snd]. rewrite Rplus_0_l. reflexivity.
Qed.
Print Assumptions C80_ssb.

(** A tone of frequency om between 0 and pi gives the two sidebands 2 pi nu - om and
    2 pi nu + om with the amplitudes (1 + A) / 2 and (1 - A) / 2 in mode USB, the other
    way round in mode LSB, A > 0 being the amplitude of the Hilbert filter at om *)
Lemma hann_pos m : (2 <= m)%nat -> 0 < nth (m + 1) (fen HANN (2 * m + 1) true) 0.
Proof.
  intros Hm. rewrite fen_val by (lia || discriminate). rewrite inter_odd_sym by lia. unfold shape. pose proof PI_RGT_0. rewrite plus_INR, (plus_INR (2 * m)), mult_INR. cbn [INR]. assert (2 <= INR m) by (apply (le_INR 2); exact Hm). replace ((INR m + 1 - INR m) / ((1 + 1) * INR m + 1)) with (/ (2 * INR m + 1)) by (field; lra).
  assert (B : 0 < / (2 * INR m + 1) <= / 5) by (split; [apply Rinv_0_lt_compat; lra|apply Rinv_le_contravar; lra]). assert (0 < cos (2 * PI * / (2 * INR m + 1))) by (apply cos_gt_0; nra). lra.
Qed.
Theorem C80_ssb_tone {Sra} (ra : Sra -> list R -> res (Sra * list R)) r0 r' m indice nu om phi blocks u : est_BLU m = true -> run ra r0 blocks = Ok (r', u) ->
  (forall k, (k < List.length u)%nat -> nth k u 0 = cos (om * INR k + phi)) ->
  exists h s0 s y A, design_rif_hilbert 255 "hn" = Ok h /\ am_init m r0 nu = Ok s0 /\ run (am_step ra m indice) s0 blocks = Ok (s, y) /\ List.length y = List.length u /\
    A = amplitude h 127 om /\ (0 < om < PI -> 0 < A) /\
    forall n, (254 <= n < List.length y)%nat -> let theta := om * (INR n - 127) + phi in let c := 2 * PI * nu * INR n in
      nth n y 0 = match m with USB => (1 + A) / 2 * cos (c - theta) + (1 - A) / 2 * cos (c + theta) | _ => (1 - A) / 2 * cos (c - theta) + (1 + A) / 2 * cos (c + theta) end.
Proof.
  intros Hm Er Hu. destruct (C80_ssb ra r0 r' m indice nu blocks u Hm Er) as (h & s0 & s & y & Eh & E0 & E1 & L & V). exists h, s0, s, y, (amplitude h 127 om). split; [exact Eh|]. split; [exact E0|]. split; [exact E1|]. split; [exact L|]. split; [reflexivity|].
  destruct (C61_quadrature 127 "hn" HANN h eq_refl ltac:(discriminate) Eh) as (_ & _ & _ & _ & Q). split; [intros Ho; apply Q; [exact Ho|lia|apply (hann_pos 127); lia]|].
  destruct (hil_design 127 "hn" HANN eq_refl) as (h' & Eh' & Lh & _). change (2 * 127 + 1)%nat with 255%nat in Eh'. rewrite Eh in Eh'. injection Eh' as <-. pose proof (hil_anti 127 "hn" HANN h eq_refl Eh) as Ha.
  intros n Hn theta c. rewrite V by lia. fold c. assert (E127 : INR 127 = 127) by (rewrite INR_IZR_INZ; reflexivity). pose proof (Hil_Proofs2.conv_tone h 127 u n om phi Lh Ha ltac:(lia) Hu) as Cv. rewrite E127 in Cv. fold theta in Cv. etransitivity; [apply f_equal2; [reflexivity|]; apply f_equal2; [apply f_equal; exact Cv|reflexivity]|].
  assert (Sz : sampZ (K := Rring) u (Z.of_nat n - 127) = cos theta). { replace (Z.of_nat n - 127)%Z with (Z.of_nat (n - 127)) by lia. etransitivity; [apply (sampZ_nat Rring)|]. etransitivity; [apply (Hu (n - 127)%nat); lia|]. unfold theta. f_equal. rewrite minus_INR, E127 by lia. ring. }
  rewrite Sz. generalize (amplitude h 127 om). intros A. destruct m; try discriminate; rewrite cos_plus, cos_minus; field.
Qed.
(** Finding: the sidebands are swapped: in mode USB the lower one is the stronger, in
    mode LSB the upper one *)
Theorem C80_sidebands_refuted h om : design_rif_hilbert 255 "hn" = Ok h -> 0 < om < PI -> let A := amplitude h 127 om in Rabs ((1 - A) / 2) < Rabs ((1 + A) / 2).
Proof.
  intros Eh Ho A. destruct (C61_quadrature 127 "hn" HANN h eq_refl ltac:(discriminate) Eh) as (_ & _ & _ & _ & Q). assert (P : 0 < A) by (apply Q; [exact Ho|lia|apply (hann_pos 127); lia]). rewrite (Rabs_right ((1 + A) / 2)) by lra. apply Rabs_def1; lra.
Qed.

(** ** AM demodulator *)
(** Finding: in the modes with two bands nothing ever comes out, whatever is received *)
Theorem C80_dsb_demod_refuted {Sra Slp Shp} (ra : Sra -> list R -> res (Sra * list R)) (lp : Slp -> list R -> res (Slp * list R)) (hp : Shp -> list R -> res (Shp * list R)) m r0 l0 h0 nu blocks :
  est_BLU m = false -> keeps lp -> keeps hp -> (forall r u, exists r' v, ra r u = Ok (r', v)) -> exists s0 s, ad_init m r0 l0 h0 nu = Ok s0 /\ run (ad_step ra lp hp m) s0 blocks = Ok (s, []).
Proof.
  intros Hm Kl Kh Ka. eexists. destruct (dsb_run_empty Sra Slp Shp ra lp hp Kl Kh m Hm Ka blocks (mkad r0 l0 h0 (ohc_new (- nu)) None)) as (s & E). exists s. split; [unfold ad_init; rewrite Hm; reflexivity|exact E].
Qed.
(** Single side band: the signal y1 of the block structure of the input, made of the
    delayed real part minus the filtered imaginary part of the shifted input, goes
    through the two low-pass filters, whose outputs are subtracted *)
Theorem C80_ssb_demod {Sra Slp Shp} (ra : Sra -> list R -> res (Sra * list R)) (lp : Slp -> list R -> res (Slp * list R)) (hp : Shp -> list R -> res (Shp * list R)) m r0 l0 h0 nu blocks :
  est_BLU m = true -> keeps lp -> keeps hp -> let x := concat blocks in let z n := mulz (nth n x (0, 0)) (unit_at (- (2 * PI * nu * INR n))) in
  exists h s0 s y y1b a b l1 h1, design_rif_hilbert 127 "hn" = Ok h /\ ad_init m r0 l0 h0 nu = Ok s0 /\ run (ad_step ra lp hp m) s0 blocks = Ok (s, y) /\
    map (@List.length R) y1b = map (@List.length (R * R)) blocks /\ run lp l0 y1b = Ok (l1, a) /\ run hp h0 y1b = Ok (h1, b) /\ List.length y = List.length x /\ (forall n, (n < List.length y)%nat -> nth n y 0 = nth n a 0 - nth n b 0) /\
    forall n, (n < List.length x)%nat -> nth n (concat y1b) 0 = sampZ (K := Rring) (map (fun k => fst (z k)) (seq 0 (List.length x))) (Z.of_nat n - 63) - conv (K := Rring) h (map (fun k => snd (z k)) (seq 0 (List.length x))) n.
Proof.
  intros Hm Kl Kh x z. destruct (hil_design 63 "hn" HANN eq_refl) as (h & Eh & Lh & _). change (2 * 63 + 1)%nat with 127%nat in *. exists h. assert (Hh : h <> []) by (intros Q; rewrite Q in Lh; discriminate).
  set (sb := shift_blocks 0 (- nu) blocks). destruct (C10_convolution Rring h (map (map snd) sb) Hh) as (f' & ix & Ef & Lf & Vf). destruct (C11_delay Rring 63 (map (map fst) sb)) as (d' & rx & Ed & Ld & Vd).
  destruct (ssb_dem Sra Slp Shp ra lp hp Kl Kh m (- nu) Hm blocks 0 r0 l0 h0 _ _ f' d' ix rx Ef Ed) as (y1b & a & b & l1 & h1 & s & C1 & C2 & C3 & C4 & C5 & C6 & C7).
  assert (Cz : concat sb = map z (seq 0 (List.length x))).
  { unfold sb. rewrite shift_concat. fold x. apply (list_ext (0, 0)); [rewrite shifted_length, map_length, seq_length; reflexivity|]. intros n Hn. rewrite shifted_length in Hn. rewrite shifted_nth by exact Hn. rewrite (nth_map_seq (X := R * R)) by exact Hn. unfold z. do 2 f_equal. ring. }
  assert (Cf : concat (map (map fst) sb) = map (fun k => fst (z k)) (seq 0 (List.length x))) by (rewrite <- concat_map, Cz, map_map; reflexivity). assert (Cs : concat (map (map snd) sb) = map (fun k => snd (z k)) (seq 0 (List.length x))) by (rewrite <- concat_map, Cz, map_map; reflexivity).
  exists (mkad r0 l0 h0 (ost 0 (- nu)) (Some (fir_init (K := Rring) h, delay_init (K := Rring) 63))), s, (map (fun p => fst p - snd p) (combine a b)), y1b, a, b, l1, h1. split; [exact Eh|]. split.
  { unfold ad_init. rewrite Hm. unfold hil_init. rewrite Eh. cbn [bind]. rewrite ost_new. reflexivity. }
  split; [exact C7|]. split; [exact C2|]. split; [exact C3|]. split; [exact C4|]. split; [rewrite map_length, combine_length, <- C5, Nat.min_id; exact C6|]. split; [intros n _; apply vminus_nth; exact C5|].
  intros n Hn. assert (Lx : List.length (concat (map (map fst) sb)) = List.length x) by (rewrite Cf, map_length, seq_length; reflexivity). assert (Lx' : List.length (concat (map (map snd) sb)) = List.length x) by (rewrite Cs, map_length, seq_length; reflexivity).
  assert (Lr : @List.length R rx = List.length x) by (etransitivity; [exact Ld|exact Lx]). assert (Li : @List.length R ix = List.length x) by (etransitivity; [exact Lf|exact Lx']).
  rewrite C1. rewrite vminus_nth by (etransitivity; [exact Lr|symmetry; exact Li]). f_equal.
  - etransitivity; [apply (Vd n); rewrite (Lr : @List.length (car Rring) rx = _); exact Hn|]. rewrite <- Cf. reflexivity.
  - etransitivity; [apply (Vf n); rewrite (Li : @List.length (car Rring) ix = _); exact Hn|]. rewrite <- Cs. reflexivity.
Qed.
(** A complex tone above (sg = 1) or below (sg = -1) the carrier comes out of this first
    stage multiplied by 1 + sg A: the demodulator keeps the upper sideband *)
Theorem C80_ssb_demod_tone h nu om phi (sg : R) N : design_rif_hilbert 127 "hn" = Ok h -> sg = 1 \/ sg = -1 ->
  let z n := mulz (unit_at (2 * PI * nu * INR n + sg * (om * INR n + phi))) (unit_at (- (2 * PI * nu * INR n))) in let A := amplitude h 63 om in
  (0 < om < PI -> 0 < A) /\
  forall n, (126 <= n < N)%nat -> sampZ (K := Rring) (map (fun k => fst (z k)) (seq 0 N)) (Z.of_nat n - 63) - conv (K := Rring) h (map (fun k => snd (z k)) (seq 0 N)) n = (1 + sg * A) * cos (om * (INR n - 63) + phi).
Proof.
  intros Eh Hs z A. destruct (C61_quadrature 63 "hn" HANN h eq_refl ltac:(discriminate) Eh) as (_ & _ & _ & _ & Q). split; [intros Ho; apply Q; [exact Ho|lia|apply (hann_pos 63); lia]|].
  destruct (hil_design 63 "hn" HANN eq_refl) as (h' & Eh' & Lh & _). change (2 * 63 + 1)%nat with 127%nat in Eh'. rewrite Eh in Eh'. injection Eh' as <-. pose proof (hil_anti 63 "hn" HANN h eq_refl Eh) as Ha. assert (E63 : INR 63 = 63) by (rewrite INR_IZR_INZ; reflexivity).
  assert (Zk : forall k, z k = (cos (om * INR k + phi), sg * sin (om * INR k + phi))).
  { intros k. unfold z, mulz, unit_at. cbn [fst snd]. set (w := om * INR k + phi). set (c := 2 * PI * nu * INR k). rewrite <- cos_plus. replace (c + sg * w + - c) with (sg * w) by ring. rewrite Rplus_comm, (Rmult_comm (cos (c + sg * w))), Rplus_comm. replace (sin (- c) * cos (c + sg * w) + sin (c + sg * w) * cos (- c)) with (sin (c + sg * w + - c)) by (rewrite sin_plus; ring). replace (c + sg * w + - c) with (sg * w) by ring. destruct Hs as [->| ->]; [rewrite !Rmult_1_l; reflexivity|]. replace (-1 * w) with (- w) by ring. rewrite cos_neg, sin_neg. f_equal. ring. }
  intros n Hn. set (u := map (fun k => snd (z k)) (seq 0 N)). assert (Lu : List.length u = N) by (unfold u; rewrite map_length, seq_length; reflexivity).
  assert (Sz : sampZ (K := Rring) (map (fun k => fst (z k)) (seq 0 N)) (Z.of_nat n - 63) = cos (om * (INR n - 63) + phi)).
  { replace (Z.of_nat n - 63)%Z with (Z.of_nat (n - 63)) by lia. etransitivity; [apply (sampZ_nat Rring)|]. unfold samp. etransitivity; [apply (nth_map_seq (X := R)); lia|]. rewrite Zk. cbn [fst]. f_equal. rewrite minus_INR, E63 by lia. ring. }
  rewrite Sz. assert (Cv : conv (K := Rring) h u n = - (sg * A * cos (om * (INR n - 63) + phi))).
  { rewrite (Hil_Proofs2.conv_tone h 63 u n om (phi - sg * (PI / 2)) Lh Ha); [|lia|].
    - rewrite E63. fold A. replace (om * (INR n - 63) + (phi - sg * (PI / 2))) with (om * (INR n - 63) + phi - sg * (PI / 2)) by ring. destruct Hs as [->| ->]; rewrite sin_minus; [replace (1 * (PI / 2)) with (PI / 2) by ring|replace (-1 * (PI / 2)) with (- (PI / 2)) by ring; rewrite cos_neg, sin_neg]; rewrite cos_PI2, sin_PI2; match goal with |- ?a = ?b => change (@eq R a b) end; ring.
    - intros j Hj. rewrite Lu in Hj. unfold u. rewrite (nth_map_seq (X := R)) by exact Hj. rewrite Zk. cbn [snd]. replace (om * INR j + (phi - sg * (PI / 2))) with (om * INR j + phi - sg * (PI / 2)) by ring. destruct Hs as [->| ->]; rewrite cos_minus; [replace (1 * (PI / 2)) with (PI / 2) by ring|replace (-1 * (PI / 2)) with (- (PI / 2)) by ring; rewrite cos_neg, sin_neg]; rewrite cos_PI2, sin_PI2; ring. }
  etransitivity; [apply f_equal; exact Cv|]. ring.
Qed.
(** Finding: the mode LSB demodulates exactly like the mode USB *)
Theorem C80_lsb_demod_refuted {Sra Slp Shp} (ra : Sra -> list R -> res (Sra * list R)) (lp : Slp -> list R -> res (Slp * list R)) (hp : Shp -> list R -> res (Shp * list R)) (r0 : Sra) (l0 : Slp) (h0 : Shp) nu s x :
  ad_init LSB r0 l0 h0 nu = ad_init USB r0 l0 h0 nu /\ ad_step ra lp hp LSB s x = ad_step ra lp hp USB s x.
Proof. split; reflexivity. Qed.

(** ** FM demodulator *)
(** Finding: the first RDS bit makes it throw *)
Theorem C80_rds_refuted {Swb Sfm Srds Sa Sp} wb fm rds audio pll Rd (s : fm_dem Swb Sfm Srds Sa Sp) x w y1 f a2 a3 r nb : wb (fd_wb _ _ _ _ _ s) x = Ok (w, y1) ->
  (exists l a, discri_step (fd_last _ _ _ _ _ s) y1 = Ok (l, a) /\ fm (fd_fm _ _ _ _ _ s) (map (fun v => v / 75000) a) = Ok (f, a2)) -> sousech a2 Rd = Ok a3 -> rds (fd_rds _ _ _ _ _ s) a3 = Ok (r, S nb) ->
  fd_step Swb Sfm Srds Sa Sp wb fm rds audio pll Rd s x = Exc.
Proof. intros E1 (l & a & E2 & E3) E4 E5. unfold fd_step. rewrite E1. cbn [bind]. rewrite E2. cbn [bind]. rewrite E3. cbn [bind]. rewrite E4. cbn [bind]. rewrite E5. reflexivity. Qed.
Lemma nth_map_combine {X} (f : R * R -> X) a b n d : List.length a = List.length b -> (n < List.length b)%nat -> nth n (map f (combine a b)) d = f (nth n a 0, nth n b 0).
Proof. intros L Hn. rewrite (nth_indep _ d (f (0, 0))) by (rewrite map_length, combine_length; lia). rewrite (map_nth f), combine_nth by exact L. reflexivity. Qed.
(** Without RDS bits: audio filters giving a + b and a - b lead to the output (2 a, 2 b) *)
Theorem C80_fm_stereo {Swb Sfm Srds Sa Sp} wb fm rds audio pll Rd (s : fm_dem Swb Sfm Srds Sa Sp) x w y1 l d f a2 a3 r sL sR p cw (a b : nat -> R) N : wb (fd_wb _ _ _ _ _ s) x = Ok (w, y1) ->
  discri_step (fd_last _ _ _ _ _ s) y1 = Ok (l, d) -> fm (fd_fm _ _ _ _ _ s) (map (fun v => v / 75000) d) = Ok (f, a2) -> sousech a2 Rd = Ok a3 -> rds (fd_rds _ _ _ _ _ s) a3 = Ok (r, 0%nat) ->
  pll (fd_pll _ _ _ _ _ s) a3 = Ok (p, cw) -> List.length cw = List.length a3 ->
  audio (fd_L _ _ _ _ _ s) a3 = Ok (sL, map (fun k => a k + b k) (seq 0 N)) -> audio (fd_R _ _ _ _ _ s) (map (fun k => nth k cw 0 * nth k cw 0 * nth k a3 0) (seq 0 (List.length a3))) = Ok (sR, map (fun k => a k - b k) (seq 0 N)) ->
  fd_step Swb Sfm Srds Sa Sp wb fm rds audio pll Rd s x = Ok (mkfm _ _ _ _ _ w l f r sL sR p, map (fun k => (2 * a k, 2 * b k)) (seq 0 N)).
Proof.
  intros E1 E2 E3 E4 E5 E6 Lc E7 E8. unfold fd_step. rewrite E1. cbn [bind]. rewrite E2. cbn [bind]. rewrite E3. cbn [bind]. rewrite E4. cbn [bind]. rewrite E5. cbn [bind Nat.ltb Nat.leb]. rewrite E7. cbn [bind]. rewrite E6. cbn [bind]. rewrite Lc, Nat.eqb_refl. cbn [negb].
  assert (Em : map (fun q => fst q * fst q * snd q) (combine cw a3) = map (fun k => nth k cw 0 * nth k cw 0 * nth k a3 0) (seq 0 (List.length a3))).
  { apply (list_ext 0); [rewrite !map_length, combine_length, seq_length; lia|]. intros n Hn. rewrite map_length, combine_length in Hn. rewrite (nth_map_seq (X := R)) by lia. rewrite nth_map_combine by (exact Lc || lia). reflexivity. }
  rewrite Em, E8. cbn [bind]. rewrite !map_length, Nat.eqb_refl. cbn [negb]. do 2 f_equal. apply (list_ext (0, 0)); [rewrite !map_length, combine_length, !map_length; lia|]. intros n Hn. rewrite map_length, combine_length, !map_length, seq_length, Nat.min_id in Hn.
  rewrite (nth_map_seq (X := R * R)) by exact Hn. rewrite nth_map_combine by (rewrite !map_length, ?seq_length; (reflexivity || exact Hn)). rewrite !(nth_map_seq (X := R)) by exact Hn. cbn [fst snd]. f_equal; ring.
Qed.
Print Assumptions C80_fm_stereo.

(** Concrete cases *)
Example C80_keeps_id : keeps (fun (s : unit) (x : list R) => Ok (s, x)).
Proof. intros s x. exists s, x. split; reflexivity. Qed.
(** a frequency step: phases 0, 1, 2, 1, 1 *)
Example C80_discriminator_case : exists s y, run discri_step discri_init [[(1, 0); (2 * cos 1, 2 * sin 1)]; []; [(cos 2, sin 2); (cos 1, sin 1)]] = Ok (s, y) /\ nth 0 y 0 = 0 /\ nth 1 y 0 = 1 /\ nth 2 y 0 = 1 /\ nth 3 y 0 = -1.
Proof.
  destruct (C80_discriminator [[(1, 0); (2 * cos 1, 2 * sin 1)]; []; [(cos 2, sin 2); (cos 1, sin 1)]] (fun k => match k with 1%nat => 2 | _ => 1 end) (fun k => match k with 0%nat => 0 | 1%nat => 1 | 2%nat => 2 | _ => 1 end) 4) as (s & y & E & L & V0 & V).
  - unfold polar_samples. cbn [map seq concat app]. rewrite cos_0, sin_0, !Rmult_1_l. reflexivity.
  - intros [|[|k]]; lra.
  - exists s, y. split; [exact E|]. pose proof PI2_3_2. pose proof PI_RGT_0. split; [apply V0; lia|]. split; [destruct (V 0%nat ltac:(lia)) as (_ & _ & W); rewrite W; lra|]. split; [destruct (V 1%nat ltac:(lia)) as (_ & _ & W); rewrite W; lra|destruct (V 2%nat ltac:(lia)) as (_ & _ & W); rewrite W; lra].
Qed.
(** the whole demodulator runs on a signal of every length and lets a tone below the carrier through with a gain below 1, above it with a gain above 1 *)
Example C80_ssb_demod_case : exists h s0 s y, design_rif_hilbert 127 "hn" = Ok h /\ ad_init USB tt tt tt (1 / 4) = Ok s0 /\ run (ad_step idra idra idra USB) s0 [[(1, 0); (0, 1)]; [(1, 1)]] = Ok (s, y) /\ List.length y = 3%nat.
Proof.
  destruct (C80_ssb_demod idra idra idra USB tt tt tt (1 / 4) [[(1, 0); (0, 1)]; [(1, 1)]] eq_refl C80_keeps_id C80_keeps_id) as (h & s0 & s & y & _ & _ & _ & _ & _ & E0 & E1 & E2 & _ & _ & _ & L & _). exists h, s0, s, y. split; [exact E0|]. split; [exact E1|]. split; [exact E2|exact L].
Qed.
Example C80_ssb_case : exists h s0 s y, design_rif_hilbert 255 "hn" = Ok h /\ am_init LSB tt (1 / 8) = Ok s0 /\ run (am_step idra LSB 1) s0 [[1; 0]; [2]] = Ok (s, y) /\ List.length y = 3%nat.
Proof. destruct (C80_ssb idra tt tt LSB 1 (1 / 8) [[1; 0]; [2]] [1; 0; 2] eq_refl eq_refl) as (h & s0 & s & y & E0 & E1 & E2 & L & _). exists h, s0, s, y. split; [exact E0|]. split; [exact E1|]. split; [exact E2|exact L]. Qed.
Example C80_rds_case : fd_step unit unit unit unit unit (fun s x => Ok (s, x)) idra (fun s _ => Ok (s, 3%nat)) idra idra 2 (mkfm _ _ _ _ _ tt (0, 0) tt tt tt tt tt) [(1, 0); (0, 1)] = Exc.
Proof. eapply C80_rds_refuted; [reflexivity|do 2 eexists; split; reflexivity|reflexivity|reflexivity]. Qed.
