(** Property C76: digital modulator, pulse shaping, matched filter and emitter. *)
From Coq Require Import Reals Lra Lia ZArith.
From Verif Require Import Base BaseLemmas Filters_Model Filters_Spec Filters_Proofs Conv_Lemmas RField DftSys ComplexSys Fourier_Model BitStream_Model BitStream_Spec BitStream_Props TeleBits_Model TeleBits_Spec Demod_Model Demod_Spec Demod_Proofs Demod_Props Special_Model Design_Model Design_Spec Design_Proofs Design_Proofs2 Rif_Model Rif_Spec Rif_Proofs Rif_Proofs2 Gauss_Proofs Rcs_Proofs Polyphase_Model Polyphase_Spec Polyphase_Proofs Polyphase_Proofs2 Polyphase_Props Ra_Model Clk_Proofs Sig_Model Sig_Spec Sig_Proofs Rii_Model Mod_Model Mod_Spec Mod_Proofs Mod_Proofs2 Mod_Proofs3 Mod_Proofs4.
Local Open Scope R_scope.

(** ** Which configurations are usable *)
(** fe / fsymb between r and r + 1 (r samples per symbol, truncated): the taps are those
    of the documented designs, and the emission pulse has energy r. *)
Theorem C76_accepts : forall c r, (0 < r)%nat -> (Z.of_nat r < 2 ^ 31)%Z -> mc_fsymb c <> 0 -> INR r <= mc_fe c / mc_fsymb c < INR r + 1 ->
  let n := if (mc_ncoefs c =? 0)%Z then (if Nat.even r then 5 * r + 1 else 5 * r + 2)%nat else Z.to_nat (mc_ncoefs c) in
  let raw beta := map (fun i => rcs ((INR i - INR (n / 2)) / INR r) beta) (seq 0 n) in
  match mc_forme c with
  | NRZ | AUCUN => True
  | GAUSSIEN _ => (0 <= mc_ncoefs c)%Z
  | RCS beta => (0 <= mc_ncoefs c)%Z /\ somme (raw beta) <> 0
  end ->
  exists h m, accepted c r h /\ mod_new c = Ok m /\ energy (pulse h r) = INR r /\
    (r = 1%nat -> h = [1]) /\
    ((1 < r)%nat -> match mc_forme c with
      | NRZ => h = repeat (/ INR r) r
      | AUCUN => h = [1]
      | GAUSSIEN BT => design_rif_gaussien_telecom n BT r = Ok h
      | RCS beta => h = vdiv (raw beta) (somme (raw beta))
      end).
Proof.
  intros c r Hr Hb Hf Hq n raw.
  assert (En : n = Z.to_nat (nb_coefs (mc_ncoefs c) (Z.of_nat r))).
  { unfold n, nb_coefs. destruct (mc_ncoefs c =? 0)%Z; [|reflexivity]. replace (Z.even (5 * Z.of_nat r + 1)) with (negb (Nat.even r)); [destruct (Nat.even r); cbn [negb]; lia|].
    destruct (Nat.even r) eqn:E; cbn [negb]; symmetry.
    - apply Nat.even_spec in E. destruct E as [k ->]. apply Bool.not_true_is_false. intros Z0. apply Z.even_spec in Z0. destruct Z0 as [t Z0]. lia.
    - assert (O : Nat.odd r = true) by (unfold Nat.odd; rewrite E; reflexivity). apply Nat.odd_spec in O. destruct O as [k ->]. apply Z.even_spec. exists (Z.of_nat (5 * k + 3)). lia. }
  clearbody n. subst n. set (n := Z.to_nat (nb_coefs (mc_ncoefs c) (Z.of_nat r))) in *. intros Hp.
  assert (X : exists h, good_coefs (mc_forme c) (mc_ncoefs c) r h /\ ((1 < r)%nat -> match mc_forme c with NRZ => h = repeat (/ INR r) r | AUCUN => h = [1] | GAUSSIEN BT => design_rif_gaussien_telecom n BT r = Ok h | RCS beta => h = vdiv (raw beta) (somme (raw beta)) end)).
  { destruct (Nat.eq_dec r 1) as [-> |N1].
    - exists [1]. split; [split; [reflexivity|rewrite energy_one; lra]|lia].
    - destruct (mc_forme c) as [| |BT|beta] eqn:Ef.
      + eexists. split; [apply nrz_good; exact Hr|reflexivity].
      + eexists. split; [apply none_good; exact Hr|reflexivity].
      + destruct (gauss_good BT (mc_ncoefs c) r ltac:(lia) Hp) as (h & G & _). exists h. split; [exact G|]. intros _. destruct G as [G _]. unfold get_coefs in G.
        destruct (Z.leb_spec (Z.of_nat r) 0); [lia|]. destruct (Z.eqb_spec (Z.of_nat r) 1); [lia|]. rewrite Nat2Z.id in G. fold n in G. destruct (Z.leb_spec (nb_coefs (mc_ncoefs c) (Z.of_nat r)) 0); [discriminate G|exact G].
      + destruct Hp as [Hn S0]. eexists. split; [apply rcs_good; [lia|exact Hn|exact S0]|reflexivity]. }
  destruct X as (h & G & V). assert (A : accepted c r h) by (split; [exact Hr|split; [apply osf_ok; assumption|exact G]]).
  destruct (new_ok c r h A) as (m & E & _). exists h, m. split; [exact A|]. split; [exact E|]. split; [apply pulse_energy; exact (proj2 G)|]. split; [|exact V].
  intros ->. exact (good_1 _ _ _ G).
Qed.
Print Assumptions C76_accepts.
(** A symbol rate above the sampling rate is refused. *)
Theorem C76_rejects : forall c, 0 < mc_fsymb c -> 0 <= mc_fe c < mc_fsymb c -> mod_new c = Exc.
Proof.
  intros c Hf He. assert (0 <= mc_fe c / mc_fsymb c < 1). { split; [apply Rmult_le_pos; [lra|left; apply Rinv_0_lt_compat; exact Hf]|]. apply (Rmult_lt_reg_r (mc_fsymb c)); [exact Hf|]. unfold Rdiv. rewrite Rmult_assoc, Rinv_l by lra. lra. }
  unfold mod_new, osf_of. destruct (Req_EM_T (mc_fsymb c) 0); [lra|]. destruct (Rle_dec (mc_fe c / mc_fsymb c) (-1)); [lra|]. destruct (Rle_dec (2 ^ 32) (mc_fe c / mc_fsymb c)) as [X|_]; [simpl in X; lra|].
  destruct (Rlt_dec (mc_fe c / mc_fsymb c) 0); [lra|]. rewrite (Int_part_spec 0) by (simpl; lra). reflexivity.
Qed.
Print Assumptions C76_rejects.

(** ** Linear modulations *)
(** Whatever the cutting of the symbols into calls: sample n is the sum over the symbols
    of s_k g(n - k r), g being the pulse of energy r, put on the carrier
    exp(2 i pi (fi / fe) n) whose phase runs on from call to call. *)
Theorem C76_linear : forall c r h, accepted c r h -> mc_fsk c = false -> exists m0, mod_new c = Ok m0 /\
  forall blocks, exists m y, run mod_step m0 blocks = Ok (m, y) /\ length y = (length (concat blocks) * r)%nat /\
    forall n, (n < length y)%nat -> nth n y (0, 0) = rf_out (mc_fi c) (mc_fe c) (mc_real c) n (pam (pulse h r) r (concat blocks) n).
Proof.
  intros c r h A F. destruct (new_ok c r h A) as (m0 & E & Re). exists m0. split; [exact E|]. intros blocks. destruct (mod_run_lin c r h blocks A F [] m0 Re) as (m & E1 & _). do 2 eexists. split; [exact E1|].
  split; [rewrite map_length, seq_length; reflexivity|]. intros n Hn. rewrite map_length, seq_length in Hn. rewrite (nth_map_seq (X := C)) by exact Hn. reflexivity.
Qed.
Print Assumptions C76_linear.
(** step(bits) = step(génère_symboles(bits)); flush(n) gives the smallest whole number
    of symbols that covers n samples, as null symbols. *)
Theorem C76_flush : forall c r h blocks d, accepted c r h -> exists m0 m y, mod_new c = Ok m0 /\ run mod_step m0 blocks = Ok (m, y) /\
  ((d <= 0)%Z -> mod_flush m d = Ok (m, [])) /\
  ((0 < d)%Z -> exists k, (d <= Z.of_nat (k * r) < d + Z.of_nat r)%Z /\ mod_flush m d = mod_step m (repeat (0, 0) k)).
Proof.
  intros c r h blocks d A. destruct (new_ok c r h A) as (m0 & E & Re). destruct (mod_run_any c r h blocks A [] m0 Re) as (m & y & E1 & R1). exists m0, m, y. split; [exact E|]. split; [exact E1|]. split; intros H.
  - unfold mod_flush. destruct (Z.leb_spec d 0); [reflexivity|lia].
  - exists (nflush d r). split; [pose proof (nflush_ok d r (proj1 A)); lia|]. unfold mod_flush, nflush. destruct (Z.leb_spec d 0); [lia|]. rewrite (re_osf _ _ _ _ _ R1), <- INR_IZR_INZ. reflexivity.
Qed.
Print Assumptions C76_flush.
(** NRZ: each symbol is held for r samples. *)
Theorem C76_nrz : forall c r, accepted c r (repeat (/ INR r) r) -> mc_forme c = NRZ -> mc_fsk c = false -> mc_fi c = 0 ->
  exists m0, mod_new c = Ok m0 /\ forall blocks, exists m, run mod_step m0 blocks = Ok (m, hold r (concat blocks)).
Proof.
  intros c r A _ F Fi. destruct (C76_linear c r _ A F) as (m0 & E & V). exists m0. split; [exact E|]. intros blocks. destruct (V blocks) as (m & y & E1 & L & V1). exists m. rewrite E1. f_equal. f_equal.
  apply (list_ext (0, 0)); [rewrite hold_length; exact L|]. intros n Hn. rewrite V1 by exact Hn. rewrite nrz_pulse by exact (proj1 A). rewrite pam_nrz; [|exact (proj1 A)|rewrite <- L; exact Hn]. unfold rf_out. destruct (Req_EM_T (mc_fi c) 0); [reflexivity|contradiction].
Qed.
Print Assumptions C76_nrz.
(** No shaping: one sample of height sqrt(r) s_k at the end of symbol k, zeros elsewhere. *)
Theorem C76_unshaped : forall c r, accepted c r [1] -> mc_forme c = AUCUN -> mc_fsk c = false -> mc_fi c = 0 ->
  exists m0, mod_new c = Ok m0 /\ forall blocks, exists m, run mod_step m0 blocks = Ok (m, flat_map (fun v => repeat (0, 0) (r - 1) ++ [rscale (sqrt (INR r)) v]) (concat blocks)).
Proof.
  intros c r A _ F Fi. pose proof (proj1 A) as Hr. destruct (C76_linear c r _ A F) as (m0 & E & V). exists m0. split; [exact E|]. intros blocks. destruct (V blocks) as (m & y & E1 & L & V1). exists m. rewrite E1. f_equal. f_equal.
  rewrite none_pulse in V1 by exact Hr. set (g := repeat 0 (r - 1) ++ [sqrt (INR r)]) in *. assert (Lg : length g = r) by (unfold g; rewrite app_length, repeat_length; cbn; lia).
  set (s := concat blocks) in *. clearbody s. set (blk := fun v : C => repeat (0, 0) (r - 1) ++ [rscale (sqrt (INR r)) v]).
  assert (Lb : forall v, length (blk v) = r) by (intros v; unfold blk; rewrite app_length, repeat_length; cbn; lia).
  assert (Lf : forall s, length (flat_map blk s) = (length s * r)%nat) by (induction s0 as [|a s0 IH]; [reflexivity|cbn [flat_map length]; rewrite app_length, IH, Lb; lia]).
  assert (Nf : forall s k j, (j < r)%nat -> (k < length s)%nat -> nth (k * r + j) (flat_map blk s) (0, 0) = nth j (blk (nth k s (0, 0))) (0, 0)).
  { induction s0 as [|a s0 IH]; intros k j Hj Hk; [cbn in Hk; lia|]. cbn [flat_map]. destruct k as [|k]; [cbn [Nat.mul Nat.add nth]; rewrite app_nth1 by (rewrite Lb; exact Hj); reflexivity|].
    rewrite app_nth2 by (rewrite Lb; nia). rewrite Lb. replace (S k * r + j - r)%nat with (k * r + j)%nat by lia. cbn [nth]. apply IH; [exact Hj|cbn in Hk; lia]. }
  apply (list_ext (0, 0)); [etransitivity; [exact L|symmetry; apply Lf]|]. intros n Hn. rewrite V1 by exact Hn. unfold rf_out. destruct (Req_EM_T (mc_fi c) 0); [|contradiction].
  pose proof (Nat.div_mod n r ltac:(lia)) as D. pose proof (Nat.mod_upper_bound n r ltac:(lia)) as M. rewrite (Nat.mul_comm r) in D. assert (Hk : (n / r < length s)%nat) by (apply Nat.div_lt_upper_bound; [lia|rewrite Nat.mul_comm, <- L; exact Hn]).
  rewrite D. rewrite pam_block by assumption. rewrite Nf by assumption. unfold g, blk. destruct (Nat.eq_dec (n mod r) (r - 1)) as [Ej|Ej].
  - rewrite Ej. rewrite !app_nth2 by (rewrite repeat_length; lia). rewrite !repeat_length, Nat.sub_diag. reflexivity.
  - rewrite !app_nth1 by (rewrite repeat_length; lia). rewrite nth_repeat0. assert (Z0 : forall q i, nth i (repeat ((0, 0) : C) q) (0, 0) = (0, 0)) by (induction q; intros [|i]; cbn; auto). rewrite Z0. apply C_ext; cbn; ring.
Qed.
Print Assumptions C76_unshaped.
(** One sample per symbol: the symbols themselves. *)
Theorem C76_one_per_symbol : forall c, accepted c 1 [1] -> mc_fsk c = false -> mc_fi c = 0 ->
  exists m0, mod_new c = Ok m0 /\ mod_delais m0 = 0 /\ forall blocks, exists m, run mod_step m0 blocks = Ok (m, concat blocks).
Proof.
  intros c A F Fi. destruct (new_ok c 1 [1] A) as (m0 & E & Re). exists m0. split; [exact E|]. split; [rewrite (re_lat _ _ _ _ _ Re); change (INR 0 / 2 + INR 0 = 0); simpl (INR 0); lra|]. intros blocks. destruct (C76_linear c 1 [1] A F) as (m0' & E' & V). rewrite E in E'. injection E' as <-.
  destruct (V blocks) as (m & y & E1 & L & V1). exists m. rewrite E1. f_equal. f_equal. apply (list_ext (0, 0)); [etransitivity; [exact L|apply Nat.mul_1_r]|]. intros n Hn. rewrite V1 by exact Hn. rewrite pulse_one, pam_one; [|reflexivity|apply sampZ_single|apply (Nat.lt_le_trans _ _ _ Hn); rewrite <- (Nat.mul_1_r (length (concat blocks))); apply Nat.eq_le_incl; exact L].
  unfold rf_out. destruct (Req_EM_T (mc_fi c) 0); [reflexivity|contradiction].
Qed.
Print Assumptions C76_one_per_symbol.
(** The mean power per sample of an NRZ signal is the mean power of the symbols. *)
Theorem C76_power_nrz : forall r s, cenergy (hold r s) = INR r * cenergy s.
Proof.
  intros r s. assert (App : forall a b, cenergy (a ++ b) = cenergy a + cenergy b).
  { intros a b. unfold cenergy. rewrite app_length. etransitivity; [apply (sum_split Rring)|]. apply f_equal2; apply (sum_ext Rring); intros i Hi; [rewrite app_nth1 by exact Hi; reflexivity|]. rewrite app_nth2 by apply Nat.le_add_r. replace (length a + i - length a)%nat with i by lia. reflexivity. }
  assert (One : forall z, cenergy [z] = Cnorm2 z) by (intros z; unfold cenergy; cbn; ring).
  induction s as [|a s IH]; [unfold cenergy; cbn; ring|]. cbn [hold flat_map]. rewrite App. fold (hold r s). rewrite IH. change (a :: s) with ([a] ++ s). rewrite App, One. clear IH.
  assert (Rp : cenergy (repeat a r) = INR r * Cnorm2 a). { induction r as [|q IHq]; [unfold cenergy; cbn; ring|]. change (repeat a (S q)) with ([a] ++ repeat a q). rewrite App, One, IHq, S_INR. ring. }
  rewrite Rp. ring.
Qed.
Print Assumptions C76_power_nrz.

(** ** Delay *)
(** When the taps read the same in both directions, the delay announced by delais() is
    the centre of symmetry of the pulse. *)
Theorem C76_delay : forall c r h, accepted c r h -> h = rev h -> exists m0 D, mod_new c = Ok m0 /\ mod_delais m0 = IZR D / 2 /\
  forall z, sampZ (K := Rring) (pulse h r) (D - z) = sampZ (K := Rring) (pulse h r) z.
Proof.
  intros c r h A P. destruct (new_ok c r h A) as (m0 & E & Re). exists m0. eexists. split; [exact E|]. split; [|intros z; apply pulse_sym; exact P].
  rewrite (re_lat _ _ _ _ _ Re). pose proof (good_ne _ _ _ _ (proj2 (proj2 A))). rewrite plus_IZR, minus_IZR, mult_IZR, <- !INR_IZR_INZ. rewrite minus_INR by assumption. simpl (INR 1). field.
Qed.
Print Assumptions C76_delay.
(** NRZ, unshaped and root raised cosine (odd number of taps) are in that case. *)
Theorem C76_symmetric : (forall a r, repeat a r = rev (repeat (a : R) r)) /\ (forall a : R, [a] = rev [a]) /\
  (forall n beta r q, Nat.odd n = true -> let h := vdiv (map (fun i => rcs ((INR i - INR (n / 2)) / INR r) beta) (seq 0 n)) q in h = rev h).
Proof. split; [intros; symmetry; apply rev_repeat'|]. split; [reflexivity|]. intros n beta r q Ho h. apply vdiv_pal. apply rcs_pal. exact Ho. Qed.
Print Assumptions C76_symmetric.

(** ** Matched filter *)
(** Modulator followed by filtre_adapté, whatever the cutting: the output at
    L - 1 + k r (L the length of the pulse, padding included) is the symbol k times
    sqrt(r E), E the energy of the taps, plus the other symbols weighted by the
    autocorrelation of the taps at the multiples of r. *)
Theorem C76_matched : forall c r h, accepted c r h -> mc_fsk c = false -> mc_fi c = 0 ->
  exists m0 a0, mod_new c = Ok m0 /\ adapt_new (mc_forme c) (mc_ncoefs c) (Z.of_nat r) = Ok a0 /\
  forall blocks rblocks, exists m y a z, run mod_step m0 blocks = Ok (m, y) /\ (concat rblocks = y -> run adapt_step a0 rblocks = Ok (a, z) /\ length z = length y /\
    forall k, (length (pulse h r) - 1 + k * r < length y)%nat ->
      nth (length (pulse h r) - 1 + k * r) z (0, 0) =
      rscale (sqrt (INR r * energy h)) (sum (K := Cring) (length (concat blocks)) (fun j => rscale (acor h ((Z.of_nat j - Z.of_nat k) * Z.of_nat r) / energy h) (nth j (concat blocks) (0, 0))))).
Proof.
  intros c r h A F Fi. destruct (C76_linear c r h A F) as (m0 & E & V). destruct A as (Hr & Ho & G). destruct (adapt_ok _ _ _ _ Hr G) as (a0 & Ea & W). exists m0, a0. split; [exact E|]. split; [exact Ea|].
  intros blocks rblocks. destruct (V blocks) as (m & y & E1 & L & V1). destruct (W rblocks) as (a & z & E2 & Lz & V2). exists m, y, a, z. split; [exact E1|]. intros Ec. rewrite Ec in *. split; [exact E2|]. split; [exact Lz|].
  intros k Hk. rewrite V2 by (rewrite Lz; exact Hk). assert (V1' : forall n, (n < length y)%nat -> nth n y (0, 0) = pam (pulse h r) r (concat blocks) n).
  { intros n Hn. rewrite V1 by exact Hn. unfold rf_out. destruct (Req_EM_T (mc_fi c) 0); [reflexivity|contradiction]. }
  rewrite (matched h r (concat blocks) y _ L V1' Hk). rewrite rscale_add_sum. apply (sum_ext Cring). intros j Hj. rewrite rscale_rscale. f_equal.
  pose proof (good_ne _ _ _ _ G). rewrite pulse_length in *. set (p := ((r - length h mod r) mod r)%nat) in *.
  replace (Z.of_nat (p + length h) - 1 - Z.of_nat (p + length h - 1 + k * r) + Z.of_nat (j * r))%Z with ((Z.of_nat j - Z.of_nat k) * Z.of_nat r)%Z by lia.
  set (rho := acor h _). destruct G as [_ He]. assert (0 < INR r) by (apply lt_0_INR; exact Hr). assert (Sq : 0 < sqrt (energy h)) by (apply sqrt_lt_R0; exact He).
  rewrite sqrt_div_alt by exact He. rewrite sqrt_mult by lra. pose proof (sqrt_sqrt (energy h) ltac:(lra)) as Q. replace (energy h) with (sqrt (energy h) * sqrt (energy h)) at 3 by exact Q. field. lra.
Qed.
Print Assumptions C76_matched.
(** The weights: 1 for the symbol itself, symmetric, at most 1, zero beyond the length
    of the taps. *)
Theorem C76_matched_weights : forall h, 0 < energy h -> acor h 0 / energy h = 1 /\ forall l, acor h (- l) = acor h l /\ Rabs (acor h l / energy h) <= 1 /\
  ((Z.of_nat (length h) <= Z.abs l)%Z -> acor h l = 0).
Proof.
  intros h He. split; [rewrite acor_0; field; lra|]. intros l. split; [apply acor_sym|]. split; [|apply acor_far].
  unfold Rdiv. rewrite Rabs_mult, (Rabs_pos_eq (/ energy h)) by (left; apply Rinv_0_lt_compat; exact He). apply (Rmult_le_reg_r (energy h)); [exact He|]. rewrite Rmult_assoc, Rinv_l, Rmult_1_r, Rmult_1_l by lra. apply acor_le.
Qed.
Print Assumptions C76_matched_weights.

(** ** NRZ link: bits, modulator, noise, matched filter with decimation, decision *)
(** If the mean of the noise over each symbol stays below half the distance to the other
    points, the bits are recovered, whatever the cutting of the received signal. *)
Theorem C76_nrz_link : forall c r p l s, accepted c r (repeat (/ INR r) r) -> mc_forme c = NRZ -> mc_fsk c = false -> mc_fi c = 0 -> library_wave (mc_wave c) ->
  prog_ok p -> denote p = Some l -> exec p = Ok s ->
  exists m0 m y a0 sent, mod_new c = Ok m0 /\ mod_bits m0 s = Ok (m, y) /\ adaptd_new (mc_forme c) (mc_ncoefs c) (Z.of_nat r) = Ok a0 /\
   genere_symboles (mc_wave c) s = Ok sent /\ length y = (length sent * r)%nat /\
  forall noise rblocks, length noise = length y -> concat rblocks = map (fun q : C * C => (fst (fst q) + fst (snd q), snd (fst q) + snd (snd q))) (combine y noise) ->
   (forall i, (i < length sent)%nat -> let e := rscale (/ INR r) (sum (K := Cring) r (fun k => nth (i * r + k) noise (0, 0))) in
      Cnorm2 e < huge /\ forall j z, lis_symbole (mc_wave c) i j = Ok z -> z <> nth i sent (0, 0) -> 4 * Cnorm2 e < sqdist (nth i sent (0, 0)) z) ->
   exists a z s1, run adaptd_step a0 rblocks = Ok (a, z) /\ decode_symboles (mc_wave c) bs_empty z = Ok s1 /\ shows s1 (pad_bits (w_k (mc_wave c)) l).
Proof.
  intros c r p l s A En F Fi LW P D E. pose proof (proj1 A) as Hr. assert (Hr0 : 0 < INR r) by (apply lt_0_INR; exact Hr).
  destruct (C42_noise (mc_wave c) p l s PEmpty [] bs_empty LW P D E I eq_refl eq_refl) as (sent & G & Ls & Dec).
  destruct (new_ok c r _ A) as (m0 & E0 & Re). destruct (mod_step_ok c r _ [] m0 sent A Re) as (m & E1 & _). rewrite emitted_lin in E1 by exact F. cbn [app length Nat.mul Nat.add] in E1. rewrite nrz_pulse in E1 by exact Hr.
  set (y := map _ _) in E1. assert (Y : y = hold r sent).
  { unfold y. apply (list_ext (0, 0)); [rewrite map_length, seq_length, hold_length; reflexivity|]. intros n Hn. rewrite map_length, seq_length in Hn. rewrite (nth_map_seq (X := C)) by exact Hn. unfold lin_out, rf_out. destruct (Req_EM_T (mc_fi c) 0); [|contradiction]. apply pam_nrz; assumption. }
  destruct (adaptd_nrz (mc_ncoefs c) r Hr) as (a0 & Ea & W). exists m0, m, y, a0, sent. split; [exact E0|]. split; [unfold mod_bits; rewrite (re_wave _ _ _ _ _ Re), G; exact E1|]. rewrite En. split; [exact Ea|]. split; [exact G|].
  assert (Ly : length y = (length sent * r)%nat) by (rewrite Y; apply hold_length). split; [exact Ly|]. intros noise rblocks Ln Er H. pose proof (W rblocks) as Wr. destruct Wr as (a & z & E2 & Lz & V). set (rx := map _ (combine y noise)) in Er.
  assert (Lz' : length z = (length rx / r)%nat) by (etransitivity; [exact Lz|]; f_equal; exact (f_equal (@length C) Er)). clear Lz. rename Lz' into Lz.
  assert (V' : forall k, (k < length z)%nat -> nth k z (0, 0) = rscale (/ INR r) (sum (K := Cring) r (fun j => nth (k * r + j) rx (0, 0)))) by (rewrite <- Er; exact V). clear V. rename V' into V. unfold rx in Lz, V.
  assert (Lc : length (combine y noise) = (length sent * r)%nat) by (rewrite combine_length, Ln, Ly; apply Nat.min_id).
  rewrite map_length, Lc, Nat.div_mul in Lz by lia. set (e := fun i => rscale (/ INR r) (sum (K := Cring) r (fun k => nth (i * r + k) noise (0, 0)))).
  assert (Z : forall i, (i < length sent)%nat -> nth i z (0, 0) = (fst (nth i sent (0, 0)) + fst (e i), snd (nth i sent (0, 0)) + snd (e i))).
  { intros i Hi. rewrite V by (rewrite Lz; exact Hi). set (plus := fun q : C * C => (fst (fst q) + fst (snd q), snd (fst q) + snd (snd q))).
    assert (T : forall k, (k < r)%nat -> nth (i * r + k) (map plus (combine y noise)) (0, 0) = plus (nth i sent (0, 0), nth (i * r + k) noise (0, 0))).
    { intros k Hk. assert (B : (i * r + k < length (combine y noise))%nat) by (rewrite Lc; nia). rewrite (nth_indep _ (0, 0) (plus ((0, 0), (0, 0)))) by (rewrite map_length; exact B). rewrite (map_nth plus), combine_nth by (symmetry; exact Ln). rewrite Y, nth_hold by exact Hk. reflexivity. }
    rewrite (sum_ext Cring r _ (fun k => plus (nth i sent (0, 0), nth (i * r + k) noise (0, 0))) T). unfold e.
    assert (Q : forall q, sum (K := Cring) q (fun k => plus (nth i sent (0, 0), nth (i * r + k) noise (0, 0))) = (INR q * fst (nth i sent (0, 0)) + fst (sum (K := Cring) q (fun k => nth (i * r + k) noise (0, 0))), INR q * snd (nth i sent (0, 0)) + snd (sum (K := Cring) q (fun k => nth (i * r + k) noise (0, 0))))).
    { induction q as [|q IH]; [apply C_ext; cbn; ring|]. rewrite S_INR. cbn [sum]. rewrite IH. generalize (sum (K := Cring) q (fun k => nth (i * r + k) noise (0, 0))). intros w. unfold plus. cbn [fst snd]. apply C_ext; cbn; ring. }
    rewrite Q. generalize (sum (K := Cring) r (fun k => nth (i * r + k) noise (0, 0))). intros w. unfold rscale. cbn [fst snd]. apply C_ext; cbn; field; lra. }
  destruct (Dec z) as (s1 & D1 & Sh); [exact Lz| |exists a, z, s1; split; [exact E2|split; [exact D1|exact Sh]]].
  intros i Hi. destruct (H i Hi) as [H1 H2]. fold (e i) in H1, H2. assert (Sq : sqdist (nth i z (0, 0)) (nth i sent (0, 0)) = Cnorm2 (e i)) by (rewrite Z by exact Hi; unfold sqdist, Cnorm2; cbn [fst snd]; ring).
  cbn zeta. split; [exact (eq_ind_r (fun x => x < huge) H1 Sq)|]. intros j z1 G1 G2. exact (eq_ind_r (fun x => 4 * x < sqdist (nth i sent (0, 0)) z1) (H2 j z1 G1 G2) Sq).
Qed.
Print Assumptions C76_nrz_link.

(** ** FSK *)
(** After any earlier calls, for every pulse and every symbols: constant envelope. *)
Theorem C76_fsk_envelope : forall c r h blocks s, accepted c r h -> mc_fsk c = true -> mc_fi c = 0 ->
  exists m0 m y0 m' y, mod_new c = Ok m0 /\ run mod_step m0 blocks = Ok (m, y0) /\ mod_step m s = Ok (m', y) /\ length y = (length s * r)%nat /\
    forall n, (n < length y)%nat -> Cnorm2 (nth n y (0, 0)) = 1.
Proof.
  intros c r h blocks s A F Fi. destruct (new_ok c r h A) as (m0 & E0 & Re). destruct (mod_run_any c r h blocks A [] m0 Re) as (m & y0 & E1 & R1). destruct (mod_step_ok c r h _ m s A R1) as (m' & E2 & _).
  unfold emitted in E2. rewrite F in E2. destruct (Req_EM_T (mc_fi c) 0) as [_|]; [|contradiction]. exists m0, m, y0, m'. eexists. split; [exact E0|]. split; [exact E1|]. split; [exact E2|]. rewrite fsk_length. split; [unfold bb; rewrite map_length, seq_length; reflexivity|].
  intros n Hn. rewrite fsk_nth by exact Hn. unfold unit_at, Cnorm2. cbn [fst snd]. rewrite Rplus_comm. apply sin2_cos2.
Qed.
Print Assumptions C76_fsk_envelope.
(** Rectangular pulses: with A the largest frequency symbol of the call, the phase goes
    up linearly by pi index s_k / A over symbol k, continuously from one symbol to the
    next, from 0 at the beginning of the call. *)
Theorem C76_fsk_phase : forall c r blocks s A, accepted c r (repeat (/ INR r) r) -> mc_forme c = NRZ -> mc_fsk c = true -> mc_fi c = 0 ->
  0 < A -> (forall z, In z s -> Rabs (fst z) <= A) -> (exists z, In z s /\ Rabs (fst z) = A) ->
  exists m0 m y0 m' y, mod_new c = Ok m0 /\ run mod_step m0 blocks = Ok (m, y0) /\ mod_step m s = Ok (m', y) /\ length y = (length s * r)%nat /\
    forall k j, (k < length s)%nat -> (j < r)%nat ->
      let phi := PI * (mc_index c / A) * (before s k + INR (S j) / INR r * fst (nth k s (0, 0))) in nth (k * r + j) y (0, 0) = (cos phi, sin phi).
Proof.
  intros c r blocks s A Ac _ F Fi HA B (z0 & Hz0 & Ez0). pose proof (proj1 Ac) as Hr. assert (Hr0 : 0 < INR r) by (apply lt_0_INR; exact Hr).
  destruct (new_ok c r _ Ac) as (m0 & E0 & Re). destruct (mod_run_any c r _ blocks Ac [] m0 Re) as (m & y0 & E1 & R1). destruct (mod_step_ok c r _ _ m s Ac R1) as (m' & E2 & _). cbn [app] in *.
  unfold emitted in E2. rewrite F in E2. destruct (Req_EM_T (mc_fi c) 0) as [_|]; [|contradiction]. rewrite nrz_pulse, bb_nrz in E2 by exact Hr. exists m0, m, y0, m'. eexists. split; [exact E0|]. split; [exact E1|]. split; [exact E2|]. rewrite fsk_length, hold_length. split; [reflexivity|].
  intros k j Hk Hj. cbv zeta. assert (Bd : (k * r + j < length s * r)%nat) by (clear - Hk Hj; nia). rewrite fsk_nth by (rewrite hold_length; exact Bd).
  assert (Mx : vmax (map Rabs (map fst (hold r s))) = A).
  { apply vmax_is.
    - intros x Hx. apply in_map_iff in Hx. destruct Hx as (z & <- & Hz). unfold hold in Hz. apply in_flat_map in Hz. destruct Hz as (v & Hv & Hz). apply repeat_spec in Hz. subst z. apply B. exact Hv.
    - exists (fst z0). split; [|exact Ez0]. apply in_map. unfold hold. apply in_flat_map. exists z0. split; [exact Hz0|]. destruct r; [lia|]. left. reflexivity. }
  rewrite Mx. destruct (Req_EM_T A 0); [lra|]. rewrite before_hold by exact Hj. rewrite <- INR_IZR_INZ. unfold unit_at.
  assert (Q : PI * mc_index c / INR r / A * (INR r * before s k + INR (S j) * fst (nth k s (0, 0))) = PI * (mc_index c / A) * (before s k + INR (S j) / INR r * fst (nth k s (0, 0)))) by (field; lra).
  exact (f_equal (fun x => (cos x, sin x)) Q).
Qed.
Print Assumptions C76_fsk_phase.
(** Finding: the phase is not kept between calls: a call gives what a new modulator would
    give, whatever was sent before. *)
Theorem C76_fsk_restarts : forall c r blocks s, accepted c r (repeat (/ INR r) r) -> mc_fsk c = true -> mc_fi c = 0 ->
  exists m0 m y0 m1 m2 y, mod_new c = Ok m0 /\ run mod_step m0 blocks = Ok (m, y0) /\ mod_step m s = Ok (m1, y) /\ mod_step m0 s = Ok (m2, y).
Proof.
  intros c r blocks s Ac F Fi. pose proof (proj1 Ac) as Hr. destruct (new_ok c r _ Ac) as (m0 & E0 & Re). destruct (mod_run_any c r _ blocks Ac [] m0 Re) as (m & y0 & E1 & R1). destruct (mod_step_ok c r _ _ m s Ac R1) as (m1 & E2 & _). destruct (mod_step_ok c r _ _ m0 s Ac Re) as (m2 & E3 & _).
  rewrite nrz_pulse, bb_nrz in E2, E3 by exact Hr. unfold emitted in E2, E3. rewrite F in E2, E3. destruct (Req_EM_T (mc_fi c) 0) as [_|]; [|contradiction]. exists m0, m, y0, m1, m2. eexists. split; [exact E0|]. split; [exact E1|]. split; [exact E2|exact E3].
Qed.
Print Assumptions C76_fsk_restarts.
(** an MSK modulator, one sample per symbol *)
Definition msk : mconf := {| mc_wave := wave_fsk 2; mc_forme := NRZ; mc_fsk := true; mc_index := / 2; mc_fe := 1; mc_fi := 0; mc_fsymb := 1; mc_real := true; mc_ncoefs := 0 |}.
Lemma osf_1 : osf_of 1 1 = Ok 1%Z.
Proof. rewrite (osf_ok 1 1 1); [reflexivity|lia|lia|lra|simpl; lra]. Qed.
Lemma msk_ok : accepted msk 1 (repeat (/ INR 1) 1).
Proof. split; [lia|]. split; [exact osf_1|]. apply nrz_good. lia. Qed.
Theorem C76_fsk_continuity_refuted : exists m0 m1 y1 m2 y2, mod_new msk = Ok m0 /\ run mod_step m0 [[(1, 0)]; [(1, 0)]] = Ok (m1, y1) /\ run mod_step m0 [[(1, 0); (1, 0)]] = Ok (m2, y2) /\
  nth 1 y1 (0, 0) = (0, 1) /\ nth 1 y2 (0, 0) = (-1, 0).
Proof.
  assert (V1 : forall blocks, exists m0 m y0 m' y, mod_new msk = Ok m0 /\ run mod_step m0 blocks = Ok (m, y0) /\ mod_step m [(1, 0)] = Ok (m', y) /\ length y = 1%nat /\ nth 0 y (0, 0) = (0, 1)).
  { intros blocks. destruct (C76_fsk_phase msk 1 blocks [(1, 0)] 1 msk_ok eq_refl eq_refl eq_refl) as (m0 & m & y0 & m' & y & E0 & E1 & E2 & L & V); [lra| | |].
    - intros z [<- |[]]. cbn [fst]. rewrite Rabs_R1. lra.
    - exists (1, 0). split; [left; reflexivity|]. cbn [fst]. apply Rabs_R1.
    - exists m0, m, y0, m', y. split; [exact E0|]. split; [exact E1|]. split; [exact E2|]. split; [exact L|]. specialize (V 0%nat 0%nat ltac:(cbn; lia) ltac:(lia)). cbn [Nat.mul Nat.add] in V. rewrite V.
      replace (PI * (mc_index msk / 1) * (before [(1, 0)] 0 + INR 1 / INR 1 * fst (nth 0 [(1, 0)] (0, 0)))) with (PI / 2) by (unfold before; cbn; field). rewrite cos_PI2, sin_PI2. reflexivity. }
  destruct (V1 []) as (m0 & m & y0 & m1 & y1 & E0 & E1 & E2 & L1 & W1). cbn [run] in E1. injection E1 as <- <-.
  destruct (V1 [[(1, 0)]]) as (m0' & m' & y0' & m2 & y2 & E0' & E1' & E2' & L2 & W2). rewrite E0 in E0'. injection E0' as <-. cbn [run] in E1'. rewrite E2 in E1'. cbn [bind] in E1'. injection E1' as <- <-.
  destruct (C76_fsk_phase msk 1 [] [(1, 0); (1, 0)] 1 msk_ok eq_refl eq_refl eq_refl) as (m0' & q & yq & m3 & y3 & E0' & Eq & E3 & L3 & V3); [lra| | |].
  { intros z [<- |[<- |[]]]; cbn [fst]; rewrite Rabs_R1; lra. }
  { exists (1, 0). split; [left; reflexivity|]. cbn [fst]. apply Rabs_R1. }
  rewrite E0 in E0'. injection E0' as <-. cbn [run] in Eq. injection Eq as <- <-. exists m0, m2, (y1 ++ y2), m3, y3. split; [exact E0|]. split; [cbn [run]; rewrite E2; cbn [bind]; rewrite E2'; cbn [bind]; rewrite app_nil_r; reflexivity|].
  split; [cbn [run]; rewrite E3; cbn [bind]; rewrite app_nil_r; reflexivity|]. split.
  - rewrite app_nth2 by (rewrite L1; lia). rewrite L1. exact W2.
  - specialize (V3 1%nat 0%nat ltac:(cbn; lia) ltac:(lia)). cbn [Nat.mul Nat.add] in V3. rewrite V3. replace (PI * (mc_index msk / 1) * (before [(1, 0); (1, 0)] 1 + INR 1 / INR 1 * fst (nth 1 [(1, 0); (1, 0)] (0, 0)))) with PI by (unfold before; cbn; field). rewrite cos_PI, sin_PI. reflexivity.
Qed.
Print Assumptions C76_fsk_continuity_refuted.
(** Finding: the deviation is relative to the largest symbol of the call: in 4-FSK, a call
    with only the inner symbol 1/3 gives exactly the signal of the outer symbol 1. *)
Theorem C76_fsk_deviation_refuted : forall c r blocks, accepted c r (repeat (/ INR r) r) -> mc_forme c = NRZ -> mc_fsk c = true -> mc_fi c = 0 ->
  exists m0 m y0 m1 m2 y, mod_new c = Ok m0 /\ run mod_step m0 blocks = Ok (m, y0) /\ mod_step m [(/ 3, 0)] = Ok (m1, y) /\ mod_step m [(1, 0)] = Ok (m2, y).
Proof.
  intros c r blocks Ac En F Fi. pose proof (proj1 Ac) as Hr.
  destruct (C76_fsk_phase c r blocks [(/ 3, 0)] (/ 3) Ac En F Fi) as (m0 & m & y0 & m1 & y1 & E0 & E1 & E2 & L1 & V1); [lra| | |].
  { intros z [<- |[]]. cbn [fst]. rewrite Rabs_pos_eq by lra. lra. }
  { exists (/ 3, 0). split; [left; reflexivity|]. cbn [fst]. apply Rabs_pos_eq. lra. }
  destruct (C76_fsk_phase c r blocks [(1, 0)] 1 Ac En F Fi) as (m0' & m' & y0' & m2 & y2 & E0' & E1' & E2' & L2 & V2); [lra| | |].
  { intros z [<- |[]]. cbn [fst]. rewrite Rabs_R1. lra. }
  { exists (1, 0). split; [left; reflexivity|]. cbn [fst]. apply Rabs_R1. }
  rewrite E0 in E0'. injection E0' as <-. rewrite E1 in E1'. injection E1' as <- <-. exists m0, m, y0, m1, m2, y1. split; [exact E0|]. split; [exact E1|]. split; [exact E2|]. rewrite E2'. f_equal. f_equal.
  cbn [length] in L1, L2. apply (list_ext (0, 0)); [exact (eq_trans L2 (eq_sym L1))|]. intros i Hi. assert (Hi' : (i < r)%nat) by (replace r with (1 * r)%nat by lia; exact (eq_ind _ (fun x => (i < x)%nat) Hi _ L2)). specialize (V1 0%nat i ltac:(cbn; lia) Hi'). specialize (V2 0%nat i ltac:(cbn; lia) Hi'). cbn [Nat.mul Nat.add] in V1, V2. refine (eq_trans V2 (eq_trans _ (eq_sym V1))).
  unfold before. cbn [sum nth fst c0 Rring car]. replace (PI * (mc_index c / 1) * (0 + INR (S i) / INR r * 1)) with (PI * (mc_index c / / 3) * (0 + INR (S i) / INR r * / 3)); [reflexivity|]. field. apply Rgt_not_eq. apply lt_0_INR. exact Hr.
Qed.
Print Assumptions C76_fsk_deviation_refuted.

(** ** Emitter *)
(** Any sequence of frames: the emission is the linear modulation of the symbols of the
    frames, each one made of the header (completed to whole symbols), the data (completed)
    and nz null symbols that cover the delay of the modulator. *)
Theorem C76_emitter : forall c r h ph lh progs streams, accepted (ec_mod c) r h -> mc_fsk (ec_mod c) = false -> ec_fo c = None -> library_wave (mc_wave (ec_mod c)) ->
  prog_ok ph -> denote ph = Some lh -> exec ph = Ok (ec_head c) -> Forall2 (fun p s => prog_ok p /\ exec p = Ok s) progs streams ->
  let w := mc_wave (ec_mod c) in
  exists m0 m xs Ss nz, mod_new (ec_mod c) = Ok m0 /\ map_st (emet_step c) m0 streams = Ok (m, xs) /\
    mod_delais m0 <= INR (nz * r) < mod_delais m0 + 1 + INR r /\
    Forall2 (fun p S => exists l, denote p = Some l /\ says w S (pad_bits (w_k w) (pad_bits (w_k w) lh ++ l))) progs Ss /\
    map (@length C) xs = map (fun S => (length S + nz) * r)%nat Ss /\
    let all := concat (map (fun S => S ++ repeat (0, 0) nz) Ss) in
    concat xs = map (fun n => rf_out (mc_fi (ec_mod c)) (mc_fe (ec_mod c)) (mc_real (ec_mod c)) n (pam (pulse h r) r all n)) (seq 0 (length all * r)).
Proof.
  intros c r h ph lh progs streams A F Fo LW P D E H w. destruct (new_ok _ r h A) as (m0 & E0 & Re). set (lat := ceilZ (INR (length h - 1) / 2 + INR ((r - length h mod r) mod r))).
  destruct (emet_frames c r h (fun l S => says w S (pad_bits (w_k w) (pad_bits (w_k w) lh ++ l)))) with (progs := progs) (streams := streams) (sent := @nil C) (m := m0) as (m & xs & Ss & E1 & F2 & L & Cc).
  - intros sent m p l s R1 P1 D1 E2. exact (emet_none c r h A F LW ph lh P D E sent m p l s Fo R1 P1 D1 E2).
  - exact H.
  - exact Re.
  - exists m0, m, xs, Ss, (nflush lat r). split; [exact E0|]. split; [exact E1|]. split; [|split; [exact F2|]; split; [exact L|exact Cc]].
    rewrite (re_lat _ _ _ _ _ Re). pose proof (nflush_ok lat r (proj1 A)) as NF. pose proof (ceil_spec (INR (length h - 1) / 2 + INR ((r - length h mod r) mod r))) as CS. change Clk_Spec.ceilZ with Ra_Model.ceilZ in CS. fold lat in CS.
    set (d := INR (length h - 1) / 2 + INR ((r - length h mod r) mod r)) in *. assert (0 <= d) by (unfold d; pose proof (pos_INR (length h - 1)); pose proof (pos_INR ((r - length h mod r) mod r)); lra).
    assert (0 <= lat)%Z. { apply le_IZR. lra. } rewrite Z.max_l in NF by assumption. rewrite (INR_IZR_INZ (nflush lat r * r)). destruct NF as [N1 N2]. apply IZR_le in N1. apply IZR_lt in N2. rewrite plus_IZR, <- !INR_IZR_INZ in N2. rewrite <- INR_IZR_INZ in *. lra.
Qed.
Print Assumptions C76_emitter.
(** A header with its own waveform: the same, the header symbols coming from that one. *)
Theorem C76_emitter_header : forall c r h ph lh wh progs streams, accepted (ec_mod c) r h -> mc_fsk (ec_mod c) = false -> ec_fo c = Some wh -> library_wave (mc_wave (ec_mod c)) -> library_wave wh ->
  prog_ok ph -> denote ph = Some lh -> exec ph = Ok (ec_head c) -> Forall2 (fun p s => prog_ok p /\ exec p = Ok s) progs streams ->
  let w := mc_wave (ec_mod c) in
  exists m0 m xs Ss nz, mod_new (ec_mod c) = Ok m0 /\ map_st (emet_step c) m0 streams = Ok (m, xs) /\
    Forall2 (fun p S => exists l Sh Sd, denote p = Some l /\ S = Sh ++ Sd /\ says wh Sh (pad_bits (w_k wh) lh) /\ says w Sd (pad_bits (w_k w) l)) progs Ss /\
    map (@length C) xs = map (fun S => (length S + nz) * r)%nat Ss /\
    let all := concat (map (fun S => S ++ repeat (0, 0) nz) Ss) in
    concat xs = map (fun n => rf_out (mc_fi (ec_mod c)) (mc_fe (ec_mod c)) (mc_real (ec_mod c)) n (pam (pulse h r) r all n)) (seq 0 (length all * r)).
Proof.
  intros c r h ph lh wh progs streams A F Fo LW Lh P D E H w. destruct (new_ok _ r h A) as (m0 & E0 & Re).
  destruct (emet_frames c r h (fun l S => exists Sh Sd, S = Sh ++ Sd /\ says wh Sh (pad_bits (w_k wh) lh) /\ says w Sd (pad_bits (w_k w) l))) with (progs := progs) (streams := streams) (sent := @nil C) (m := m0) as (m & xs & Ss & E1 & F2 & L & Cc).
  - intros sent m p l s R1 P1 D1 E2. destruct (emet_some c r h A F LW ph lh P D E wh sent m p l s Fo Lh R1 P1 D1 E2) as (m' & Sh & Sd & T1 & T2 & T3 & T4). exists m', (Sh ++ Sd). split; [exact T1|]. split; [exact T2|]. exists Sh, Sd. auto.
  - exact H.
  - exact Re.
  - exists m0, m, xs, Ss. eexists. split; [exact E0|]. split; [exact E1|]. split; [|split; [exact L|exact Cc]].
    clear -F2. induction F2 as [|p S ps Sl (l & Dp & Sh & Sd & X) _ IH]; constructor; [exists l, Sh, Sd; tauto|exact IH].
Qed.
Print Assumptions C76_emitter_header.
(** Finding: with the default number of coefficients (0), Émetteur::retard() is -1/2
    whatever the pulse, while the delay of the modulator it drives is not negative. *)
Theorem C76_retard_refuted : forall c r h, accepted (ec_mod c) r h -> 1 <= mc_fe (ec_mod c) / mc_fsymb (ec_mod c) -> mc_ncoefs (ec_mod c) = 0%Z ->
  emet_retard c = Ok (- / 2) /\ exists m0, mod_new (ec_mod c) = Ok m0 /\ 0 <= mod_delais m0.
Proof.
  intros c r h A Hq Hn. split.
  - unfold emet_retard, ups_delais. rewrite Hn. set (q := mc_fe (ec_mod c) / mc_fsymb (ec_mod c)) in *. destruct (Rlt_dec q 0); [lra|]. assert (Int_part q <> 0)%Z. { intros X. pose proof (base_Int_part q) as [B1 B2]. rewrite X in B2. simpl in B2. lra. }
    destruct (Z.eqb_spec (Int_part q) 0); [contradiction|]. rewrite Z.rem_0_l by assumption. cbn [Z.eqb]. assert (Q : IZR (0 - 1) / 2 + IZR 0 = - / 2) by (change (IZR (0 - 1)) with (-1); lra). rewrite Q. reflexivity.
  - destruct (new_ok _ r h A) as (m0 & E0 & Re). exists m0. split; [exact E0|]. rewrite (re_lat _ _ _ _ _ Re). pose proof (pos_INR (length h - 1)). pose proof (pos_INR ((r - length h mod r) mod r)). lra.
Qed.
Print Assumptions C76_retard_refuted.

(** ** The hypotheses are met *)
(** BPSK, NRZ, 4 samples per symbol, on a carrier *)
Definition bpsk4 (fi : R) (f : forme) : mconf := {| mc_wave := wave_psk 2; mc_forme := f; mc_fsk := false; mc_index := 1; mc_fe := 4; mc_fi := fi; mc_fsymb := 1; mc_real := false; mc_ncoefs := 0 |}.
Lemma osf_4 : osf_of 4 1 = Ok 4%Z.
Proof. rewrite (osf_ok 4 1 4); [reflexivity|lia|lia|lra|simpl; lra]. Qed.
Example C76_case_nrz fi : accepted (bpsk4 fi NRZ) 4 (repeat (/ INR 4) 4).
Proof. split; [lia|]. split; [exact osf_4|]. apply nrz_good. lia. Qed.
Example C76_case_unshaped fi : accepted (bpsk4 fi AUCUN) 4 [1].
Proof. split; [lia|]. split; [exact osf_4|]. apply none_good. lia. Qed.
Example C76_case_gauss fi : exists h, accepted (bpsk4 fi (GAUSSIEN (/ 2))) 4 h /\ length h = 21%nat.
Proof. destruct (gauss_good (/ 2) 0 4) as (h & G & L & _); [lia|lia|]. exists h. split; [split; [lia|split; [exact osf_4|exact G]]|exact L]. Qed.
(** a root raised cosine pulse of three taps, roll-off 0 *)
Example C76_case_rcs : exists h, accepted {| mc_wave := wave_psk 2; mc_forme := RCS 0; mc_fsk := false; mc_index := 1; mc_fe := 4; mc_fi := 0; mc_fsymb := 1; mc_real := false; mc_ncoefs := 3 |} 4 h /\ length h = 3%nat.
Proof.
  assert (Q : rcs (/ 4) 0 = 4 * sin (PI / 4) / PI).
  { unfold rcs. destruct (Req_EM_T (/ 4) 0); [lra|]. destruct (Rlt_dec 0 0); [lra|]. replace (PI * / 4 * (1 - 0)) with (PI / 4) by field. pose proof PI_RGT_0. field. lra. }
  assert (Q0 : rcs 0 0 = 1) by (unfold rcs; destruct (Req_EM_T 0 0); [|contradiction]; pose proof PI_RGT_0; field; lra).
  pose proof (rcs_good 0 3 4 ltac:(lia) ltac:(lia)) as G. cbv zeta in G. change (Z.to_nat (nb_coefs 3 (Z.of_nat 4))) with 3%nat in G. cbn [seq map] in G.
  set (raw := [rcs ((INR 0 - INR (3 / 2)) / INR 4) 0; rcs ((INR 1 - INR (3 / 2)) / INR 4) 0; rcs ((INR 2 - INR (3 / 2)) / INR 4) 0]) in G.
  assert (E : raw = [rcs (/ 4) 0; rcs 0 0; rcs (/ 4) 0]).
  { unfold raw. change (3 / 2)%nat with 1%nat. f_equal; [|f_equal; [|f_equal]].
    - rewrite <- rcs_even. f_equal. cbn [INR]. field.
    - f_equal. cbn [INR]. field.
    - f_equal. cbn [INR]. field. }
  exists (vdiv raw (somme raw)). split; [|reflexivity]. split; [lia|]. split; [exact osf_4|]. apply G. rewrite E, Q, Q0. unfold somme. cbn [length sum nth]. 
  assert (0 < sin (PI / 4)) by (pose proof PI_RGT_0; apply sin_gt_0; lra). assert (0 < 4 * sin (PI / 4) / PI) by (pose proof PI_RGT_0; apply Rdiv_lt_0_compat; lra). set (a := 4 * sin (PI / 4) / PI) in *. apply Rgt_not_eq. cbn. lra.
Qed.
(** two BPSK symbols held over 4 samples each, in two calls *)
Example C76_case_hold : exists m0 m, mod_new (bpsk4 0 NRZ) = Ok m0 /\ run mod_step m0 [[(1, 0)]; [(-1, 0)]] = Ok (m, [(1, 0); (1, 0); (1, 0); (1, 0); (-1, 0); (-1, 0); (-1, 0); (-1, 0)]).
Proof. destruct (C76_nrz _ 4 (C76_case_nrz 0) eq_refl eq_refl eq_refl) as (m0 & E & V). destruct (V [[(1, 0)]; [(-1, 0)]]) as (m & E1). exists m0, m. split; [exact E|exact E1]. Qed.
