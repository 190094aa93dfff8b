(** Proofs about the modulator: symmetric pulses, calls after any history, emitter. *)
From Coq Require Import Reals Lra Lia ZArith.
From Verif Require Import Base BaseLemmas Filters_Model Filters_Spec Filters_Proofs Filters_Props Conv_Lemmas RField DftSys ComplexSys Fourier_Model BitStream_Model BitStream_Spec BitStream_Props TeleBits_Model TeleBits_Spec Demod_Model Demod_Spec Demod_Proofs Demod_Props Special_Model Design_Model Design_Spec Design_Proofs Design_Proofs2 Rif_Model Rif_Spec Rif_Proofs Rif_Proofs2 Gauss_Proofs Rcs_Proofs Polyphase_Model Polyphase_Spec Polyphase_Proofs Polyphase_Proofs2 Polyphase_Props Ra_Model Clk_Proofs Sig_Model Sig_Spec Sig_Proofs Rii_Model Mod_Model Mod_Spec Mod_Proofs Mod_Proofs2 Mod_Proofs3.
Local Open Scope R_scope.

(** ** symmetric pulses *)
Lemma sampZ_pal (h : list R) z : h = rev h -> sampZ (K := Rring) h z = sampZ (K := Rring) h (Z.of_nat (length h) - 1 - z).
Proof.
  intros H. destruct (Z.lt_ge_cases z 0).
  - rewrite (sampZ_neg Rring) by assumption. rewrite (sampZ_over Rring) by (change (@length (car Rring) h) with (@length R h); lia). reflexivity.
  - destruct (Z.lt_ge_cases z (Z.of_nat (length h))).
    + rewrite <- (Z2Nat.id z) by assumption. set (i := Z.to_nat z). assert (i < length h)%nat by lia. replace (Z.of_nat (length h) - 1 - Z.of_nat i)%Z with (Z.of_nat (length h - S i)) by lia. rewrite !(sampZ_nat Rring).
      unfold samp. change (@eq R (nth i h 0) (nth (length h - S i) h 0)). rewrite H at 1. apply rev_nth. assumption.
    + rewrite (sampZ_over Rring) by assumption. rewrite (sampZ_neg Rring) by lia. reflexivity.
Qed.
Lemma pulse_sym h r z : h = rev h -> let D := (Z.of_nat (length h) - 1 + 2 * Z.of_nat ((r - length h mod r) mod r))%Z in
  sampZ (K := Rring) (pulse h r) (D - z) = sampZ (K := Rring) (pulse h r) z.
Proof.
  intros H D. rewrite !pulse_at, pulse_length. eqR. f_equal. rewrite (sampZ_pal h _ H). f_equal. unfold D. lia.
Qed.
Lemma vdiv_pal h c : h = rev h -> vdiv h c = rev (vdiv h c).
Proof. intros H. unfold vdiv. rewrite <- map_rev, <- H. reflexivity. Qed.
Lemma rcs_pal n beta r : Nat.odd n = true -> let raw := map (fun i => rcs ((INR i - INR (n / 2)) / INR r) beta) (seq 0 n) in raw = rev raw.
Proof.
  intros Ho raw. assert (L : length raw = n) by (unfold raw; rewrite map_length, seq_length; reflexivity). apply Nat.odd_spec in Ho. destruct Ho as [q Hq].
  apply (list_ext 0); [rewrite rev_length; reflexivity|]. intros i Hi. rewrite L in Hi. rewrite rev_nth by lia. rewrite L. unfold raw. rewrite !(nth_map_seq (X := R)) by lia. rewrite <- rcs_even. f_equal.
  assert (n / 2 = q)%nat as -> by (rewrite Hq, Nat.add_comm, Nat.mul_comm, Nat.div_add by lia; reflexivity). rewrite minus_INR by lia. rewrite (S_INR i). replace (INR n) with (2 * INR q + 1) by (rewrite Hq, plus_INR, mult_INR; reflexivity). unfold Rdiv. ring.
Qed.

(** ** any history *)
Lemma mod_run_any c r h blocks : accepted c r h -> forall sent m, reach c r h sent m ->
  exists m' y, run mod_step m blocks = Ok (m', y) /\ reach c r h (sent ++ concat blocks) m'.
Proof.
  intros A. induction blocks as [|b bs IH]; intros sent m Re; cbn [run concat].
  - exists m, []. rewrite app_nil_r. split; [reflexivity|exact Re].
  - destruct (mod_step_ok c r h sent m b A Re) as (m1 & E1 & R1). rewrite E1. cbn [bind]. destruct (IH (sent ++ b) m1 R1) as (m2 & y & E2 & R2). rewrite E2. cbn [bind].
    do 2 eexists. split; [reflexivity|]. rewrite <- app_assoc in R2. exact R2.
Qed.
Definition nflush (d : Z) (r : nat) : nat := if (d <=? 0)%Z then 0%nat else Z.to_nat (ceilZ (IZR d / INR r)).
Lemma nflush_ok d r : (0 < r)%nat -> (d <= Z.of_nat (nflush d r * r) < Z.max d 0 + Z.of_nat r)%Z.
Proof.
  intros Hr. assert (0 < INR r) by (apply lt_0_INR; exact Hr). unfold nflush. destruct (Z.leb_spec d 0); [lia|]. pose proof (ceil_spec (IZR d / INR r)) as [C1 C2]. change Clk_Spec.ceilZ with Ra_Model.ceilZ in *. set (q := ceilZ (IZR d / INR r)) in *. clearbody q.
  assert (D1 : IZR d <= IZR q * INR r). { apply (Rmult_le_compat_r (INR r)) in C2; [|lra]. unfold Rdiv in C2. rewrite Rmult_assoc, Rinv_l in C2 by lra. rewrite Rmult_1_r in C2. exact C2. }
  assert (D2 : (IZR q - 1) * INR r < IZR d). { apply (Rmult_lt_compat_r (INR r)) in C1; [|lra]. unfold Rdiv in C1. rewrite Rmult_assoc, Rinv_l in C1 by lra. rewrite Rmult_1_r in C1. exact C1. }
  rewrite INR_IZR_INZ in D1, D2. rewrite <- mult_IZR in D1. rewrite <- minus_IZR, <- mult_IZR in D2. apply le_IZR in D1. apply lt_IZR in D2. assert (0 < q)%Z by nia. nia.
Qed.
Lemma flush_ok c r h sent m d : accepted c r h -> reach c r h sent m -> let k := nflush d r in
  exists m', mod_flush m d = Ok (m', emitted c r (length sent * r) (bb (pulse h r) r (sent ++ repeat (0, 0) k) (length sent * r) (k * r))) /\ reach c r h (sent ++ repeat (0, 0) k) m'.
Proof.
  intros A Re k. unfold mod_flush, k, nflush. destruct (Z.leb_spec d 0).
  - exists m. cbn [repeat]. rewrite app_nil_r. split; [|exact Re]. f_equal. f_equal. unfold emitted, bb. cbn. destruct (mc_fsk c); destruct (Req_EM_T (mc_fi c) 0); reflexivity.
  - rewrite (re_osf _ _ _ _ _ Re), <- INR_IZR_INZ. destruct (mod_step_ok c r h sent m (repeat (0, 0) (Z.to_nat (ceilZ (IZR d / INR r)))) A Re) as (m' & E & R'). rewrite repeat_length in E. exists m'. split; [exact E|exact R'].
Qed.

(** ** rectangular pulses after any history *)
Lemma hold_app r a b : hold r (a ++ b) = hold r a ++ hold r b.
Proof. unfold hold. apply flat_map_app. Qed.
Lemma bb_nrz r sent s : (0 < r)%nat -> bb (repeat 1 r) r (sent ++ s) (length sent * r) (length s * r) = hold r s.
Proof.
  intros Hr. unfold bb. apply (list_ext (0, 0)); [rewrite map_length, seq_length, hold_length; reflexivity|]. intros i Hi. rewrite map_length, seq_length in Hi. rewrite (nth_map_seq (X := C)) by exact Hi.
  rewrite pam_nrz by (rewrite ?app_length; lia). rewrite hold_app. rewrite app_nth2 by (rewrite hold_length; apply Nat.le_add_r). rewrite hold_length. f_equal. lia.
Qed.
Lemma before_hold r s k j : (j < r)%nat -> rsum (S (k * r + j)) (fun i => fst (nth i (hold r s) (0, 0))) = INR r * before s k + INR (S j) * fst (nth k s (0, 0)).
Proof.
  intros Hj. set (f := fun i => fst (nth i (hold r s) (0, 0))).
  assert (F : forall k j, (j < r)%nat -> f (k * r + j)%nat = fst (nth k s (0, 0))) by (intros k' j' H'; unfold f; rewrite nth_hold by exact H'; reflexivity).
  assert (C1 : forall k m, (m <= r)%nat -> rsum (k * r + m) f = rsum (k * r) f + INR m * fst (nth k s (0, 0))).
  { intros k' m. induction m as [|m IH]; intros Hm; [rewrite Nat.add_0_r; cbn [INR]; lra|]. rewrite Nat.add_succ_r, rsum_S, IH by lia. rewrite F by lia. rewrite S_INR. lra. }
  assert (C2 : forall k, rsum (k * r) f = INR r * before s k).
  { induction k0 as [|q IH]; [unfold before; cbn; lra|]. replace (S q * r)%nat with (q * r + r)%nat by lia. rewrite C1 by lia. rewrite IH. unfold before. rewrite (rsum_S q (fun i => fst (nth i s (0, 0)))). lra. }
  replace (S (k * r + j)) with (k * r + S j)%nat by lia. rewrite C1 by lia. rewrite C2. reflexivity.
Qed.

(** ** emitter *)
Section Emitter.
Variables (c : econf) (r : nat) (h : list R).
Hypothesis A : accepted (ec_mod c) r h.
Hypothesis F : mc_fsk (ec_mod c) = false.
Let lat := ceilZ (INR (length h - 1) / 2 + INR ((r - length h mod r) mod r)).
Let nz := nflush lat r.
Let lo := lin_out (ec_mod c) (pulse h r) r.
Definition frame_of (sent S : list C) : list C := map (fun i => lin_out (ec_mod c) (pulse h r) r (sent ++ S) (length sent * r + i)) (seq 0 (length S * r)).
Lemma frame_app sent S T : frame_of sent (S ++ T) = frame_of sent S ++ frame_of (sent ++ S) T.
Proof.
  unfold frame_of. rewrite !app_length, Nat.mul_add_distr_r, seq_map_app. f_equal.
  - apply map_ext_in. intros i Hi. apply in_seq in Hi. unfold lin_out. f_equal. rewrite app_assoc. apply pam_more; [auto|]. rewrite app_length, Nat.mul_add_distr_r. lia.
  - apply map_ext. intros i. rewrite <- app_assoc. f_equal. lia.
Qed.
Lemma frame_step sent m S : reach (ec_mod c) r h sent m -> exists m', mod_step m S = Ok (m', frame_of sent S) /\ reach (ec_mod c) r h (sent ++ S) m'.
Proof. intros Re. destruct (mod_step_ok _ _ _ _ _ S A Re) as (m' & E & R'). exists m'. split; [|exact R']. rewrite E, emitted_lin by exact F. reflexivity. Qed.
Lemma frame_flush sent m : reach (ec_mod c) r h sent m -> exists m', mod_flush m lat = Ok (m', frame_of sent (repeat (0, 0) nz)) /\ reach (ec_mod c) r h (sent ++ repeat (0, 0) nz) m'.
Proof. intros Re. destruct (flush_ok _ _ _ _ _ lat A Re) as (m' & E & R'). exists m'. split; [|exact R']. rewrite E, emitted_lin by exact F. unfold frame_of. rewrite repeat_length. reflexivity. Qed.
Lemma reach_wave sent m w : reach (ec_mod c) r h sent m -> exists m', mod_def_forme m w = m' /\ md_wave m' = w /\ (w = mc_wave (ec_mod c) -> reach (ec_mod c) r h sent m').
Proof. intros Re. eexists. split; [reflexivity|]. split; [reflexivity|]. intros ->. destruct Re. constructor; cbn; try reflexivity; assumption. Qed.

Hypothesis LW : library_wave (mc_wave (ec_mod c)).
Variables (ph : bsprog) (lh : list bool).
Hypothesis Ph : prog_ok ph.
Hypothesis Dh : denote ph = Some lh.
Hypothesis Eh : exec ph = Ok (ec_head c).
Let w := mc_wave (ec_mod c).
Lemma says_ok v p l s : library_wave v -> prog_ok p -> denote p = Some l -> exec p = Ok s -> exists S, genere_symboles v s = Ok S /\ says v S l.
Proof.
  intros Lv P D E. destruct (C42_roundtrip v p l s PEmpty [] bs_empty Lv P D E I eq_refl eq_refl) as (S & s1 & G & L & Dec & Sh). exists S. split; [exact G|]. split; [exact L|]. exists s1. split; [exact Dec|exact Sh].
Qed.
Lemma emet_none sent m p l s : ec_fo c = None -> reach (ec_mod c) r h sent m -> prog_ok p -> denote p = Some l -> exec p = Ok s ->
  exists m' S, emet_step c m s = Ok (m', frame_of sent (S ++ repeat (0, 0) nz)) /\ reach (ec_mod c) r h (sent ++ S ++ repeat (0, 0) nz) m' /\ says w S (pad_bits (w_k w) (pad_bits (w_k w) lh ++ l)).
Proof.
  intros Fo Re P D E. destruct (lw_ok _ LW) as (_ & _ & Hk & _). fold w in Hk.
  set (p2 := PPadMult (PCat (PPadMult ph (w_k w)) p) (w_k w)). assert (P2 : prog_ok p2) by (cbn; repeat split; auto; lia).
  assert (D2 : denote p2 = Some (pad_bits (w_k w) (pad_bits (w_k w) lh ++ l))) by (cbn; rewrite Dh, D; reflexivity).
  pose proof (C01_bitstream_is_a_list_of_bits p2 P2) as X. rewrite D2 in X. destruct X as (s2 & E2 & _).
  destruct (says_ok w p2 _ s2 LW P2 D2 E2) as (S & G & Sy). unfold emet_step. rewrite Fo. fold w.
  assert (Elat : ceilZ (mod_delais m) = lat) by (unfold lat; rewrite (re_lat _ _ _ _ _ Re); reflexivity). rewrite Elat.
  cbn [exec p2] in E2. rewrite Eh in E2. cbn [bind] in E2. destruct (bs_pad_mult (ec_head c) (w_k w)) as [et2| | |]; try discriminate E2. cbn [bind] in *. rewrite E in E2. cbn [bind] in E2. unfold bs_append in E2.
  destruct (bs_cat et2 s) as [b2| | |]; try discriminate E2. cbn [bind] in *. rewrite E2. cbn [bind]. unfold mod_bits. rewrite (re_wave _ _ _ _ _ Re). fold w. rewrite G. cbn [bind].
  destruct (frame_step sent m S Re) as (m1 & E1 & R1). rewrite E1. cbn [bind]. destruct (frame_flush _ m1 R1) as (m2 & E3 & R3). rewrite E3. cbn [bind].
  exists m2, S. split; [rewrite frame_app; reflexivity|]. split; [rewrite app_assoc; exact R3|exact Sy].
Qed.
Lemma emet_some wh sent m p l s : ec_fo c = Some wh -> library_wave wh -> reach (ec_mod c) r h sent m -> prog_ok p -> denote p = Some l -> exec p = Ok s ->
  exists m' Sh Sd, emet_step c m s = Ok (m', frame_of sent ((Sh ++ Sd) ++ repeat (0, 0) nz)) /\ reach (ec_mod c) r h (sent ++ (Sh ++ Sd) ++ repeat (0, 0) nz) m' /\
    says wh Sh (pad_bits (w_k wh) lh) /\ says w Sd (pad_bits (w_k w) l).
Proof.
  intros Fo Lh Re P D E. destruct (lw_ok _ LW) as (_ & _ & Hk & _). fold w in Hk. destruct (lw_ok _ Lh) as (_ & _ & Hkh & _).
  assert (P1 : prog_ok (PPadMult ph (w_k wh))) by (cbn; split; [exact Ph|lia]). assert (D1 : denote (PPadMult ph (w_k wh)) = Some (pad_bits (w_k wh) lh)) by (cbn; rewrite Dh; reflexivity).
  pose proof (C01_bitstream_is_a_list_of_bits _ P1) as X. rewrite D1 in X. destruct X as (s1 & E1 & _).
  assert (P2 : prog_ok (PPadMult p (w_k w))) by (cbn; split; [exact P|lia]). assert (D2 : denote (PPadMult p (w_k w)) = Some (pad_bits (w_k w) l)) by (cbn; rewrite D; reflexivity).
  pose proof (C01_bitstream_is_a_list_of_bits _ P2) as X. rewrite D2 in X. destruct X as (s2 & E2 & _).
  destruct (says_ok wh _ _ s1 Lh P1 D1 E1) as (S1 & G1 & Sy1). destruct (says_ok w _ _ s2 LW P2 D2 E2) as (S2 & G2 & Sy2).
  cbn [exec] in E1, E2. rewrite Eh in E1. rewrite E in E2. cbn [bind] in E1, E2. unfold emet_step. rewrite Fo. fold w.
  assert (Elat : ceilZ (mod_delais m) = lat) by (unfold lat; rewrite (re_lat _ _ _ _ _ Re); reflexivity). rewrite Elat. rewrite E1. cbn [bind]. unfold mod_bits at 1. cbn [mod_def_forme md_wave]. rewrite G1. cbn [bind].
  (* step does not look at the waveform *)
  destruct (frame_step sent m S1 Re) as (m1 & T1 & R1).
  assert (Q : mod_step (mod_def_forme m wh) S1 = Ok (mod_def_forme m1 wh, frame_of sent S1)).
  { revert T1. unfold mod_step. cbn [mod_def_forme md_conf md_filt md_ol md_osf md_lat md_wave]. destruct (shape_step (md_filt m) S1) as [[Ff x]| | |]; cbn [bind]; try discriminate.
    destruct (if Req_EM_T (mc_fi (md_conf m)) 0 then _ else _) as [ol x']. intros T. injection T as <- <-. reflexivity. }
  rewrite Q. cbn [bind]. rewrite E2. cbn [bind]. unfold mod_bits. cbn [mod_def_forme md_wave]. fold w. rewrite G2. cbn [bind].
  destruct (reach_wave _ m1 w R1) as (m1' & Em & _ & R1'). specialize (R1' eq_refl). destruct (frame_step _ m1' S2 R1') as (m2 & T2 & R2).
  assert (Em' : mod_def_forme (mod_def_forme m1 wh) w = m1') by (rewrite <- Em; reflexivity).
  rewrite Em'. rewrite T2. cbn [bind]. destruct (frame_flush _ m2 R2) as (m3 & T3 & R3). rewrite T3. cbn [bind].
  exists m3, S1, S2. split; [f_equal; f_equal; rewrite <- (app_assoc S1 S2), !frame_app; symmetry; apply app_assoc|]. split; [rewrite !app_assoc in *; exact R3|]. split; assumption.
Qed.
Lemma emet_frames (Q : list bool -> list C -> Prop) :
  (forall sent m p l s, reach (ec_mod c) r h sent m -> prog_ok p -> denote p = Some l -> exec p = Ok s ->
     exists m' S, emet_step c m s = Ok (m', frame_of sent (S ++ repeat (0, 0) nz)) /\ reach (ec_mod c) r h (sent ++ S ++ repeat (0, 0) nz) m' /\ Q l S) ->
  forall progs streams, Forall2 (fun p s => prog_ok p /\ exec p = Ok s) progs streams -> forall sent m, reach (ec_mod c) r h sent m ->
  exists m' xs Ss, map_st (emet_step c) m streams = Ok (m', xs) /\ Forall2 (fun p S => exists l, denote p = Some l /\ Q l S) progs Ss /\
    map (@length C) xs = map (fun S => (length S + nz) * r)%nat Ss /\
    concat xs = frame_of sent (concat (map (fun S => S ++ repeat (0, 0) nz) Ss)).
Proof.
  intros ST progs streams H. induction H as [|p s progs streams [P E] _ IH]; intros sent m Re.
  - exists m, [], []. split; [reflexivity|]. split; [constructor|]. split; reflexivity.
  - pose proof (C01_bitstream_is_a_list_of_bits p P) as X. destruct (denote p) as [l|] eqn:D; [|rewrite E in X; discriminate X]. destruct (ST sent m p l s Re P D E) as (m1 & S & E1 & R1 & q). cbn [map_st]. rewrite E1. cbn [bind].
    destruct (IH _ m1 R1) as (m2 & xs & Ss & E2 & F2 & L2 & C2). rewrite E2. cbn [bind]. do 2 eexists. exists (S :: Ss). split; [reflexivity|]. split; [constructor; [exists l; split; [exact D|exact q]|exact F2]|].
    split.
    + cbn [map]. rewrite L2. f_equal. unfold frame_of. rewrite map_length, seq_length, app_length, repeat_length. reflexivity.
    + cbn [concat map]. rewrite C2. rewrite <- frame_app. reflexivity.
Qed.
End Emitter.
