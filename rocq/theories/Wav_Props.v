(** Property C35: WAV files round-trip. *)
From Coq Require Import Reals Lra.
From Flocq Require Import Core IEEE754.BinarySingleNaN IEEE754.Binary IEEE754.Bits.
From Verif Require Import Base BaseLemmas Dbl Wav_Model Wav_Spec Wav_Proofs Wav_Proofs2 Wav_Proofs3.
Open Scope Z_scope.

(** 32-bit float mode: whatever the calls (vectors, complex vectors or integers)
    and the partition of the writes into whole frames, and whatever the
    partition of the reads, the reader finds the channel count, the (integer)
    rate, the number of frames and the very same floats (same bit patterns).
    Files below 2^29 bytes; [junk] is the uninitialised header field. *)
Theorem C35_float_round_trip : forall junk cfg os,
  format cfg = PCM_FLOAT -> 1 <= ncanaux cfg <= 65535 -> rate_ok (freq_ech cfg) ->
  whole_frames (ncanaux cfg) os -> 4 * Z.of_nat (total os) < 2 ^ 29 ->
  exists f s, wav_session junk cfg os = Ok f /\ charge 0 f = Ok s
    /\ fst (lis_config s) = ncanaux cfg
    /\ v64 (snd (lis_config s)) = IZR (Ztrunc (v64 (freq_ech cfg)))
    /\ lis_nechantillons s = Z.of_nat (total os) / ncanaux cfg
    /\ forall ns, list_sum ns = total os ->
         exists s', lis_all s ns = Ok (s', flat_map op_floats os).
Proof. exact roundtrip_float. Qed.
Print Assumptions C35_float_round_trip.

(** 16-bit mode: integers come back unchanged, floats come back truncated
    towards zero (no scaling). *)
Definition samples16 (o : wop) : list Z :=
  match o with WInt l => l | _ => map (fun x => Ztrunc (v32 x)) (op_floats o) end.
Definition ok16 (o : wop) : Prop :=
  match o with WInt l => Forall is16 l | _ => Forall fits16 (op_floats o) end.
Theorem C35_pcm16_round_trip : forall junk cfg os,
  format cfg = PCM_16 -> 1 <= ncanaux cfg <= 65535 -> rate_ok (freq_ech cfg) ->
  whole_frames (ncanaux cfg) os -> 2 * Z.of_nat (total os) < 2 ^ 29 -> Forall ok16 os ->
  exists f s, wav_session junk cfg os = Ok f /\ charge 0 f = Ok s
    /\ fst (lis_config s) = ncanaux cfg
    /\ v64 (snd (lis_config s)) = IZR (Ztrunc (v64 (freq_ech cfg)))
    /\ lis_nechantillons s = Z.of_nat (total os) / ncanaux cfg
    /\ (exists s', lis_donnees s (total os) = (s', flat_map samples16 os))
    /\ forall ns, list_sum ns = total os ->
         exists s' y, lis_all s ns = Ok (s', y) /\ map v32 y = map IZR (flat_map samples16 os).
Proof.
  intros junk cfg os F Hc Hr Hw Ht Ho.
  assert (Ho' : Forall (op_ok PCM_16) os) by (eapply Forall_impl; [|exact Ho]; intros [l|l|l] H; exact H).
  destruct (roundtrip_16 junk cfg os F Hc Hr Hw Ht Ho') as (f & s & E1 & E2 & E3 & E4 & E5 & E6 & E7).
  exists f, s. do 5 (split; [assumption|]). split; [exact E6|]. intros ns Hn. destruct (E7 ns Hn) as [s' E].
  exists s', (map b32_of_Z (flat_map op_ints os)). split; [exact E|]. rewrite map_map.
  apply map_ext_Forall. assert (Hb : Forall is16 (flat_map op_ints os)).
  { clear - Ho. induction Ho as [|o os Ho _ IH]; cbn [flat_map]; [constructor|]. apply Forall_app. split; [|exact IH].
    destruct o; cbn [ok16 op_ints] in *; [exact Ho| |]; apply Forall_map; eapply Forall_impl; try exact Ho; intros x Hx; apply Hx. }
  eapply Forall_impl; [|exact Hb]. intros z Hz. apply b32_of_Z_ok. unfold is16 in Hz. change (2 ^ 24) with 16777216. lia.
Qed.
Print Assumptions C35_pcm16_round_trip.

(** The one-call functions: a real signal, then a complex (stereo) signal, with
    an integer rate below 2^24 Hz, come back identical.  Loading the stereo
    file with the mono function returns the first half of the interleaved
    samples (finding). *)
Theorem C35_mono : forall junk fech z x,
  Binary.is_finite 24 128 fech = true -> v32 fech = IZR z -> 0 <= z < 2 ^ 24 ->
  4 * Z.of_nat (length x) < 2 ^ 29 ->
  exists f r, wav_enregistre junk fech x = Ok f /\ wav_charge 0 f = Ok (x, r) /\ v32 r = IZR z.
Proof. exact mono_ok. Qed.
Print Assumptions C35_mono.
Theorem C35_stereo : forall junk fech z x,
  Binary.is_finite 24 128 fech = true -> v32 fech = IZR z -> 0 <= z < 2 ^ 24 ->
  8 * Z.of_nat (length x) < 2 ^ 29 ->
  exists f r, wav_enregistre_stereo junk fech x = Ok f /\ wav_charge_stereo 0 f = Ok (x, r) /\ v32 r = IZR z
    /\ wav_charge 0 f = Ok (firstn (length x) (flat_map (fun p => [fst p; snd p]) x), r).
Proof. exact stereo_ok. Qed.
Print Assumptions C35_stereo.

(** Chunks other than "data" inserted before the samples are skipped. *)
Theorem C35_extra_chunks : forall f s (cs : list (Z * list Z)),
  charge 0 f = Ok s ->
  Forall (fun c => 0 <= fst c < 2 ^ 32 /\ fst c <> data_id /\ Z.of_nat (length (snd c)) < 2 ^ 31 - 1) cs ->
  exists s', charge (length cs) (firstn 36 f ++ flat_map (fun c => chunk (fst c) (snd c)) cs ++ skipn 36 f) = Ok s'
    /\ lis_config s' = lis_config s /\ lis_nechantillons s' = lis_nechantillons s
    /\ forall ns y, (exists t, lis_all s ns = Ok (t, y)) <-> (exists t, lis_all s' ns = Ok (t, y)).
Proof.
  intros f s cs H Hc. destruct (charge_chunks f s cs H Hc) as (s' & E1 & E2 & E3 & E4).
  exists s'. do 3 (split; [assumption|]). intros ns y. pose proof (lis_all_same ns s s' E4) as L. split; intros [t Ht]; rewrite Ht in L.
  - destruct (lis_all s' ns) as [[t' y']| | |]; try contradiction. subst. eauto.
  - destruct (lis_all s ns) as [[t' y']| | |]; try contradiction. subst. eauto.
Qed.
Print Assumptions C35_extra_chunks.

(** Seeking to a frame of a mono 16-bit file reads from that frame. *)
Theorem C35_seek_mono16 : forall junk cfg os,
  format cfg = PCM_16 -> ncanaux cfg = 1 -> rate_ok (freq_ech cfg) ->
  2 * Z.of_nat (total os) < 2 ^ 29 -> Forall ok16 os ->
  exists f s, wav_session junk cfg os = Ok f /\ charge 0 f = Ok s /\
    forall p n, (p + n <= total os)%nat ->
      exists s', lis_donnees (recherche s p) n = (s', firstn n (skipn p (flat_map samples16 os))).
Proof.
  intros junk cfg os F Hc Hr Ht Ho. apply seek_ok; assumption.
Qed.
Print Assumptions C35_seek_mono16.

(** Restarting after any reads gives back the freshly opened reader, for the
    files libtsd writes. *)
Theorem C35_restart : forall junk cfg os,
  1 <= ncanaux cfg <= 65535 -> rate_ok (freq_ech cfg) ->
  (format cfg = PCM_16 -> Forall ok16 os) ->
  exists f s, wav_session junk cfg os = Ok f /\ charge 0 f = Ok s /\
    forall ns s' y, lis_all s ns = Ok (s', y) -> redemarre s' = s.
Proof.
  intros junk cfg os Hc Hr Ho. apply restart_ok; try assumption. destruct (format cfg).
  - eapply Forall_impl; [|exact (Ho eq_refl)]; intros [l|l|l] H; exact H.
  - apply Forall_forall; intros; exact I.
Qed.
Print Assumptions C35_restart.

(** The position reported after opening a file and any successful reads (16-bit
    or float, any partition) is the number of values delivered, counted over all
    channels; after a restart it is 0, after seeking to value p it is p. *)
Theorem C35_position : forall fuel f s ns s' y,
  charge fuel f = Ok s -> lis_all s ns = Ok (s', y) ->
  lis_position s' = Z.of_nat (length y) /\ length y = list_sum ns
  /\ lis_position (redemarre s') = 0 /\ (forall p, lis_position (recherche s' p) = Z.of_nat p)
  /\ forall n, lis_position (fst (lis_donnees s' n)) = Z.of_nat (length y + length (snd (lis_donnees s' n))).
Proof. exact position_ok. Qed.
Print Assumptions C35_position.

(** ** Non-vacuity *)
Definition ex_cfg0 := mkcfg 2 (b64_of_Z 48000) PCM_16.
Example C35_position_case :
  (let* f := wav_session 99 ex_cfg0 [WInt [1; -2; 3; 4]] in let* s := charge 0 f in let* (s', y) := lis_all s [1; 2]%nat in Ok (lis_position s', map (fun z => match z with B754_finite _ _ _ _ _ _ => true | _ => false end) y)) = Ok (3, [true; true; true]).
Proof. vm_compute. reflexivity. Qed.
Lemma rate48k : rate_ok (b64_of_Z 48000).
Proof.
  destruct (b64_of_Z_ok 48000 eq_refl) as [E F]. split; [exact F|]. rewrite E. split; apply IZR_le; lia.
Qed.
Lemma fits_half : fits16 (b32_of_Z (-7)).
Proof. split; [reflexivity|]. rewrite b32_of_Z_ok by reflexivity. rewrite Ztrunc_IZR. unfold is16; lia. Qed.
(** a stereo 16-bit session with an integer write, a float write and a complex write *)
Definition ex_ops := [WInt [1; -2]; WFloat [b32_of_Z 3; b32_of_Z (-7)]; WCplx [(b32_of_Z (-7), b32_of_Z (-7))]].
Definition ex_cfg := mkcfg 2 (b64_of_Z 48000) PCM_16.
Example C35_case : 1 <= ncanaux ex_cfg <= 65535 /\ rate_ok (freq_ech ex_cfg) /\ whole_frames 2 ex_ops /\ Forall ok16 ex_ops
  /\ 2 * Z.of_nat (total ex_ops) < 2 ^ 29 /\ total ex_ops = 6%nat.
Proof.
  assert (fits16 (b32_of_Z 3)).
  { split; [reflexivity|]. rewrite b32_of_Z_ok by reflexivity. rewrite Ztrunc_IZR. unfold is16; lia. }
  pose proof fits_half. split; [cbn; lia|]. split; [exact rate48k|].
  split; [unfold whole_frames; repeat constructor; exists 1; reflexivity|].
  split; [unfold ex_ops; repeat (constructor; try assumption); unfold is16; lia|]. split; [cbn; lia|reflexivity].
Qed.
(** the same session, run: 3 frames at 48 kHz, values read back *)
Example C35_run :
  (let* f := wav_session 99 ex_cfg ex_ops in let* s := charge 0 f in
   Ok (length f, l_can s, l_freq s, l_nech s, snd (lis_donnees s 6)))
  = Ok (56%nat, 2, 48000, 3, [1; -2; 3; -7; -7; -7]).
Proof. vm_compute. reflexivity. Qed.
Example C35_mono_case : Binary.is_finite 24 128 (b32_of_Z 44100) = true /\ v32 (b32_of_Z 44100) = IZR 44100.
Proof. split; [reflexivity|]. apply b32_of_Z_ok. reflexivity. Qed.
Example C35_chunk_case : 0 <= 1414744396 < 2 ^ 32 /\ 1414744396 <> data_id /\ Z.of_nat (length [1; 2; 3]) < 2 ^ 31 - 1.
Proof. cbn. unfold data_id. lia. Qed.

(** ** Findings *)

(** A write that is not a whole number of frames makes the frame count wrong:
    two stereo writes of 3 samples (3 frames) are announced as 2 frames. *)
Theorem C35_partial_frames_refuted :
  exists cfg os, ncanaux cfg = 2 /\ rate_ok (freq_ech cfg) /\ total os = 6%nat
    /\ (let* f := wav_session 0 cfg os in let* s := charge 0 f in Ok (lis_nechantillons s)) = Ok 2.
Proof.
  exists (mkcfg 2 (b64_of_Z 48000) PCM_16), [WInt [1; 2; 3]; WInt [4; 5; 6]].
  split; [reflexivity|]. split; [exact rate48k|]. split; [reflexivity|]. vm_compute. reflexivity.
Qed.
Print Assumptions C35_partial_frames_refuted.

(** From 2^29 bytes of samples on (512 MiB), the announced number of frames is
    wrong for every file: [8 * data_size] wraps in 32 bits. *)
Theorem C35_large_files_refuted : forall junk cfg os,
  1 <= ncanaux cfg <= 65535 -> rate_ok (freq_ech cfg) -> whole_frames (ncanaux cfg) os ->
  (format cfg = PCM_16 -> Forall ok16 os) ->
  2 ^ 29 <= Z.of_nat (total os) * (match format cfg with PCM_FLOAT => 4 | PCM_16 => 2 end) < 2 ^ 32 ->
  exists f s, wav_session junk cfg os = Ok f /\ charge 0 f = Ok s
    /\ lis_nechantillons s <> Z.of_nat (total os) / ncanaux cfg.
Proof.
  intros junk cfg os Hc Hr Hw Ho Ht. apply wrap_ok; try assumption. destruct (format cfg).
  - eapply Forall_impl; [|exact (Ho eq_refl)]; intros [l|l|l] H; exact H.
  - apply Forall_forall; intros; exact I.
Qed.
Print Assumptions C35_large_files_refuted.
(** such a session exists *)
Example C35_large_case : exists os, whole_frames 1 os /\ 2 ^ 29 <= Z.of_nat (total os) * 2 < 2 ^ 32.
Proof.
  destruct (Z_of_nat_complete (2 ^ 28)) as [n Hn]; [apply Z.pow_nonneg; lia|].
  exists [WInt (repeat 0 n)].
  assert (T : Z.of_nat (total [WInt (repeat 0 n)]) = 2 ^ 28).
  { unfold total. cbn [map op_len list_sum fold_right]. rewrite repeat_length, Nat.add_0_r. symmetry. exact Hn. }
  rewrite T. split; [|split; [apply Z.le_refl|reflexivity]]. constructor; [apply Z.divide_1_l|constructor].
Qed.

(** The RIFF size field (bytes 4-7) of every file is whatever the stack held,
    and the block size field (bytes 32-33) is the size of one sample, not of a
    frame as the format requires, when there is more than one channel. *)
Theorem C35_header_fields_refuted : forall junk cfg os,
  1 <= ncanaux cfg <= 65535 -> rate_ok (freq_ech cfg) -> (format cfg = PCM_16 -> Forall ok16 os) ->
  exists f, wav_session junk cfg os = Ok f
    /\ unle (sub 4 4 f) = junk mod 2 ^ 32
    /\ unle (sub 32 2 f) = unle (sub 34 2 f) / 8
    /\ (2 <= ncanaux cfg -> unle (sub 32 2 f) <> unle (sub 22 2 f) * unle (sub 34 2 f) / 8).
Proof.
  intros junk cfg os Hc Hr Ho. destruct (session_ok junk cfg os) as (b & Hb & E); [lia|exact Hr| |].
  { destruct (format cfg). - eapply Forall_impl; [|exact (Ho eq_refl)]; intros [l|l|l] H; exact H. - apply Forall_forall; intros; exact I. }
  eexists. split; [exact E|]. set (f := _ ++ _).
  change (sub 4 4 f) with (le 4 junk). change (sub 32 2 f) with (le 2 (octets (format cfg))).
  change (sub 34 2 f) with (le 2 (octets (format cfg) * 8)). change (sub 22 2 f) with (le 2 (ncanaux cfg mod 65536)).
  rewrite unle_le_mod. split; [reflexivity|]. rewrite !unle2 by ((try apply Z.mod_pos_bound; try lia); destruct (format cfg); cbn; lia).
  rewrite Z.div_mul by lia. split; [reflexivity|]. intros H2. rewrite Z.mod_small by lia. rewrite Z.mul_assoc, Z.div_mul by lia. destruct (format cfg); cbn [octets]; lia.
Qed.
Print Assumptions C35_header_fields_refuted.

(** A chunk whose size field is 0xFFFFFFF8 makes the reader loop for ever: the
    size is read as -8 and the reader seeks back to the same chunk. *)
Definition loop_file : list Z :=
  [82; 73; 70; 70] ++ repeat 0 32 ++ [76; 73; 83; 84] ++ [248; 255; 255; 255].
Theorem C35_chunk_loop_refuted : length loop_file = 44%nat /\ forall fuel, charge fuel loop_file = Diverge.
Proof.
  split; [reflexivity|]. assert (L : forall fuel, cherche_data fuel loop_file 44 (unle (sub 36 4 loop_file)) (unle (sub 40 4 loop_file)) = Diverge).
  { induction fuel as [|fu IH]; [reflexivity|]. rewrite <- IH. reflexivity. }
  intros fuel. unfold charge. rewrite L. reflexivity.
Qed.
Print Assumptions C35_chunk_loop_refuted.

(** Seeking to frame 1 in a stereo 16-bit file reads the second channel of
    frame 0; restarting a file with an extra chunk reads inside the chunk. *)
Theorem C35_seek_refuted :
  (let* f := wav_session 0 ex_cfg ex_ops in let* s := charge 0 f in
   Ok (snd (lis_donnees (recherche s 1) 2))) = Ok [-2; 3]
  /\ (let* f := wav_session 0 ex_cfg ex_ops in
      let* s := charge 1 (firstn 36 f ++ chunk 1414744396 [10; 0; 20; 0] ++ skipn 36 f) in
      Ok (snd (lis_donnees s 2), snd (lis_donnees (redemarre s) 2))) = Ok ([1; -2], [10; 20]).
Proof. split; vm_compute; reflexivity. Qed.
Print Assumptions C35_seek_refuted.
