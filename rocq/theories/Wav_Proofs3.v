From Coq Require Import Reals Lra.
From Flocq Require Import Core IEEE754.BinarySingleNaN IEEE754.Binary IEEE754.Bits.
From Verif Require Import Base BaseLemmas Dbl Wav_Model Wav_Spec Wav_Proofs Wav_Proofs2.
Open Scope Z_scope.

Lemma b64_of_b32_ok x : Binary.is_finite 24 128 x = true -> v64 (b64_of_b32 x) = v32 x /\ Binary.is_finite 53 1024 (b64_of_b32 x) = true.
Proof.
  intros Hx. destruct x as [s|s|s p e|s m e H] eqn:Ex; try discriminate; [split; reflexivity|].
  unfold v64, v32. cbn [b64_of_b32].
  pose proof (binary_normalize_correct 53 1024 eq_refl eq_refl mode_NE (cond_Zopp s (Z.pos m)) e s) as N.
  change (F2R (Float radix2 (cond_Zopp s (Z.pos m)) e)) with (Binary.B2R 24 128 (Binary.B754_finite 24 128 s m e H)) in N.
  rewrite <- Ex in *. clear Ex.
  assert (G : round radix2 (SpecFloat.fexp 53 1024) (round_mode mode_NE) (Binary.B2R 24 128 x) = Binary.B2R 24 128 x).
  { apply round_generic; [apply valid_rnd_N|]. pose proof (Binary.generic_format_B2R 24 128 x) as F.
    apply (@FLT_format_generic radix2 (-149) 24 eq_refl) in F. destruct F as [f F1 F2 F3].
    apply (generic_format_FLT radix2 (-1074) 53). apply (FLT_spec radix2 (-1074) 53 _ f F1); [|lia].
    eapply Z.lt_trans; [exact F2|]. reflexivity. }
  rewrite G in N. rewrite Rlt_bool_true in N; [split; apply N|].
  apply Rlt_trans with (bpow radix2 128); [apply Binary.abs_B2R_lt_emax|]. apply bpow_lt. lia.
Qed.
Lemma b32_of_b64_ok x z : Binary.is_finite 53 1024 x = true -> v64 x = IZR z -> Z.abs z < 2 ^ 24 -> v32 (b32_of_b64 x) = IZR z.
Proof.
  intros Hx Hv Hz. destruct x as [s|s|s p e|s m e H] eqn:Ex; try discriminate.
  { unfold v64 in Hv. cbn in Hv. unfold v32. cbn. exact Hv. }
  unfold v32. cbn [b32_of_b64]. unfold v64 in Hv.
  pose proof (binary_normalize_correct 24 128 eq_refl eq_refl mode_NE (cond_Zopp s (Z.pos m)) e s) as N.
  change (F2R (Float radix2 (cond_Zopp s (Z.pos m)) e)) with (Binary.B2R 53 1024 (Binary.B754_finite 53 1024 s m e H)) in N.
  rewrite Hv in N.
  assert (G : round radix2 (SpecFloat.fexp 24 128) (round_mode mode_NE) (IZR z) = IZR z).
  { apply round_generic; [apply valid_rnd_N|]. apply (generic_int 24 (-149)); [lia|lia|exact Hz]. }
  rewrite G in N. rewrite Rlt_bool_true in N; [apply N|].
  rewrite <- abs_IZR. apply Rlt_le_trans with (bpow radix2 24). { rewrite <- IZR_Zpower by lia. apply IZR_lt. exact Hz. } apply bpow_le. lia.
Qed.

Lemma rate_of_float r z : Binary.is_finite 24 128 r = true -> v32 r = IZR z -> 0 <= z < 2 ^ 24 ->
  rate_ok (b64_of_b32 r) /\ v64 (b64_of_b32 r) = IZR z.
Proof.
  intros Hf Hv Hz. destruct (b64_of_b32_ok r Hf) as [E F]. rewrite Hv in E. split; [|exact E]. split; [exact F|].
  rewrite E. split; [apply (IZR_le 0); lia|]. apply IZR_le. change (2 ^ 24) with 16777216 in Hz. lia.
Qed.
Lemma config_back z s : 0 <= z < 2 ^ 24 -> l_freq s = z -> v32 (b32_of_b64 (snd (lis_config s))) = IZR z.
Proof.
  intros Hz <-. unfold lis_config. cbn [snd]. assert (A : Z.abs (l_freq s) < 2 ^ 53) by (change (2 ^ 24) with 16777216 in Hz; change (2 ^ 53) with 9007199254740992; lia).
  destruct (b64_of_Z_ok _ A) as [E F]. apply (b32_of_b64_ok _ _ F E). rewrite Z.abs_eq; lia.
Qed.
Lemma lis_one s n r : lis_all s [n] = Ok r -> exists s', lis_flottant s n = Ok (s', snd r).
Proof.
  cbn [lis_all]. destruct (lis_flottant s n) as [[s1 a]| | |]; try discriminate. cbn [bind]. rewrite app_nil_r. intros [= <-]. eauto.
Qed.
Lemma mono_ok junk fech z x : Binary.is_finite 24 128 fech = true -> v32 fech = IZR z -> 0 <= z < 2 ^ 24 ->
  4 * Z.of_nat (length x) < 2 ^ 29 ->
  exists f r, wav_enregistre junk fech x = Ok f /\ wav_charge 0 f = Ok (x, r) /\ v32 r = IZR z.
Proof.
  intros Hf Hv Hz Hl. destruct (rate_of_float fech z Hf Hv Hz) as [Hr E].
  set (cfg := mkcfg 1 (b64_of_b32 fech) PCM_FLOAT).
  assert (T : total [WFloat x] = length x) by (unfold total; cbn; lia).
  destruct (open_ok junk cfg [WFloat x]) as (f & s & h & E1 & E2 & E3 & E4 & E5 & E6 & E7 & E8 & E9 & E10).
  { cbn. lia. } { exact Hr. } { repeat constructor. cbn. apply Z.divide_1_l. } { repeat constructor. } { rewrite T. cbn [octets cfg format]. lia. }
  rewrite T in E5. cbn [cfg ncanaux] in E5. rewrite Z.div_1_r in E5.
  exists f, (b32_of_b64 (snd (lis_config s))). split; [exact E1|]. split.
  2:{ apply config_back; [exact Hz|]. rewrite E10. cbn [cfg freq_ech]. rewrite E. apply Ztrunc_IZR. }
  unfold wav_charge. rewrite E2. cbn [bind]. rewrite E5. rewrite (proj2 (Z.ltb_ge _ 0)) by lia. rewrite Nat2Z.id.
  assert (F : flat_map (op_bytes (format cfg)) [WFloat x] = flat_map enc32 ([] ++ x ++ [])) by (cbn [flat_map format cfg op_bytes op_floats app]; now rewrite !app_nil_r).
  rewrite F in E7. replace 44%nat with (length h + 4 * length (@nil binary32))%nat in E7 by (rewrite E6; reflexivity).
  rewrite (lis_f32 h [] x [] s); [reflexivity|rewrite E9; discriminate|exact E7].
Qed.
Lemma pairs_inter {A} (l : list (A * A)) : pairs (flat_map (fun p => [fst p; snd p]) l) = l.
Proof. induction l as [|[a b] l IH]; cbn [flat_map app pairs fst snd]; [reflexivity|]. now rewrite IH. Qed.
Lemma stereo_ok junk fech z x : Binary.is_finite 24 128 fech = true -> v32 fech = IZR z -> 0 <= z < 2 ^ 24 ->
  8 * Z.of_nat (length x) < 2 ^ 29 ->
  exists f r, wav_enregistre_stereo junk fech x = Ok f /\ wav_charge_stereo 0 f = Ok (x, r) /\ v32 r = IZR z
    /\ wav_charge 0 f = Ok (firstn (length x) (interleave x), r).
Proof.
  intros Hf Hv Hz Hl. destruct (rate_of_float fech z Hf Hv Hz) as [Hr E].
  set (cfg := mkcfg 2 (b64_of_b32 fech) PCM_FLOAT).
  assert (T : total [WCplx x] = (2 * length x)%nat) by (unfold total; cbn; lia).
  destruct (open_ok junk cfg [WCplx x]) as (f & s & h & E1 & E2 & E3 & E4 & E5 & E6 & E7 & E8 & E9 & E10).
  { cbn. lia. } { exact Hr. } { repeat constructor. cbn [cfg ncanaux op_len]. exists (Z.of_nat (length x)). lia. } { repeat constructor. } { rewrite T. cbn [octets cfg format]. lia. }
  rewrite T in E5. cbn [cfg ncanaux] in E5. replace (Z.of_nat (2 * length x)) with (Z.of_nat (length x) * 2) in E5 by lia. rewrite Z.div_mul in E5 by lia.
  exists f, (b32_of_b64 (snd (lis_config s))). split; [exact E1|].
  assert (Fb : flat_map (op_bytes (format cfg)) [WCplx x] = flat_map enc32 (interleave x)) by (cbn [flat_map format cfg op_bytes op_floats]; now rewrite !app_nil_r).
  rewrite Fb in E7. 
  assert (Li : length (interleave x) = (2 * length x)%nat) by apply inter_len.
  split; [|split].
  - unfold wav_charge_stereo. rewrite E2. cbn [bind]. rewrite E5. rewrite (proj2 (Z.ltb_ge _ 0)) by lia. rewrite Nat2Z.id, <- Li.
    rewrite (lis_f32 h [] (interleave x) [] s); [cbn [bind]; unfold interleave; now rewrite pairs_inter|rewrite E9; discriminate|].
    cbn [app length]. rewrite app_nil_r. rewrite E6. exact E7.
  - apply config_back; [exact Hz|]. rewrite E10. cbn [cfg freq_ech]. rewrite E. apply Ztrunc_IZR.
  - unfold wav_charge. rewrite E2. cbn [bind]. rewrite E5. rewrite (proj2 (Z.ltb_ge _ 0)) by lia. rewrite Nat2Z.id.
    assert (Ln : length x = length (firstn (length x) (interleave x))) by (rewrite firstn_length, Li; lia).
    rewrite Ln at 1. rewrite (lis_f32 h [] (firstn (length x) (interleave x)) (skipn (length x) (interleave x)) s).
    + reflexivity.
    + rewrite E9; discriminate.
    + cbn [app length]. rewrite firstn_skipn, E6. exact E7.
Qed.

(** Seeking in a mono 16-bit file. *)
Lemma seek_ok junk cfg os : format cfg = PCM_16 -> ncanaux cfg = 1 -> rate_ok (freq_ech cfg) ->
  2 * Z.of_nat (total os) < 2 ^ 29 -> Forall (op_ok PCM_16) os ->
  exists f s, wav_session junk cfg os = Ok f /\ charge 0 f = Ok s /\
    forall p n, (p + n <= total os)%nat ->
      exists s', lis_donnees (recherche s p) n = (s', firstn n (skipn p (flat_map op_ints os))).
Proof.
  intros F Hc Hr Ht Ho. destruct (open_ok junk cfg os) as (f & s & h & E1 & E2 & E3 & E4 & E5 & E6 & E7 & E8 & E9 & E10).
  { lia. } { exact Hr. } { rewrite Hc. apply Forall_forall. intros. apply Z.divide_1_l. } { rewrite F. exact Ho. } { rewrite F. cbn [octets]. lia. }
  exists f, s. do 2 (split; [assumption|]). intros p n Hp. rewrite F, fm_ints in E7.
  assert (Hb : Forall is16 (flat_map op_ints os)).
  { clear - Ho. induction Ho as [|o os Ho _ IH]; cbn [flat_map]; [constructor|]. apply Forall_app. split; [|exact IH].
    destruct o; cbn [op_ok op_ints] in *; [exact Ho| |]; apply Forall_map; eapply Forall_impl; try exact Ho; intros x Hx; apply Hx. }
  set (L := flat_map op_ints os) in *. assert (Hl : length L = total os) by apply total_ints.
  set (b := firstn n (skipn p L)). assert (Hn : n = length b) by (unfold b; rewrite firstn_length, skipn_length; lia).
  rewrite Hn. eexists. apply (lis_d16 h (firstn p L) b (skipn n (skipn p L))).
  - unfold b. apply Forall_forall. intros x Hx. rewrite Forall_forall in Hb. apply Hb.
    rewrite <- (firstn_skipn p L), <- (firstn_skipn n (skipn p L)). apply in_or_app. right. apply in_or_app. now left.
  - destruct E7 as [E7 E7']. split; cbn [recherche l_file l_off].
    + unfold b. rewrite !firstn_skipn. exact E7.
    + rewrite firstn_length, E6. lia.
Qed.
Lemma restart_ok junk cfg os : 1 <= ncanaux cfg <= 65535 -> rate_ok (freq_ech cfg) -> Forall (op_ok (format cfg)) os ->
  exists f s, wav_session junk cfg os = Ok f /\ charge 0 f = Ok s /\
    forall ns s' y, lis_all s ns = Ok (s', y) -> redemarre s' = s.
Proof.
  intros Hc Hr Ho. destruct (session_ok junk cfg os) as (b & Hb & E); [lia|exact Hr|exact Ho|].
  pose proof (freq_conv _ Hr). rewrite E. do 2 eexists. split; [reflexivity|]. rewrite charge_ok; [|exact Hc|cbn; lia|exact Hb]. split; [reflexivity|].
  intros ns s' y Hn.
  assert (G : forall ns s s' y, lis_all s ns = Ok (s', y) -> redemarre s' = redemarre s).
  { clear. induction ns as [|n ns IH]; intros s s' y; cbn [lis_all]; [intros [= <- <-]; reflexivity|].
    destruct (lis_flottant s n) as [[s1 a]| | |] eqn:E1; try discriminate. cbn [bind].
    destruct (lis_all s1 ns) as [[s2 c]| | |] eqn:E2; try discriminate. cbn [bind]. intros [= <- <-]. rewrite (IH _ _ _ E2).
    unfold lis_flottant, lis_donnees in E1. destruct (l_fmt s =? 1).
    - rewrite map_length, seq_length in E1. destruct (_ =? n)%nat; [|discriminate]. injection E1 as <- _. reflexivity.
    - destruct (_ =? n)%nat; [|discriminate]. injection E1 as <- _. reflexivity. }
  rewrite (G _ _ _ _ Hn). reflexivity.
Qed.

Lemma position_all : forall ns s s' y, lis_all s ns = Ok (s', y) ->
  l_pos s' = l_pos s + Z.of_nat (length y) /\ length y = list_sum ns.
Proof.
  induction ns as [|n ns IH]; intros s s' y; cbn [lis_all]; [intros [= <- <-]; cbn; lia|].
  destruct (lis_flottant s n) as [[s1 a]| | |] eqn:E1; try discriminate. cbn [bind].
  destruct (lis_all s1 ns) as [[s2 c]| | |] eqn:E2; try discriminate. cbn [bind]. intros [= <- <-].
  destruct (IH _ _ _ E2) as [H1 H2]. rewrite app_length. cbn [list_sum fold_right].
  change (fold_right Nat.add 0%nat ns) with (list_sum ns).
  cut (l_pos s1 = l_pos s + Z.of_nat (length a) /\ length a = n); [lia|].
  unfold lis_flottant, lis_donnees in E1. destruct (l_fmt s =? 1).
  - rewrite map_length, seq_length in E1. destruct (_ =? n)%nat eqn:E; [|discriminate]. apply Nat.eqb_eq in E.
    injection E1 as <- <-. rewrite !map_length, seq_length. cbn [adv l_pos]. lia.
  - destruct (_ =? n)%nat eqn:E; [|discriminate]. apply Nat.eqb_eq in E. injection E1 as <- <-.
    rewrite map_length, seq_length. cbn [adv l_pos]. lia.
Qed.
Lemma charge_pos fuel f s : charge fuel f = Ok s -> l_pos s = 0.
Proof.
  unfold charge. destruct (length f <? 44)%nat; [intros; discriminate|]. destruct (negb _); [intros; discriminate|].
  destruct (cherche_data _ _ _ _ _) as [[o z]| | |]; cbn [bind]; try (intros; discriminate).
  destruct (_ || _)%bool; [intros; discriminate|]. intros [= <-]. reflexivity.
Qed.
Lemma position_ok : forall fuel f s ns s' y,
  charge fuel f = Ok s -> lis_all s ns = Ok (s', y) ->
  lis_position s' = Z.of_nat (length y) /\ length y = list_sum ns
  /\ lis_position (redemarre s') = 0 /\ (forall p, lis_position (recherche s' p) = Z.of_nat p)
  /\ forall n, lis_position (fst (lis_donnees s' n)) = Z.of_nat (length y + length (snd (lis_donnees s' n))).
Proof.
  intros fuel f s ns s' y Hc Hl. destruct (position_all _ _ _ _ Hl) as [H1 H2]. rewrite (charge_pos _ _ _ Hc) in H1.
  unfold lis_position. repeat split; try assumption; try lia.
  intros n. unfold lis_donnees. cbn [fst snd adv l_pos]. rewrite map_length, seq_length. lia.
Qed.

(** ** Findings *)
Lemma wrap_ok junk cfg os : 1 <= ncanaux cfg <= 65535 -> rate_ok (freq_ech cfg) -> whole_frames (ncanaux cfg) os -> Forall (op_ok (format cfg)) os ->
  2 ^ 29 <= Z.of_nat (total os) * octets (format cfg) < 2 ^ 32 ->
  exists f s, wav_session junk cfg os = Ok f /\ charge 0 f = Ok s /\ lis_nechantillons s <> Z.of_nat (total os) / ncanaux cfg.
Proof.
  intros Hc Hr Hw Ho Ht. destruct (session_ok junk cfg os) as (b & Hb & E); [lia|exact Hr|exact Ho|].
  pose proof (freq_conv _ Hr). rewrite E. do 2 eexists. split; [reflexivity|]. rewrite charge_ok; [|exact Hc|cbn; lia|exact Hb]. split; [reflexivity|].
  cbn [lis_nechantillons l_nech].
  assert (Hoc : octets (format cfg) = 2 \/ octets (format cfg) = 4) by (destruct (format cfg); cbn; auto).
  set (o := octets (format cfg)) in *. set (c := ncanaux cfg) in *. clearbody o c.
  assert (P : pos_of c os * c = Z.of_nat (total os)).
  { apply pos_whole; [lia|exact Hw|]. lia. }
  set (T := Z.of_nat (total os)) in *. set (p := pos_of c os) in *. clearbody T p.
  replace (p * o * c) with (T * o) by (subst T; ring). change (2 ^ 32) with 4294967296 in *. change (2 ^ 29) with 536870912 in *.
  rewrite (Z.mod_small (T * o)) by lia.
  assert (B : 8 * (T * o) mod 4294967296 <= 8 * (T * o) - 4294967296) .
  { pose proof (Z.div_mod (8 * (T * o)) 4294967296). assert (1 <= 8 * (T * o) / 4294967296) by (apply Z.div_le_lower_bound; lia). lia. }
  pose proof (Z.mod_pos_bound (8 * (T * o)) 4294967296). set (m := 8 * (T * o) mod 4294967296) in *. clearbody m.
  rewrite <- P, Z.div_mul by lia. clear E.
  assert (m / (o * 8 * c) < p).
  { apply Z.div_lt_upper_bound; nia. }
  assert (0 <= m / (o * 8 * c)) by (apply Z.div_pos; nia).
  unfold s32. destruct (_ <? _); nia.
Qed.
