From Coq Require Import Reals Lra.
From Flocq Require Import Core IEEE754.BinarySingleNaN IEEE754.Binary IEEE754.Bits.
From Verif Require Import Base BaseLemmas Dbl Wav_Model Wav_Spec.
Open Scope Z_scope.

(** ** Bytes *)
Lemma le_length k v : length (le k v) = k.
Proof. revert v; induction k; intros; cbn [le length]; auto. Qed.
Lemma unle_le k v : 0 <= v < 256 ^ Z.of_nat k -> unle (le k v) = v.
Proof.
  revert v; induction k; intros v H. { cbn in *. lia. }
  cbn [le unle]. rewrite Nat2Z.inj_succ, Z.pow_succ_r in H by lia. rewrite IHk.
  2:{ split; [apply Z.div_pos; lia|apply Z.div_lt_upper_bound; lia]. }
  pose proof (Z.div_mod v 256); lia.
Qed.
Lemma unle_le_mod k v : unle (le k v) = v mod 256 ^ Z.of_nat k.
Proof.
  revert v; induction k; intros v. { cbn [le unle]. change (256 ^ Z.of_nat 0) with 1. now rewrite Z.mod_1_r. }
  cbn [le unle]. rewrite IHk, Nat2Z.inj_succ, Z.pow_succ_r by lia.
  rewrite Z.rem_mul_r by (try lia; apply Z.pow_nonzero; lia). lia.
Qed.
Lemma unle2 v : 0 <= v < 65536 -> unle (le 2 v) = v.
Proof. intros. apply unle_le. cbn. lia. Qed.
Lemma unle4 v : 0 <= v < 2 ^ 32 -> unle (le 4 v) = v.
Proof. intros. apply unle_le. cbn in *. lia. Qed.
Lemma s16_mod z : is16 z -> s16 (unle (le 2 (z mod 65536))) = z.
Proof.
  unfold is16. intros H. rewrite unle2 by (apply Z.mod_pos_bound; lia). unfold s16.
  destruct (Z.ltb_spec (z mod 65536) 32768).
  - pose proof (Z.div_mod z 65536). pose proof (Z.mod_pos_bound z 65536). lia.
  - pose proof (Z.div_mod z 65536). pose proof (Z.mod_pos_bound z 65536). lia.
Qed.
Lemma bits32 x : b32_of_bits (unle (le 4 (bits_of_b32 x))) = x.
Proof.
  rewrite unle4. { apply (binary_float_of_bits_of_binary_float 23 8 eq_refl eq_refl eq_refl). }
  apply (bits_of_binary_float_range 23 8 eq_refl eq_refl).
Qed.

(** ** fwrite *)
Lemma fwrite_end f b : fwrite f (length f) b = f ++ b.
Proof.
  unfold fwrite. rewrite firstn_all, Nat.sub_diag. cbn [repeat app]. rewrite skipn_all2 by lia. now rewrite app_nil_r.
Qed.
Lemma fwrite_start h0 h d : length h0 = length h -> fwrite (h0 ++ d) 0 h = h ++ d.
Proof.
  intros H. unfold fwrite. cbn [firstn Nat.sub repeat app Nat.add]. rewrite <- H, skipn_app, skipn_all, Nat.sub_diag. reflexivity.
Qed.

(** ** Fixed-length encodings *)
Lemma flat_len {A} k (enc : A -> list Z) (Hk : forall a, length (enc a) = k) l :
  length (flat_map enc l) = (k * length l)%nat.
Proof. induction l; cbn [flat_map length]; [lia|]. rewrite app_length, Hk, IHl. lia. Qed.
Lemma sub_flat {A} k (enc : A -> list Z) (Hk : forall a, length (enc a) = k) pre a x b :
  sub (length pre + k * length a) k (pre ++ flat_map enc (a ++ x :: b)) = enc x.
Proof.
  unfold sub. rewrite flat_map_app, app_assoc.
  assert (E : (length pre + k * length a)%nat = length (pre ++ flat_map enc a)) by (rewrite app_length, (flat_len k) by auto; lia).
  rewrite E, skipn_app, skipn_all, Nat.sub_diag. cbn [skipn app flat_map].
  rewrite firstn_app, Hk, Nat.sub_diag. cbn [firstn]. rewrite app_nil_r. rewrite <- (Hk x) at 1. apply firstn_all.
Qed.
Lemma map_seq_read {A B} k (enc : A -> list Z) (Hk : forall a, length (enc a) = k) (g : list Z -> B) pre a b c :
  map (fun i => g (sub (length pre + k * length a + k * i) k (pre ++ flat_map enc (a ++ b ++ c)))) (seq 0 (length b))
  = map (fun x => g (enc x)) b.
Proof.
  revert a; induction b as [|x b IH]; intros a; [reflexivity|].
  cbn [length seq map]. f_equal.
  - f_equal. rewrite Nat.mul_0_r, Nat.add_0_r. cbn [app]. rewrite (sub_flat k) by auto. reflexivity.
  - rewrite <- seq_shift, map_map. rewrite <- (IH (a ++ [x])). apply map_ext. intros i. f_equal. f_equal.
    + rewrite app_length. cbn [length]. lia.
    + rewrite <- app_assoc. reflexivity.
Qed.

(** ** Reading back *)
Definition at_ (f : list Z) (off : nat) (s : lec) : Prop := l_file s = f /\ l_off s = off.
Lemma items_full {A} k (enc : A -> list Z) (Hk : forall a, length (enc a) = k) (Hp : (0 < k)%nat) pre a b c s :
  at_ (pre ++ flat_map enc (a ++ b ++ c)) (length pre + k * length a) s -> fread_items k (length b) s = length b.
Proof.
  intros [Hf Ho]. unfold fread_items. rewrite Hf, Ho. rewrite app_length, (flat_len k) by auto. rewrite !app_length.
  replace (length pre + k * (length a + (length b + length c)) - (length pre + k * length a))%nat with ((length b + length c) * k)%nat by lia.
  rewrite Nat.div_mul by lia. lia.
Qed.
Definition enc16 (z : Z) : list Z := le 2 (z mod 65536).
Definition enc32 (x : binary32) : list Z := le 4 (bits_of_b32 x).
Lemma enc16_len z : length (enc16 z) = 2%nat. Proof. apply le_length. Qed.
Lemma enc32_len z : length (enc32 z) = 4%nat. Proof. apply le_length. Qed.

Lemma lis_f32 pre a b c s : l_fmt s <> 1 ->
  at_ (pre ++ flat_map enc32 (a ++ b ++ c)) (length pre + 4 * length a) s ->
  lis_flottant s (length b) = Ok (adv s (l_off s + 4 * length b) (length b), b).
Proof.
  intros Hm H. unfold lis_flottant. rewrite (proj2 (Z.eqb_neq _ _) Hm).
  rewrite (items_full 4 enc32 enc32_len ltac:(lia) pre a b c s H). rewrite Nat.eqb_refl.
  unfold fread_off. rewrite (items_full 4 enc32 enc32_len ltac:(lia) pre a b c s H), Nat.eqb_refl.
  do 2 f_equal. destruct H as [-> ->].
  rewrite (map_seq_read 4 enc32 enc32_len (fun l => b32_of_bits (unle l))).
  unfold enc32. rewrite <- (map_id b) at 2. apply map_ext. apply bits32.
Qed.
Lemma lis_d16 pre a b c s : Forall is16 b ->
  at_ (pre ++ flat_map enc16 (a ++ b ++ c)) (length pre + 2 * length a) s ->
  lis_donnees s (length b) = (adv s (l_off s + 2 * length b) (length b), b).
Proof.
  intros Hb H. unfold lis_donnees.
  rewrite (items_full 2 enc16 enc16_len ltac:(lia) pre a b c s H).
  unfold fread_off. rewrite (items_full 2 enc16 enc16_len ltac:(lia) pre a b c s H), Nat.eqb_refl.
  f_equal. destruct H as [-> ->].
  rewrite (map_seq_read 2 enc16 enc16_len (fun l => s16 (unle l))).
  unfold enc16. rewrite <- (map_id b) at 2. apply map_ext_Forall. eapply Forall_impl; [|exact Hb]. intros z Hz. apply s16_mod, Hz.
Qed.
Lemma lis_f16 pre a b c s : l_fmt s = 1 -> Forall is16 b ->
  at_ (pre ++ flat_map enc16 (a ++ b ++ c)) (length pre + 2 * length a) s ->
  lis_flottant s (length b) = Ok (adv s (l_off s + 2 * length b) (length b), map b32_of_Z b).
Proof.
  intros Hm Hb H. unfold lis_flottant. rewrite Hm, Z.eqb_refl.
  rewrite (lis_d16 pre a b c s Hb H). now rewrite Nat.eqb_refl.
Qed.

(** Any partition of the reads. *)
Lemma lis_all_f32 ns : forall pre a b c s, l_fmt s <> 1 -> list_sum ns = length b ->
  at_ (pre ++ flat_map enc32 (a ++ b ++ c)) (length pre + 4 * length a) s ->
  exists s', lis_all s ns = Ok (s', b).
Proof.
  induction ns as [|n ns IH]; intros pre a b c s Hm Hn H.
  - cbn in Hn. destruct b; [|discriminate]. exists s. reflexivity.
  - cbn [list_sum fold_right] in Hn. change (fold_right Nat.add 0%nat ns) with (list_sum ns) in Hn.
    assert (E : b = firstn n b ++ skipn n b) by (symmetry; apply firstn_skipn).
    assert (En : n = length (firstn n b)) by (rewrite firstn_length; lia).
    set (b1 := firstn n b) in *. set (b2 := skipn n b) in *. clearbody b1 b2. subst b n.
    cbn [lis_all]. rewrite (lis_f32 pre a b1 (b2 ++ c) s Hm). 2:{ now rewrite <- app_assoc in H. }
    cbn [bind]. rewrite app_length in Hn.
    destruct (IH pre (a ++ b1) b2 c (adv s (l_off s + 4 * length b1) (length b1))) as [s' E'].
    { exact Hm. } { lia. } { destruct H as [H1 H2]. split; cbn; [rewrite H1; now rewrite <- !app_assoc|rewrite H2, app_length; lia]. }
    rewrite E'. cbn. eauto.
Qed.
Lemma lis_all_f16 ns : forall pre a b c s, l_fmt s = 1 -> Forall is16 b -> list_sum ns = length b ->
  at_ (pre ++ flat_map enc16 (a ++ b ++ c)) (length pre + 2 * length a) s ->
  exists s', lis_all s ns = Ok (s', map b32_of_Z b).
Proof.
  induction ns as [|n ns IH]; intros pre a b c s Hm Hb Hn H.
  - cbn in Hn. destruct b; [|discriminate]. exists s. reflexivity.
  - cbn [list_sum fold_right] in Hn. change (fold_right Nat.add 0%nat ns) with (list_sum ns) in Hn.
    assert (E : b = firstn n b ++ skipn n b) by (symmetry; apply firstn_skipn).
    assert (En : n = length (firstn n b)) by (rewrite firstn_length; lia).
    set (b1 := firstn n b) in *. set (b2 := skipn n b) in *. clearbody b1 b2. subst b n.
    apply Forall_app in Hb. destruct Hb as [Hb1 Hb2].
    cbn [lis_all]. rewrite (lis_f16 pre a b1 (b2 ++ c) s Hm Hb1). 2:{ now rewrite <- app_assoc in H. }
    cbn [bind]. rewrite app_length in Hn.
    destruct (IH pre (a ++ b1) b2 c (adv s (l_off s + 2 * length b1) (length b1))) as [s' E'].
    { exact Hm. } { exact Hb2. } { lia. } { destruct H as [H1 H2]. split; cbn; [rewrite H1; now rewrite <- !app_assoc|rewrite H2, app_length; lia]. }
    rewrite E'. cbn. rewrite map_app. eauto.
Qed.

(** ** Conversions *)
Lemma trunc32 x : Binary.Btrunc 24 128 x = Ztrunc (v32 x).
Proof.
  apply eq_IZR. rewrite Binary.Btrunc_correct by reflexivity. unfold v32. 
  unfold round, F2R, scaled_mantissa, cexp, FIX_exp. cbn. rewrite Rmult_1_r. now rewrite Rmult_1_r.
Qed.
Lemma trunc64 x : Binary.Btrunc 53 1024 x = Ztrunc (v64 x).
Proof.
  apply eq_IZR. rewrite Binary.Btrunc_correct by reflexivity. unfold v64.
  unfold round, F2R, scaled_mantissa, cexp, FIX_exp. cbn. rewrite Rmult_1_r. now rewrite Rmult_1_r.
Qed.
Lemma int16_ok x : fits16 x -> int16_of_b32 x = Ok (Ztrunc (v32 x)).
Proof.
  intros [Hf H]. unfold int16_of_b32. rewrite Hf, trunc32. unfold is16 in H.
  rewrite (proj2 (Z.leb_le _ _)) by lia. rewrite (proj2 (Z.leb_le _ _)) by lia. reflexivity.
Qed.
Lemma mapr_int16 l : Forall fits16 l -> mapr int16_of_b32 l = Ok (map (fun x => Ztrunc (v32 x)) l).
Proof. induction 1 as [|x l H _ IH]; cbn [mapr map]; [reflexivity|]. rewrite (int16_ok x H), IH. reflexivity. Qed.

Lemma generic_int prec emin n : (0 < prec) -> emin <= 0 -> Z.abs n < 2 ^ prec -> generic_format radix2 (FLT_exp emin prec) (IZR n).
Proof.
  intros Hp He H. apply generic_format_FLT. apply (FLT_spec radix2 emin prec _ (Float radix2 n 0)); cbn [Fnum Fexp]; try assumption; try lia.
  unfold F2R. cbn. ring.
Qed.
Lemma b32_of_Z_ok z : Z.abs z < 2 ^ 24 -> v32 (b32_of_Z z) = IZR z.
Proof.
  intros Hz. unfold v32, b32_of_Z.
  pose proof (binary_normalize_correct 24 128 eq_refl eq_refl mode_NE z 0 false) as H.
  assert (E : F2R (Float radix2 z 0) = IZR z) by (unfold F2R; cbn; ring).
  assert (G : round radix2 (SpecFloat.fexp 24 128) (round_mode mode_NE) (F2R (Float radix2 z 0)) = IZR z).
  { rewrite E. apply round_generic; [apply valid_rnd_N|]. apply (generic_int 24 (-149)); [lia|lia|exact Hz]. }
  rewrite G in H. rewrite Rlt_bool_true in H; [apply H|].
  rewrite <- abs_IZR. change 128 with (24 + 104). rewrite bpow_plus. 
  apply Rlt_le_trans with (bpow radix2 24). { rewrite <- IZR_Zpower by lia. apply IZR_lt. exact Hz. }
  rewrite <- (Rmult_1_r (bpow radix2 24)) at 1. apply Rmult_le_compat_l; [apply bpow_ge_0|]. change 1%R with (bpow radix2 0). apply bpow_le. lia.
Qed.
Lemma b64_of_Z_ok z : Z.abs z < 2 ^ 53 -> v64 (b64_of_Z z) = IZR z /\ Binary.is_finite 53 1024 (b64_of_Z z) = true.
Proof.
  intros Hz. unfold v64, b64_of_Z.
  pose proof (binary_normalize_correct 53 1024 eq_refl eq_refl mode_NE z 0 false) as H.
  assert (E : F2R (Float radix2 z 0) = IZR z) by (unfold F2R; cbn; ring).
  assert (G : round radix2 (SpecFloat.fexp 53 1024) (round_mode mode_NE) (F2R (Float radix2 z 0)) = IZR z).
  { rewrite E. apply round_generic; [apply valid_rnd_N|]. apply (generic_int 53 (-1074)); [lia|lia|exact Hz]. }
  rewrite G in H. rewrite Rlt_bool_true in H; [split; apply H|].
  rewrite <- abs_IZR. change 1024 with (53 + 971). rewrite bpow_plus. 
  apply Rlt_le_trans with (bpow radix2 53). { rewrite <- IZR_Zpower by lia. apply IZR_lt. exact Hz. }
  rewrite <- (Rmult_1_r (bpow radix2 53)) at 1. apply Rmult_le_compat_l; [apply bpow_ge_0|]. change 1%R with (bpow radix2 0). apply bpow_le. lia.
Qed.
(** the rate fits the header fields *)
Lemma trunc_pos_bound x n : (0 <= x <= IZR n)%R -> 0 <= Ztrunc x <= n.
Proof.
  intros [H1 H2]. split. { rewrite <- (Ztrunc_IZR 0). apply Ztrunc_le, H1. }
  rewrite <- (Ztrunc_IZR n). apply Ztrunc_le, H2.
Qed.
Lemma uint32_ok x n : Binary.is_finite 53 1024 x = true -> (0 <= v64 x <= IZR n)%R -> n < 4294967296 -> uint32_of_b64 x = Ok (Ztrunc (v64 x)).
Proof.
  intros Hf H Hn. unfold uint32_of_b64. rewrite Hf, trunc64. pose proof (trunc_pos_bound _ _ H).
  rewrite (proj2 (Z.leb_le _ _)) by lia. rewrite (proj2 (Z.ltb_lt _ _)) by lia. reflexivity.
Qed.
Lemma bps_ok f o : rate_ok f -> (o = 2 \/ o = 4) -> exists b, uint32_of_b64 (b64_mult mode_NE f (b64_of_Z o)) = Ok b /\ 0 <= b < 2 ^ 32.
Proof.
  intros [Hf Hr] Ho. assert (Ho' : Z.abs o < 2 ^ 53) by (destruct Ho; subst; reflexivity).
  destruct (b64_of_Z_ok o Ho') as [E F].
  pose proof (Binary.Bmult_correct 53 1024 eq_refl eq_refl binop_nan_pl64 mode_NE f (b64_of_Z o)) as H.
  fold (v64 f) in H. fold (v64 (b64_of_Z o)) in H. rewrite E in H.
  assert (B : (0 <= v64 f * IZR o <= IZR 4000000000)%R).
  { destruct Ho; subst; lra. }
  change (SpecFloat.fexp 53 1024) with (FLT_exp (-1074) 53) in H. cbn [round_mode] in H. fold (dbl (v64 f * IZR o)) in H.
  assert (B' : (0 <= dbl (v64 f * IZR o) <= IZR 4000000000)%R).
  { split; [apply (dbl_lower 0); [reflexivity|apply B]|]. rewrite <- (dbl_int 4000000000) by reflexivity. apply dbl_le, B. }
  rewrite Rlt_bool_true in H.
  2:{ rewrite Rabs_pos_eq by apply B'. apply Rle_lt_trans with (IZR 4000000000); [apply B'|]. apply Rlt_le_trans with (bpow radix2 32).
      - rewrite <- IZR_Zpower by lia. apply IZR_lt. reflexivity.
      - apply bpow_le. lia. }
  destruct H as (H1 & H2 & _). rewrite Hf, F in H2. cbn [andb] in H2.
  change (Binary.Bmult 53 1024 eq_refl eq_refl binop_nan_pl64 mode_NE f (b64_of_Z o)) with (b64_mult mode_NE f (b64_of_Z o)) in *.
  fold (v64 (b64_mult mode_NE f (b64_of_Z o))) in H1.
  rewrite <- H1 in B'. rewrite (uint32_ok _ 4000000000 H2 B') by reflexivity. eexists. split; [reflexivity|].
  pose proof (trunc_pos_bound _ _ B'). cbn. lia.
Qed.
