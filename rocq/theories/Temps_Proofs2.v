(** Proofs about GPS time and Julian days (double precision). *)
From Coq Require Import Reals Lra.
From Flocq Require Import Core.
From Verif Require Import Base Dbl Temps_Model Temps_Spec Temps_Proofs.
Local Open Scope Z_scope.

Definition gps_epoch : Z := 722819 * us_per_day.
Lemma epoque_GPS_ok : epoque_GPS = Ok gps_epoch.
Proof.
  unfold epoque_GPS. rewrite of_date_ok; [reflexivity|]. unfold valid_date. cbn [an mois jour]. change (month_len 1980 1) with 31. lia.
Qed.
Lemma bp20 : bpow radix2 (-20) = (/ 1048576)%R.
Proof. reflexivity. Qed.
Lemma bp40 : bpow radix2 (-40) = (/ 1099511627776)%R.
Proof. reflexivity. Qed.
Lemma gps_secs v n : n = (v + 18000000) / 1000000 -> 0 <= n < 4096 * 604800 ->
  (IZR n <= dbl (dbl (dbl (IZR v) / IZR TICS_SECONDE) + 18) <= IZR (n + 1) - bpow radix2 (-20))%R.
Proof.
  intros En Hn. set (n0 := n - 18).
  assert (Hv : n0 * 1000000 <= v < (n0 + 1) * 1000000).
  { pose proof (Z.div_mod (v + 18000000) 1000000 ltac:(lia)) as E. pose proof (Z.mod_pos_bound (v + 18000000) 1000000 ltac:(lia)). unfold n0. lia. }
  rewrite (dbl_int v) by (unfold n0 in *; change (2 ^ 53) with 9007199254740992; lia).
  change (IZR TICS_SECONDE) with 1000000%R. assert (B20 := bp20).
  assert (X : (IZR n0 <= IZR v / 1000000 <= IZR (n0 + 1) - bpow radix2 (-20))%R).
  { assert (V1 : (IZR (n0 * 1000000) <= IZR v)%R) by (apply IZR_le; lia). assert (V2 : (IZR v <= IZR ((n0 + 1) * 1000000 - 1))%R) by (apply IZR_le; lia).
    rewrite mult_IZR in V1. rewrite minus_IZR, mult_IZR in V2. rewrite B20. lra. }
  assert (X1 : (IZR n0 <= dbl (IZR v / 1000000))%R) by (apply dbl_lower; [change (2 ^ 53) with 9007199254740992; unfold n0; lia|apply X]).
  assert (X2 : (dbl (IZR v / 1000000) <= IZR (n0 + 1) - bpow radix2 (-20))%R).
  { apply (dbl_upper (n0 + 1) 20); [lia|change (2 ^ 20) with 1048576; change (2 ^ 53) with 9007199254740992; unfold n0; lia|apply X]. }
  split.
  - apply dbl_lower; [change (2 ^ 53) with 9007199254740992; lia|]. replace n with (n0 + 18) by (unfold n0; lia). rewrite plus_IZR. lra.
  - apply (dbl_upper (n + 1) 20); [lia|change (2 ^ 20) with 1048576; change (2 ^ 53) with 9007199254740992; lia|].
    replace (n + 1) with (n0 + 1 + 18) by (unfold n0; lia). rewrite (plus_IZR (n0 + 1)). change (- (20)) with (-20). lra.
Qed.
Lemma gps_week y n w : n / 604800 = w -> 0 <= n < 4096 * 604800 -> (IZR n <= y <= IZR (n + 1) - bpow radix2 (-20))%R ->
  Ztrunc (dbl (y / 604800)) = w.
Proof.
  intros Ew Hn Hy. pose proof (Z.div_mod n 604800 ltac:(lia)) as E. pose proof (Z.mod_pos_bound n 604800 ltac:(lia)) as M. rewrite Ew in E.
  assert (Hw : 0 <= w < 4096) by lia.
  assert (N1 : (IZR (604800 * w) <= IZR n)%R) by (apply IZR_le; lia). assert (N2 : (IZR (n + 1) <= IZR (604800 * (w + 1)))%R) by (apply IZR_le; lia).
  rewrite mult_IZR in N1, N2. rewrite plus_IZR in N2. rewrite plus_IZR in N2. rewrite bp20 in Hy. rewrite plus_IZR in Hy.
  apply trunc_unique; [lia|]. split.
  - apply dbl_lower; [change (2 ^ 53) with 9007199254740992; lia|]. lra.
  - apply Rle_lt_trans with (IZR (w + 1) - bpow radix2 (-40))%R.
    + apply (dbl_upper (w + 1) 40); [lia|change (2 ^ 40) with 1099511627776; change (2 ^ 53) with 9007199254740992; lia|]. change (- (40)) with (-40). rewrite bp40, plus_IZR. lra.
    + rewrite plus_IZR. pose proof (bpow_pos (-40)). lra.
Qed.
Lemma vers_GPS_ok t : let n := (t - gps_epoch + 18000000) / 1000000 in 0 <= n < 3551 * 604800 -> vers_GPS t = Ok (n / 604800, n mod 604800).
Proof.
  intros n Hn. unfold vers_GPS. rewrite epoque_GPS_ok. cbn [bind]. cbv zeta.
  pose proof (gps_secs (t - gps_epoch) n eq_refl ltac:(lia)) as Y. set (y := dbl (dbl (dbl (IZR (t - gps_epoch)) / IZR TICS_SECONDE) + 18)) in *.
  change (IZR (nbsecs_par_jour * 7)) with 604800%R. change (nbsecs_par_jour * 7) with 604800.
  rewrite (gps_week y n (n / 604800) eq_refl ltac:(lia) Y).
  pose proof (Z.div_mod n 604800 ltac:(lia)) as E. pose proof (Z.mod_pos_bound n 604800 ltac:(lia)) as M.
  set (w := n / 604800) in *. set (s := n mod 604800) in *.
  unfold int32 at 1. destruct (Z.leb_spec (- 2 ^ 31) w); [|lia]. destruct (Z.ltb_spec w (2 ^ 31)); [|lia]. cbn [andb bind].
  unfold int32 at 1. destruct (Z.leb_spec (- 2 ^ 31) (w * 604800)); [|lia]. destruct (Z.ltb_spec (w * 604800) (2 ^ 31)); [|lia]. cbn [andb bind].
  replace (Ztrunc (dbl (y - IZR (w * 604800)))) with s.
  - unfold int32. destruct (Z.leb_spec (- 2 ^ 31) s); [|lia]. destruct (Z.ltb_spec s (2 ^ 31)); [|lia]. reflexivity.
  - symmetry. apply trunc_unique; [lia|]. assert (Ey : (IZR s <= y - IZR (w * 604800) <= IZR (s + 1) - bpow radix2 (-20))%R).
    { replace s with (n - w * 604800) by lia. replace (n - w * 604800 + 1) with ((n + 1) - w * 604800) by lia. rewrite !minus_IZR. lra. }
    split.
    + apply dbl_lower; [change (2 ^ 53) with 9007199254740992; lia|apply Ey].
    + apply Rle_lt_trans with (IZR (s + 1) - bpow radix2 (-20))%R.
      * apply (dbl_upper (s + 1) 20); [lia|change (2 ^ 20) with 1048576; change (2 ^ 53) with 9007199254740992; lia|apply Ey].
      * rewrite plus_IZR. pose proof (bpow_pos (-20)). lra.
Qed.
Lemma vers_GPS_overflow t : (t - gps_epoch + 18000000) / 1000000 >= 3551 * 604800 -> vers_GPS t = UB.
Proof.
  intros Hn. unfold vers_GPS. rewrite epoque_GPS_ok. cbn [bind]. cbv zeta.
  assert (Hv : 2147644782000000 <= t - gps_epoch).
  { pose proof (Z.div_mod (t - gps_epoch + 18000000) 1000000 ltac:(lia)) as E. pose proof (Z.mod_pos_bound (t - gps_epoch + 18000000) 1000000 ltac:(lia)). lia. }
  assert (V1 : (IZR 2147644782000000 <= dbl (IZR (t - gps_epoch)))%R).
  { apply dbl_lower; [change (2 ^ 53) with 9007199254740992; lia|apply IZR_le; exact Hv]. }
  change (IZR TICS_SECONDE) with 1000000%R.
  assert (V2 : (IZR 2147644782 <= dbl (dbl (IZR (t - gps_epoch)) / 1000000))%R).
  { apply dbl_lower; [change (2 ^ 53) with 9007199254740992; lia|]. lra. }
  assert (V3 : (IZR 2147644800 <= dbl (dbl (dbl (IZR (t - gps_epoch)) / 1000000) + 18))%R).
  { apply dbl_lower; [change (2 ^ 53) with 9007199254740992; lia|]. lra. }
  set (y := dbl (dbl (dbl (IZR (t - gps_epoch)) / 1000000) + 18)) in *.
  change (IZR (nbsecs_par_jour * 7)) with 604800%R. change (nbsecs_par_jour * 7) with 604800.
  assert (V4 : (IZR 3551 <= dbl (y / 604800))%R). { apply dbl_lower; [change (2 ^ 53) with 9007199254740992; lia|]. lra. }
  assert (V5 : 3551 <= Ztrunc (dbl (y / 604800))).
  { rewrite <- (Ztrunc_IZR 3551). apply Ztrunc_le. exact V4. }
  set (w := Ztrunc (dbl (y / 604800))) in *. unfold int32 at 1. destruct (Z.leb_spec (- 2 ^ 31) w); [|lia]. destruct (Z.ltb_spec w (2 ^ 31)); [|reflexivity]. cbn [andb bind].
  unfold int32 at 1. destruct (Z.ltb_spec (w * 604800) (2 ^ 31)); [lia|]. rewrite andb_false_r. reflexivity.
Qed.
Lemma de_GPS_ok w s : 0 <= w < 2 ^ 26 -> 0 <= s < 2 ^ 31 -> de_GPS w s = Ok (gps_epoch + (w * 604800 + s - 18) * 1000000).
Proof.
  intros Hw Hs. unfold de_GPS. rewrite epoque_GPS_ok. cbn [bind].
  change (2 ^ 26) with 67108864 in Hw. change (2 ^ 31) with 2147483648 in Hs.
  rewrite duree_secondes_ok by (change (2 ^ 39) with 549755813888; lia). rewrite duree_jours_ok by (change (2 ^ 29) with 536870912; lia).
  rewrite (duree_secondes_ok (-18)) by (change (2 ^ 39) with 549755813888; lia).
  f_equal. unfold TICS_JOUR, TICS_HEURE, TICS_MINUTE, TICS_SECONDE, TICS_MS. lia.
Qed.
Lemma julien_ok k : 0 <= k < 2 ^ 24 -> nb_jours_julien (k * 43200000000) = (IZR k / 2 + 17214255 / 10)%R.
Proof.
  intros Hk. change (2 ^ 24) with 16777216 in Hk. unfold nb_jours_julien, nb_jours.
  rewrite (dbl_int_pow (k * 43200000000) (k * 10546875) 12); [|change (2 ^ 12) with 4096; lia|lia|change (2 ^ 53) with 9007199254740992; lia].
  change (IZR TICS_JOUR) with 86400000000%R.
  replace (IZR (k * 43200000000) / 86400000000)%R with (IZR k * bpow radix2 (-1))%R by (rewrite mult_IZR; change (bpow radix2 (-1)) with (/ 2)%R; field).
  rewrite dbl_dyadic by (change (2 ^ 53) with 9007199254740992; lia).
  replace (IZR k * bpow radix2 (-1) + 17214255 / 10)%R with (IZR (k + 3442851) * bpow radix2 (-1))%R by (rewrite plus_IZR; change (bpow radix2 (-1)) with (/ 2)%R; field).
  rewrite dbl_dyadic by (change (2 ^ 53) with 9007199254740992; lia).
  rewrite plus_IZR; change (bpow radix2 (-1)) with (/ 2)%R; field.
Qed.
