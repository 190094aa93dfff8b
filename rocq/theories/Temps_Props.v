(** C32, C33, C34: theorems. *)
From Coq Require Import Reals Lra.
From Flocq Require Import Core.
From Verif Require Import Base Dbl Temps_Model Temps_Spec Temps_Proofs Temps_Proofs2.
Local Open Scope Z_scope.

(** ** C32 *)
Theorem C32_round_trip : forall d h, valid_date d -> valid_time h ->
  exists t, of_date d h = Ok t /\ 0 <= t < total_days * us_per_day /\ decomposition t = Ok (d, h).
Proof. exact round_trip. Qed.
Print Assumptions C32_round_trip.
Theorem C32_back : forall t, 0 <= t < total_days * us_per_day ->
  exists d h, decomposition t = Ok (d, h) /\ valid_date d /\ valid_time h /\ of_date d h = Ok t.
Proof. exact decomposition_ok. Qed.
Print Assumptions C32_back.
(** The instant: whole days since 1/1/1 and microseconds since midnight; later dates are later instants. *)
Theorem C32_instant : forall d h n, valid_date d -> debut_ere d = Ok n -> of_date d h = Ok (n * us_per_day + us_of_day h).
Proof. intros d h n V E. rewrite debut_ere_ok in E by exact V. injection E as <-. apply of_date_ok. exact V. Qed.
Print Assumptions C32_instant.
Theorem C32_order : forall d e h k, valid_date d -> valid_date e -> valid_time h -> valid_time k ->
  exists t u, of_date d h = Ok t /\ of_date e k = Ok u /\ (t < u <-> before d e \/ (d = e /\ us_of_day h < us_of_day k)).
Proof.
  intros d e h k Vd Ve Vh Vk. rewrite !of_date_ok by assumption. do 2 eexists. split; [reflexivity|]. split; [reflexivity|].
  pose proof (us_range h Vh) as Uh. pose proof (us_range k Vk) as Uk. unfold us_per_day in *. split.
  - intros H. destruct (before_total d e) as [B|[->|B]]; [auto| |].
    + right. split; [reflexivity|lia].
    + apply daynum_lt in B; try assumption. lia.
  - intros [B|[-> B]]; [apply daynum_lt in B; try assumption|]; lia.
Qed.
Print Assumptions C32_order.
Theorem C32_full_hour : forall t, 0 <= t < total_days * us_per_day -> arrondi_heure_pleine t = Ok (t - t mod 3600000000) /\ microsecondes t = t mod 1000000.
Proof.
  intros t H. split.
  - unfold arrondi_heure_pleine. destruct (decomposition_ok t H) as [d [h [E [V [Vh O]]]]]. rewrite E. cbn [bind].
    rewrite of_date_ok in * by exact V. f_equal. assert (O' : daynum d * us_per_day + us_of_day h = t) by congruence. rewrite <- O'.
    unfold valid_time in Vh. unfold us_of_day, us_per_day in *. cbn [h_h h_m h_s h_ms h_us].
    assert (M : (daynum d * (24 * 60 * 60 * 1000000) + ((((h_h h * 60 + h_m h) * 60 + h_s h) * 1000 + h_ms h) * 1000 + h_us h)) mod 3600000000
      = ((h_m h * 60 + h_s h) * 1000 + h_ms h) * 1000 + h_us h).
    { symmetry. apply (Z.mod_unique _ _ (daynum d * 24 + h_h h)); lia. }
    rewrite M. lia.
  - unfold microsecondes. rewrite Z.rem_mod_nonneg by (unfold TICS_SECONDE, TICS_MS; lia). apply Z.quot_1_r.
Qed.
Print Assumptions C32_full_hour.
(** Finding: from 31/12/10000 on the conversion to a calendar date reads outside of the month table. *)
Theorem C32_year_10000_refuted : calendrier ((total_days + 365) * us_per_day) = UB.
Proof. vm_compute. reflexivity. Qed.
Print Assumptions C32_year_10000_refuted.
(** Finding: one microsecond before 1/1/1 is decomposed as 1/1/1 with a negative number of microseconds. *)
Theorem C32_negative_refuted : decomposition (-1) = Ok (mkcal 1 1 1, mkhc 0 0 0 0 (-1)).
Proof. reflexivity. Qed.
Print Assumptions C32_negative_refuted.
Lemma feb30 : debut_ere (mkcal 2021 2 30) = Ok 737820.
Proof. unfold debut_ere. cbn [bind debut_annee]. change (debut_annee (mkcal 2021 2 30)) with (Ok 30). cbn [bind]. rewrite greg_int by (cbn; lia). rewrite Ztrunc_IZR. reflexivity. Qed.
(** Finding: the invalid date 30/2/2021 is accepted and becomes 31/1/2021. *)
Theorem C32_invalid_date_refuted : exists t, of_date (mkcal 2021 2 30) (mkhc 0 0 0 0 0) = Ok t /\ decomposition t = Ok (mkcal 2021 1 31, mkhc 0 0 0 0 0).
Proof.
  exists (737820 * us_per_day). unfold of_date. rewrite feb30. cbn [bind]. rewrite duree_jours_ok by (cbn; lia). split; vm_compute; reflexivity.
Qed.
Print Assumptions C32_invalid_date_refuted.
Example C32_case : valid_date (mkcal 2024 2 29) /\ valid_time (mkhc 23 59 59 999 999) /\
  of_date (mkcal 2024 2 29) (mkhc 23 59 59 999 999) = Ok 63844847999999999.
Proof.
  assert (V : valid_date (mkcal 2024 2 29)) by (unfold valid_date; cbn [an mois jour]; change (month_len 2024 2) with 29; lia).
  split; [exact V|]. split; [unfold valid_time; cbn; lia|]. rewrite of_date_ok by exact V. reflexivity.
Qed.

(** ** C33 *)
Theorem C33_leap : forall y, est_bissextile y = (1 <=? y) && (y <=? 9999) && leap y.
Proof.
  intros y. unfold est_bissextile, annee_valide. destruct ((1 <=? y) && (y <=? 9999)) eqn:E; [|reflexivity].
  apply andb_prop in E. rewrite Z.leb_le, Z.leb_le in E. cbn [andb]. rewrite <- leap_biss by exact E. unfold est_bissextile, annee_valide.
  destruct (Z.leb_spec 1 y); [|lia]. destruct (Z.leb_spec y 9999); [|lia]. reflexivity.
Qed.
Print Assumptions C33_leap.
Theorem C33_month_length : forall y m, mois_nb_jours y m = if (1 <=? y) && (y <=? 9999) && ((1 <=? m) && (m <=? 12)) then Ok (month_len y m) else Exc.
Proof. intros y m. rewrite mois_nb_jours_ok. unfold annee_mois_valide, annee_valide. destruct ((1 <=? y) && (y <=? 9999)); reflexivity. Qed.
Print Assumptions C33_month_length.
Theorem C33_valid : forall d, exists b, cal_valide d = Ok b /\ (b = true <-> valid_date d).
Proof. exact cal_valide_ok. Qed.
Print Assumptions C33_valid.
(** Day numbers: 0 for 1/1/1, plus one from a day to the next. *)
Theorem C33_first : debut_ere (mkcal 1 1 1) = Ok 0.
Proof. rewrite debut_ere_ok; [reflexivity|]. unfold valid_date. cbn [an mois jour]. change (month_len 1 1) with 31. lia. Qed.
Print Assumptions C33_first.
Theorem C33_next : forall d, valid_date d -> valid_date (next_day d) -> exists n, debut_ere d = Ok n /\ debut_ere (next_day d) = Ok (n + 1).
Proof. intros d V V'. exists (daynum d). rewrite !debut_ere_ok, next_ok by assumption. auto. Qed.
Print Assumptions C33_next.
Theorem C33_next_valid : forall d, valid_date d -> d = mkcal 9999 12 31 \/ valid_date (next_day d).
Proof.
  intros d (Ha & Hm & Hj). destruct d as [a m j]. cbn [an mois jour] in *. unfold next_day. cbn [an mois jour].
  destruct (Z.ltb_spec j (month_len a m)) as [C|C].
  - right. unfold valid_date. cbn [an mois jour]. lia.
  - destruct (Z.ltb_spec m 12) as [C2|C2].
    + right. unfold valid_date. cbn [an mois jour]. rewrite <- mlen_ok by lia. pose proof (mlen_range (leap a) (m + 1) ltac:(lia)). lia.
    + assert (m = 12) by lia. subst m. change (month_len a 12) with 31 in *. destruct (Z.eq_dec a 9999) as [->|Na].
      * left. f_equal. lia.
      * right. unfold valid_date. cbn [an mois jour]. change (month_len (a + 1) 1) with 31. lia.
Qed.
Print Assumptions C33_next_valid.
(** Julian days, at every midnight and noon of the supported range: half-days since 1/1/1 over two, plus 1721425.5. *)
Theorem C33_julian : forall k, 0 <= k < 2 * total_days -> nb_jours_julien (k * 43200000000) = (IZR k / 2 + 17214255 / 10)%R.
Proof. intros k H. apply julien_ok. unfold total_days in H. change (2 ^ 24) with 16777216. lia. Qed.
Print Assumptions C33_julian.
(** Finding: documented as the number of days since the J2000 epoch, J2000() of that epoch is 36525. *)
Theorem C33_j2000_refuted : exists t, epoque_J2000 = Ok t /\ nb_jours_julien t = 2451545%R /\ j2000 t = 36525%R.
Proof.
  exists (1460239 * 43200000000). split.
  - unfold epoque_J2000. rewrite of_date_ok; [reflexivity|]. unfold valid_date. cbn [an mois jour]. change (month_len 2000 1) with 31. lia.
  - assert (J : nb_jours_julien (1460239 * 43200000000) = 2451545%R) by (rewrite julien_ok by (cbn; lia); lra).
    split; [exact J|]. unfold j2000. rewrite J. replace (2451545 - 2415020)%R with 36525%R by lra. apply (dbl_int 36525). cbn; lia.
Qed.
Print Assumptions C33_j2000_refuted.
Example C33_case : valid_date (mkcal 1900 2 28) /\ next_day (mkcal 1900 2 28) = mkcal 1900 3 1 /\ next_day (mkcal 2000 2 28) = mkcal 2000 2 29
   /\ debut_ere (mkcal 1970 1 1) = Ok 719162.
Proof.
  assert (V : valid_date (mkcal 1970 1 1)) by (unfold valid_date; cbn [an mois jour]; change (month_len 1970 1) with 31; lia).
  split; [unfold valid_date; cbn [an mois jour]; change (month_len 1900 2) with 28; lia|]. split; [reflexivity|]. split; [reflexivity|].
  rewrite debut_ere_ok by exact V. reflexivity.
Qed.

(** ** C34 *)
(** GPS time: whole seconds since the GPS epoch plus 18 leap seconds, split in weeks; every microsecond
    instant of the first 3551 weeks (until January 2048), with the double precision roundings of the code. *)
Theorem C34_to_gps : forall t e, epoque_GPS = Ok e -> let n := (t - e + 18000000) / 1000000 in
  0 <= n < 3551 * 604800 -> vers_GPS t = Ok (n / 604800, n mod 604800).
Proof. intros t e E. rewrite epoque_GPS_ok in E. injection E as <-. exact (vers_GPS_ok t). Qed.
Print Assumptions C34_to_gps.
Theorem C34_from_gps : forall w s e, epoque_GPS = Ok e -> 0 <= w < 2 ^ 26 -> 0 <= s < 2 ^ 31 -> de_GPS w s = Ok (e + (w * 604800 + s - 18) * 1000000).
Proof. intros w s e E. rewrite epoque_GPS_ok in E. injection E as <-. exact (de_GPS_ok w s). Qed.
Print Assumptions C34_from_gps.
Theorem C34_round_trip : forall w s, 0 <= w < 3551 -> 0 <= s < 604800 -> exists t, de_GPS w s = Ok t /\ vers_GPS t = Ok (w, s).
Proof.
  intros w s Hw Hs. rewrite de_GPS_ok by (cbn; lia). eexists. split; [reflexivity|].
  set (t := gps_epoch + (w * 604800 + s - 18) * 1000000).
  assert (En : (t - gps_epoch + 18000000) / 1000000 = w * 604800 + s).
  { replace (t - gps_epoch + 18000000) with ((w * 604800 + s) * 1000000) by (unfold t; lia). apply Z.div_mul. lia. }
  rewrite vers_GPS_ok by (rewrite En; lia). rewrite En. f_equal. f_equal.
  - symmetry. apply (Z.div_unique _ _ _ s); lia.
  - symmetry. apply (Z.mod_unique _ _ w); lia.
Qed.
Print Assumptions C34_round_trip.
Theorem C34_back : forall t e, epoque_GPS = Ok e -> 0 <= t - e + 18000000 < 3551 * 604800 * 1000000 ->
  exists w s, vers_GPS t = Ok (w, s) /\ 0 <= s < 604800 /\ de_GPS w s = Ok (t - t mod 1000000).
Proof.
  intros t e E Ht. rewrite epoque_GPS_ok in E. injection E as <-.
  set (n := (t - gps_epoch + 18000000) / 1000000).
  assert (Hn : 0 <= n < 3551 * 604800). { unfold n. split; [apply Z.div_pos; lia|apply Z.div_lt_upper_bound; lia]. }
  exists (n / 604800), (n mod 604800). split; [apply vers_GPS_ok; exact Hn|].
  pose proof (Z.mod_pos_bound n 604800 ltac:(lia)) as M. pose proof (Z.div_mod n 604800 ltac:(lia)) as D. split; [exact M|].
  rewrite de_GPS_ok; [|change (2 ^ 26) with 67108864; lia|change (2 ^ 31) with 2147483648; lia].
  f_equal. replace (n / 604800 * 604800 + n mod 604800 - 18) with (n - 18) by lia.
  assert (Et : t mod 1000000 = (t - gps_epoch + 18000000) mod 1000000).
  { replace (t - gps_epoch + 18000000) with (t + (18 - 722819 * 86400) * 1000000) by (unfold gps_epoch, us_per_day; lia). rewrite Z.mod_add by lia. reflexivity. }
  pose proof (Z.div_mod (t - gps_epoch + 18000000) 1000000 ltac:(lia)) as D2. fold n in D2. rewrite <- Et in D2. lia.
Qed.
Print Assumptions C34_back.
(** Finding: from week 3551 (27 January 2048) on, a product overflows the int type. *)
Theorem C34_2048_refuted : forall t e, epoque_GPS = Ok e -> (t - e + 18000000) / 1000000 >= 3551 * 604800 -> vers_GPS t = UB.
Proof. intros t e E. rewrite epoque_GPS_ok in E. injection E as <-. exact (vers_GPS_overflow t). Qed.
Print Assumptions C34_2048_refuted.
Example C34_case : epoque_GPS = Ok 62451561600000000 /\ de_GPS 2137 345600 = Ok 63744364782000000 /\ vers_GPS 63744364782000000 = Ok (2137, 345600).
Proof.
  split; [rewrite epoque_GPS_ok; reflexivity|]. assert (E : de_GPS 2137 345600 = Ok 63744364782000000) by (rewrite de_GPS_ok by (cbn; lia); reflexivity).
  split; [exact E|]. destruct (C34_round_trip 2137 345600 ltac:(lia) ltac:(lia)) as [t [E1 E2]]. rewrite E in E1. injection E1 as <-. exact E2.
Qed.
