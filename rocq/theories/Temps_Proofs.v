(** Proofs about the calendar. *)
From Coq Require Import Reals Lra.
From Flocq Require Import Core.
From Verif Require Import Base Dbl Temps_Model Temps_Spec.
Local Open Scope Z_scope.

(** Days before year y1+1 *)
Definition Yd (y1 : Z) : Z := 365 * y1 + y1 / 4 - y1 / 100 + y1 / 400.
Lemma leap_biss y : 1 <= y <= 9999 -> est_bissextile y = leap y.
Proof.
  intros H. unfold est_bissextile, annee_valide, leap. destruct (Z.leb_spec 1 y); [|lia]. destruct (Z.leb_spec y 9999); [|lia]. cbn [andb].
  rewrite !Z.rem_mod_nonneg by lia. reflexivity.
Qed.
Definition lp (y : Z) : Z := if leap y then 1 else 0.
Lemma leap_cases y : (leap y = true /\ ((y mod 4 = 0 /\ y mod 100 <> 0) \/ y mod 400 = 0)) \/ (leap y = false /\ (y mod 4 <> 0 \/ y mod 100 = 0) /\ y mod 400 <> 0).
Proof.
  unfold leap. destruct (Z.eqb_spec (y mod 4) 0); destruct (Z.eqb_spec (y mod 100) 0); destruct (Z.eqb_spec (y mod 400) 0); cbn; auto 6.
Qed.
Lemma Yd_succ y1 : 0 <= y1 -> Yd (y1 + 1) = Yd y1 + 365 + lp (y1 + 1).
Proof.
  intros H. unfold Yd, lp. destruct (leap_cases (y1 + 1)) as [[-> C]|[-> C]].
  - Z.to_euclidean_division_equations. lia.
  - Z.to_euclidean_division_equations. lia.
Qed.
Definition cumul (b : bool) (m : Z) : Z := nth (Z.to_nat (m - 1)) (cumul_jours_par_mois b) 0.
Ltac tonat := repeat match goal with
  | |- context [Z.to_nat ?e] => let v := eval compute in (Z.to_nat e) in change (Z.to_nat e) with v
  | H : context [Z.to_nat ?e] |- _ => let v := eval compute in (Z.to_nat e) in change (Z.to_nat e) with v in H end.
Ltac months m H := assert (H' : m = 1 \/ m = 2 \/ m = 3 \/ m = 4 \/ m = 5 \/ m = 6 \/ m = 7 \/ m = 8 \/ m = 9 \/ m = 10 \/ m = 11 \/ m = 12) by lia;
  clear H; destruct H' as [->|[->|[->|[->|[->|[->|[->|[->|[->|[->|[->| ->]]]]]]]]]]]; tonat.
Definition mlen (b : bool) (m : Z) : Z := nth (Z.to_nat (m - 1)) (nb_jours_par_mois b) 0.
Lemma mlen_ok y m : 1 <= m <= 12 -> mlen (leap y) m = month_len y m.
Proof. intros H. unfold mlen, month_len. destruct (leap y); months m H; reflexivity. Qed.
Lemma cumul_1 b : cumul b 1 = 0.
Proof. destruct b; reflexivity. Qed.
Lemma cumul_succ b m : 1 <= m < 12 -> cumul b (m + 1) = cumul b m + mlen b m.
Proof. intros H. unfold cumul, mlen. assert (H2 : 1 <= m <= 12) by lia. destruct b; months m H2; try lia; reflexivity. Qed.
Lemma cumul_12 y : cumul (leap y) 12 + 31 = 365 + lp y.
Proof. unfold lp, cumul. destruct (leap y); reflexivity. Qed.
Lemma mlen_range b m : 1 <= m <= 12 -> 28 <= mlen b m <= 31.
Proof. intros H. unfold mlen. destruct b; months m H; cbn; lia. Qed.
Lemma month_valid a m : annee_mois_valide a m = true <-> 1 <= a <= 9999 /\ 1 <= m <= 12.
Proof.
  unfold annee_mois_valide, annee_valide. destruct (Z.leb_spec 1 a); destruct (Z.leb_spec a 9999); destruct (Z.leb_spec 1 m); destruct (Z.leb_spec m 12); cbn; split; intros; try easy; lia.
Qed.
Lemma mois_nb_jours_ok a m : mois_nb_jours a m = if annee_mois_valide a m then Ok (month_len a m) else Exc.
Proof.
  unfold mois_nb_jours. destruct (annee_mois_valide a m) eqn:E; [|reflexivity]. apply month_valid in E. destruct E as [Ea Em].
  rewrite leap_biss by exact Ea. rewrite <- mlen_ok by exact Em. unfold mlen.
  destruct (leap a); months m Em; reflexivity.
Qed.
Lemma cal_valide_ok d : exists b, cal_valide d = Ok b /\ (b = true <-> valid_date d).
Proof.
  unfold cal_valide, valid_date. rewrite mois_nb_jours_ok. destruct (annee_mois_valide (an d) (mois d)) eqn:E.
  - apply month_valid in E. destruct (Z.leb_spec 1 (jour d)); cbn [bind]; eexists; (split; [reflexivity|]).
    + rewrite Z.leb_le. lia.
    + split; [discriminate|lia].
  - eexists. split; [reflexivity|]. split; [discriminate|]. intros V. assert (annee_mois_valide (an d) (mois d) = true) by (apply month_valid; lia). congruence.
Qed.
(** The day number *)
Definition daynum (d : cal) : Z := Yd (an d - 1) + cumul (leap (an d)) (mois d) + jour d - 1.
Lemma valid_res d : valid_date d -> cal_valide d = Ok true.
Proof. intros V. destruct (cal_valide_ok d) as [b [E B]]. rewrite E. f_equal. apply B. exact V. Qed.
Lemma doy_range d : valid_date d -> 0 <= cumul (leap (an d)) (mois d) + jour d - 1 < 365 + lp (an d).
Proof.
  destruct d as [a m j]. unfold valid_date. cbn [an mois jour]. intros (Ha & Hm & Hj). rewrite <- mlen_ok in Hj by exact Hm.
  unfold lp. revert Hj. unfold cumul, mlen. destruct (leap a); months m Hm; cbn; lia.
Qed.
Lemma Yd_range y1 : 0 <= y1 <= 9999 -> 0 <= Yd y1 <= total_days.
Proof. intros H. unfold Yd, total_days. Z.to_euclidean_division_equations. lia. Qed.
Lemma debut_annee_ok d : valid_date d -> debut_annee d = Ok (cumul (leap (an d)) (mois d) + jour d - 1).
Proof.
  intros V. unfold debut_annee. rewrite (valid_res d V). cbn [bind]. destruct V as (Ha & Hm & Hj). rewrite leap_biss by exact Ha.
  unfold cumul. destruct d as [a m j]. cbn [an mois jour] in *. destruct (leap a); months m Hm; cbn; f_equal; lia.
Qed.
Lemma greg_int a j : 1 <= a <= 9999 -> 0 <= j <= 1000000 -> greg_jours a (IZR j) = IZR (Yd (a - 1) + j - 1).
Proof.
  intros Ha Hj. unfold greg_jours. cbv zeta. rewrite !Z.quot_div_nonneg by lia. change (365 * (a - 1) + (a - 1) / 4 - (a - 1) / 100 + (a - 1) / 400) with (Yd (a - 1)).
  pose proof (Yd_range (a - 1) ltac:(lia)) as Y. unfold total_days in Y.
  rewrite dbl_int by lia. rewrite <- plus_IZR, dbl_int by lia. rewrite <- minus_IZR, dbl_int by lia. reflexivity.
Qed.
Lemma daynum_range d : valid_date d -> 0 <= daynum d < total_days.
Proof.
  intros V. pose proof (doy_range d V) as D. destruct V as (Ha & _). unfold daynum.
  pose proof (Yd_range (an d - 1) ltac:(lia)) as Y. pose proof (Yd_succ (an d - 1) ltac:(lia)) as Q. replace (an d - 1 + 1) with (an d) in Q by lia.
  pose proof (Yd_range (an d) ltac:(lia)). lia.
Qed.
Lemma debut_ere_ok d : valid_date d -> debut_ere d = Ok (daynum d).
Proof.
  intros V. unfold debut_ere. rewrite (debut_annee_ok d V). cbn [bind]. f_equal.
  pose proof (doy_range d V) as D. assert (lp (an d) <= 1) by (unfold lp; destruct (leap (an d)); lia).
  destruct V as (Ha & _). rewrite greg_int by lia. rewrite Ztrunc_IZR. unfold daynum. lia.
Qed.
Lemma duree_jours_ok n : Z.abs n < 2 ^ 29 -> duree_jours (IZR n) = n * TICS_JOUR.
Proof.
  intros H. unfold duree_jours. rewrite <- mult_IZR. rewrite (dbl_int_pow _ (n * 10546875) 13); [apply Ztrunc_IZR| |lia|].
  - unfold TICS_JOUR, TICS_HEURE, TICS_MINUTE, TICS_SECONDE, TICS_MS. change (2 ^ 13) with 8192. lia.
  - change (2 ^ 53) with (2 ^ 29 * 16777216). rewrite Z.abs_mul. change (Z.abs 10546875) with 10546875. nia.
Qed.
Lemma duree_secondes_ok n : Z.abs n < 2 ^ 39 -> duree_secondes (IZR n) = n * TICS_SECONDE.
Proof.
  intros H. unfold duree_secondes. rewrite <- mult_IZR. rewrite (dbl_int_pow _ (n * 15625) 6); [apply Ztrunc_IZR| |lia|].
  - unfold TICS_SECONDE, TICS_MS. change (2 ^ 6) with 64. lia.
  - change (2 ^ 53) with (2 ^ 39 * 16384). rewrite Z.abs_mul. change (Z.abs 15625) with 15625. nia.
Qed.
Lemma of_date_ok d t : valid_date d -> of_date d t = Ok (daynum d * us_per_day + us_of_day t).
Proof.
  intros V. unfold of_date. rewrite (debut_ere_ok d V). cbn [bind]. f_equal.
  pose proof (daynum_range d V) as D. unfold total_days in D. rewrite duree_jours_ok by lia.
  unfold duree_hc, us_of_day, us_per_day, TICS_JOUR, TICS_HEURE, TICS_MINUTE, TICS_SECONDE, TICS_MS. lia.
Qed.
(** order *)
Lemma cumul_mono b m m' : 1 <= m -> m < m' -> m' <= 12 -> cumul b m + mlen b m <= cumul b m'.
Proof.
  intros H1 H2 H3. unfold cumul, mlen. assert (H4 : 1 <= m <= 12) by lia. assert (H5 : 1 <= m' <= 12) by lia.
  destruct b; months m H4; months m' H5; cbn; lia.
Qed.
Lemma Yd_mono y y' : 0 <= y -> y < y' -> Yd y + 365 + lp (y + 1) <= Yd y'.
Proof.
  intros Hy H. rewrite <- Yd_succ by exact Hy. assert (y + 1 <= y') by lia. unfold Yd. Z.to_euclidean_division_equations. lia.
Qed.
Lemma daynum_lt d e : valid_date d -> valid_date e -> before d e -> daynum d < daynum e.
Proof.
  intros Vd Ve B. pose proof (doy_range d Vd) as Dd. pose proof (doy_range e Ve) as De. unfold daynum.
  destruct Vd as (Ha & Hm & Hj). destruct Ve as (Ha' & Hm' & Hj'). rewrite <- mlen_ok in Hj, Hj' by assumption.
  destruct B as [B|[Ea [B|[Em B]]]].
  - pose proof (Yd_mono (an d - 1) (an e - 1) ltac:(lia) ltac:(lia)) as Q. replace (an d - 1 + 1) with (an d) in Q by lia. lia.
  - rewrite Ea in *. pose proof (cumul_mono (leap (an e)) (mois d) (mois e) ltac:(lia) B ltac:(lia)). lia.
  - rewrite Ea, Em in *. lia.
Qed.
Lemma before_total d e : before d e \/ d = e \/ before e d.
Proof.
  destruct d as [a m j], e as [a' m' j']. unfold before. cbn [an mois jour].
  destruct (Z.lt_total a a') as [H|[->|H]]; auto. destruct (Z.lt_total m m') as [H|[->|H]]; auto 7. destruct (Z.lt_total j j') as [H|[->|H]]; auto 7.
Qed.
Lemma daynum_inj d e : valid_date d -> valid_date e -> daynum d = daynum e -> d = e.
Proof.
  intros Vd Ve E. destruct (before_total d e) as [B|[->|B]]; [|reflexivity|]; apply daynum_lt in B; try assumption; lia.
Qed.
Lemma next_ok d : valid_date d -> valid_date (next_day d) -> daynum (next_day d) = daynum d + 1.
Proof.
  intros V V'. destruct V as (Ha & Hm & Hj). unfold next_day in *.
  destruct (Z.ltb_spec (jour d) (month_len (an d) (mois d))) as [C|C].
  - unfold daynum. cbn [an mois jour]. lia.
  - assert (Ej : jour d = mlen (leap (an d)) (mois d)) by (rewrite mlen_ok by exact Hm; lia).
    destruct (Z.ltb_spec (mois d) 12) as [C2|C2].
    + unfold daynum. cbn [an mois jour]. rewrite cumul_succ by lia. lia.
    + assert (Em : mois d = 12) by lia. unfold daynum. cbn [an mois jour]. rewrite cumul_1, Em in *.
      replace (an d + 1 - 1) with (an d - 1 + 1) by lia. rewrite Yd_succ by lia. replace (an d - 1 + 1) with (an d) by lia.
      pose proof (cumul_12 (an d)). assert (jour d = 31) by (rewrite Ej; unfold mlen; destruct (leap (an d)); reflexivity). lia.
Qed.
(** the month loop *)
Lemma mois_loop_ok (b : bool) n : 0 <= n < (if b then 366 else 365) -> exists m, 1 <= m <= 12 /\
  mois_loop 20 (nb_jours_par_mois b) n 0 = Ok (n - cumul b m, m - 1) /\ cumul b m <= n < cumul b m + mlen b m.
Proof.
  intros H. assert (C : exists m, 1 <= m <= 12 /\ cumul b m <= n < cumul b m + mlen b m).
  { unfold cumul, mlen. destruct b.
    - destruct (Z.lt_ge_cases n 31); [exists (1 : Z); tonat; cbn; lia|]. destruct (Z.lt_ge_cases n 60); [exists (2 : Z); tonat; cbn; lia|].
      destruct (Z.lt_ge_cases n 91); [exists (3 : Z); tonat; cbn; lia|]. destruct (Z.lt_ge_cases n 121); [exists (4 : Z); tonat; cbn; lia|].
      destruct (Z.lt_ge_cases n 152); [exists (5 : Z); tonat; cbn; lia|]. destruct (Z.lt_ge_cases n 182); [exists (6 : Z); tonat; cbn; lia|].
      destruct (Z.lt_ge_cases n 213); [exists (7 : Z); tonat; cbn; lia|]. destruct (Z.lt_ge_cases n 244); [exists (8 : Z); tonat; cbn; lia|].
      destruct (Z.lt_ge_cases n 274); [exists (9 : Z); tonat; cbn; lia|]. destruct (Z.lt_ge_cases n 305); [exists (10 : Z); tonat; cbn; lia|].
      destruct (Z.lt_ge_cases n 335); [exists (11 : Z); tonat; cbn; lia|]. exists (12 : Z); tonat; cbn; lia.
    - destruct (Z.lt_ge_cases n 31); [exists (1 : Z); tonat; cbn; lia|]. destruct (Z.lt_ge_cases n 59); [exists (2 : Z); tonat; cbn; lia|].
      destruct (Z.lt_ge_cases n 90); [exists (3 : Z); tonat; cbn; lia|]. destruct (Z.lt_ge_cases n 120); [exists (4 : Z); tonat; cbn; lia|].
      destruct (Z.lt_ge_cases n 151); [exists (5 : Z); tonat; cbn; lia|]. destruct (Z.lt_ge_cases n 181); [exists (6 : Z); tonat; cbn; lia|].
      destruct (Z.lt_ge_cases n 212); [exists (7 : Z); tonat; cbn; lia|]. destruct (Z.lt_ge_cases n 243); [exists (8 : Z); tonat; cbn; lia|].
      destruct (Z.lt_ge_cases n 273); [exists (9 : Z); tonat; cbn; lia|]. destruct (Z.lt_ge_cases n 304); [exists (10 : Z); tonat; cbn; lia|].
      destruct (Z.lt_ge_cases n 334); [exists (11 : Z); tonat; cbn; lia|]. exists (12 : Z); tonat; cbn; lia. }
  destruct C as [m [Hm C]]. exists m. split; [exact Hm|]. split; [|exact C].
  assert (L : forall k fuel, (k <= Z.to_nat (m - 1))%nat -> (Z.to_nat (m - 1) - k < fuel)%nat ->
     mois_loop fuel (nb_jours_par_mois b) (n - cumul b (Z.of_nat k + 1)) (Z.of_nat k) = Ok (n - cumul b m, m - 1)).
  { intros k fuel. revert k. induction fuel as [|f IH]; intros k Hk Hf; [lia|]. cbn [mois_loop]. rewrite Nat2Z.id.
    assert (Ek : nth_error (nb_jours_par_mois b) k = Some (mlen b (Z.of_nat k + 1))).
    { unfold mlen. replace (Z.to_nat (Z.of_nat k + 1 - 1)) with k by lia. apply nth_error_nth'. destruct b; cbn; lia. }
    rewrite Ek. destruct (Nat.eq_dec k (Z.to_nat (m - 1))) as [->|Nk].
    - replace (Z.of_nat (Z.to_nat (m - 1)) + 1) with m by lia. destruct (Z.leb_spec (mlen b m) (n - cumul b m)); [lia|]. cbn [andb]. f_equal. f_equal. lia.
    - pose proof (cumul_mono b (Z.of_nat k + 1) m ltac:(lia) ltac:(lia) ltac:(lia)) as Q.
      destruct (Z.leb_spec (mlen b (Z.of_nat k + 1)) (n - cumul b (Z.of_nat k + 1))); [|lia]. destruct (Z.leb_spec (Z.of_nat k) 11); [|lia]. cbn [andb].
      replace (n - cumul b (Z.of_nat k + 1) - mlen b (Z.of_nat k + 1)) with (n - cumul b (Z.of_nat (S k) + 1)).
      2:{ replace (Z.of_nat (S k) + 1) with (Z.of_nat k + 1 + 1) by lia. rewrite cumul_succ by lia. lia. }
      replace (Z.of_nat k + 1) with (Z.of_nat (S k)) by lia. apply IH; lia. }
  specialize (L 0%nat 20%nat ltac:(lia) ltac:(lia)). change (Z.of_nat 0 + 1) with 1 in L. rewrite cumul_1, Z.sub_0_r in L. exact L.
Qed.
Lemma calendrier_ok t : 0 <= t < total_days * us_per_day -> exists d, calendrier t = Ok d /\ valid_date d /\ daynum d = t / us_per_day.
Proof.
  intros Ht. unfold calendrier. change TICS_JOUR with us_per_day. set (N := t / us_per_day).
  assert (HN : 0 <= N < total_days). { unfold N. split; [apply Z.div_pos; unfold us_per_day; lia|]. apply Z.div_lt_upper_bound; unfold us_per_day in *; lia. }
  cbv zeta. rewrite (Z.quot_div_nonneg t us_per_day) by (unfold us_per_day; lia). fold N.
  change cycle_400 with 146097. change cycle_100 with 36524. change cycle_4 with 1461. unfold total_days in HN.
  rewrite (Z.quot_div_nonneg N 146097), (Z.rem_mod_nonneg N 146097) by lia.
  pose proof (Z.mod_pos_bound N 146097 ltac:(lia)) as R1. pose proof (Z.div_mod N 146097 ltac:(lia)) as E1.
  set (a := N / 146097) in *. set (r1 := N mod 146097) in *.
  assert (Ha : 0 <= a <= 24) by lia.
  rewrite (Z.quot_div_nonneg r1 36524) by lia. pose proof (Z.div_mod r1 36524 ltac:(lia)) as E2. pose proof (Z.mod_pos_bound r1 36524 ltac:(lia)) as R2.
  set (b0 := r1 / 36524) in *.
  assert (Hb : exists b, (if b0 =? 4 then 3 else b0) = b /\ 0 <= b <= 3 /\ 0 <= r1 - b * 36524 <= 36524 /\ (b < 3 -> r1 - b * 36524 < 36524)).
  { destruct (Z.eqb_spec b0 4) as [E4|E4]; eexists; (split; [reflexivity|]); lia. }
  destruct Hb as [b [-> [Hb [Hr2 Hr2']]]]. set (r2 := r1 - b * 36524) in *.
  rewrite (Z.quot_div_nonneg r2 1461), (Z.rem_mod_nonneg r2 1461) by lia.
  pose proof (Z.mod_pos_bound r2 1461 ltac:(lia)) as R3. pose proof (Z.div_mod r2 1461 ltac:(lia)) as E3.
  set (c := r2 / 1461) in *. set (r3 := r2 mod 1461) in *. assert (Hc : 0 <= c <= 24) by lia.
  assert (Hd : exists d r4, (if r3 <? 365 then (0, r3) else if r3 <? 2 * 365 then (1, r3 - 365) else if r3 <? 3 * 365 then (2, r3 - 2 * 365) else (3, r3 - 3 * 365)) = (d, r4)
     /\ 0 <= d <= 3 /\ r3 = 365 * d + r4 /\ 0 <= r4 <= 365 /\ (d < 3 -> r4 < 365)).
  { destruct (Z.ltb_spec r3 365); [exists 0, r3; split; [reflexivity|lia]|]. destruct (Z.ltb_spec r3 (2 * 365)); [exists 1, (r3 - 365); split; [reflexivity|lia]|].
    destruct (Z.ltb_spec r3 (3 * 365)); [exists 2, (r3 - 2 * 365); split; [reflexivity|lia]|]. exists 3, (r3 - 3 * 365); split; [reflexivity|lia]. }
  destruct Hd as [d [r4 [-> [Hd [Er3 [Hr4 Hr4']]]]]].
  set (y1 := 400 * a + 100 * b + 4 * c + d). replace (a * 400 + b * 100 + c * 4 + d + 1) with (y1 + 1) by (unfold y1; lia).
  assert (D4 : y1 / 4 = 100 * a + 25 * b + c) by (symmetry; apply (Z.div_unique _ _ _ d); unfold y1; lia).
  assert (D100 : y1 / 100 = 4 * a + b) by (symmetry; apply (Z.div_unique _ _ _ (4 * c + d)); unfold y1; lia).
  assert (D400 : y1 / 400 = a) by (symmetry; apply (Z.div_unique _ _ _ (100 * b + 4 * c + d)); unfold y1; lia).
  assert (EY : Yd y1 + r4 = N). { unfold Yd. rewrite D4, D100, D400. unfold y1. lia. }
  assert (Hy : 0 <= y1 <= 9998).
  { split; [unfold y1; lia|]. destruct (Z.le_gt_cases y1 9998) as [Q|Q]; [exact Q|]. exfalso.
    assert (3652059 <= Yd y1); [|lia]. unfold Yd. rewrite D4, D100, D400. unfold y1 in *. lia. }
  assert (Hl : r4 < 365 + lp (y1 + 1)).
  { unfold lp. destruct (leap_cases (y1 + 1)) as [[-> _]|[-> C]]; [lia|]. destruct (Z.eq_dec r4 365) as [Q|Q]; [|lia]. exfalso.
    assert (d = 3) by lia. destruct (Z.eq_dec c 24) as [Q2|Q2]; [destruct (Z.eq_dec b 3) as [Q3|Q3]|].
    - apply C. replace (y1 + 1) with ((a + 1) * 400) by (unfold y1; lia). apply Z.mod_mul. lia.
    - lia.
    - assert (M4 : (y1 + 1) mod 4 = 0). { replace (y1 + 1) with ((100 * a + 25 * b + c + 1) * 4) by (unfold y1; lia). apply Z.mod_mul. lia. }
      assert (M100 : (y1 + 1) mod 100 = 4 * c + 4). { symmetry. apply (Z.mod_unique _ _ (4 * a + b)); unfold y1; lia. }
      lia. }
  rewrite (leap_biss (y1 + 1)) by lia.
  destruct (mois_loop_ok (leap (y1 + 1)) r4) as [m [Hm [El Cm]]]. { unfold lp in Hl. destruct (leap (y1 + 1)); lia. }
  rewrite El. cbn [bind]. eexists. split; [reflexivity|]. split.
  - unfold valid_date. cbn [an mois jour]. replace (m - 1 + 1) with m by lia. rewrite <- mlen_ok by exact Hm. lia.
  - unfold daynum. cbn [an mois jour]. replace (m - 1 + 1) with m by lia. replace (y1 + 1 - 1) with y1 by lia. lia.
Qed.
(** time of day *)
Lemma decomp_heure_ok t : 0 <= t -> valid_time (decomp_heure t) /\ us_of_day (decomp_heure t) = t mod us_per_day.
Proof.
  intros H. unfold decomp_heure, valid_time, us_of_day, us_per_day, TICS_JOUR, TICS_HEURE, TICS_MINUTE, TICS_SECONDE, TICS_MS.
  cbn [h_h h_m h_s h_ms h_us]. change (24 * (60 * (60 * (1000 * 1000)))) with 86400000000. change (60 * (60 * (1000 * 1000))) with 3600000000.
  change (60 * (1000 * 1000)) with 60000000. change (1000 * 1000) with 1000000. change (24 * 60 * 60 * 1000000) with 86400000000.
  rewrite !Z.rem_mod_nonneg by lia. rewrite !Z.quot_div_nonneg by (try apply Z.mod_pos_bound; lia).
  Z.to_euclidean_division_equations. lia.
Qed.
Lemma time_inj h h' : valid_time h -> valid_time h' -> us_of_day h = us_of_day h' -> h = h'.
Proof. destruct h as [a b c d e], h' as [a' b' c' d' e']. unfold valid_time, us_of_day. cbn [h_h h_m h_s h_ms h_us]. intros V V' E. f_equal; lia. Qed.
Lemma us_range h : valid_time h -> 0 <= us_of_day h < us_per_day.
Proof. unfold valid_time, us_of_day, us_per_day. lia. Qed.
Lemma decomposition_ok t : 0 <= t < total_days * us_per_day ->
  exists d h, decomposition t = Ok (d, h) /\ valid_date d /\ valid_time h /\ of_date d h = Ok t.
Proof.
  intros H. destruct (calendrier_ok t H) as [d [E [V D]]]. destruct (decomp_heure_ok t ltac:(lia)) as [Vh U].
  exists d, (decomp_heure t). unfold decomposition. rewrite E. cbn [bind]. split; [reflexivity|]. split; [exact V|]. split; [exact Vh|].
  rewrite of_date_ok by exact V. f_equal. rewrite D, U. pose proof (Z.div_mod t us_per_day ltac:(unfold us_per_day; lia)). lia.
Qed.
Lemma round_trip d h : valid_date d -> valid_time h -> exists t, of_date d h = Ok t /\ 0 <= t < total_days * us_per_day /\ decomposition t = Ok (d, h).
Proof.
  intros V Vh. rewrite of_date_ok by exact V. eexists. split; [reflexivity|].
  pose proof (daynum_range d V) as D. pose proof (us_range h Vh) as U.
  assert (HT : 0 <= daynum d * us_per_day + us_of_day h < total_days * us_per_day) by (unfold us_per_day, total_days in *; lia).
  split; [exact HT|]. destruct (decomposition_ok _ HT) as [d' [h' [E [V' [Vh' O]]]]]. rewrite E. f_equal.
  rewrite of_date_ok in O by exact V'. assert (O' : daynum d' * us_per_day + us_of_day h' = daynum d * us_per_day + us_of_day h) by congruence.
  pose proof (us_range h' Vh') as U'.
  assert (E1 : daynum d' = daynum d) by (unfold us_per_day in *; lia).
  assert (E2 : us_of_day h' = us_of_day h) by (rewrite E1 in O'; lia).
  f_equal; [apply daynum_inj|apply time_inj]; assumption.
Qed.
