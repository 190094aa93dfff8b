(** Proofs about test signals and oscillators (C52, C53). *)
From Coq Require Import Reals Lra Lia ZifyNat.
From Verif Require Import Base BaseLemmas Phase_Model Phase_Spec Phase_Proofs Sig_Model Sig_Spec.
Open Scope R_scope.

Lemma nth_map_seq {X} (f : nat -> X) d n i : (i < n)%nat -> nth i (map f (seq 0 n)) d = f i.
Proof.
  intros H. rewrite (nth_indep _ d (f 0%nat)) by (rewrite map_length, seq_length; exact H).
  rewrite (map_nth f), seq_nth by exact H. reflexivity.
Qed.

(** ** Test signals *)
Lemma sigscie_ok p n : (2 <= p)%nat -> exists x, sigscie p n = Ok x /\ length x = n /\
  forall i, (i < n)%nat -> nth i x 0 = 2 * INR (i mod p) / (INR p - 1) - 1 /\ -1 <= nth i x 0 <= 1.
Proof.
  intros Hp. unfold sigscie. destruct (Nat.eqb_spec p 0); [lia|]. cbn [andb]. eexists. split; [reflexivity|]. rewrite map_length, seq_length. split; [reflexivity|].
  intros i Hi. rewrite nth_map_seq by exact Hi. assert (HP : 2 <= INR p) by (apply (le_INR 2); exact Hp).
  assert (E : (INR (i mod p) - (INR p - 1) * / 2) / (/ 2 * (INR p - 1)) = 2 * INR (i mod p) / (INR p - 1) - 1) by (field; lra).
  rewrite E. split; [reflexivity|]. pose proof (pos_INR (i mod p)) as H0.
  assert (H1 : INR (i mod p) <= INR p - 1).
  { pose proof (Nat.mod_upper_bound i p ltac:(lia)). replace (INR p - 1) with (INR (p - 1)) by (rewrite minus_INR by lia; reflexivity). apply le_INR. lia. }
  assert (B : 0 <= INR (i mod p) / (INR p - 1) <= 1).
  { split; [apply Rmult_le_pos; [lra|left; apply Rinv_0_lt_compat; lra]|].
    apply (Rmult_le_reg_r (INR p - 1)); [lra|]. unfold Rdiv. rewrite Rmult_assoc, Rinv_l by lra. lra. }
  unfold Rdiv in *. rewrite Rmult_assoc. lra.
Qed.
Lemma sigtri_even h n : (1 <= h)%nat -> exists x, sigtri (2 * h) n = Ok x /\ length x = n /\
  forall i, (i < n)%nat -> nth i x 0 = 4 * INR (Nat.min (i mod (2 * h)) (2 * h - i mod (2 * h))) / INR (2 * h) - 1 /\ -1 <= nth i x 0 <= 1.
Proof.
  intros Hh. unfold sigtri. destruct (Nat.eqb_spec (2 * h) 0); [lia|]. cbn [andb]. eexists. split; [reflexivity|]. rewrite map_length, seq_length. split; [reflexivity|].
  intros i Hi. rewrite nth_map_seq by exact Hi. set (j := (i mod (2 * h))%nat). assert (Hj : (j < 2 * h)%nat) by (apply Nat.mod_upper_bound; lia).
  replace (2 * h / 2)%nat with h by (rewrite Nat.mul_comm, Nat.div_mul; lia).
  assert (HP : 2 <= INR (2 * h)) by (apply (le_INR 2); lia). assert (H2 : INR (2 * h) = 2 * INR h) by (rewrite mult_INR; reflexivity).
  assert (E : (if (j <? h)%nat then INR j else INR (2 * h) - INR j) = INR (Nat.min j (2 * h - j))).
  { destruct (Nat.ltb_spec j h); [rewrite Nat.min_l by lia; reflexivity|]. rewrite Nat.min_r by lia. rewrite minus_INR by lia. reflexivity. }
  rewrite E. set (q := INR (Nat.min j (2 * h - j))).
  assert (E2 : 4 * ((q - / 2 * INR h) / INR (2 * h)) = 4 * q / INR (2 * h) - 1) by (rewrite H2; field; lra).
  rewrite E2. split; [reflexivity|]. assert (Q : 0 <= q <= INR h).
  { split; [apply pos_INR|apply le_INR; lia]. }
  assert (B : 0 <= 4 * q / INR (2 * h) <= 2); [|lra]. split.
  - apply Rmult_le_pos; [lra|left; apply Rinv_0_lt_compat; lra].
  - apply (Rmult_le_reg_r (INR (2 * h))); [lra|]. unfold Rdiv. rewrite Rmult_assoc, Rinv_l by lra. lra.
Qed.
Lemma sigtri_odd h n : (1 <= h)%nat -> (h < n)%nat -> exists x, sigtri (2 * h + 1) n = Ok x /\ nth h x 0 > 1.
Proof.
  intros Hh Hn. unfold sigtri. destruct (Nat.eqb_spec (2 * h + 1) 0); [lia|]. cbn [andb]. eexists. split; [reflexivity|]. rewrite nth_map_seq by exact Hn.
  rewrite Nat.mod_small by lia. replace ((2 * h + 1) / 2)%nat with h by (apply (Nat.div_unique _ 2 h 1); lia).
  destruct (Nat.ltb_spec h h); [lia|]. rewrite plus_INR, mult_INR. change (INR 2) with 2. change (INR 1) with 1.
  assert (1 <= INR h) by (apply (le_INR 1); lia). set (z := INR h) in *.
  replace (4 * ((2 * z + 1 - z - / 2 * z) / (2 * z + 1))) with ((2 * z + 4) / (2 * z + 1)) by (field; lra).
  apply Rlt_gt. apply (Rmult_lt_reg_r (2 * z + 1)); [lra|]. unfold Rdiv. rewrite Rmult_assoc, Rinv_l by lra. lra.
Qed.
Lemma sigcar_ok p n : (2 <= p)%nat -> exists x, sigcar p n = Ok x /\ length x = n /\
  forall i, (i < n)%nat -> nth i x 0 = if Nat.even (i / (p / 2)) then -1 else 1.
Proof.
  intros Hp. unfold sigcar. destruct (Nat.ltb_spec p 2); [lia|]. cbn [andb]. eexists. split; [reflexivity|]. rewrite map_length, seq_length. split; [reflexivity|].
  intros i Hi. rewrite nth_map_seq by exact Hi. rewrite <- Nat.bit0_mod, Nat.bit0_odd, <- Nat.negb_even.
  destruct (Nat.even (i / (p / 2))); cbn [negb Nat.b2n INR]; lra.
Qed.
Lemma sigcar_odd h n : (1 <= h)%nat -> (3 * h < n)%nat -> exists x, sigcar (2 * h + 1) n = Ok x /\ nth (h - 1) x 0 <> nth (h - 1 + (2 * h + 1)) x 0.
Proof.
  intros Hh Hn. destruct (sigcar_ok (2 * h + 1) n) as (x & E & L & N); [lia|]. exists x. split; [exact E|].
  rewrite !N by lia. replace ((2 * h + 1) / 2)%nat with h by (apply (Nat.div_unique _ 2 h 1); lia).
  rewrite Nat.div_small by lia. replace (h - 1 + (2 * h + 1))%nat with (3 * h)%nat by lia. rewrite Nat.div_mul by lia. simpl. lra.
Qed.
Lemma sigimp_ok n p : ((0 <= p < Z.of_nat n)%Z -> exists x, sigimp n p = Ok x /\ length x = n /\ forall i, (i < n)%nat -> nth i x 0 = if (Z.of_nat i =? p)%Z then 1 else 0)
  /\ (~ (0 <= p < Z.of_nat n)%Z -> sigimp n p = Exc).
Proof.
  unfold sigimp. split; intros H.
  - destruct (Z.leb_spec 0 p); [|lia]. destruct (Z.ltb_spec p (Z.of_nat n)); [|lia]. cbn [andb].
    rewrite vsetZ_ok by (rewrite repeat_length; lia). eexists. split; [reflexivity|]. rewrite upd_length, repeat_length. split; [reflexivity|].
    intros i Hi. rewrite nth_upd, repeat_length. rewrite nth_repeat. 
    destruct (Nat.eqb_spec (Z.to_nat p) i), (Nat.ltb_spec (Z.to_nat p) n), (Z.eqb_spec (Z.of_nat i) p); cbn; try reflexivity; lia.
  - destruct (Z.leb_spec 0 p), (Z.ltb_spec p (Z.of_nat n)); cbn; try reflexivity. lia.
Qed.
Lemma signyquist_ok n : length (signyquist n) = n /\ forall i, (i < n)%nat -> nth i (signyquist n) 0 = if Nat.even i then -1 else 1.
Proof.
  induction n as [n IH] using (well_founded_induction lt_wf). destruct n as [|[|n]]; cbn [signyquist length nth].
  - split; [reflexivity|lia].
  - split; [reflexivity|]. intros [|i] Hi; [reflexivity|lia].
  - destruct (IH n) as [L N]; [lia|]. split; [now rewrite L|]. intros [|[|i]] Hi; cbn [nth]; [reflexivity|reflexivity|]. rewrite N by lia. reflexivity.
Qed.

(** ** Oscillators *)
Lemma unit_mul a b : cmulR (unit_at a) (unit_at b) = unit_at (a + b).
Proof. unfold cmulR, unit_at. cbn [fst snd]. rewrite cos_plus, sin_plus. f_equal; ring. Qed.
Lemma unit_norm a : cscale (unit_at a) (cabs (unit_at a)) = unit_at a.
Proof.
  unfold cabs, cscale, unit_at. cbn [fst snd].
  assert (E : cos a * cos a + sin a * sin a = 1) by (pose proof (sin2_cos2 a) as H; unfold Rsqr in H; lra).
  rewrite E, sqrt_1. f_equal; field.
Qed.
Lemma unit_0 : (1, 0) = unit_at 0.
Proof. unfold unit_at. now rewrite cos_0, sin_0. Qed.
Lemma tone_app t f n m : tone t f (n + m) = tone t f n ++ tone (t + 2 * PI * f * INR n) f m.
Proof.
  unfold tone. rewrite seq_app, map_app. f_equal. cbn [Nat.add]. rewrite <- (Nat.add_0_r n) at 1.
  generalize 0%nat as z. induction m as [|m IH]; intros z; [reflexivity|]. cbn [seq map]. f_equal.
  - f_equal. rewrite plus_INR. ring.
  - replace (S (n + z)) with (n + S z)%nat by lia. apply IH.
Qed.
Lemma osc_ok n : forall t f, osc_loop n (unit_at t) (unit_at (2 * PI * f)) = (unit_at (t + 2 * PI * f * INR n), tone t f n).
Proof.
  induction n as [|n IH]; intros t f; cbn [osc_loop].
  - unfold tone. cbn [seq map INR]. repeat f_equal. ring.
  - rewrite unit_mul, IH. f_equal; [f_equal; rewrite S_INR; ring|].
    change (S n) with (1 + n)%nat. rewrite tone_app. change (tone t f 1) with [unit_at (t + 2 * PI * f * 0)]. cbn [app].
    replace (t + 2 * PI * f * 0) with t by ring. f_equal. f_equal. cbn [INR]. ring.
Qed.
Lemma ohc_step_ok t f n : ohc_step (unit_at t, unit_at (2 * PI * f)) n = ((unit_at (t + 2 * PI * f * INR n), unit_at (2 * PI * f)), tone t f n).
Proof. unfold ohc_step. cbn [fst snd]. rewrite unit_norm, osc_ok. reflexivity. Qed.
Lemma ohc_run_ok f ns : forall t, ohc_run (unit_at t, unit_at (2 * PI * f)) ns =
  ((unit_at (t + 2 * PI * f * INR (list_sum ns)), unit_at (2 * PI * f)), tone t f (list_sum ns)).
Proof.
  induction ns as [|n ns IH]; intros t; cbn [ohc_run].
  - cbn [list_sum fold_right INR]. unfold tone. cbn [seq map]. repeat f_equal. ring.
  - rewrite ohc_step_ok, IH. cbn [list_sum fold_right]. change (fold_right Nat.add 0%nat ns) with (list_sum ns).
    rewrite tone_app. f_equal. f_equal. f_equal. rewrite plus_INR. ring.
Qed.
Lemma ohc_prog_ok l : forall t w, ohc_prog (unit_at t, w) l = tones t l.
Proof.
  induction l as [|[f n] l IH]; intros t w; cbn [ohc_prog tones]; [reflexivity|].
  unfold ohc_conf. cbn [fst]. change (cos (2 * PI * f), sin (2 * PI * f)) with (unit_at (2 * PI * f)). rewrite ohc_step_ok, IH. reflexivity.
Qed.
Lemma sigexp_chunks_ok f : forall fu n t, (n <= fu)%nat -> sigexp_chunks fu n (unit_at t) (unit_at (2 * PI * f)) = tone t f n.
Proof.
  induction fu as [|fu IH]; intros n t Hn; cbn [sigexp_chunks].
  - assert (n = 0)%nat by lia. subst n. reflexivity.
  - destruct (Nat.eqb_spec n 0) as [->|H0]; [reflexivity|]. set (k := Nat.min n 1000). rewrite osc_ok, unit_norm.
    assert (1 <= k <= n)%nat by (unfold k; lia). rewrite IH by lia. rewrite <- tone_app. f_equal. lia.
Qed.
Lemma sigexp_ok f n : sigexp f n = tone 0 f n.
Proof.
  unfold sigexp. rewrite unit_0. replace (f * 2 * PI) with (2 * PI * f) by ring.
  change (cos (2 * PI * f), sin (2 * PI * f)) with (unit_at (2 * PI * f)). apply sigexp_chunks_ok. lia.
Qed.

(** ** Table oscillator *)
Lemma Int_part_spec z x : IZR z <= x < IZR z + 1 -> Int_part x = z.
Proof.
  intros H. destruct (base_Int_part x) as [H1 H2]. assert (-1 < Int_part x - z < 1)%Z; [|lia].
  split; apply lt_IZR; rewrite minus_IZR; lra.
Qed.
Lemma olut_eq N t : (1 <= N)%nat -> exists k f, (k < N)%nat /\ 0 <= f < 1 /\ modulo_2pi t = 2 * PI * (INR k + f) / INR N /\
  olut_step N t = Ok (fst (olut_table N k) * (1 - f) + fst (olut_table N ((k + 1) mod N)) * f,
                      snd (olut_table N k) * (1 - f) + snd (olut_table N ((k + 1) mod N)) * f).
Proof.
  intros HN. pose proof PI_RGT_0 as Hpi. assert (HNR : 1 <= INR N) by (apply (le_INR 1); exact HN).
  destruct (modulo_spec t (2 * PI) ltac:(lra)) as [B _]. unfold olut_step. fold (modulo_2pi t) in B. set (m := modulo_2pi t) in *.
  destruct (Rlt_dec m 0); [lra|]. destruct (Rle_dec (2 * PI) m); [lra|].
  set (idf := m * INR N / (2 * PI)). 
  assert (E : m = 2 * PI * idf / INR N) by (unfold idf; field; lra).
  assert (BI : 0 <= idf < INR N).
  { unfold idf, Rdiv. assert (0 < / (2 * PI)) by (apply Rinv_0_lt_compat; lra). split; [apply Rmult_le_pos; [apply Rmult_le_pos; lra|lra]|].
    apply (Rmult_lt_reg_r (2 * PI)); [lra|]. rewrite Rmult_assoc, Rinv_l, Rmult_1_r by lra. rewrite (Rmult_comm (INR N)). apply Rmult_lt_compat_r; lra. }
  destruct (base_Int_part idf) as [I1 I2]. set (z := Int_part idf) in *.
  assert (Z0 : (0 <= z)%Z). { assert (-1 < z)%Z; [apply lt_IZR; lra|lia]. }
  assert (Z1 : (z < Z.of_nat N)%Z). { apply lt_IZR. rewrite <- INR_IZR_INZ. lra. }
  exists (Z.to_nat z), (idf - IZR z).
  assert (EZ : INR (Z.to_nat z) = IZR z) by (rewrite INR_IZR_INZ, Z2Nat.id by exact Z0; reflexivity).
  split; [lia|]. split; [lra|]. split; [rewrite EZ; rewrite E at 1; f_equal; f_equal; lra|].
  destruct (Z.ltb_spec z 0); [lia|]. destruct (Z.leb_spec (Z.of_nat N) z); [lia|]. reflexivity.
Qed.
Lemma olut_next N k : (k < N)%nat -> olut_table N ((k + 1) mod N) = unit_at (2 * PI * (INR k + 1) / INR N).
Proof.
  intros Hk. assert (HNR : 1 <= INR N) by (apply (le_INR 1); lia). unfold olut_table, unit_at.
  destruct (Nat.eq_dec (k + 1) N) as [E|E].
  - rewrite E, Nat.mod_same by lia. assert (EN : INR k + 1 = INR N) by (rewrite <- E, plus_INR; reflexivity). rewrite EN.
    replace (2 * PI * INR N / INR N) with (2 * PI) by (field; lra). cbn [INR]. replace (2 * PI * 0 / INR N) with 0 by (field; lra).
    rewrite cos_0, sin_0, cos_2PI, sin_2PI. reflexivity.
  - rewrite Nat.mod_small by lia. rewrite plus_INR. reflexivity.
Qed.
Lemma olut_modulus N k f : (k < N)%nat ->
  let a := olut_table N k in let b := olut_table N ((k + 1) mod N) in
  let y := (fst a * (1 - f) + fst b * f, snd a * (1 - f) + snd b * f) in
  fst y * fst y + snd y * snd y = 1 - 2 * f * (1 - f) * (1 - cos (2 * PI / INR N)).
Proof.
  intros Hk a b y. assert (HNR : 1 <= INR N) by (apply (le_INR 1); lia). unfold y, b. rewrite olut_next by exact Hk. unfold a, olut_table, unit_at. cbn [fst snd].
  replace (2 * PI * (INR k + 1) / INR N) with (2 * PI * INR k / INR N + 2 * PI / INR N) by (field; lra).
  set (u := 2 * PI * INR k / INR N). set (v := 2 * PI / INR N). rewrite cos_plus, sin_plus.
  pose proof (sin2_cos2 u) as Hu. pose proof (sin2_cos2 v) as Hv. unfold Rsqr in *.
  set (cu := cos u) in *. set (su := sin u) in *. set (cv := cos v) in *. set (sv := sin v) in *.
  assert (E : (cu * (1 - f) + (cu * cv - su * sv) * f) * (cu * (1 - f) + (cu * cv - su * sv) * f) + (su * (1 - f) + (su * cv + cu * sv) * f) * (su * (1 - f) + (su * cv + cu * sv) * f)
    = (su * su + cu * cu) * ((1 - f) * (1 - f) + 2 * f * (1 - f) * cv + f * f * (sv * sv + cv * cv))) by ring.
  rewrite E, Hu, Hv. ring.
Qed.
