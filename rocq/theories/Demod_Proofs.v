(** Proofs about hard demodulation (C42). *)
From Coq Require Import Reals Lra Lia Psatz.
From Verif Require Import Base BaseLemmas BitStream_Model BitStream_Spec TeleBits_Model TeleBits_Spec TeleBits_Proofs TeleBits_Props Demod_Model Demod_Spec.
Open Scope R_scope.

Lemma dist2_sq a b : dist2 a b = sqdist a b.
Proof. unfold dist2, sqdist. ring. Qed.
Lemma sqdist_pos a b : 0 <= sqdist a b.
Proof. unfold sqdist. pose proof (pow2_ge_0 (fst a - fst b)). pose proof (pow2_ge_0 (snd a - snd b)). lra. Qed.
Lemma sqdist_0 a b : sqdist a b = 0 -> a = b.
Proof.
  unfold sqdist. destruct a as [a1 a2], b as [b1 b2]. cbn [fst snd]. intros H.
  pose proof (pow2_ge_0 (a1 - b1)) as H1. pose proof (pow2_ge_0 (a2 - b2)) as H2.
  assert (E1 : (a1 - b1) ^ 2 = 0) by lra. assert (E2 : (a2 - b2) ^ 2 = 0) by lra.
  assert (a1 - b1 = 0) by (apply Rsqr_0_uniq; unfold Rsqr; lra). assert (a2 - b2 = 0) by (apply Rsqr_0_uniq; unfold Rsqr; lra).
  f_equal; lra.
Qed.
(** half the distance: strictly closer *)
Lemma half_closer p a b : 4 * sqdist p a < sqdist a b -> sqdist p a < sqdist p b.
Proof.
  unfold sqdist. destruct p as [p1 p2], a as [a1 a2], b as [b1 b2]. cbn [fst snd].
  set (u1 := p1 - a1). set (u2 := p2 - a2). set (v1 := a1 - b1). set (v2 := a2 - b2).
  replace (p1 - b1) with (u1 + v1) by (unfold u1, v1; ring). replace (p2 - b2) with (u2 + v2) by (unfold u2, v2; ring).
  clearbody u1 u2 v1 v2. intros H.
  destruct (Rlt_le_dec (- (2 * (u1 * v1 + u2 * v2))) (v1 ^ 2 + v2 ^ 2)) as [L|L]; [lra|exfalso].
  assert (P0 : 0 <= v1 ^ 2 + v2 ^ 2) by (pose proof (pow2_ge_0 v1); pose proof (pow2_ge_0 v2); lra).
  assert (U0 : 0 <= u1 ^ 2 + u2 ^ 2) by (pose proof (pow2_ge_0 u1); pose proof (pow2_ge_0 u2); lra).
  assert (Vp : 0 < v1 ^ 2 + v2 ^ 2) by lra.
  assert (SQ : (v1 ^ 2 + v2 ^ 2) * (v1 ^ 2 + v2 ^ 2) <= (2 * (u1 * v1 + u2 * v2)) * (2 * (u1 * v1 + u2 * v2))).
  { replace ((2 * (u1 * v1 + u2 * v2)) * (2 * (u1 * v1 + u2 * v2))) with ((- (2 * (u1 * v1 + u2 * v2))) * (- (2 * (u1 * v1 + u2 * v2)))) by ring.
    apply Rmult_le_compat; lra. }
  assert (CS : (u1 * v1 + u2 * v2) * (u1 * v1 + u2 * v2) <= (u1 ^ 2 + u2 ^ 2) * (v1 ^ 2 + v2 ^ 2)).
  { pose proof (pow2_ge_0 (u1 * v2 - u2 * v1)) as Q. lra. }
  assert (4 * (u1 ^ 2 + u2 ^ 2) * (v1 ^ 2 + v2 ^ 2) < (v1 ^ 2 + v2 ^ 2) * (v1 ^ 2 + v2 ^ 2)) by (apply Rmult_lt_compat_r; lra).
  lra.
Qed.

(** ** Nearest point *)
Lemma near_fold w cnt p n : forall a bd r,
  let st := fold_left (near_turn w cnt p) (seq a n) (bd, r) in
  fst st <= bd /\ (forall j, (a <= j < a + n)%nat -> fst st <= sqdist p (w_pt w cnt j)) /\
  ((st = (bd, r)) \/ ((a <= snd st < a + n)%nat /\ fst st = sqdist p (w_pt w cnt (snd st)) /\ fst st < bd /\
     forall j, (a <= j < snd st)%nat -> fst st < sqdist p (w_pt w cnt j))).
Proof.
  induction n as [|n IH]; intros a bd r; cbn [seq fold_left].
  - cbn [fst]. split; [lra|]. split; [intros; lia|]. now left.
  - set (d := sqdist p (w_pt w cnt a)). assert (E : near_turn w cnt p (bd, r) a = if Rlt_dec d bd then (d, a) else (bd, r)) by (unfold near_turn; cbn [fst]; rewrite dist2_sq; reflexivity). rewrite E. clear E.
    destruct (Rlt_dec d bd) as [L|L].
    + destruct (IH (S a) d a) as (B & C & D). set (st := fold_left _ _ _) in *. cbn [fst snd] in *. split; [lra|]. split.
      * intros j Hj. destruct (Nat.eq_dec j a) as [->|]; [exact B|]. apply C. lia.
      * right. destruct D as [->|(D1 & D2 & D3 & D4)]; cbn [fst snd] in *.
        -- split; [lia|]. split; [reflexivity|]. split; [exact L|]. intros; lia.
        -- split; [lia|]. split; [exact D2|]. split; [lra|]. intros j Hj. destruct (Nat.eq_dec j a) as [->|]; [exact D3|]. apply D4. lia.
    + destruct (IH (S a) bd r) as (B & C & D). set (st := fold_left _ _ _) in *. cbn [fst snd] in *. split; [exact B|]. split.
      * intros j Hj. destruct (Nat.eq_dec j a) as [->|]; [fold d; lra|]. apply C. lia.
      * destruct D as [D|(D1 & D2 & D3 & D4)]; [now left|right]. split; [lia|]. split; [exact D2|]. split; [exact D3|].
        intros j Hj. destruct (Nat.eq_dec j a) as [->|]; [fold d; lra|]. apply D4. lia.
Qed.
Lemma near_ok w cnt p : w_real w = false -> (exists j, (j < w_M w)%nat /\ sqdist p (w_pt w cnt j) < huge) ->
  exists r, symbole_plus_proche w cnt p = Ok r /\ closest (w_M w) (w_pt w cnt) p r /\
    forall j, (j < r)%nat -> sqdist p (w_pt w cnt r) < sqdist p (w_pt w cnt j).
Proof.
  intros Hw (j0 & Hj0 & Hh). unfold symbole_plus_proche. rewrite Hw. destruct (near_fold w cnt p (w_M w) 0 huge 0) as (B & C & D).
  set (st := fold_left _ _ _) in *. destruct D as [D|(D1 & D2 & D3 & D4)].
  - exfalso. rewrite D in C. cbn [fst] in C. specialize (C j0 ltac:(lia)). lra.
  - destruct (Nat.ltb_spec (snd st) (w_M w)); [|lia]. exists (snd st). split; [reflexivity|]. split.
    + split; [exact H|]. intros j Hj. rewrite <- D2. apply C. lia.
    + intros j Hj. rewrite <- D2. apply D4. lia.
Qed.
Lemma bpsk_near p : exists r, symbole_plus_proche (wave_psk 2) 0 p = Ok r /\ closest 2 (psk_point 2) p r.
Proof.
  unfold symbole_plus_proche. cbn [wave_psk w_real Nat.eqb]. eexists. split; [reflexivity|]. destruct p as [x y]. unfold psk_point. cbn [fst Nat.eqb].
  destruct (Rlt_dec 0 x); split; try lia; intros [|[|j]] Hj; try lia; unfold sqdist; cbn [Nat.eqb fst snd]; lra.
Qed.
(** decisions agree with the sent index when it is strictly closest *)
Definition decides (w : wave) (cnt : nat) (p : R * R) (i : nat) : Prop := symbole_plus_proche w cnt p = Ok i.
Lemma closest_unique M pt p i r : (i < M)%nat -> closest M pt p r -> (forall j, (j < M)%nat -> j <> i -> sqdist p (pt i) < sqdist p (pt j)) -> r = i.
Proof.
  intros Hi [Hr C] S. destruct (Nat.eq_dec r i) as [E|E]; [exact E|]. specialize (S r Hr E). specialize (C i Hi). lra.
Qed.
Definition wave_ok (w : wave) : Prop :=
  w_real w = true -> w_M w = 2%nat /\ forall cnt i, w_pt w cnt i = psk_point 2 i.
Lemma decides_half w cnt p i : wave_ok w -> (i < w_M w)%nat -> within_half (w_M w) (w_pt w cnt) p i -> sqdist p (w_pt w cnt i) < huge -> decides w cnt p i.
Proof.
  intros OK Hi H Hh. assert (S : forall j, (j < w_M w)%nat -> j <> i -> sqdist p (w_pt w cnt i) < sqdist p (w_pt w cnt j)).
  { intros j Hj Hne. apply half_closer. apply H; assumption. }
  unfold decides. destruct (w_real w) eqn:Hw.
  - destruct (OK Hw) as [M2 P]. destruct (bpsk_near p) as (r & E & C). unfold symbole_plus_proche in *. rewrite Hw. cbn [wave_psk w_real Nat.eqb] in E.
    rewrite E. f_equal. rewrite M2 in *. apply (closest_unique 2 (psk_point 2) p); auto. intros j Hj Hne. rewrite <- !(P cnt). apply S; assumption.
  - destruct (near_ok w cnt p Hw) as (r & E & C & _); [exists i; split; assumption|]. rewrite E. f_equal.
    apply (closest_unique (w_M w) (w_pt w cnt) p); auto.
Qed.
Lemma half_self w cnt i : distinct (w_M w) (w_pt w cnt) -> (i < w_M w)%nat -> within_half (w_M w) (w_pt w cnt) (w_pt w cnt i) i.
Proof.
  intros D Hi j Hj Hne. replace (sqdist (w_pt w cnt i) (w_pt w cnt i)) with 0 by (unfold sqdist; ring).
  pose proof (sqdist_pos (w_pt w cnt i) (w_pt w cnt j)) as P. destruct (Req_dec (sqdist (w_pt w cnt i) (w_pt w cnt j)) 0) as [E|E]; [|lra].
  exfalso. apply Hne. symmetry. apply D; auto. apply sqdist_0. exact E.
Qed.
Lemma huge_pos : 0 < huge.
Proof. unfold huge. apply IZR_lt. reflexivity. Qed.

(** ** Streams *)
Lemma gen_ok w l : forall a, (forall v, In v l -> (0 <= v < Z.of_nat (w_M w))%Z) ->
  mapi_res (fun i v => lis_symbole w i (Z.to_nat v)) a l = Ok (map (fun iv => w_pt w (fst iv) (Z.to_nat (snd iv))) (combine (seq a (length l)) l)).
Proof.
  induction l as [|v l IH]; intros a H; [reflexivity|]. cbn [mapi_res length seq combine map fst snd].
  unfold lis_symbole at 1. pose proof (H v (or_introl eq_refl)). destruct (Nat.ltb_spec (Z.to_nat v) (w_M w)); [|lia]. cbn [bind].
  rewrite IH by (intros; apply H; now right). reflexivity.
Qed.
Lemma dec_ok w l : forall a xs, length xs = length l ->
  (forall i, (i < length l)%nat -> decides w (a + i) (nth i xs (0, 0)) (Z.to_nat (nth i l 0%Z))) ->
  mapi_res (symbole_plus_proche w) a xs = Ok (map Z.to_nat l).
Proof.
  induction l as [|v l IH]; intros a [|x xs] L H; try discriminate; [reflexivity|]. cbn [mapi_res map].
  pose proof (H 0%nat ltac:(cbn; lia)) as H0. rewrite Nat.add_0_r in H0. cbn [nth] in H0. rewrite H0. cbn [bind].
  rewrite (IH (S a) xs); [reflexivity|cbn in L; lia|]. intros i Hi. pose proof (H (S i) ltac:(cbn; lia)) as Hs. replace (a + S i)%nat with (S a + i)%nat in Hs by lia. exact Hs.
Qed.
Definition padded (l : list bool) (k : nat) : list bool := l ++ repeat false (ngroups (length l) k * k - length l).
Lemma chain p l s q l0 s0 w : wave_ok w ->
  prog_ok p -> denote p = Some l -> exec p = Ok s -> prog_ok q -> denote q = Some l0 -> exec q = Ok s0 ->
  (0 < w_k w <= 30)%nat -> (2 ^ w_k w <= w_M w)%nat ->
  exists sent ids, genere_symboles w s = Ok sent /\ length sent = ngroups (length l) (w_k w) /\ length ids = length sent /\
    (forall i, (i < length sent)%nat -> (nth i ids 0 < w_M w)%nat /\ nth i sent (0, 0) = w_pt w i (nth i ids 0%nat)) /\
    forall rcv, length rcv = length sent ->
      (forall i, (i < length sent)%nat -> decides w i (nth i rcv (0, 0)) (nth i ids 0%nat)) ->
      exists s1, decode_symboles w s0 rcv = Ok s1 /\ shows s1 (l0 ++ padded l (w_k w)).
Proof.
  intros OK P D E P0 D0 E0 Hk HM.
  destruct (C05_symmap_then_symdemap p l s q l0 s0 (w_k w) P D E P0 D0 E0 Hk) as (y & s1 & Em & Ed & Ly & R & Sh).
  assert (R' : forall v, In v y -> (0 <= v < Z.of_nat (w_M w))%Z).
  { intros v Hv. specialize (R v Hv). assert (2 ^ Z.of_nat (w_k w) <= Z.of_nat (w_M w))%Z; [|lia].
    rewrite <- (Nat2Z.inj_pow 2). lia. }
  unfold genere_symboles. rewrite Em. cbn [bind]. rewrite (gen_ok w y 0 R'). set (sent := map _ _).
  assert (Ls : length sent = length y) by (unfold sent; rewrite map_length, combine_length, seq_length; lia).
  assert (Lid : length (map Z.to_nat y) = length sent) by (rewrite map_length; lia).
  exists sent, (map Z.to_nat y). split; [reflexivity|]. split; [congruence|]. split; [exact Lid|].
  assert (NI : forall i, (i < length sent)%nat -> nth i (map Z.to_nat y) 0%nat = Z.to_nat (nth i y 0%Z)).
  { intros i Hi. change 0%nat with (Z.to_nat 0%Z) at 1. apply map_nth. }
  split.
  - intros i Hi. rewrite NI by exact Hi. split.
    + pose proof (R' (nth i y 0%Z) ltac:(apply nth_In; lia)). lia.
    + unfold sent. rewrite (nth_indep _ _ ((fun iv : nat * Z => w_pt w (fst iv) (Z.to_nat (snd iv))) (0%nat, 0%Z))) by (fold sent; exact Hi).
      rewrite (map_nth (fun iv : nat * Z => w_pt w (fst iv) (Z.to_nat (snd iv)))). rewrite combine_nth by apply seq_length. cbn [fst snd].
      rewrite seq_nth by lia. reflexivity.
  - intros rcv Lr H. unfold decode_symboles. rewrite (dec_ok w y 0 rcv); [|lia|].
    + cbn [bind]. exists s1. split; [|exact Sh]. rewrite map_map. rewrite <- Ed. f_equal.
      rewrite <- (map_id y) at 2. apply map_ext_in. intros v Hv. pose proof (R v Hv). lia.
    + intros i Hi. cbn [Nat.add]. rewrite <- NI by lia. apply H. lia.
Qed.

(** ** Constellations *)
Lemma affine_inj a b i j : b <> 0 -> a + INR i * b = a + INR j * b -> i = j.
Proof.
  intros Hb H. apply INR_eq. apply (Rmult_eq_reg_r b); [lra|exact Hb].
Qed.
Lemma div_pos_ne K2 n : K2 <> 0 -> (0 < n)%nat -> K2 / INR n <> 0.
Proof. intros H Hn. unfold Rdiv. apply Rmult_integral_contrapositive_currified; [exact H|]. apply Rinv_neq_0_compat. apply not_0_INR. lia. Qed.
Lemma ask_distinct M K1 K2 cnt : (2 <= M)%nat -> K2 <> 0 -> distinct M (w_pt (wave_ask M K1 K2) cnt).
Proof.
  intros HM HK i j Hi Hj E. cbn [wave_ask w_pt] in E. injection E as E. apply (affine_inj K1 (K2 / INR (M - 1))); [apply div_pos_ne; [exact HK|lia]|exact E].
Qed.
Lemma frac_inj n i j : (0 < n)%nat -> INR i / INR n * 2 - 1 = INR j / INR n * 2 - 1 -> i = j.
Proof.
  intros Hn H. assert (INR n <> 0) by (apply not_0_INR; lia). apply INR_eq. apply (Rmult_eq_reg_r (/ INR n)); [|apply Rinv_neq_0_compat; assumption]. unfold Rdiv in H. lra.
Qed.
Lemma fsk_distinct M cnt : (2 <= M)%nat -> distinct M (w_pt (wave_fsk M) cnt).
Proof. intros HM i j Hi Hj E. cbn [wave_fsk w_pt] in E. injection E as E. apply (frac_inj (M - 1)); [lia|exact E]. Qed.
Lemma qam_distinct M2 : (2 <= M2)%nat -> distinct (M2 * M2) (qam_point M2).
Proof.
  intros HM i j Hi Hj E. unfold qam_point in E. injection E as E1 E2. apply (frac_inj (M2 - 1)) in E1, E2; try lia.

Qed.
Lemma cos_lt_1 x : 0 < x < 2 * PI -> cos x <> 1.
Proof.
  intros H E. replace x with (2 * (x / 2)) in E by field. rewrite cos_2a_sin in E. assert (0 < sin (x / 2)) by (apply sin_gt_0; lra).
  assert (0 < sin (x / 2) * sin (x / 2)) by (apply Rmult_lt_0_compat; assumption). lra.
Qed.
Lemma polar_inj a b : Rabs (a - b) < 2 * PI -> polar1 a = polar1 b -> a = b.
Proof.
  intros H E. unfold polar1 in E. injection E as E1 E2. destruct (Req_dec a b) as [|N]; [assumption|exfalso].
  assert (C : cos (a - b) = 1). { rewrite cos_minus, E1, E2. pose proof (sin2_cos2 b) as Q. unfold Rsqr in Q. lra. }
  apply Rabs_def2 in H. destruct (Rtotal_order a b) as [L|[L|L]]; [|contradiction|].
  - apply (cos_lt_1 (b - a)); [lra|]. rewrite <- C. replace (a - b) with (- (b - a)) by ring. symmetry. apply cos_neg.
  - apply (cos_lt_1 (a - b)); [lra|exact C].
Qed.
Lemma psk_distinct M : (2 <= M)%nat -> distinct M (psk_point M).
Proof.
  intros HM i j Hi Hj E. unfold psk_point in E. destruct (Nat.eqb_spec M 2) as [->|H2].
  - destruct i as [|[|i]], j as [|[|j]]; try lia; cbn [Nat.eqb] in E; try reflexivity; injection E; lra.
  - pose proof PI_RGT_0. assert (HR : 0 < INR M) by (apply lt_0_INR; lia). set (o := if (M =? 4)%nat then PI / 4 else 0) in E.
    assert (E' : o + 2 * PI * INR i / INR M = o + 2 * PI * INR j / INR M).
    { apply polar_inj; [|exact E]. replace (o + 2 * PI * INR i / INR M - (o + 2 * PI * INR j / INR M)) with (2 * PI * ((INR i - INR j) / INR M)) by (field; lra).
      rewrite Rabs_mult, (Rabs_right (2 * PI)) by lra. rewrite <- (Rmult_1_r (2 * PI)) at 2. apply Rmult_lt_compat_l; [lra|].
      unfold Rdiv. rewrite Rabs_mult, (Rabs_right (/ INR M)) by (apply Rle_ge; left; apply Rinv_0_lt_compat; exact HR).
      apply (Rmult_lt_reg_r (INR M)); [exact HR|]. rewrite Rmult_assoc, Rinv_l, Rmult_1_r, Rmult_1_l by lra.
      apply lt_INR in Hi, Hj. pose proof (pos_INR i). pose proof (pos_INR j). apply Rabs_def1; lra. }
    apply INR_eq. assert (2 * PI / INR M <> 0) by (apply Rgt_not_eq; apply Rdiv_lt_0_compat; lra).
    apply (Rmult_eq_reg_l (2 * PI / INR M)); [|assumption]. unfold Rdiv in *. lra.
Qed.
(** rotations keep distances *)
Lemma rot_dist a b t : sqdist (cmulr a (polar1 t)) (cmulr b (polar1 t)) = sqdist a b.
Proof.
  unfold sqdist, cmulr, polar1. cbn [fst snd]. pose proof (sin2_cos2 t) as Q. unfold Rsqr in Q.
  set (c := cos t) in *. set (s := sin t) in *.
  transitivity ((s * s + c * c) * ((fst a - fst b) ^ 2 + (snd a - snd b) ^ 2)); [ring|rewrite Q; ring].
Qed.
Lemma pi4_distinct par : distinct 4 (pi4_point par).
Proof.
  intros i j Hi Hj E. unfold pi4_point in E. destruct (par =? 0)%nat.
  - apply (psk_distinct 4 ltac:(lia) i j Hi Hj E).
  - apply (psk_distinct 4 ltac:(lia) i j Hi Hj). apply sqdist_0. rewrite <- (rot_dist _ _ (PI / 4)), E. unfold sqdist. ring.
Qed.
(** ** QPSK quadrants *)
Lemma qpsk_pts : let h := / sqrt 2 in psk_point 4 0 = (h, h) /\ psk_point 4 1 = (- h, h) /\ psk_point 4 2 = (- h, - h) /\ psk_point 4 3 = (h, - h).
Proof.
  assert (S : sin (PI / 4) = / sqrt 2) by (rewrite sin_PI4; unfold Rdiv; ring). assert (C : cos (PI / 4) = / sqrt 2) by (rewrite cos_PI4; unfold Rdiv; ring).
  cbv zeta. unfold psk_point, polar1. cbn [Nat.eqb INR].
  replace (PI / 4 + 2 * PI * 0 / (1 + 1 + 1 + 1)) with (PI / 4) by field.
  replace (PI / 4 + 2 * PI * 1 / (1 + 1 + 1 + 1)) with (PI / 2 + PI / 4) by field.
  replace (PI / 4 + 2 * PI * (1 + 1) / (1 + 1 + 1 + 1)) with (PI / 4 + PI) by field.
  replace (PI / 4 + 2 * PI * (1 + 1 + 1) / (1 + 1 + 1 + 1)) with ((PI / 2 + PI / 4) + PI) by field.
  rewrite !neg_cos, !neg_sin. rewrite !cos_plus, !sin_plus, cos_PI2, sin_PI2, S, C.
  repeat split; f_equal; ring.
Qed.
Lemma qpsk_closest x : closest 4 (psk_point 4) x (decode_QPSK x).
Proof.
  destruct qpsk_pts as (P0 & P1 & P2 & P3). assert (H : 0 < / sqrt 2) by (apply Rinv_0_lt_compat, sqrt_lt_R0; lra).
  set (h := / sqrt 2) in *. destruct x as [a b].
  assert (G : forall u v : R, (0 <= u -> 0 <= h * u) /\ (u < 0 -> h * u <= 0)).
  { intros u _. split; intros Hu; [apply Rmult_le_pos; lra|]. assert (0 <= h * (- u)) by (apply Rmult_le_pos; lra). lra. }
  pose proof (G a 0) as [A1 A2]. pose proof (G b 0) as [B1 B2].
  assert (D : forall j, (j < 4)%nat -> sqdist (a, b) (psk_point 4 j) = a ^ 2 + b ^ 2 + 2 * h ^ 2 -
     2 * ((if (j =? 0)%nat || (j =? 3)%nat then h * a else - (h * a)) + (if (j <? 2)%nat then h * b else - (h * b)))).
  { intros j Hj. destruct j as [|[|[|[|j]]]]; try lia; [rewrite P0|rewrite P1|rewrite P2|rewrite P3]; unfold sqdist; cbn [fst snd Nat.eqb orb Nat.ltb Nat.leb]; ring. }
  unfold decode_QPSK. cbn [fst snd].
  destruct (Rle_dec 0 a) as [Ha|Ha], (Rle_dec 0 b) as [Hb|Hb]; (split; [lia|]); intros j Hj; rewrite !D by lia;
    destruct j as [|[|[|[|j]]]]; try lia; cbn [Nat.eqb orb Nat.ltb Nat.leb];
    try (specialize (A1 Ha)); try (specialize (A2 ltac:(lra))); try (specialize (B1 Hb)); try (specialize (B2 ltac:(lra))); lra.
Qed.
Lemma cmulr_rot_inv a t : cmulr (cmulr a (polar1 (- t))) (polar1 t) = a.
Proof.
  unfold cmulr, polar1. cbn [fst snd]. rewrite cos_neg, sin_neg. pose proof (sin2_cos2 t) as Q. unfold Rsqr in Q. destruct a as [a b]. cbn [fst snd].
  set (c := cos t) in *. set (s := sin t) in *. f_equal; [transitivity (a * (s * s + c * c)); [ring|rewrite Q; ring]|transitivity (b * (s * s + c * c)); [ring|rewrite Q; ring]].
Qed.
Lemma ctx_pi4_closest cnt x : let (c, o) := ctx_pi4_step cnt x in
  c = S cnt /\ closest 4 (pi4_point (cnt mod 2)) x (fst o) /\ snd o = pi4_point (cnt mod 2) (fst o).
Proof.
  unfold ctx_pi4_step. split; [reflexivity|]. cbn [fst snd].
  assert (E : ((S cnt + 1) mod 2 = cnt mod 2)%nat) by (replace (S cnt + 1)%nat with (cnt + 1 * 2)%nat by lia; apply Nat.mod_add; lia).
  rewrite E. split; [|reflexivity]. pose proof (Nat.mod_upper_bound cnt 2 ltac:(lia)) as U.
  destruct (cnt mod 2)%nat as [|[|?]]; try lia; cbn [Nat.eqb].
  - apply qpsk_closest.
  - set (x' := cmulr x (polar1 (- (PI / 4)))). destruct (qpsk_closest x') as [Hr H]. split; [exact Hr|]. intros j Hj. unfold pi4_point. cbn [Nat.eqb].
    rewrite <- (cmulr_rot_inv x (PI / 4)). fold x'. rewrite !rot_dist. apply H. exact Hj.
Qed.
