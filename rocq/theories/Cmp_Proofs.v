From Coq Require Import Reals ZArith Lra Lia.
From Verif Require Import Base BaseLemmas RField DftSys ComplexSys Filters_Proofs Sig_Proofs Vec_Model Fourier_Model Fourier_Spec Fest_Model Fest_Proofs Fest_Proofs3 Fest_Proofs4 Del_Model Del_Spec Del_Proofs Del_Proofs2 Del_Proofs3 Del_Props.
Local Open Scope R_scope.

(** ** The integer delay maximises the correlation *)
Lemma interp_tie l k : index_max l = Ok k -> exists d, interp l k = Ok d /\ - (1 / 2) < d <= 1 / 2 /\ (d = 1 / 2 -> (k + 1 < List.length l)%nat /\ nth (k + 1) l 0 = nth k l 0).
Proof.
  intros IM. assert (Nl : l <> []) by (intros ->; discriminate). destruct (index_max_ok l Nl) as [k' [E [Hk M]]]. rewrite IM in E. injection E as <-.
  pose proof (index_max_first l k IM) as F. unfold interp. rewrite (vget_nth l k 0) by exact Hk. cbn [bind].
  destruct (Nat.ltb_spec 0 k) as [Lk|Lk]; cbn [andb]; [|exists 0; split; [reflexivity|]; split; [lra|intros; lra]].
  destruct (Nat.ltb_spec (k + 1) (List.length l)) as [L2|L2]; [|exists 0; split; [reflexivity|]; split; [lra|intros; lra]].
  rewrite (vget_nth l (k - 1) 0), (vget_nth l (k + 1) 0) by lia. cbn [bind].
  specialize (F (k - 1)%nat ltac:(lia)). pose proof (M (k + 1)%nat L2) as G. set (a := nth (k - 1) l 0) in *. set (b := nth k l 0) in *. set (c := nth (k + 1) l 0) in *.
  unfold qint_loc. rewrite rdiv_ok by lra. cbn [bind]. set (q := 2 * b - c - a). assert (Q : 0 < q) by (unfold q; lra). set (d := (c - a) / (2 * q)). assert (Ed : d * (2 * q) = c - a) by (unfold d; field; lra).
  assert (B : - (1 / 2) < d <= 1 / 2) by (unfold q in *; split; nra). exists d. fold q d. split; [destruct (Rlt_dec d (- (1 / 2))); [lra|]; destruct (Rlt_dec (1 / 2) d); [lra|]; reflexivity|]. split; [exact B|].
  intros Eq. split; [exact L2|]. rewrite Eq in Ed. unfold q in Ed. lra.
Qed.
Lemma round_near l d : - (1 / 2) < d <= 1 / 2 -> roundZ (IZR l + d) = l \/ (d = 1 / 2 /\ roundZ (IZR l + d) = (l + 1)%Z).
Proof.
  intros B. unfold roundZ. destruct (Rle_dec 0 (IZR l + d)) as [P|P].
  - destruct (Req_EM_T d (1 / 2)) as [Ed|Nd].
    + right. split; [exact Ed|]. rewrite Ed. replace (IZR l + 1 / 2 + 1 / 2) with (IZR (l + 1)) by (rewrite plus_IZR; lra). apply Int_part_spec. lra.
    + left. apply Int_part_spec. lra.
  - left. assert (E : Int_part (- (IZR l + d) + 1 / 2) = (- l)%Z); [|rewrite E; lia]. apply Int_part_spec. rewrite opp_IZR. lra.
Qed.
Lemma int_peak junk x y : let N := Nat.max (List.length x) (List.length y) in (0 < N)%nat -> (3 * N <= 2 ^ 29)%nat ->
  exists d s, estimation_delais_entier junk x y = Ok (d, s) /\ 0 <= s < 1 /\ (Z.abs d < Z.of_nat N)%Z /\ forall m, (Z.abs m < Z.of_nat N)%Z -> xabs x y m <= xabs x y d.
Proof.
  intros N HN HM. destruct (index_max_ok (cnv x y N)) as [k [E [Hk M]]]; [intros Z; apply (f_equal (@List.length R)) in Z; rewrite cnv_length in Z; cbn in Z; lia|].
  destruct (interp_tie _ _ E) as [d [I1 [I2 I3]]]. rewrite cnv_length in *. set (l := (Z.of_nat k - (Z.of_nat N - 1))%Z).
  unfold estimation_delais_entier. rewrite (estimation_unfold junk x y k d HN HM E Hk I1). fold N l. cbn [bind fst snd]. eexists _, _. split; [reflexivity|]. split; [apply score_range; exact HN|].
  assert (Top : forall m, (Z.abs m < Z.of_nat N)%Z -> xabs x y m <= xabs x y l). { intros m Hm. apply (xabs_mono x y N _ _ HN). specialize (M (Z.to_nat (m + (Z.of_nat N - 1))) ltac:(lia)). rewrite !cnv_nth in M by lia. replace (Z.of_nat (Z.to_nat (m + (Z.of_nat N - 1))) - (Z.of_nat N - 1))%Z with m in M by lia. exact M. }
  destruct (round_near l d I2) as [-> | [Ed ->]]; [split; [unfold l; lia|exact Top]|]. destruct (I3 Ed) as [Hk1 Eq]. split; [unfold l; lia|].
  intros m Hm. apply Rle_trans with (xabs x y l); [apply Top, Hm|]. apply (xabs_mono x y N _ _ HN). rewrite !cnv_nth in Eq by lia. fold l in Eq. replace (Z.of_nat (k + 1) - (Z.of_nat N - 1))%Z with (l + 1)%Z in Eq by (unfold l; lia). lra.
Qed.
Lemma xcorr_far (x y : list Complex) m : (m <= - Z.of_nat (List.length x) \/ Z.of_nat (List.length y) <= m \/ Z.of_nat (List.length x) = 0 \/ Z.of_nat (List.length y) = 0)%Z -> xabs x y m = 0.
Proof.
  intros H. unfold xabs. assert (Q : xcorr_at x y m = c0); [|rewrite Q; apply nrm_0]. unfold xcorr_at. apply (sum_zero Cring). intros i Hi. rewrite (sampZ_out y) by lia. apply C_ext; cbn; ring.
Qed.
Lemma xabs_pad (x y : list Complex) a b m : xabs (x ++ repeat c0 a) (y ++ repeat c0 b) m = xabs x y m.
Proof. unfold xabs. f_equal. f_equal. apply xcorr_pad. Qed.
(** aligned windows *)
Lemma align_windows junk x y d s : let xyp := pad_zeros_p2 x y in estimation_delais_entier junk (fst xyp) (snd xyp) = Ok (d, s) -> (- Z.of_nat (List.length x) <= d <= Z.of_nat (List.length y))%Z ->
  exists xa ya, aligne_entier junk x y = Ok (xa, ya, d, s) /\
    Z.of_nat (List.length xa) = Z.min (Z.of_nat (List.length x) - Z.max 0 (- d)) (Z.of_nat (List.length y) - Z.max 0 d) /\ List.length ya = List.length xa /\
    forall j, (j < List.length xa)%nat -> samp xa j = sampZ x (Z.of_nat j + Z.max 0 (- d)) /\ samp ya j = sampZ y (Z.of_nat j + Z.max 0 d).
Proof.
  intros xyp E DR. unfold aligne_entier. fold xyp. destruct xyp as [xp yp]. cbn [fst snd] in E. rewrite E. cbn [bind fst snd].
  assert (W : exists xa ya, (if (d =? 0)%Z then Ok (x, y) else if (d <? 0)%Z then let* xa := tailZ x (Z.of_nat (List.length x) + d) in Ok (xa, y) else let* ya := tailZ y (Z.of_nat (List.length y) - d) in Ok (x, ya)) = Ok (xa, ya) /\
    Z.of_nat (List.length xa) = (Z.of_nat (List.length x) - Z.max 0 (- d))%Z /\ Z.of_nat (List.length ya) = (Z.of_nat (List.length y) - Z.max 0 d)%Z /\
    (forall j, samp xa j = sampZ x (Z.of_nat j + Z.max 0 (- d))) /\ (forall j, samp ya j = sampZ y (Z.of_nat j + Z.max 0 d))).
  { destruct (Z.eqb_spec d 0) as [D0|D0]; [|destruct (Z.ltb_spec d 0) as [D1|D1]].
    - exists x, y. split; [reflexivity|]. split; [lia|]. split; [lia|]. split; intros j; rewrite samp_Z; f_equal; lia.
    - unfold tailZ. destruct (Z.ltb_spec (Z.of_nat (List.length x) + d) 0); [lia|]. cbn [orb]. destruct (Z.ltb_spec (Z.of_nat (List.length x)) (Z.of_nat (List.length x) + d)); [lia|]. cbn [bind].
      eexists _, y. split; [reflexivity|]. split; [unfold vtail; rewrite skipn_length; lia|]. split; [lia|]. split; intros j; [rewrite tail_samp by lia|rewrite samp_Z]; f_equal; lia.
    - unfold tailZ. destruct (Z.ltb_spec (Z.of_nat (List.length y) - d) 0); [lia|]. cbn [orb]. destruct (Z.ltb_spec (Z.of_nat (List.length y)) (Z.of_nat (List.length y) - d)); [lia|]. cbn [bind].
      eexists x, _. split; [reflexivity|]. split; [lia|]. split; [unfold vtail; rewrite skipn_length; lia|]. split; intros j; [rewrite samp_Z|rewrite tail_samp by lia]; f_equal; lia. }
  destruct W as [xa [ya [EW [L1 [L2 [S1 S2]]]]]]. rewrite EW. cbn [bind]. clear EW.
  set (m := Nat.min (List.length xa) (List.length ya)).
  exists (vhead m xa), (vhead m ya).
  assert (HX : (if (List.length ya <? List.length xa)%nat then vhead (List.length ya) xa else xa) = vhead m xa).
  { unfold m, vhead. destruct (Nat.ltb_spec (List.length ya) (List.length xa)); [rewrite Nat.min_r by lia; reflexivity|rewrite Nat.min_l, firstn_all by lia; reflexivity]. }
  assert (HY : (if (List.length xa <? List.length ya)%nat then vhead (List.length xa) ya else ya) = vhead m ya).
  { unfold m, vhead. destruct (Nat.ltb_spec (List.length xa) (List.length ya)); [rewrite Nat.min_l by lia; reflexivity|rewrite Nat.min_r, firstn_all by lia; reflexivity]. }
  rewrite HX, HY. assert (M1 : List.length (vhead m xa) = m) by (unfold vhead; rewrite firstn_length; unfold m; lia). assert (M2 : List.length (vhead m ya) = m) by (unfold vhead; rewrite firstn_length; unfold m; lia).
  rewrite M1, M2, Nat.eqb_refl. split; [reflexivity|]. split; [unfold m; lia|]. split; [reflexivity|]. intros j Hj. rewrite !head_samp by exact Hj. split; [apply S1|apply S2].
Qed.
Lemma align_best junk (x y : list Complex) : let n := np2 (Nat.max (List.length x) (List.length y)) in (3 * n <= 2 ^ 29)%nat -> (exists m, 0 < xabs x y m) ->
  exists xa ya d s, aligne_entier junk x y = Ok (xa, ya, d, s) /\ 0 <= s < 1 /\ (forall m, xabs x y m <= xabs x y d) /\ (0 < List.length x)%nat /\ (0 < List.length y)%nat /\ (- Z.of_nat (List.length x) < d < Z.of_nat (List.length y))%Z /\
    Z.of_nat (List.length xa) = Z.min (Z.of_nat (List.length x) - Z.max 0 (- d)) (Z.of_nat (List.length y) - Z.max 0 d) /\ List.length ya = List.length xa /\
    forall j, (j < List.length xa)%nat -> samp xa j = sampZ x (Z.of_nat j + Z.max 0 (- d)) /\ samp ya j = sampZ y (Z.of_nat j + Z.max 0 d).
Proof.
  intros n HM [m0 Hm0]. pose proof (np2_ge (Nat.max (List.length x) (List.length y))) as G. fold n in G.
  assert (R0 : forall m, 0 < xabs x y m -> (- Z.of_nat (List.length x) < m < Z.of_nat (List.length y))%Z). { intros m Hm. destruct (Z_le_dec m (- Z.of_nat (List.length x))) as [A|A]; [rewrite (xcorr_far x y m) in Hm by (left; exact A); lra|]. destruct (Z_le_dec (Z.of_nat (List.length y)) m) as [B|B]; [rewrite (xcorr_far x y m) in Hm by (right; left; exact B); lra|]. lia. }
  pose proof (R0 m0 Hm0) as Rm. set (xp := x ++ repeat c0 (n - List.length x)). set (yp := y ++ repeat c0 (n - List.length y)).
  assert (LX : List.length xp = n) by (unfold xp; rewrite app_length, repeat_length; lia). assert (LY : List.length yp = n) by (unfold yp; rewrite app_length, repeat_length; lia).
  destruct (int_peak junk xp yp) as (d & s & E & Hs & Hd & Top); [rewrite LX, LY; lia|rewrite LX, LY; lia|]. rewrite LX, LY, Nat.max_id in *.
  assert (Top' : forall m, xabs x y m <= xabs x y d). { intros m. destruct (Z_lt_dec (Z.abs m) (Z.of_nat n)) as [L|L]; [specialize (Top m L); unfold xp, yp in Top; rewrite !xabs_pad in Top; exact Top|]. rewrite (xcorr_far x y m) by lia. apply xabs_pos. }
  assert (Pd : 0 < xabs x y d) by (specialize (Top' m0); lra). pose proof (R0 d Pd) as Rd. destruct (align_windows junk x y d s) as (xa & ya & Ea & L1 & L2 & V).
  { unfold pad_zeros_p2. fold n xp yp. cbn [fst snd]. exact E. } { lia. }
  exists xa, ya, d, s. split; [exact Ea|]. split; [exact Hs|]. split; [exact Top'|]. split; [destruct (Nat.eq_dec (List.length x) 0) as [Q|]; [rewrite (xcorr_far x y d) in Pd by lia; lra|lia]|]. split; [destruct (Nat.eq_dec (List.length y) 0) as [Q|]; [rewrite (xcorr_far x y d) in Pd by lia; lra|lia]|]. split; [exact Rd|]. split; [exact L1|]. split; [exact L2|exact V].
Qed.
