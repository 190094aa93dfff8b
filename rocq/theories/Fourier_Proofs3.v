(** Proofs: linear correlations, real transform, shifts. *)
From Coq Require Import Field.
From Verif Require Import Base BaseLemmas DftSys Filters_Model Filters_Proofs Fourier_Model Fourier_Spec Fourier_Proofs Fourier_Proofs2.
Local Open Scope cring_scope.
Section R4.
Context (F : dsys).
Add Ring Fr4 : (cth F).
Add Field Ff4 : (fth F).

Lemma samp_seq (f : nat -> F) n i : (i < n)%nat -> samp (map f (seq 0 n)) i = f i.
Proof. intros H. unfold samp. rewrite (map_nth0 _ _ _ 0%nat) by (rewrite seq_length; exact H). rewrite seq_nth by exact H. reflexivity. Qed.
(** ** Linear correlation *)
Lemma pad_samp m (x : list F) i : samp (repeat 0 m ++ x ++ repeat 0 m) i = sampZ x (Z.of_nat i - Z.of_nat m).
Proof.
  rewrite samp_app, repeat_length. destruct (Nat.ltb_spec i m) as [L|L].
  - rewrite samp_repeat0, sampZ_neg by lia. reflexivity.
  - rewrite samp_app. replace (Z.of_nat i - Z.of_nat m)%Z with (Z.of_nat (i - m)) by lia. rewrite sampZ_nat.
    destruct (Nat.ltb_spec (i - m) (length x)) as [L1|L1]; [reflexivity|]. rewrite samp_repeat0, samp_over by exact L1. reflexivity.
Qed.
Lemma ccorr_pad m (x y : list F) (l : nat) (z q : Z) : length y = length x ->
  (l < length x + 2 * m)%nat -> (Z.of_nat l = z + q * Z.of_nat (length x + 2 * m))%Z -> (- Z.of_nat m < z < Z.of_nat m)%Z ->
  ccorr_at (repeat 0 m ++ x ++ repeat 0 m) (repeat 0 m ++ y ++ repeat 0 m) l = xcorr_at x y z.
Proof.
  intros Ly Hl Hz Hm. set (n := length x) in *. unfold ccorr_at, xcorr_at. rewrite !app_length, !repeat_length. fold n. cbv zeta.
  replace (m + (n + m))%nat with (m + (n + m))%nat by reflexivity. set (N := (m + (n + m))%nat).
  unfold N at 1. rewrite !(sum_split F).
  rewrite (sum_zero F m), (sum_zero F m).
  - transitivity (sum n (fun i => samp x i * conj (sampZ y (Z.of_nat i + z)))); [|reflexivity].
    match goal with |- 0 + (?s + 0) = _ => transitivity s; [ring|] end.
    apply sum_ext. intros i Hi. rewrite !pad_samp. f_equal.
    + replace (Z.of_nat (m + i) - Z.of_nat m)%Z with (Z.of_nat i) by lia. apply sampZ_nat.
    + do 2 f_equal.
      assert (E : ((m + i + l) mod N = Z.to_nat (Z.of_nat (m + i) + z))%nat).
      { rewrite (mod_Z N (m + i + l) (Z.to_nat (Z.of_nat (m + i) + z)) q) by (unfold N; lia).
        apply Nat.mod_small. unfold N. lia. }
      rewrite E. lia.
  - intros i Hi. rewrite pad_samp, sampZ_over by (fold n; lia). ring.
  - intros i Hi. rewrite pad_samp, sampZ_neg by lia. ring.
Qed.

Lemma xcorrb_ok junk (x y : list F) m : (0 < length x)%nat -> length y = length x -> (0 < m)%nat -> (length x + 2 * m <= 2 ^ 29)%nat ->
  xcorrb junk x y m = Ok (map (fun i => xcorr_at x y (Z.of_nat i - (Z.of_nat m - 1)) / cnat (length x)) (seq 0 (2 * m - 1))).
Proof.
  intros Hn Ly Hm Hmax. set (n := length x) in *. unfold xcorrb.
  destruct (Nat.eqb_spec (length y) 0) as [C|_]; [lia|]. rewrite Ly. fold n. rewrite Nat.eqb_refl.
  assert (Lp : forall v : list F, length v = n -> length (repeat 0 m ++ v ++ repeat 0 m) = (n + 2 * m)%nat).
  { intros v Lv. rewrite !app_length, !repeat_length, Lv. lia. }
  rewrite correlateur_ok by (rewrite !Lp by auto; lia). cbn [bind]. rewrite Lp by reflexivity.
  destruct (Nat.eqb_spec m 0) as [C|_]; [lia|]. f_equal.
  set (r := map _ (seq 0 (n + 2 * m))).
  assert (Lr : length r = (n + 2 * m)%nat) by (unfold r; rewrite map_length, seq_length; reflexivity).
  assert (Nr : forall i, (i < n + 2 * m)%nat -> samp r i = ccorr_at (repeat 0 m ++ x ++ repeat 0 m) (repeat 0 m ++ y ++ repeat 0 m) i).
  { intros i Hi. unfold r, samp at 1. rewrite (map_nth0 _ _ _ 0%nat) by (rewrite seq_length; exact Hi). rewrite seq_nth by exact Hi. reflexivity. }
  assert (L1 : length (vtail (m - 1) r) = (m - 1)%nat) by (apply vtail_length; lia).
  assert (L2 : length (vhead m r) = m) by (apply vhead_length; lia).
  apply (samp_ext F); [rewrite app_length, !map_length, seq_length, L1, L2; lia|].
  rewrite app_length, !map_length, L1, L2. intros i Hi.
  unfold samp at 2. rewrite (map_nth0 _ _ _ 0%nat) by (rewrite seq_length; lia). rewrite seq_nth, Nat.add_0_l by lia.
  rewrite samp_app, map_length, L1. destruct (Nat.ltb_spec i (m - 1)) as [L|L].
  - rewrite samp_map by lia. f_equal. rewrite vtail_nth, Lr, Nr by lia.
    apply (ccorr_pad m x y _ _ 1); fold n; lia.
  - rewrite samp_map by lia. f_equal. rewrite vhead_nth, Nr by lia.
    apply (ccorr_pad m x y _ _ 0); fold n; lia.
Qed.
Lemma xcorr_ok junk (x y : list F) m : (0 < length x)%nat -> length y = length x -> (0 < m <= length x)%nat -> (length x + 2 * m <= 2 ^ 29)%nat ->
  xcorr junk x y m = Ok (map (fun i => let l := (Z.of_nat i - (Z.of_nat m - 1))%Z in
     xcorr_at x y l / cnat (length x - Z.to_nat (Z.abs l))) (seq 0 (2 * m - 1))).
Proof.
  intros Hn Ly Hm Hmax. unfold xcorr. rewrite xcorrb_ok by (assumption || lia). cbn [bind]. set (n := length x) in *.
  set (zb := map _ (seq 0 (2 * m - 1))).
  assert (Lz : length zb = (2 * m - 1)%nat) by (unfold zb; rewrite map_length, seq_length; reflexivity).
  assert (Nz : forall i, (i < 2 * m - 1)%nat -> samp zb i = xcorr_at x y (Z.of_nat i - (Z.of_nat m - 1)) / cnat n).
  { intros i Hi. unfold zb, samp at 1. rewrite (map_nth0 _ _ _ 0%nat) by (rewrite seq_length; exact Hi). rewrite seq_nth by exact Hi. reflexivity. }
  pose proof (cnat_ne F n Hn) as Nn.
  destruct (Nat.ltb_spec 1 m) as [L|L]; f_equal.
  - apply (samp_ext F); [rewrite !app_length, !map_length, !seq_length; cbn [length]; lia|].
    rewrite !app_length, !map_length, !seq_length. cbn [length]. intros i Hi.
    rewrite samp_seq by lia. cbv zeta.
    rewrite samp_app, map_length, seq_length. destruct (Nat.ltb_spec i (m - 1)) as [L1|L1].
    + rewrite samp_seq by lia.
      rewrite Nz by lia. replace (n - Z.to_nat (Z.abs (Z.of_nat i - (Z.of_nat m - 1))))%nat with (n - (m - 1) + i)%nat by lia.
      field. split; apply cnat_ne; lia.
    + rewrite samp_app. cbn [length]. destruct (Nat.ltb_spec (i - (m - 1)) 1) as [L2|L2].
      * replace (i - (m - 1))%nat with 0%nat by lia. unfold samp at 1. cbn [nth]. rewrite Nz by lia.
        replace (Z.of_nat (m - 1)) with (Z.of_nat i) by lia.
        replace (n - Z.to_nat (Z.abs (Z.of_nat i - (Z.of_nat m - 1))))%nat with n by lia. reflexivity.
      * rewrite samp_seq by lia.
        rewrite Nz by lia. replace (Z.of_nat (m + (i - (m - 1) - 1))) with (Z.of_nat i) by lia.
        replace (n - Z.to_nat (Z.abs (Z.of_nat i - (Z.of_nat m - 1))))%nat with (n - 1 - (i - (m - 1) - 1))%nat by lia.
        field. split; apply cnat_ne; lia.
  - replace m with 1%nat in * by lia. apply (samp_ext F); [rewrite Lz, map_length, seq_length; lia|]. rewrite Lz. intros i Hi.
    rewrite Nz by lia. rewrite samp_seq by lia.
    replace (n - Z.to_nat (Z.abs (Z.of_nat i - (Z.of_nat 1 - 1))))%nat with n by lia. reflexivity.
Qed.
(** Vectors of different lengths: null result. *)
Lemma ccorr_zero (x : list F) n l : ccorr_at x (repeat 0 n) l = 0.
Proof. unfold ccorr_at. apply sum_zero. intros i _. rewrite samp_repeat0, conj_0. ring. Qed.
Lemma xcorrb_mismatch junk (x y : list F) m : (0 < length y)%nat -> length y <> length x -> (0 < m)%nat -> (0 < length x)%nat -> (length x + 2 * m <= 2 ^ 29)%nat ->
  xcorrb junk x y m = Ok (repeat 0 (2 * m - 1)).
Proof.
  intros Hy Ne Hm Hn Hmax. set (n := length x) in *. unfold xcorrb.
  destruct (Nat.eqb_spec (length y) 0) as [C|_]; [lia|]. fold n. destruct (Nat.eqb_spec (length y) n) as [C|_]; [lia|].
  assert (Lp : length (repeat 0 m ++ x ++ repeat 0 m) = (n + 2 * m)%nat) by (rewrite !app_length, !repeat_length; fold n; lia).
  rewrite correlateur_ok by (rewrite ?Lp, ?repeat_length; lia). cbn [bind]. rewrite Lp.
  destruct (Nat.eqb_spec m 0) as [C|_]; [lia|]. f_equal.
  set (r := map _ (seq 0 (n + 2 * m))).
  assert (Lr : length r = (n + 2 * m)%nat) by (unfold r; rewrite map_length, seq_length; reflexivity).
  assert (Nr : forall i, samp r i = 0).
  { intros i. destruct (Nat.lt_ge_cases i (n + 2 * m)) as [Hi|Hi]; [|apply samp_over; lia].
    unfold r, samp. rewrite (map_nth0 _ _ _ 0%nat) by (rewrite seq_length; exact Hi). apply ccorr_zero. }
  assert (L1 : length (vtail (m - 1) r) = (m - 1)%nat) by (apply vtail_length; lia).
  assert (L2 : length (vhead m r) = m) by (apply vhead_length; lia).
  pose proof (cnat_ne F n Hn) as Nn.
  apply (samp_ext F); [rewrite app_length, !map_length, repeat_length, L1, L2; lia|].
  rewrite app_length, !map_length, L1, L2. intros i Hi. rewrite samp_repeat0.
  rewrite samp_app, map_length, L1. destruct (Nat.ltb_spec i (m - 1)) as [L|L].
  - rewrite samp_map by lia. rewrite vtail_nth, Nr. field. exact Nn.
  - rewrite samp_map by lia. rewrite vhead_nth, Nr by lia. field. exact Nn.
Qed.

(** ** Real input *)
Lemma img_sq : img * img = - (1) :> F.
Proof.
  unfold img. rewrite <- conj_mul. assert (E : root 4 * root 4 = wz 4 2 :> F).
  { change 2%Z with (Z.of_nat 2). rewrite wz_nat by lia. cbn [cpow]. ring. }
  rewrite E. change 4%nat with (2 * 2)%nat. change 2%Z with (Z.of_nat 2). rewrite wz_half by lia. rewrite conj_opp, conj_1. reflexivity.
Qed.
Lemma conj_img : conj img = - img :> F.
Proof.
  unfold img. rewrite conj_invol. pose proof (root_conj F 4 ltac:(lia)) as R. pose proof img_sq as I. unfold img in I.
  set (a := root 4 : F) in *. set (b := conj a) in *.
  transitivity (a * (- (b * b))); [rewrite I; ring|]. transitivity (- (b * (b * a))); [ring|]. rewrite R. ring.
Qed.
Lemma two_ne : cnat 2 <> 0 :> F. Proof. apply cnat_ne. lia. Qed.
Lemma two_ne' : 1 + 1 <> 0 :> F.
Proof. intros C. apply two_ne. cbn [cnat]. transitivity (1 + 1 : F); [ring|exact C]. Qed.
Lemma re_only_real (v : F) : conj v = v -> re_only v = v.
Proof. intros H. unfold re_only. rewrite H. cbn [cnat]. field. apply two_ne'. Qed.

Lemma is_real_evens (x : list F) : is_real x -> is_real (evens x).
Proof. intros H i. unfold samp. rewrite evens_nth. apply H. Qed.
Lemma is_real_odds (x : list F) : is_real x -> is_real (odds x).
Proof. intros H i. unfold samp. rewrite odds_nth. apply H. Qed.
Lemma dftZ_real (x : list F) k : (0 < length x)%nat -> is_real x -> conj (dftZ F 1 x (- k)) = dftZ F 1 x k.
Proof.
  intros Hn H. rewrite conj_dftZ by exact Hn. unfold dftZ. f_equal. apply sum_ext. intros j _. rewrite H. do 2 f_equal. ring.
Qed.

Lemma csym_ok (x Y : list F) h : (0 < h)%nat -> length x = (2 * h)%nat -> is_real x -> length Y = (2 * h)%nat ->
  (forall i, (i <= h)%nat -> samp Y i = dftZ F 1 x (Z.of_nat i)) -> csym Y = Ok (DFT 1 x).
Proof.
  intros Hh Lx Rx LY HY. unfold csym. rewrite LY.
  replace (2 * h / 2)%nat with h by (rewrite Nat.mul_comm, Nat.div_mul; lia).
  replace ((2 * h) mod 2)%nat with 0%nat by (rewrite Nat.mul_comm, Nat.mod_mul; lia). cbn [Nat.eqb].
  rewrite (vget_ok _ _ 0) by lia. cbn [bind]. rewrite (vget_ok _ _ 0) by (rewrite upd_length; lia). cbn [bind]. f_equal.
  set (X := upd _ h _).
  assert (LX : length X = (2 * h)%nat) by (unfold X; rewrite !upd_length; exact LY).
  assert (R0 : forall i, (i = 0 \/ i = h)%nat -> conj (dftZ F 1 x (Z.of_nat i)) = dftZ F 1 x (Z.of_nat i)).
  { intros i Hi. rewrite <- (dftZ_real x (Z.of_nat i)) at 2 by (lia || assumption).
    f_equal. apply (dftZ_mod F _ _ _ _ (if (i =? 0)%nat then 0%Z else 1%Z)).
    destruct (Nat.eqb_spec i 0); lia. }
  assert (NX : forall i, (i <= h)%nat -> samp X i = dftZ F 1 x (Z.of_nat i)).
  { intros i Hi. unfold X, samp. rewrite !nth_upd, !upd_length, LY.
    destruct (Nat.ltb_spec h (2 * h)); [|lia]. destruct (Nat.ltb_spec 0 (2 * h)); [|lia]. rewrite !andb_true_r.
    destruct (Nat.eqb_spec h i) as [<-|N1].
    - destruct (Nat.eqb_spec 0 h); [lia|]. fold (samp Y h). rewrite HY by lia. apply re_only_real, R0. auto.
    - destruct (Nat.eqb_spec 0 i) as [<-|N2].
      + fold (samp Y 0). rewrite HY by lia. apply re_only_real, R0. auto.
      + apply HY, Hi. }
  assert (Lf : length (firstn (2 * h - (h - 1)) X) = (h + 1)%nat) by (rewrite firstn_length, LX; lia).
  assert (Ls : length (firstn (h - 1) (skipn 1 X)) = (h - 1)%nat) by (rewrite firstn_length, skipn_length, LX; lia).
  apply (samp_ext F); [rewrite app_length, map_length, rev_length, Lf, Ls, DFT_length; lia|].
  rewrite app_length, map_length, rev_length, Lf, Ls. intros i Hi.
  rewrite (samp_DFT F 1 x i (Z.of_nat i) 0) by lia.
  rewrite samp_app, Lf. destruct (Nat.ltb_spec i (h + 1)) as [L|L].
  - unfold samp. rewrite nth_firstn' by lia. apply NX. lia.
  - rewrite samp_map by (rewrite rev_length, Ls; lia). rewrite rev_nth0 by (rewrite Ls; lia). rewrite Ls.
    unfold samp. rewrite nth_firstn', nth_skipn' by lia. fold (samp X (1 + (h - 1 - 1 - (i - (h + 1))))). rewrite NX by lia.
    rewrite <- (dftZ_real x (Z.of_nat i)) by (lia || assumption). f_equal. apply (dftZ_mod F _ _ _ _ 1). lia.
Qed.

Lemma dftZ_lin (x y : list F) c k : length x = length y -> (0 < length x)%nat ->
  dftZ F 1 (zipadd x (map (fun v => c * v) y)) k = dftZ F 1 x k + c * dftZ F 1 y k.
Proof.
  intros L Hn. unfold dftZ. rewrite zipadd_length, map_length, <- L, Nat.min_id. set (n := length x) in *.
  pose proof (rt_ne F n Hn) as Nr.
  rewrite (sum_ext F n _ (fun j => samp x j * wz n (1 * Z.of_nat j * k) + c * (samp y j * wz n (1 * Z.of_nat j * k)))).
  - rewrite (sum_add F), (sum_mul_l F). field. exact Nr.
  - intros j Hj. rewrite zipadd_nth by (rewrite map_length; exact L). rewrite samp_map by lia. ring.
Qed.
Lemma rfft_ok junk (x : list F) : (0 < length x <= 2 ^ 29)%nat -> is_real x -> rfft junk x = Ok (DFT 1 x).
Proof.
  intros Hn Rx. set (n := length x) in *. unfold rfft. fold n.
  destruct (Nat.eqb_spec (n mod 2) 0) as [E|E]; [|apply (plan_ok F junk true); lia].
  pose proof (Nat.div_mod n 2 ltac:(lia)) as D. set (h := (n / 2)%nat) in *. clearbody h.
  assert (Lx : length x = (2 * h)%nat) by (fold n; lia). assert (Hh : (0 < h)%nat) by lia.
  assert (Le : length (evens x) = h). { rewrite evens_length, Lx. replace (2 * h + 1)%nat with (1 + h * 2)%nat by lia. rewrite Nat.div_add by lia. reflexivity. }
  assert (Lo : length (odds x) = h). { rewrite odds_length, Lx, Nat.mul_comm. apply Nat.div_mul. lia. }
  set (x2 := zipadd (evens x) (map (fun v => img * v) (odds x))).
  assert (L2 : length x2 = h) by (unfold x2; rewrite zipadd_length, map_length, Le, Lo; lia).
  rewrite (plan_ok F junk true) by lia. cbn [bind sg].
  set (Xt := DFT 1 x2). assert (LX : length Xt = h) by (unfold Xt; rewrite DFT_length; exact L2).
  cbv zeta. pose proof (rt_ne F 2 ltac:(lia)) as N2. pose proof two_ne as Nt.
  set (P := fun i (y : list F) => length y = n /\ forall k, (k < i)%nat -> samp y k = dftZ F 1 x (Z.of_nat k)).
  match goal with |- bind (loop _ ?bd _) _ = _ => destruct (loop_inv P (h + 1) bd (repeat junk n)) as (y & Ey & Py) end.
  - intros i y Hi [Ly Hy].
    rewrite (vget_ok _ _ 0) by (rewrite LX; destruct (Nat.eqb_spec i h); lia). cbn [bind].
    rewrite (vget_ok _ _ 0) by (rewrite LX; destruct (Nat.ltb_spec 0 i); lia). cbn [bind].
    rewrite (vget_ok _ _ 0) by (rewrite rotation_length; lia). cbn [bind].
    rewrite rotation_nth by lia. rewrite vset_ok by lia. eexists. split; [reflexivity|].
    split; [rewrite upd_length; exact Ly|]. intros k Hk. unfold samp. rewrite nth_upd, Ly.
    destruct (Nat.ltb_spec i n); [|lia]. rewrite andb_true_r. destruct (Nat.eqb_spec i k) as [<-|Nk]; [|apply Hy; lia].
    fold (samp Xt (if (i =? h)%nat then 0%nat else i)). fold (samp Xt (if (0 <? i)%nat then (h - i)%nat else 0%nat)).
    assert (E1 : samp Xt (if (i =? h)%nat then 0%nat else i) = dftZ F 1 x2 (Z.of_nat i)).
    { apply (samp_DFT F 1 x2 _ _ (if (i =? h)%nat then (-1)%Z else 0%Z)); rewrite L2; destruct (Nat.eqb_spec i h); lia. }
    assert (E2 : samp Xt (if (0 <? i)%nat then (h - i)%nat else 0%nat) = dftZ F 1 x2 (- Z.of_nat i)).
    { apply (samp_DFT F 1 x2 _ _ (if (0 <? i)%nat then 1%Z else 0%Z)); rewrite L2; destruct (Nat.ltb_spec 0 i); lia. }
    rewrite E1, E2. unfold x2. rewrite !dftZ_lin by lia. rewrite conj_add, conj_mul, conj_img.
    rewrite !dftZ_real by (lia || apply is_real_evens, Rx || apply is_real_odds, Rx).
    rewrite (dft_split F 1 x h) by assumption. rewrite Z.mul_1_l.
    replace (wz (2 * h) (Z.of_nat i)) with (wz (F := F) n (Z.of_nat i)) by (f_equal; lia).
    set (A := dftZ F 1 (evens x) (Z.of_nat i)). set (B := dftZ F 1 (odds x) (Z.of_nat i)). set (w := wz n (Z.of_nat i)).
    transitivity ((A - img * img * (w * B)) / rt 2); [|rewrite img_sq; field; exact N2].
    cbn [cnat] in *. field. split; [exact N2|apply two_ne'].
  - split; [apply repeat_length|]. intros; lia.
  - rewrite Ey. cbn [bind]. destruct Py as [Ly Hy]. apply (csym_ok x y h); try assumption; [lia|]. intros i Hi. apply Hy. lia.
Qed.

(** ** fftshift *)
Lemma fftshift_ok (X : list F) i : (i < length X)%nat ->
  samp (fftshift X) i = samp X ((i + (length X + 1) / 2) mod length X).
Proof.
  intros Hi. unfold fftshift. set (n := length X) in *. cbv zeta.
  pose proof (Nat.div_mod n 2 ltac:(lia)) as D. pose proof (Nat.mod_upper_bound n 2 ltac:(lia)) as M.
  assert (E : ((n + 1) / 2 = n - n / 2)%nat).
  { pose proof (Nat.div_mod (n + 1) 2 ltac:(lia)). pose proof (Nat.mod_upper_bound (n + 1) 2 ltac:(lia)).
    set (a := ((n + 1) / 2)%nat) in *. set (b := (n / 2)%nat) in *. clearbody a b. lia. }
  rewrite E. set (q := (n / 2)%nat) in *. clearbody q.
  assert (L1 : length (vtail q X) = q) by (apply vtail_length; fold n; lia).
  rewrite samp_app, L1. destruct (Nat.ltb_spec i q) as [L|L].
  - rewrite vtail_nth. fold n. rewrite Nat.mod_small by lia. f_equal. lia.
  - rewrite vhead_nth by (destruct (Nat.eqb_spec (n mod 2) 0); lia).
    replace (i + (n - q))%nat with (i - q + 1 * n)%nat by lia. rewrite Nat.mod_add, Nat.mod_small by lia. reflexivity.
Qed.
Lemma fftshift_length (X : list F) : length (fftshift X) = length X.
Proof.
  unfold fftshift. set (n := length X). cbv zeta. destruct (Nat.eq_dec n 0) as [E|E].
  - rewrite E. destruct X; [reflexivity|discriminate].
  - pose proof (Nat.div_mod n 2 ltac:(lia)) as D. pose proof (Nat.mod_upper_bound n 2 ltac:(lia)) as M.
    set (q := (n / 2)%nat) in *. clearbody q. rewrite app_length, vtail_length, vhead_length by (fold n; destruct (Nat.eqb_spec (n mod 2) 0); lia).
    destruct (Nat.eqb_spec (n mod 2) 0); lia.
Qed.
End R4.

Section Delay.
Context (K : cring).
Lemma delais_ok (x : list K) tau : (Z.abs tau <= Z.of_nat (length x))%Z -> exists y, delais_entier x tau = Ok y /\
  length y = length x /\ forall i, (i < length x)%nat -> samp y i = sampZ x (Z.of_nat i - tau).
Proof.
  intros H. unfold delais_entier. destruct (Z.eqb_spec tau 0) as [->|T0].
  { exists x. split; [reflexivity|]. split; [reflexivity|]. intros i _. rewrite Z.sub_0_r. symmetry. apply sampZ_nat. }
  rewrite Z.gtb_ltb. destruct (Z.ltb_spec (Z.of_nat (length x)) (Z.abs tau)) as [C|_]; [lia|].
  assert (SA : forall (a b : list K) i, samp (a ++ b) i = if (i <? length a)%nat then samp a i else samp b (i - length a)).
  { intros a b i. unfold samp. destruct (Nat.ltb_spec i (length a)); [apply app_nth1|apply app_nth2]; lia. }
  assert (S0 : forall n i, samp (repeat (0 : K) n) i = 0).
  { intros n i. unfold samp. destruct (Nat.lt_ge_cases i n); [apply nth_repeat|]. apply nth_overflow. rewrite repeat_length. assumption. }
  rewrite Z.gtb_ltb. destruct (Z.ltb_spec 0 tau) as [P|P]; eexists; (split; [reflexivity|]); split.
  - rewrite app_length, repeat_length. unfold vhead. rewrite firstn_length. lia.
  - intros i Hi. rewrite SA, repeat_length, S0. destruct (Nat.ltb_spec i (Z.to_nat tau)).
    + rewrite sampZ_neg by lia. reflexivity.
    + unfold vhead, samp. rewrite nth_firstn' by lia. replace (Z.of_nat i - tau)%Z with (Z.of_nat (i - Z.to_nat tau)) by lia. rewrite sampZ_nat. reflexivity.
  - rewrite app_length, repeat_length. unfold vtail. rewrite skipn_length. lia.
  - assert (LV : length (vtail (Z.to_nat (Z.of_nat (length x) + tau)) x) = Z.to_nat (Z.of_nat (length x) + tau)).
    { unfold vtail. rewrite skipn_length. lia. }
    intros i Hi. rewrite SA, LV, S0. destruct (Nat.ltb_spec i (Z.to_nat (Z.of_nat (length x) + tau))).
    + unfold vtail, samp. rewrite nth_skipn'. replace (Z.of_nat i - tau)%Z with (Z.of_nat (length x - Z.to_nat (Z.of_nat (length x) + tau) + i)) by lia.
      rewrite sampZ_nat. reflexivity.
    + rewrite sampZ_over by lia. reflexivity.
Qed.
End Delay.

Section Pars.
Context (F : dsys).
Add Ring Pr : (cth F).
Add Field Pf : (fth F).
Lemma conj_dft (x : list F) k : (0 < length x)%nat -> conj (dft 1 x k) = dft (-1) (map conj x) k.
Proof.
  intros H. unfold dft. cbv zeta. rewrite map_length, conj_div, rt_conj, conj_sum by (apply rt_ne; exact H). f_equal.
  apply sum_ext. intros j Hj. rewrite conj_mul, conj_wz by exact H. f_equal.
  - unfold samp. rewrite (map_nth0 conj x j 0) by exact Hj. reflexivity.
  - f_equal. lia.
Qed.
Lemma parseval (x : list F) : (0 < length x)%nat ->
  sum (length x) (fun k => samp (DFT 1 x) k * conj (samp (DFT 1 x) k)) = sum (length x) (fun j => samp x j * conj (samp x j)).
Proof.
  intros H. set (n := length x) in *.
  rewrite (sum_ext F n _ (fun k => sum n (fun j => conj (samp x j) * (samp (DFT 1 x) k * wz n (-1 * Z.of_nat k * Z.of_nat j) / rt n)))).
  2:{ intros k Hk. rewrite (DFT_nth F 1 x k Hk) at 2. rewrite conj_dft by exact H. unfold dft. cbv zeta. rewrite map_length. fold n.
      rewrite div_as_mul, <- (sum_mul_r F), <- (sum_mul_l F). apply sum_ext. intros j Hj.
      replace (samp (map conj x) j) with (conj (samp x j)) by (unfold samp; rewrite (map_nth0 conj x j 0) by exact Hj; reflexivity).
      replace (-1 * Z.of_nat j * Z.of_nat k)%Z with (-1 * Z.of_nat k * Z.of_nat j)%Z by lia. rewrite div_as_mul. ring. }
  rewrite (sum_swap F n n). apply sum_ext. intros j Hj. rewrite (sum_mul_l F).
  pose proof (DFT_inverse F 1 x (or_introl eq_refl)) as W. change (- (1))%Z with (-1)%Z in W.
  assert (E : samp x j = dft (-1) (DFT 1 x) j). { rewrite <- W at 1. apply DFT_nth. rewrite DFT_length. exact Hj. }
  rewrite E at 2. unfold dft. cbv zeta. rewrite DFT_length. fold n. rewrite div_as_mul, <- (sum_mul_r F), <- (sum_mul_l F), <- (sum_mul_r F).
  apply sum_ext. intros k _. rewrite div_as_mul. ring.
Qed.
End Pars.
