(** Proofs: transforms of every length, inverse, correlations. *)
From Coq Require Import Field.
From Verif Require Import Base BaseLemmas DftSys Filters_Model Filters_Proofs Fourier_Model Fourier_Spec Fourier_Proofs.

Lemma evens_odds_ind {A} (P : list A -> Prop) :
  P [] -> (forall a, P [a]) -> (forall a b t, P t -> P (a :: b :: t)) -> forall l, P l.
Proof.
  intros H0 H1 H2. fix IH 1. intros [|a [|b t]]; [exact H0|apply H1|apply H2, IH].
Qed.
Lemma evens_length {A} (x : list A) : length (evens x) = (length x + 1) / 2.
Proof.
  induction x as [|a|a b t IH] using evens_odds_ind; [reflexivity|reflexivity|].
  cbn [evens length]. rewrite IH. replace (S (S (length t)) + 1) with (length t + 1 + 1 * 2) by lia.
  rewrite Nat.div_add by lia. lia.
Qed.
Lemma odds_length {A} (x : list A) : length (odds x) = length x / 2.
Proof. destruct x as [|a t]; [reflexivity|]. cbn [odds length]. rewrite evens_length. f_equal. lia. Qed.
Lemma evens_nth {A} (x : list A) i d : nth i (evens x) d = nth (2 * i) x d.
Proof.
  revert i. induction x as [|a|a b t IH] using evens_odds_ind; intros i.
  - destruct i; reflexivity.
  - destruct i as [|[|i]]; reflexivity.
  - destruct i as [|i]; [reflexivity|]. cbn [evens nth]. rewrite IH. replace (2 * S i) with (S (S (2 * i))) by lia. reflexivity.
Qed.
Lemma odds_nth {A} (x : list A) i d : nth i (odds x) d = nth (2 * i + 1) x d.
Proof.
  destruct x as [|a t]; [destruct i; reflexivity|]. cbn [odds]. rewrite evens_nth.
  replace (2 * i + 1) with (S (2 * i)) by lia. reflexivity.
Qed.
Lemma land_pow2 n : 0 < n -> Nat.land n (n - 1) = 0 -> exists p, n = 2 ^ p.
Proof.
  intros Hn H. exists (Nat.log2 n). destruct (Nat.log2_spec n Hn) as [L U].
  destruct (Nat.eq_dec n (2 ^ Nat.log2 n)) as [E|E]; [exact E|exfalso].
  assert (L1 : Nat.log2 (n - 1) = Nat.log2 n) by (apply Nat.log2_unique; lia).
  assert (0 < 2 ^ Nat.log2 n) by (pose proof (Nat.pow_nonzero 2 (Nat.log2 n)); lia).
  pose proof (Nat.bit_log2 n ltac:(lia)) as B1. pose proof (Nat.bit_log2 (n - 1) ltac:(lia)) as B2. rewrite L1 in B2.
  pose proof (Nat.land_spec n (n - 1) (Nat.log2 n)) as B. rewrite H, B1, B2, Nat.bits_0 in B. discriminate.
Qed.

Local Open Scope cring_scope.
Section R3.
Context (F : dsys).
Add Ring Fr3 : (cth F).
Add Field Ff3 : (fth F).

Lemma zipmul_length (x y : list F) : length (zipmul x y) = Nat.min (length x) (length y).
Proof. unfold zipmul. rewrite map_length, combine_length. reflexivity. Qed.
Lemma zipadd_length (x y : list F) : length (zipadd x y) = Nat.min (length x) (length y).
Proof. unfold zipadd. rewrite map_length, combine_length. reflexivity. Qed.
Lemma zipmul_nth (x y : list F) i : length x = length y -> samp (zipmul x y) i = samp x i * samp y i.
Proof.
  revert y i. induction x as [|a t IH]; intros [|b u] i H; try discriminate; [destruct i; cbn; ring|].
  destruct i as [|i]; [reflexivity|]. unfold samp, zipmul in *. cbn [combine map nth]. apply IH. injection H. auto.
Qed.
Lemma zipadd_nth (x y : list F) i : length x = length y -> samp (zipadd x y) i = samp x i + samp y i.
Proof.
  revert y i. induction x as [|a t IH]; intros [|b u] i H; try discriminate; [destruct i; cbn; ring|].
  destruct i as [|i]; [reflexivity|]. unfold samp, zipadd in *. cbn [combine map nth]. apply IH. injection H. auto.
Qed.
Lemma vhead_nth (x : list F) n i : (i < n)%nat -> samp (vhead n x) i = samp x i.
Proof. intros H. apply nth_firstn', H. Qed.
Lemma vtail_nth (x : list F) n i : samp (vtail n x) i = samp x (length x - n + i).
Proof. apply nth_skipn'. Qed.
Lemma vtail_length {A} (x : list A) n : (n <= length x)%nat -> length (vtail n x) = n.
Proof. intros H. unfold vtail. rewrite skipn_length. lia. Qed.
Lemma vhead_length {A} (x : list A) n : (n <= length x)%nat -> length (vhead n x) = n.
Proof. intros H. unfold vhead. rewrite firstn_length. lia. Qed.
Lemma samp_map (f : F -> F) (x : list F) i : (i < length x)%nat -> samp (map f x) i = f (samp x i).
Proof. apply map_nth0. Qed.
Lemma samp_app (x y : list F) i : samp (x ++ y) i = if (i <? length x)%nat then samp x i else samp y (i - length x).
Proof. unfold samp. destruct (Nat.ltb_spec i (length x)); [apply app_nth1|apply app_nth2]; lia. Qed.
Lemma samp_over (x : list F) i : (length x <= i)%nat -> samp x i = 0.
Proof. apply nth_overflow. Qed.
Lemma samp_repeat0 n i : samp (repeat (0 : F) n) i = 0.
Proof.
  unfold samp. destruct (Nat.lt_ge_cases i n); [apply nth_repeat|]. apply nth_overflow. rewrite repeat_length. assumption.
Qed.
Lemma samp_ext (x y : list F) : length x = length y -> (forall i, (i < length x)%nat -> samp x i = samp y i) -> x = y.
Proof. apply list_ext. Qed.

(** ** Sums over residues *)
Lemma sum_shift n c (g : nat -> F) : sum n (fun i => g ((i + c) mod n)) = sum n g.
Proof.
  destruct n as [|n]; [reflexivity|]. induction c as [|c IH].
  - apply sum_ext. intros i Hi. rewrite Nat.add_0_r, Nat.mod_small by exact Hi. reflexivity.
  - transitivity (sum (S n) (fun i => g ((i + c) mod S n))); [|exact IH].
    cbn [sum]. rewrite (sum_ext F n _ (fun i => g ((S i + c) mod S n))) by (intros i _; do 2 f_equal; lia).
    pose proof (sum_S_l F n (fun i => g ((i + c) mod S n))) as E. cbn [sum] in E. rewrite E.
    replace ((n + S c) mod S n) with ((0 + c) mod S n); [ring|].
    replace (n + S c)%nat with (0 + c + 1 * S n)%nat by lia. rewrite Nat.mod_add by lia. reflexivity.
Qed.
Lemma sum_neg n (g : nat -> F) : sum n (fun i => g ((n - i) mod n)) = sum n g.
Proof.
  destruct n as [|n]; [reflexivity|]. rewrite <- (sum_shift (S n) 1 g), (sum_rev F).
  apply sum_ext. intros i Hi. do 2 f_equal. lia.
Qed.
Lemma mod_Z n a b q : (0 < n)%nat -> (Z.of_nat a = Z.of_nat b + q * Z.of_nat n)%Z -> (a mod n = b mod n)%nat.
Proof. intros Hn H. apply Nat2Z.inj. rewrite !Nat2Z.inj_mod, H, Z.mod_add by lia. reflexivity. Qed.
Lemma wz_modZ n e k k' q : (0 < n)%nat -> (k = k' + q * Z.of_nat n)%Z -> wz n (e * k) = wz n (e * k') :> F.
Proof.
  intros Hn ->. apply wz_mod. replace (e * (k' + q * Z.of_nat n))%Z with (e * k' + e * q * Z.of_nat n)%Z by ring. apply Z.mod_add. lia.
Qed.

(** ** Bins of a transform at any integer index *)
Definition dftZ (e : Z) (x : list F) (k : Z) : F :=
  sum (length x) (fun j => samp x j * wz (length x) (e * Z.of_nat j * k)) / rt (length x).
Lemma dftZ_nat e x k : dftZ e x (Z.of_nat k) = dft e x k.
Proof. reflexivity. Qed.
Lemma dftZ_mod e x k k' q : (k = k' + q * Z.of_nat (length x))%Z -> dftZ e x k = dftZ e x k'.
Proof.
  intros H. unfold dftZ. f_equal. apply sum_ext. intros j Hj. f_equal. rewrite H.
  apply (wz_modZ _ _ _ k' q); [lia|reflexivity].
Qed.
Lemma samp_DFT e x k k' q : (k < length x)%nat -> (Z.of_nat k = k' + q * Z.of_nat (length x))%Z -> samp (DFT e x) k = dftZ e x k'.
Proof. intros Hk H. rewrite DFT_nth by exact Hk. rewrite <- dftZ_nat. apply (dftZ_mod _ _ _ _ q). exact H. Qed.
Lemma dftZ_inv e x k : dftZ e x k = dftZ (- e) x (- k).
Proof. unfold dftZ. f_equal. apply sum_ext. intros j _. do 2 f_equal. ring. Qed.

(** ** Convolution theorem *)
Lemma conv_theorem (a b : list F) : (0 < length a)%nat -> length b = length a ->
  DFT (-1) (zipmul (DFT 1 a) (DFT 1 b)) = map (fun k => cconv a b k / rt (length a)) (seq 0 (length a)).
Proof.
  intros Hn Lb. set (n := length a) in *. set (c := map (fun k => cconv a b k / rt n) (seq 0 n)).
  assert (Lc : length c = n) by (unfold c; rewrite map_length, seq_length; reflexivity).
  pose proof (rt_ne F n Hn) as Nr.
  rewrite <- (DFT_inverse F 1 c) by (left; reflexivity). f_equal.
  apply samp_ext; [rewrite zipmul_length, !DFT_length; lia|].
  rewrite zipmul_length, !DFT_length, Lb. intros k Hk. replace (Nat.min n n) with n in Hk by lia.
  rewrite zipmul_nth by (rewrite !DFT_length; lia).
  rewrite !DFT_nth by lia. unfold dft. cbv zeta. rewrite Lb, Lc. fold n.
  rewrite (sum_ext F n (fun j => samp c j * _) (fun i => sum n (fun j => samp a j * samp b ((i + n - j) mod n) * wz n (Z.of_nat i * Z.of_nat k)) * finv (rt n))).
  2:{ intros i Hi. unfold c at 1. unfold samp at 1. rewrite (map_nth0 _ _ _ 0%nat) by (rewrite seq_length; exact Hi).
      rewrite seq_nth by exact Hi. rewrite Nat.add_0_l. unfold cconv. fold n. cbv zeta. rewrite div_as_mul.
      rewrite (sum_mul_r F n (wz n (Z.of_nat i * Z.of_nat k)) (fun j => samp a j * samp b ((i + n - j) mod n))).
      rewrite Z.mul_1_l. ring. }
  rewrite (sum_mul_r F). rewrite (sum_swap F n n (fun i j => samp a j * samp b ((i + n - j) mod n) * wz n (Z.of_nat i * Z.of_nat k))).
  rewrite (sum_ext F n (fun j => sum n _) (fun j => samp a j * wz n (1 * Z.of_nat j * Z.of_nat k) * sum n (fun i => samp b i * wz n (1 * Z.of_nat i * Z.of_nat k)))).
  2:{ intros j Hj. rewrite <- (sum_mul_l F).
      rewrite <- (sum_shift n (n - j) (fun i => samp a j * wz n (1 * Z.of_nat j * Z.of_nat k) * (samp b i * wz n (1 * Z.of_nat i * Z.of_nat k)))).
      apply sum_ext. intros i Hi. replace (i + (n - j))%nat with (i + n - j)%nat by lia.
      assert (W : wz n (Z.of_nat i * Z.of_nat k) = wz n (1 * Z.of_nat j * Z.of_nat k) * wz n (1 * Z.of_nat ((i + n - j) mod n) * Z.of_nat k) :> F).
      { rewrite <- wz_add by exact Hn.
        replace (Z.of_nat i * Z.of_nat k)%Z with (Z.of_nat k * Z.of_nat i)%Z by ring.
        replace (1 * Z.of_nat j * Z.of_nat k + 1 * Z.of_nat ((i + n - j) mod n) * Z.of_nat k)%Z
          with (Z.of_nat k * Z.of_nat (j + (i + n - j) mod n))%Z by lia.
        rewrite (wz_idx_mod F n _ i), (wz_idx_mod F n _ (j + _)) by exact Hn. do 3 f_equal.
        rewrite Nat.add_mod_idemp_r by lia. apply (mod_Z n _ _ (-1)); lia. }
      rewrite W. ring. }
  rewrite (sum_mul_r F n (sum n (fun i => samp b i * wz n (1 * Z.of_nat i * Z.of_nat k))) (fun j => samp a j * wz n (1 * Z.of_nat j * Z.of_nat k))).
  field. exact Nr.
Qed.

(** ** Chirp-z transform *)
Lemma chirp_length n : length (chirp (F := F) n) = (2 * n - 1)%nat.
Proof. unfold chirp. rewrite map_length, seq_length. reflexivity. Qed.
Lemma chirp_nth n i : (i < 2 * n - 1)%nat ->
  samp (chirp (F := F) n) i = wz (2 * n) ((Z.of_nat i - (Z.of_nat n - 1)) * (Z.of_nat i - (Z.of_nat n - 1))).
Proof.
  intros H. unfold samp, chirp. rewrite (map_nth0 _ _ _ 0%nat) by (rewrite seq_length; exact H). rewrite seq_nth by exact H. reflexivity.
Qed.
Lemma chirp_tail n t : (t < n)%nat -> samp (vtail n (chirp (F := F) n)) t = wz (2 * n) (Z.of_nat t * Z.of_nat t).
Proof.
  intros H. rewrite vtail_nth, chirp_length, chirp_nth by lia. f_equal.
  replace (Z.of_nat (2 * n - 1 - n + t) - (Z.of_nat n - 1))%Z with (Z.of_nat t) by lia. reflexivity.
Qed.

Lemma czt_ok junk (x : list F) p : (0 < length x)%nat -> (p <= 30)%nat -> (2 * length x - 1 <= 2 ^ p)%nat ->
  czt_impl junk x (2 ^ p) (rotation (2 ^ p)) (chirp (length x)) = Ok (DFT 1 x).
Proof.
  intros Hn Hp Hle. set (n := length x) in *. unfold czt_impl. fold n. set (n2 := (2 ^ p)%nat) in *.
  destruct (Nat.ltb_spec n2 (2 * n - 1)) as [C|_]; [lia|].
  set (xp := zipmul x (vtail n (chirp n)) ++ repeat 0 (n2 - n)).
  set (icp := map conj (chirp n) ++ repeat 0 (n2 - (2 * n - 1))). cbv zeta.
  assert (Lt : length (vtail n (chirp (F := F) n)) = n) by (apply vtail_length; rewrite chirp_length; lia).
  assert (Lm : length (zipmul x (vtail n (chirp n))) = n) by (rewrite zipmul_length, Lt; fold n; lia).
  assert (Lxp : length xp = n2) by (unfold xp; rewrite app_length, repeat_length, Lm; lia).
  assert (Lic : length icp = n2) by (unfold icp; rewrite app_length, repeat_length, map_length, chirp_length; lia).
  assert (R : forall av (v : list F), length v = n2 -> radix2 junk av v (rotation n2) = Ok (DFT (sg av) v)).
  { intros av v Lv. rewrite <- Lv. apply (radix2_ok F junk av v p Hp). exact Lv. }
  rewrite (R true xp Lxp). cbn [bind]. rewrite (R true icp Lic). cbn [bind sg].
  rewrite R by (rewrite zipmul_length, !DFT_length; lia). cbn [bind sg].
  rewrite conv_theorem by lia. f_equal.
  assert (Hn2 : (0 < n2)%nat) by lia. pose proof (rt_ne F n2 Hn2) as Nr2. pose proof (rt_ne F n Hn) as Nr.
  set (y2 := map (fun k => cconv xp icp k / rt (length xp)) (seq 0 (length xp))).
  assert (Ly : length y2 = n2) by (unfold y2; rewrite map_length, seq_length; exact Lxp).
  assert (Lf : length (firstn n (skipn (n - 1) y2)) = n) by (rewrite firstn_length, skipn_length, Ly; lia).
  apply samp_ext; [rewrite map_length, zipmul_length, Lf, Lt, DFT_length; fold n; lia|].
  rewrite map_length, zipmul_length, Lf, Lt. intros k Hk. replace (Nat.min n n) with n in Hk by lia.
  rewrite samp_map by (rewrite zipmul_length, Lf, Lt; lia).
  rewrite zipmul_nth by (rewrite Lf, Lt; reflexivity).
  rewrite chirp_tail by lia. unfold samp at 1. rewrite nth_firstn' by lia. rewrite nth_skipn'.
  unfold y2. rewrite (map_nth0 _ _ _ 0%nat) by (rewrite seq_length; lia). rewrite seq_nth by lia. rewrite Nat.add_0_l, Lxp.
  rewrite DFT_nth by (fold n; lia). unfold dft. fold n. cbv zeta.
  unfold cconv. rewrite Lxp. cbv zeta.
  rewrite (sum_extend F n n2).
  2: lia.
  2:{ intros j Hj. unfold xp. rewrite samp_app, Lm. destruct (Nat.ltb_spec j n); [lia|]. rewrite samp_repeat0. ring. }
  rewrite (sum_ext F n _ (fun j => samp x j * wz n (1 * Z.of_nat j * Z.of_nat k) * wz (2 * n) (- (Z.of_nat k * Z.of_nat k)))).
  - rewrite (sum_mul_r F n (wz (2 * n) (- (Z.of_nat k * Z.of_nat k))) (fun j => samp x j * wz n (1 * Z.of_nat j * Z.of_nat k))).
    set (s := sum n _). pose proof (wz_inv F (2 * n) (Z.of_nat k * Z.of_nat k) ltac:(lia)) as W.
    set (u := wz (2 * n) (Z.of_nat k * Z.of_nat k)) in *. set (v := wz (2 * n) (- (Z.of_nat k * Z.of_nat k))) in *.
    transitivity (s * (u * v) / rt n); [field; split; assumption|]. rewrite W. field. assumption.
  - intros j Hj. unfold xp. rewrite samp_app, Lm. destruct (Nat.ltb_spec j n); [|lia].
    rewrite zipmul_nth by (rewrite Lt; reflexivity). rewrite chirp_tail by exact Hj.
    replace (n - 1 + k + n2 - j)%nat with (n - 1 + k - j + 1 * n2)%nat by lia.
    rewrite Nat.mod_add by lia. rewrite Nat.mod_small by lia.
    unfold icp. rewrite samp_app, map_length, chirp_length. destruct (Nat.ltb_spec (n - 1 + k - j) (2 * n - 1)); [|lia].
    rewrite samp_map by (rewrite chirp_length; lia). rewrite chirp_nth by lia. rewrite conj_wz by lia.
    rewrite <- (wz_coh F n 2) by lia. rewrite (Nat.mul_comm n 2).
    transitivity (samp x j * (wz (2 * n) (Z.of_nat j * Z.of_nat j) * wz (2 * n) (- ((Z.of_nat (n - 1 + k - j) - (Z.of_nat n - 1)) * (Z.of_nat (n - 1 + k - j) - (Z.of_nat n - 1)))))); [ring|].
    rewrite <- wz_add by lia.
    transitivity (samp x j * (wz (2 * n) (1 * Z.of_nat j * Z.of_nat k * Z.of_nat 2) * wz (2 * n) (- (Z.of_nat k * Z.of_nat k)))); [|ring].
    rewrite <- wz_add by lia. do 2 f_equal. 
    replace (Z.of_nat (n - 1 + k - j)) with (Z.of_nat n - 1 + Z.of_nat k - Z.of_nat j)%Z by lia. lia.
Qed.

(** ** Index reversal *)
Lemma rev_nth0 (x : list F) i : (i < length x)%nat -> samp (rev x) i = samp x (length x - 1 - i).
Proof. intros H. unfold samp. rewrite rev_nth by exact H. f_equal. lia. Qed.
Lemma tfr2itfr_ok (X : list F) : (0 < length X)%nat ->
  tfr2itfr 0 X = map (fun k => samp X ((length X - k) mod length X)) (seq 0 (length X)).
Proof.
  intros Hn. set (n := length X) in *.
  pose proof (Nat.div_mod n 2 ltac:(lia)) as D. pose proof (Nat.mod_upper_bound n 2 ltac:(lia)) as M.
  unfold tfr2itfr. fold n. cbv zeta. set (q := (n / 2)%nat) in *. clearbody q. set (h := if (n mod 2 =? 0)%nat then (q - 1)%nat else q).
  assert (Hh : h = if (n mod 2 =? 0)%nat then (q - 1)%nat else q) by reflexivity. clearbody h.
  destruct (Nat.eqb_spec (n mod 2) 0) as [E0|E0].
  - assert (Lv : length (rev (vtail h X)) = h) by (rewrite rev_length; apply vtail_length; fold n; lia).
    assert (Ls : length (rev (firstn h (skipn 1 X))) = h) by (rewrite rev_length, firstn_length, skipn_length; fold n; lia).
    apply samp_ext.
    { rewrite !app_length, Lv, Ls, map_length, seq_length. cbn [length]. lia. }
    rewrite !app_length, Lv, Ls. cbn [length]. intros i Hi.
    unfold samp at 2. rewrite (map_nth0 _ _ _ 0%nat) by (rewrite seq_length; lia). rewrite seq_nth, Nat.add_0_l by lia.
    rewrite samp_app. cbn [length]. destruct (Nat.ltb_spec i 1) as [L|L].
    + replace i with 0%nat by lia. rewrite Nat.sub_0_r, Nat.mod_same by lia. reflexivity.
    + rewrite (Nat.mod_small (n - i)) by lia. rewrite samp_app, Lv. destruct (Nat.ltb_spec (i - 1) h) as [L1|L1].
      * rewrite rev_nth0 by (rewrite vtail_length; fold n; lia). rewrite vtail_length by (fold n; lia).
        rewrite vtail_nth. fold n. f_equal. lia.
      * rewrite samp_app. cbn [length]. destruct (Nat.ltb_spec (i - 1 - h) 1) as [L2|L2].
        -- replace (i - 1 - h)%nat with 0%nat by lia. unfold samp. cbn [nth]. f_equal. lia.
        -- rewrite rev_nth0 by (rewrite firstn_length, skipn_length; fold n; lia).
           replace (length (firstn h (skipn 1 X))) with h by (rewrite firstn_length, skipn_length; fold n; lia).
           unfold samp. rewrite nth_firstn', nth_skipn' by lia. f_equal. lia.
  - assert (Lv : length (rev (vtail h X)) = h) by (rewrite rev_length; apply vtail_length; fold n; lia).
    assert (Ls : length (rev (firstn h (skipn 1 X))) = h) by (rewrite rev_length, firstn_length, skipn_length; fold n; lia).
    apply samp_ext.
    { rewrite !app_length, Lv, Ls, map_length, seq_length. cbn [length]. lia. }
    rewrite !app_length, Lv, Ls. cbn [length]. intros i Hi.
    unfold samp at 2. rewrite (map_nth0 _ _ _ 0%nat) by (rewrite seq_length; lia). rewrite seq_nth, Nat.add_0_l by lia.
    rewrite samp_app. cbn [length]. destruct (Nat.ltb_spec i 1) as [L|L].
    + replace i with 0%nat by lia. rewrite Nat.sub_0_r, Nat.mod_same by lia. reflexivity.
    + rewrite (Nat.mod_small (n - i)) by lia. rewrite samp_app, Lv. destruct (Nat.ltb_spec (i - 1) h) as [L1|L1].
      * rewrite rev_nth0 by (rewrite vtail_length; fold n; lia). rewrite vtail_length by (fold n; lia).
        rewrite vtail_nth. fold n. f_equal. lia.
      * cbn [app]. rewrite rev_nth0 by (rewrite firstn_length, skipn_length; fold n; lia).
        replace (length (firstn h (skipn 1 X))) with h by (rewrite firstn_length, skipn_length; fold n; lia).
        unfold samp. rewrite nth_firstn', nth_skipn' by lia. f_equal. lia.
Qed.
Lemma tfr2itfr_DFT (x : list F) : (0 < length x)%nat -> tfr2itfr 0 (DFT 1 x) = DFT (-1) x.
Proof.
  intros Hn. rewrite tfr2itfr_ok by (rewrite DFT_length; exact Hn). rewrite DFT_length. set (n := length x) in *.
  apply samp_ext; [rewrite map_length, seq_length, DFT_length; reflexivity|]. rewrite map_length, seq_length. intros k Hk.
  unfold samp at 1. rewrite (map_nth0 _ _ _ 0%nat) by (rewrite seq_length; exact Hk). rewrite seq_nth, Nat.add_0_l by exact Hk.
  rewrite (samp_DFT (-1) x k (Z.of_nat k) 0) by (fold n; lia).
  rewrite (samp_DFT 1 x _ (- Z.of_nat k) (if (k =? 0)%nat then 0%Z else 1%Z)).
  - symmetry. apply dftZ_inv.
  - apply Nat.mod_upper_bound. fold n. lia.
  - fold n. destruct (Nat.eqb_spec k 0) as [->|]; [rewrite Nat.sub_0_r, Nat.mod_same; lia|]. rewrite Nat.mod_small by lia. lia.
Qed.

(** ** Decimation in time *)
Lemma dft_split e (x : list F) h k : (0 < h)%nat -> length x = (2 * h)%nat ->
  dftZ e x k = (dftZ e (evens x) k + wz (2 * h) (e * k) * dftZ e (odds x) k) / rt 2.
Proof.
  intros Hh Lx.
  assert (Le : length (evens x) = h). { rewrite evens_length, Lx. replace (2 * h + 1)%nat with (1 + h * 2)%nat by lia. rewrite Nat.div_add by lia. reflexivity. }
  assert (Lo : length (odds x) = h). { rewrite odds_length, Lx, Nat.mul_comm. apply Nat.div_mul. lia. }
  unfold dftZ. rewrite Le, Lo, Lx. rewrite (rt_mul F 2 h). pose proof (rt_ne F h Hh) as N1. pose proof (rt_ne F 2 ltac:(lia)) as N2.
  rewrite (Nat.mul_comm 2 h) at 1. rewrite (sum_mul_split F).
  rewrite (sum_ext F h _ (fun j => samp (evens x) j * wz h (e * Z.of_nat j * k) + wz (2 * h) (e * k) * (samp (odds x) j * wz h (e * Z.of_nat j * k)))).
  - rewrite (sum_add F), (sum_mul_l F). field. split; assumption.
  - intros j Hj. cbn [sum]. unfold samp. rewrite evens_nth, odds_nth.
    replace (j * 2 + 0)%nat with (2 * j)%nat by lia. replace (j * 2 + 1)%nat with (2 * j + 1)%nat by lia.
    replace (e * Z.of_nat (2 * j + 1) * k)%Z with (e * Z.of_nat j * k * Z.of_nat 2 + e * k)%Z by lia.
    replace (e * Z.of_nat (2 * j) * k)%Z with (e * Z.of_nat j * k * Z.of_nat 2)%Z by lia.
    rewrite wz_add by lia. rewrite (Nat.mul_comm 2 h), wz_coh by lia. ring.
Qed.

(** ** The plan *)
Lemma log2_up_le n : (0 < n <= 2 ^ 29)%nat -> (Nat.log2_up (2 * n - 1) <= 30)%nat.
Proof.
  intros H. rewrite <- (Nat.log2_up_pow2 30) by lia. apply Nat.log2_up_le_mono.
  assert (2 * n - 1 <= 2 * 2 ^ 29)%nat by lia. replace (2 ^ 30)%nat with (2 * 2 ^ 29)%nat; [assumption|].
  symmetry. apply (Nat.pow_succ_r 2 29). lia.
Qed.
Lemma plan_ok junk avant fuel : forall (x : list F), (0 < length x <= fuel)%nat -> (length x <= 2 ^ 29)%nat ->
  plan junk fuel avant x = Ok (DFT (sg avant) x).
Proof.
  induction fuel as [|f IH]; intros x Hf Hmax; [lia|]. set (n := length x) in *.
  cbn [plan]. fold n. destruct (Nat.eqb_spec n 0) as [C|_]; [lia|].
  destruct (Nat.eqb_spec (Nat.land n (n - 1)) 0) as [L|L].
  { destruct (land_pow2 n ltac:(lia) L) as [p Hp]. apply (radix2_ok F junk avant x p); [|exact Hp].
    rewrite Hp in Hmax. apply Nat.pow_le_mono_r_iff in Hmax; lia. }
  destruct (Nat.eqb_spec (n mod 2) 0) as [E|E].
  - pose proof (Nat.div_mod n 2 ltac:(lia)) as D. set (h := (n / 2)%nat) in *. clearbody h.
    assert (Lx : length x = (2 * h)%nat) by (fold n; lia).
    assert (Le : length (evens x) = h). { rewrite evens_length, Lx. replace (2 * h + 1)%nat with (1 + h * 2)%nat by lia. rewrite Nat.div_add by lia. reflexivity. }
    assert (Lo : length (odds x) = h). { rewrite odds_length, Lx, Nat.mul_comm. apply Nat.div_mul. lia. }
    rewrite IH by lia. cbn [bind]. rewrite IH by lia. cbn [bind]. f_equal.
    set (rot := if avant then rotation n else map conj (rotation n)).
    assert (Lr : length rot = n) by (unfold rot; destruct avant; rewrite ?map_length; apply rotation_length).
    assert (Nr : forall i, (i < n)%nat -> samp rot i = wz n (sg avant * Z.of_nat i)).
    { intros i Hi. unfold rot, sg. destruct avant; [rewrite Z.mul_1_l; apply rotation_nth, Hi|].
      rewrite samp_map by (rewrite rotation_length; exact Hi). unfold samp. rewrite rotation_nth by exact Hi. rewrite conj_wz by lia. f_equal; try lia. }
    set (A := DFT (sg avant) (evens x)). set (B := DFT (sg avant) (odds x)).
    assert (LA : length A = h) by (unfold A; rewrite DFT_length; exact Le).
    assert (LB : length B = h) by (unfold B; rewrite DFT_length; exact Lo).
    assert (LH : length (vhead h rot) = h) by (apply vhead_length; lia).
    assert (LT : length (vtail h rot) = h) by (apply vtail_length; lia).
    assert (L1 : length (zipadd A (zipmul (vhead h rot) B)) = h) by (rewrite zipadd_length, zipmul_length; lia).
    assert (L2 : length (zipadd A (zipmul (vtail h rot) B)) = h) by (rewrite zipadd_length, zipmul_length; lia).
    apply samp_ext; [rewrite map_length, app_length, L1, L2, DFT_length; lia|].
    rewrite map_length, app_length, L1, L2. intros k Hk.
    rewrite samp_map by (rewrite app_length; lia). rewrite samp_app, L1.
    rewrite (samp_DFT (sg avant) x k (Z.of_nat k) 0) by (fold n; lia).
    rewrite (dft_split (sg avant) x h (Z.of_nat k)) by lia.
    pose proof (rt_ne F 2 ltac:(lia)) as N2.
    destruct (Nat.ltb_spec k h) as [Lk|Lk].
    + rewrite zipadd_nth by (rewrite zipmul_length; lia). rewrite zipmul_nth by lia.
      rewrite vhead_nth by exact Lk. rewrite Nr by lia. unfold A, B.
      rewrite (samp_DFT _ (evens x) k (Z.of_nat k) 0) by lia. rewrite (samp_DFT _ (odds x) k (Z.of_nat k) 0) by lia.
      replace (wz n (sg avant * Z.of_nat k)) with (wz (F := F) (2 * h) (sg avant * Z.of_nat k)) by (f_equal; lia).
      field. exact N2.
    + rewrite zipadd_nth by (rewrite zipmul_length; lia). rewrite zipmul_nth by lia.
      rewrite vtail_nth, Lr. rewrite Nr by lia. unfold A, B.
      rewrite (samp_DFT _ (evens x) (k - h) (Z.of_nat k) (-1)) by lia. rewrite (samp_DFT _ (odds x) (k - h) (Z.of_nat k) (-1)) by lia.
      replace (n - h + (k - h))%nat with k by lia. replace (wz n (sg avant * Z.of_nat k)) with (wz (F := F) (2 * h) (sg avant * Z.of_nat k)) by (f_equal; lia).
      field. exact N2.
  - pose proof (log2_up_le n ltac:(lia)) as Hp.
    assert (Q : (2 * n - 1 <= 2 ^ Nat.log2_up (2 * n - 1))%nat).
    { destruct (Nat.eq_dec (2 * n - 1) 1) as [->|]; [cbn; lia|]. pose proof (Nat.log2_up_spec (2 * n - 1) ltac:(lia)). lia. }
    pose proof (czt_ok junk x (Nat.log2_up (2 * n - 1)) ltac:(fold n; lia) Hp Q) as W. fold n in W.
    unfold np2. cbv zeta. rewrite W. cbn [bind]. destruct avant; [reflexivity|]. f_equal. apply tfr2itfr_DFT. fold n. lia.
Qed.
Lemma fft_ok junk (x : list F) : (0 < length x <= 2 ^ 29)%nat -> fft junk x = Ok (DFT 1 x).
Proof. intros H. apply (plan_ok junk true); lia. Qed.
Lemma ifft_ok junk (x : list F) : (0 < length x <= 2 ^ 29)%nat -> ifft junk x = Ok (DFT (-1) x).
Proof. intros H. apply (plan_ok junk false); lia. Qed.

(** ** Correlation *)
Lemma samp_DFTinv (x : list F) (k : nat) (z q : Z) : (k < length x)%nat -> (Z.of_nat k = z + q * Z.of_nat (length x))%Z ->
  samp x k = dftZ (-1) (DFT 1 x) z.
Proof.
  intros Hk H. transitivity (samp (DFT (-1) (DFT 1 x)) k).
  - pose proof (DFT_inverse F 1 x (or_introl eq_refl)) as W. change (- (1))%Z with (-1)%Z in W. rewrite W. reflexivity.
  - apply (samp_DFT _ _ _ _ q); rewrite DFT_length; assumption.
Qed.
Lemma conj_dftZ e (x : list F) k : (0 < length x)%nat ->
  conj (dftZ e x k) = sum (length x) (fun j => conj (samp x j) * wz (length x) (- e * Z.of_nat j * k)) / rt (length x).
Proof.
  intros Hn. unfold dftZ. rewrite conj_div, rt_conj, conj_sum by (apply rt_ne, Hn). f_equal. apply sum_ext. intros j _.
  rewrite conj_mul, conj_wz by exact Hn. do 2 f_equal. ring.
Qed.
Lemma correlateur_ok junk (x0 x1 : list F) : (0 < length x0 <= 2 ^ 29)%nat -> length x1 = length x0 ->
  correlateur junk x0 x1 = Ok (map (ccorr_at x0 x1) (seq 0 (length x0))).
Proof.
  intros Hn L1. set (n := length x0) in *. unfold correlateur.
  destruct (Nat.eqb_spec (length x1) 0) as [C|_]; [lia|]. rewrite L1. fold n. rewrite Nat.eqb_refl. cbn [negb].
  rewrite (fft_ok junk x0) by (fold n; lia). cbn [bind]. rewrite (fft_ok junk x1) by lia. cbn [bind].
  unfold correlation_freq. rewrite !DFT_length, L1. fold n. rewrite Nat.eqb_refl. cbn [negb].
  destruct (Nat.eqb_spec n 0) as [C|_]; [lia|]. cbn [bind].
  set (X0 := DFT 1 x0). set (X1 := DFT 1 x1).
  assert (LX0 : length X0 = n) by apply DFT_length. assert (LX1 : length X1 = n) by (unfold X1; rewrite DFT_length; exact L1).
  assert (Lr0 : length (rev (vtail (n - 1) X0)) = (n - 1)%nat) by (rewrite rev_length; apply vtail_length; lia).
  assert (Lr1 : length (rev (vtail (n - 1) X1)) = (n - 1)%nat) by (rewrite rev_length; apply vtail_length; lia).
  set (Y := map _ _).
  assert (LY : length Y = n). { unfold Y. rewrite map_length, app_length, zipmul_length, map_length, Lr0, Lr1. cbn [length]. lia. }
  assert (NY : forall k, (k < n)%nat -> samp Y k = samp X0 ((n - k) mod n) * conj (samp X1 ((n - k) mod n)) * rt n).
  { intros k Hk. unfold Y. rewrite samp_map by (rewrite app_length, zipmul_length, map_length, Lr0, Lr1; cbn [length]; lia).
    f_equal. rewrite samp_app. cbn [length]. destruct (Nat.ltb_spec k 1) as [L|L].
    - replace k with 0%nat by lia. rewrite Nat.sub_0_r, Nat.mod_same by lia. reflexivity.
    - rewrite (Nat.mod_small (n - k)) by lia.
      rewrite zipmul_nth by (rewrite map_length, Lr0, Lr1; reflexivity). rewrite samp_map by (rewrite Lr1; lia).
      rewrite !rev_nth0 by (rewrite vtail_length; lia). rewrite !vtail_length by lia. rewrite !vtail_nth, LX0, LX1.
      replace (n - (n - 1) + (n - 1 - 1 - (k - 1)))%nat with (n - k)%nat by lia. reflexivity. }
  rewrite ifft_ok by lia. f_equal. pose proof (rt_ne F n ltac:(lia)) as Nr.
  apply samp_ext; [rewrite DFT_length, map_length, seq_length; exact LY|]. rewrite DFT_length, LY. intros l Hl.
  unfold samp at 2. rewrite (map_nth0 _ _ _ 0%nat) by (rewrite seq_length; exact Hl). rewrite seq_nth, Nat.add_0_l by exact Hl.
  rewrite DFT_nth by lia. unfold dft. cbv zeta. rewrite LY.
  (* sum over k of X0_k conj(X1_k) w^(l k) *)
  rewrite (sum_ext F n _ (fun k => samp X0 ((n - k) mod n) * conj (samp X1 ((n - k) mod n)) * wz n (Z.of_nat l * Z.of_nat ((n - k) mod n)) * rt n)).
  2:{ intros k Hk. rewrite NY by exact Hk.
      replace (wz n (-1 * Z.of_nat k * Z.of_nat l)) with (wz (F := F) n (Z.of_nat l * Z.of_nat ((n - k) mod n))); [ring|].
      rewrite <- wz_idx_mod by lia. replace (-1 * Z.of_nat k * Z.of_nat l)%Z with (Z.of_nat l * (- Z.of_nat k))%Z by ring.
      apply (wz_modZ n _ _ _ 1); lia. }
  rewrite (sum_mul_r F).
  rewrite (sum_neg n (fun k => samp X0 k * conj (samp X1 k) * wz n (Z.of_nat l * Z.of_nat k))).
  transitivity (sum n (fun k => samp X0 k * conj (samp X1 k) * wz n (Z.of_nat l * Z.of_nat k))); [field; exact Nr|].
  rewrite (sum_ext F n _ (fun k => sum n (fun b => conj (samp x1 b) * (samp X0 k * wz n (-1 * Z.of_nat k * (Z.of_nat b - Z.of_nat l))) / rt n))).
  2:{ intros k Hk. unfold X1. rewrite (samp_DFT 1 x1 k (Z.of_nat k) 0) by lia. rewrite conj_dftZ by lia. rewrite L1. fold n.
      rewrite div_as_mul. rewrite <- (sum_mul_r F). 
      rewrite <- (sum_mul_l F), <- (sum_mul_r F). apply sum_ext. intros b _. rewrite div_as_mul.
      replace (-1 * Z.of_nat k * (Z.of_nat b - Z.of_nat l))%Z with (- (1) * Z.of_nat b * Z.of_nat k + Z.of_nat l * Z.of_nat k)%Z by ring.
      rewrite wz_add by lia. ring. }
  rewrite (sum_swap F n n (fun k b => conj (samp x1 b) * (samp X0 k * wz n (-1 * Z.of_nat k * (Z.of_nat b - Z.of_nat l))) / rt n)).
  unfold ccorr_at. fold n. cbv zeta.
  rewrite (sum_ext F n _ (fun b => conj (samp x1 b) * samp x0 ((b + (n - l)) mod n))).
  - rewrite <- (sum_shift n l). apply sum_ext. intros a Ha.
    replace (((a + l) mod n + (n - l)) mod n) with (a mod n).
    + rewrite (Nat.mod_small a) by exact Ha. ring.
    + rewrite Nat.add_mod_idemp_l by lia. apply (mod_Z n _ _ (-1)); lia.
  - intros b Hb.
    rewrite (samp_DFTinv x0 _ (Z.of_nat b - Z.of_nat l) (if (Z.of_nat b <? Z.of_nat l)%Z then 1%Z else 0%Z)).
    + unfold dftZ. fold X0. rewrite LX0, div_as_mul.
      transitivity (sum n (fun k => conj (samp x1 b) * finv (rt n) * (samp X0 k * wz n (-1 * Z.of_nat k * (Z.of_nat b - Z.of_nat l))))).
      * apply sum_ext. intros k _. rewrite div_as_mul. ring.
      * rewrite (sum_mul_l F). ring.
    + apply Nat.mod_upper_bound. fold n. lia.
    + fold n. destruct (Z.ltb_spec (Z.of_nat b) (Z.of_nat l)).
      * rewrite Nat.mod_small by lia. lia.
      * replace (b + (n - l))%nat with (b - l + 1 * n)%nat by lia. rewrite Nat.mod_add by lia. rewrite Nat.mod_small by lia. lia.
Qed.
End R3.
