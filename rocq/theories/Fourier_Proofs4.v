(** Proofs: overlap-add filtering. *)
From Coq Require Import Field.
From Verif Require Import Base BaseLemmas DftSys Filters_Model Filters_Spec Filters_Proofs Filters_Proofs2.
From Verif Require Import Fourier_Model Fourier_Spec Fourier_Proofs Fourier_Proofs2 Fourier_Proofs3.
Local Open Scope cring_scope.
Section R5.
Context (F : dsys).
Add Ring Fr5 : (cth F).
Add Field Ff5 : (fth F).

Lemma sampZ_app (x y : list F) z : sampZ (x ++ y) z = sampZ x z + sampZ y (z - Z.of_nat (length x)).
Proof.
  destruct (Z.lt_ge_cases z (Z.of_nat (length x))) as [L|L].
  - rewrite sampZ_app_l, (sampZ_neg _ y) by lia. ring.
  - rewrite sampZ_app_r, (sampZ_over _ x) by lia. ring.
Qed.
Lemma conv_at_app (h x y : list F) i : conv_at h (x ++ y) i = conv_at h x i + conv_at h y (i - Z.of_nat (length x)).
Proof.
  unfold conv_at. rewrite <- (sum_add F). apply sum_ext. intros k _. rewrite sampZ_app.
  replace (i - Z.of_nat k - Z.of_nat (length x))%Z with (i - Z.of_nat (length x) - Z.of_nat k)%Z by lia. ring.
Qed.
Lemma conv_at_neg (h x : list F) i : (i < 0)%Z -> conv_at h x i = 0.
Proof. intros H. apply sum_zero. intros k _. rewrite sampZ_neg by lia. ring. Qed.
Lemma conv_at_over (h x : list F) i : (Z.of_nat (length x) + Z.of_nat (length h) - 1 <= i)%Z -> conv_at h x i = 0.
Proof. intros H. apply sum_zero. intros k Hk. rewrite sampZ_over by lia. ring. Qed.

Section Ola.
Context (junk : F) (treat : list F -> res (list F)) (Ne N : nat) (h : list F) (d : nat).
Notation Nz := (N - Ne)%nat.
Context (HNe : (0 < Ne)%nat) (HN : (Ne <= N)%nat) (HNz : (Nz <= Ne)%nat) (Hmax : (N <= 2 ^ 29)%nat).
Context (Hd : (length h <= d + 1)%nat) (Hd2 : (d <= Nz)%nat).
Context (Ht : forall p : list F, length p = Ne -> exists X, treat (DFT 1 (repeat 0 Nz ++ p)) = Ok X /\ length X = N /\
   forall i, (i < N)%nat -> samp (DFT (-1) X) i = conv_at h p (Z.of_nat i - Z.of_nat Nz + Z.of_nat d)).

Definition svg_of (X : list F) : list F := map (fun j => conv_at h X (Z.of_nat (length X) - Z.of_nat Ne + Z.of_nat j + Z.of_nat d)) (seq 0 Ne).
Definition out_of (X : list F) : list F := map (fun t => conv_at h X (Z.of_nat t - (Z.of_nat Ne - Z.of_nat d))) (seq 0 (length X)).

Lemma interne_ok t v X p : length p = Ne ->
  exists y, ola_interne junk treat (mkola Ne N (svg_of X) t v) p = Ok (mkola Ne N (svg_of (X ++ p)) t v, y) /\ out_of (X ++ p) = out_of X ++ y.
Proof.
  intros Lp. unfold ola_interne. cbn [ol_Ne ol_N ol_svg ol_tampon ol_vide]. rewrite Lp, Nat.eqb_refl. cbn [negb].
  rewrite (fft_ok F) by (rewrite app_length, repeat_length; lia). cbn [bind].
  destruct (Ht p Lp) as (X' & E1 & LX & NX). rewrite E1. cbn [bind].
  rewrite (ifft_ok F) by lia. cbn [bind]. destruct (Nat.ltb_spec Ne Nz) as [C|_]; [lia|].
  set (x2 := DFT (-1) X') in *. assert (L2 : length x2 = N) by (unfold x2; rewrite DFT_length; exact LX).
  assert (Lsv : forall Y, length (svg_of Y) = Ne) by (intros Y; unfold svg_of; rewrite map_length, seq_length; reflexivity).
  assert (Esv : vtail Ne x2 = svg_of (X ++ p)).
  { apply (samp_ext F); [rewrite vtail_length, Lsv; lia|]. rewrite vtail_length by lia. intros j Hj.
    rewrite vtail_nth, L2, NX by lia. unfold svg_of. rewrite samp_seq by exact Hj. rewrite conv_at_app, app_length, Lp.
    rewrite (conv_at_over h X) by lia.
    replace (Z.of_nat (length X + Ne) - Z.of_nat Ne + Z.of_nat j + Z.of_nat d - Z.of_nat (length X))%Z with (Z.of_nat j + Z.of_nat d)%Z by lia.
    replace (Z.of_nat (N - Ne + j) - Z.of_nat Nz + Z.of_nat d)%Z with (Z.of_nat j + Z.of_nat d)%Z by lia. ring. }
  rewrite Esv. eexists. split; [reflexivity|].
  assert (La : length (firstn (Ne - Nz) (svg_of X)) = (Ne - Nz)%nat) by (rewrite firstn_length, Lsv; lia).
  assert (Lb : length (zipadd (skipn (Ne - Nz) (svg_of X)) (vhead Nz x2)) = Nz).
  { rewrite zipadd_length, skipn_length, Lsv, vhead_length by lia. lia. }
  assert (Lo : forall Y, length (out_of Y) = length Y) by (intros Y; unfold out_of; rewrite map_length, seq_length; reflexivity).
  apply (samp_ext F); [rewrite !app_length, !Lo, La, Lb, app_length, Lp; lia|].
  rewrite Lo, app_length, Lp. intros i Hi. unfold out_of at 1. rewrite samp_seq by (rewrite app_length, Lp; exact Hi).
  rewrite conv_at_app. rewrite samp_app, Lo. destruct (Nat.ltb_spec i (length X)) as [L|L].
  - unfold out_of. rewrite samp_seq by exact L. rewrite (conv_at_neg h p) by lia. ring.
  - set (j := (i - length X)%nat). assert (Hj : (j < Ne)%nat) by (unfold j; lia).
    replace (Z.of_nat i) with (Z.of_nat (length X) + Z.of_nat j)%Z by (unfold j; lia).
    assert (Esj : samp (svg_of X) j = conv_at h X (Z.of_nat (length X) + Z.of_nat j - (Z.of_nat Ne - Z.of_nat d))).
    { unfold svg_of. rewrite samp_seq by exact Hj. f_equal. lia. }
    rewrite samp_app, La. destruct (Nat.ltb_spec j (Ne - Nz)) as [L1|L1].
    + unfold samp. rewrite nth_firstn' by exact L1. fold (samp (svg_of X) j). rewrite Esj.
      rewrite (conv_at_neg h p) by lia. ring.
    + rewrite zipadd_nth by (rewrite skipn_length, Lsv, vhead_length; lia). rewrite vhead_nth, NX by lia.
      unfold samp. rewrite nth_skipn'. replace (Ne - Nz + (j - (Ne - Nz)))%nat with j by lia. fold (samp (svg_of X) j). rewrite Esj.
      f_equal. f_equal. lia.
Qed.
Lemma run_interne_ok t v ps : forall X, (forall p, In p ps -> length p = Ne) ->
  exists y, run (ola_interne junk treat) (mkola Ne N (svg_of X) t v) ps = Ok (mkola Ne N (svg_of (X ++ concat ps)) t v, y) /\
    out_of (X ++ concat ps) = out_of X ++ y.
Proof.
  induction ps as [|p ps IH]; intros X Hp; cbn [run concat].
  - exists []. rewrite !app_nil_r. split; reflexivity.
  - destruct (interne_ok t v X p) as (y1 & E1 & O1); [apply Hp; left; reflexivity|]. rewrite E1. cbn [bind].
    destruct (IH (X ++ p)) as (y2 & E2 & O2); [intros q Hq; apply Hp; right; exact Hq|]. rewrite E2. cbn [bind].
    exists (y1 ++ y2). rewrite app_assoc. split; [reflexivity|]. rewrite O2, O1, app_assoc. reflexivity.
Qed.
Definition whole (x : list F) : list F := concat (packets Ne x).
Definition olaI (x : list F) (s : ola F) : Prop := ol_Ne s = Ne /\ ol_N s = N /\ ol_svg s = svg_of (whole x) /\
  tampI Ne x (ol_tampon s) /\ (ol_vide s = true -> remainder Ne x = []).
Lemma ola_run blocks : exists s,
  run (ola_step junk treat) (mkola Ne N (repeat 0 Ne) (tampon_init Ne) true) blocks = Ok (s, out_of (whole (concat blocks))).
Proof.
  destruct (run_hist (ola_step junk treat) olaI (fun x => out_of (whole x))) with (s := mkola Ne N (repeat (0 : F) Ne) (tampon_init Ne) true) (blocks := blocks) as (s & E & _).
  - unfold whole. rewrite packets_short by exact HNe. reflexivity.
  - intros x s b (I1 & I2 & I3 & I4 & I5). unfold ola_step. destruct s as [Ne' N' svg t v]. cbn [ol_Ne ol_N ol_svg ol_tampon ol_vide] in *. subst Ne' N' svg.
    destruct (v && (length b =? Ne)%nat) eqn:EV.
    + apply andb_true_iff in EV. destruct EV as [-> EL]. apply Nat.eqb_eq in EL. specialize (I5 eq_refl).
      assert (EP : packets Ne (x ++ b) = packets Ne x ++ [b]).
      { rewrite packets_app, I5 by exact HNe. cbn [app]. f_equal. rewrite <- (app_nil_r b) at 1. rewrite packets_cons by (exact HNe || exact EL).
        rewrite packets_short by exact HNe. reflexivity. }
      assert (ER : remainder Ne (x ++ b) = []).
      { rewrite remainder_app, I5 by exact HNe. cbn [app]. rewrite <- (app_nil_r b). rewrite remainder_cons by (exact HNe || exact EL). apply remainder_short. exact HNe. }
      assert (EW : whole (x ++ b) = whole x ++ b) by (unfold whole; rewrite EP, concat_app; cbn [concat]; rewrite app_nil_r; reflexivity).
      destruct (interne_ok t true (whole x) b EL) as (y & E1 & O1). exists (mkola Ne N (svg_of (whole x ++ b)) t true), y.
      split; [exact E1|]. rewrite EW. split; [|exact O1].
      repeat split; cbn [ol_svg ol_tampon ol_vide]; [rewrite EW; reflexivity| |intros _; exact ER].
      unfold tampI in *. rewrite ER. rewrite I5 in I4. exact I4.
    + destruct (tampon_call_ok junk Ne x t b HNe I4) as (t' & packs & ET & IT & EP).
      unfold tampon_call in ET. rewrite ET. cbn [bind].
      assert (EW : whole (x ++ b) = whole x ++ concat packs) by (unfold whole; rewrite EP, concat_app; reflexivity).
      destruct (run_interne_ok t' false packs (whole x)) as (y & E1 & O1).
      { intros p Hp. apply (packets_all Ne (x ++ b)); [exact HNe|]. rewrite EP. apply in_or_app. right. exact Hp. }
      exists (mkola Ne N (svg_of (whole x ++ concat packs)) t' false), y. split; [exact E1|]. rewrite EW. split; [|exact O1].
      repeat split; cbn [ol_svg ol_tampon ol_vide]; [rewrite EW; reflexivity|exact IT|discriminate].
  - repeat split; cbn [ol_svg ol_tampon ol_vide].
    + unfold whole. rewrite packets_short by exact HNe. apply (samp_ext F).
      * unfold svg_of. rewrite map_length, seq_length, repeat_length. reflexivity.
      * rewrite repeat_length. intros i Hi. rewrite samp_repeat0. unfold svg_of. rewrite samp_seq by exact Hi. symmetry.
        apply sum_zero. intros k _. cbn [concat]. unfold sampZ. destruct (_ <? 0)%Z; [ring|]. destruct (Z.to_nat _); cbn [nth]; ring.
    + apply tampI_init. exact HNe.
    + intros _. apply remainder_short. exact HNe.
  - exists s. exact E.
Qed.
End Ola.
Lemma whole_length Ne (x : list F) : (0 < Ne)%nat -> length (whole Ne x) = (length x / Ne * Ne)%nat.
Proof. intros HNe.
  pose proof (packets_remainder Ne x HNe) as H. apply (f_equal (@length F)) in H. rewrite app_length in H.
  unfold whole. unfold remainder in H. rewrite skipn_length in H.
  pose proof (Nat.mul_div_le (length x) Ne ltac:(lia)). lia.
Qed.
Lemma out_whole Ne h d (x : list F) : (0 < Ne)%nat -> (d <= Ne)%nat -> out_of Ne h d (whole Ne x) = map (fun t => conv_at h x (Z.of_nat t - (Z.of_nat Ne - Z.of_nat d))) (seq 0 (length x / Ne * Ne)).
Proof. intros HNe Hd.
  unfold out_of. rewrite whole_length by exact HNe. apply map_ext_in. intros t Ht'. apply in_seq in Ht'.
  transitivity (conv_at h (whole Ne x ++ remainder Ne x) (Z.of_nat t - (Z.of_nat Ne - Z.of_nat d))).
  2:{ unfold whole. rewrite packets_remainder by exact HNe. reflexivity. }
  rewrite conv_at_app.
  rewrite (conv_at_neg h (remainder Ne x)); [ring|]. rewrite whole_length by exact HNe. lia.
Qed.

(** Product with the spectrum of a FIR filter placed at the end of the block. *)
Lemma fir_treat (h p : list F) N Ne : (Ne + length h <= N)%nat -> (0 < N)%nat -> length p = Ne ->
  let h2 := repeat 0 (N - length h) ++ h in
  forall i, (i < N)%nat ->
  samp (DFT (-1) (zipmul (DFT 1 (repeat 0 (N - Ne) ++ p)) (map (fun v => v * rt N) (DFT 1 h2)))) i
  = conv_at h p (Z.of_nat i - Z.of_nat (N - Ne) + Z.of_nat (length h)).
Proof.
  intros HM HN Lp h2 i Hi. set (M := length h) in *. set (xp := repeat 0 (N - Ne) ++ p).
  assert (Lh2 : length h2 = N) by (unfold h2; rewrite app_length, repeat_length; fold M; lia).
  assert (Lxp : length xp = N) by (unfold xp; rewrite app_length, repeat_length, Lp; lia).
  pose proof (rt_ne F N HN) as Nr.
  assert (E : DFT (-1) (zipmul (DFT 1 xp) (map (fun v => v * rt N) (DFT 1 h2))) = map (fun v => v * rt N) (DFT (-1) (zipmul (DFT 1 h2) (DFT 1 xp)))).
  { apply (samp_ext F).
    - rewrite map_length, !DFT_length, !zipmul_length, map_length, !DFT_length. lia.
    - rewrite DFT_length, zipmul_length, map_length, !DFT_length, Lh2, Lxp, Nat.min_id. intros k Hk.
      rewrite samp_map by (rewrite DFT_length, zipmul_length, !DFT_length; lia).
      rewrite !DFT_nth by (rewrite zipmul_length, ?map_length, !DFT_length; lia). unfold dft. cbv zeta.
      rewrite !zipmul_length, map_length, !DFT_length, Lh2, Lxp, Nat.min_id.
      rewrite (sum_ext F N (fun j => samp (zipmul (DFT 1 xp) _) j * _)
        (fun j => samp (zipmul (DFT 1 h2) (DFT 1 xp)) j * wz N (-1 * Z.of_nat j * Z.of_nat k) * rt N)).
      + rewrite (sum_mul_r F). field. exact Nr.
      + intros j Hj. rewrite !zipmul_nth by (rewrite ?map_length, !DFT_length; lia).
        rewrite samp_map by (rewrite DFT_length; lia). ring. }
  rewrite E. rewrite conv_theorem by lia. rewrite samp_map by (rewrite map_length, seq_length; lia).
  rewrite samp_seq by lia. rewrite Lh2. transitivity (cconv h2 xp i); [field; exact Nr|].
  unfold cconv. rewrite Lh2. cbv zeta. replace N with (N - M + M)%nat at 1 by lia. rewrite (sum_split F).
  rewrite (sum_zero F (N - M)).
  2:{ intros j Hj. unfold h2. rewrite samp_app, repeat_length. destruct (Nat.ltb_spec j (N - M)); [|lia]. rewrite samp_repeat0. ring. }
  unfold conv_at. fold M. match goal with |- 0 + ?s = _ => transitivity s; [ring|] end. apply sum_ext. intros k Hk.
  unfold h2. rewrite samp_app, repeat_length. destruct (Nat.ltb_spec (N - M + k) (N - M)); [lia|].
  replace (N - M + k - (N - M))%nat with k by lia. f_equal.
  unfold xp. rewrite samp_app, repeat_length, samp_repeat0.
  destruct (Nat.lt_ge_cases (i + M - k) N) as [L|L].
  - replace (i + N - (N - M + k))%nat with (i + M - k)%nat by lia. rewrite Nat.mod_small by lia.
    destruct (Nat.ltb_spec (i + M - k) (N - Ne)) as [L1|L1].
    + rewrite sampZ_neg by lia. reflexivity.
    + replace (Z.of_nat i - Z.of_nat (N - Ne) + Z.of_nat M - Z.of_nat k)%Z with (Z.of_nat (i + M - k - (N - Ne))) by lia. rewrite sampZ_nat. reflexivity.
  - replace (i + N - (N - M + k))%nat with (i + M - k - N + 1 * N)%nat by lia. rewrite Nat.mod_add, Nat.mod_small by lia.
    destruct (Nat.ltb_spec (i + M - k - N) (N - Ne)) as [L1|L1]; [|lia]. rewrite sampZ_over by lia. reflexivity.
Qed.

Lemma np2_512 M : (1 <= M <= 512)%nat -> np2 (512 + M) = (2 * 512)%nat.
Proof. intros H. unfold np2. rewrite (Nat.log2_up_unique _ 10); [reflexivity|lia|]. change (2 ^ Nat.pred 10)%nat with 512%nat. change (2 ^ 10)%nat with 1024%nat. lia. Qed.

Lemma is_real_app (x y : list F) : is_real x -> is_real y -> is_real (x ++ y).
Proof. intros Hx Hy i. rewrite samp_app. destruct (_ <? _)%nat; [apply Hx|apply Hy]. Qed.
Lemma is_real_zeros n : is_real (repeat (0 : F) n).
Proof. intros i. rewrite samp_repeat0. apply conj_0. Qed.
Lemma conv_real (h x : list F) i : is_real h -> is_real x -> conj (conv_at h x i) = conv_at h x i.
Proof.
  intros Hh Hx. unfold conv_at. rewrite conj_sum. apply sum_ext. intros k _. rewrite conj_mul, Hh. f_equal.
  unfold sampZ. destruct (_ <? 0)%Z; [apply conj_0|]. apply Hx.
Qed.
Lemma run_map_out {St A B C} (step : St -> list A -> res (St * list B)) (f : B -> C) blocks : forall s,
  run (fun s x => let* (s', y) := step s x in Ok (s', map f y)) s blocks = (let* (s', y) := run step s blocks in Ok (s', map f y)).
Proof.
  induction blocks as [|b bs IH]; intros s; [reflexivity|]. cbn [run]. destruct (step s b) as [[s1 y1]| | |]; [|reflexivity|reflexivity|reflexivity].
  cbn [bind]. rewrite IH. destruct (run step s1 bs) as [[s2 y2]| | |]; [|reflexivity|reflexivity|reflexivity]. cbn [bind]. rewrite map_app. reflexivity.
Qed.

Lemma rif_gen junk (h : list F) Ne N blocks : (0 < Ne)%nat -> (Ne + length h <= N <= 2 * Ne)%nat -> (N <= 2 ^ 29)%nat ->
  is_real h ->
  exists s, run (rif_fft_step junk (map (fun v => v * rt N) (DFT 1 (repeat 0 (N - length h) ++ h)))) (mkola Ne N (repeat 0 Ne) (tampon_init Ne) true) blocks
    = Ok (s, map (fun t => re_only (conv_at h (concat blocks) (Z.of_nat t - (Z.of_nat Ne - Z.of_nat (length h))))) (seq 0 (length (concat blocks) / Ne * Ne))).
Proof.
  intros HNe HN Hmax Rh. set (H := map _ _).
  destruct (ola_run junk (fun X => Ok (zipmul X H)) Ne N h (length h)) with (blocks := blocks) as [s Es]; try lia.
  { intros p Lp. exists (zipmul (DFT 1 (repeat 0 (N - Ne) ++ p)) H). split; [reflexivity|].
    assert (LH : length H = N) by (unfold H; rewrite map_length, DFT_length, app_length, repeat_length; lia).
    split; [rewrite zipmul_length, DFT_length, app_length, repeat_length, LH; lia|].
    intros i Hi. apply (fir_treat h p N Ne); lia. }
  exists s.
  unfold rif_fft_step. rewrite (run_map_out (ola_step junk (fun X => Ok (zipmul X H))) re_only). rewrite Es. cbn [bind].
  rewrite (out_whole Ne h (length h)) by lia. do 2 f_equal. rewrite map_map. reflexivity.
Qed.
Lemma ola_init_512 c M : c = 512%nat -> ola_init (F := F) 0 M = mkola c (np2 (c + M)) (repeat 0 c) (tampon_init c) true.
Proof. intros ->. reflexivity. Qed.
Lemma rif_fft_gen junk (h : list F) blocks : (1 <= length h <= 512)%nat -> is_real h ->
  exists H s, rif_fft_H junk h = Ok H /\
    run (rif_fft_step junk H) (ola_init 0 (length h)) blocks = Ok (s,
      map (fun t => re_only (conv_at h (concat blocks) (Z.of_nat t - (512 - Z.of_nat (length h))))) (seq 0 (length (concat blocks) / 512 * 512))).
Proof.
  remember 512%nat as c eqn:Ec. intros HM Rh.
  assert (EN : np2 (c + length h) = (2 * c)%nat) by (rewrite Ec in *; apply np2_512, HM).
  assert (EZ : Z.of_nat c = 512%Z) by (rewrite Ec; reflexivity).
  assert (Hmax : (2 * c <= 2 ^ 29)%nat). { rewrite Ec. change (2 * 512)%nat with (2 ^ 10)%nat. apply Nat.pow_le_mono_r; lia. }
  unfold rif_fft_H. rewrite (ola_init_512 c (length h) Ec), EN. cbn [ol_N]. clear Ec.
  rewrite (rfft_ok F).
  2:{ rewrite app_length, repeat_length. lia. }
  2:{ apply is_real_app; [apply is_real_zeros|exact Rh]. }
  cbn [bind]. destruct (rif_gen junk h c (2 * c) blocks) as [s Es]; try assumption; try lia.
  eexists. exists s. split; [reflexivity|]. rewrite Es, EZ. reflexivity.
Qed.
Lemma rif_fft_ok junk (h : list F) blocks : (1 <= length h <= 512)%nat -> is_real h -> is_real (concat blocks) ->
  exists H s, rif_fft_H junk h = Ok H /\
    run (rif_fft_step junk H) (ola_init 0 (length h)) blocks = Ok (s,
      map (fun t => conv_at h (concat blocks) (Z.of_nat t - (512 - Z.of_nat (length h)))) (seq 0 (length (concat blocks) / 512 * 512))).
Proof.
  intros HM Rh Rx. destruct (rif_fft_gen junk h blocks HM Rh) as [H [s [E1 E2]]]. exists H, s. split; [exact E1|].
  rewrite E2. do 2 f_equal. apply map_ext. intros t. apply re_only_real, conv_real; assumption.
Qed.
(** Filters of more than 512 coefficients. *)
Lemma rif_fft_long (junk : F) (h H x : list F) : (512 < length h <= 2 ^ 28)%nat -> length x = 512%nat ->
  length H = ol_N (ola_init (F := F) 0 (length h)) ->
  rif_fft_step junk H (ola_init 0 (length h)) x = UB.
Proof.
  remember 512%nat as c512 eqn:Ec. assert (E512 : c512 = (2 ^ 9)%nat) by (rewrite Ec; reflexivity).
  rewrite (ola_init_512 c512 (length h) Ec). clear Ec. set (M := length h) in *. cbn [ol_N].
  intros HM Lx LH. unfold rif_fft_step, ola_step. cbn [ol_vide ol_Ne ol_N].
  set (N := np2 (c512 + M)) in *.
  assert (HN : (2 * c512 < N)%nat).
  { unfold N, np2. pose proof (Nat.log2_up_spec (c512 + M) ltac:(lia)). lia. }
  assert (HN2 : (N <= 2 ^ 29)%nat).
  { unfold N, np2. apply Nat.pow_le_mono_r; [lia|]. rewrite <- (Nat.log2_up_pow2 29) by lia. apply Nat.log2_up_le_mono.
    pose proof (Nat.pow_succ_r 2 28 ltac:(lia)). assert (c512 <= 2 ^ 28)%nat by (rewrite E512; apply Nat.pow_le_mono_r; lia). lia. }
  clearbody N.
  rewrite Lx, Nat.eqb_refl. cbn [andb]. unfold ola_interne. cbn [ol_Ne ol_N]. rewrite Lx, Nat.eqb_refl. cbn [negb].
  rewrite (fft_ok F) by (rewrite app_length, repeat_length; lia). cbn [bind].
  rewrite (ifft_ok F) by (rewrite zipmul_length, DFT_length, app_length, repeat_length, LH; lia). cbn [bind].
  destruct (Nat.ltb_spec c512 (N - c512)); [reflexivity|lia].
Qed.
(** A callback that leaves the spectrum unchanged. *)
Lemma ola_identity junk Ne nz blocks : (0 < Ne)%nat -> let N := np2 (Ne + nz) in (N <= 2 * Ne)%nat -> (N <= 2 ^ 29)%nat ->
  exists s, run (ola_step junk (fun X => Ok X)) (ola_init Ne nz) blocks = Ok (s,
    map (fun t => sampZ (concat blocks) (Z.of_nat t - Z.of_nat Ne)) (seq 0 (length (concat blocks) / Ne * Ne))) :> res (ola F * list F).
Proof.
  intros HNe N HN Hmax. unfold ola_init. destruct (Nat.eqb_spec Ne 0) as [C|_]; [lia|]. fold N.
  assert (HN1 : (Ne <= N)%nat).
  { unfold N, np2. destruct (Nat.eq_dec (Ne + nz) 1) as [E|E]; [rewrite E; cbn; lia|]. pose proof (Nat.log2_up_spec (Ne + nz) ltac:(lia)). lia. }
  clearbody N.
  destruct (ola_run junk (fun X => Ok X) Ne N [1] 0) with (blocks := blocks) as [s Es]; try lia; try (cbn [length]; lia).
  - intros p Lp. exists (DFT 1 (repeat 0 (N - Ne) ++ p)). split; [reflexivity|]. split; [rewrite DFT_length, app_length, repeat_length, Lp; lia|].
    intros i Hi. pose proof (DFT_inverse F 1 (repeat 0 (N - Ne) ++ p) (or_introl eq_refl)) as W. change (- (1))%Z with (-1)%Z in W. rewrite W.
    unfold conv_at. cbn [length sum]. unfold samp at 2. cbn [nth]. rewrite samp_app, repeat_length, samp_repeat0.
    destruct (Nat.ltb_spec i (N - Ne)).
    + rewrite sampZ_neg by lia. ring.
    + replace (Z.of_nat i - Z.of_nat (N - Ne) + Z.of_nat 0 - Z.of_nat 0)%Z with (Z.of_nat (i - (N - Ne))) by lia. rewrite sampZ_nat. ring.
  - exists s. rewrite Es. rewrite (out_whole Ne [1] 0) by lia. do 2 f_equal. apply map_ext. intros t.
    unfold conv_at. cbn [length sum]. unfold samp. cbn [nth].
    replace (Z.of_nat t - (Z.of_nat Ne - Z.of_nat 0) - Z.of_nat 0)%Z with (Z.of_nat t - Z.of_nat Ne)%Z by lia. ring.
Qed.
End R5.
