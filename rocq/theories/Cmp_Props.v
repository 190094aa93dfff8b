(** C79: comparison of bit streams (and C71: integer alignment of any two signals). *)
From Coq Require Import Reals ZArith Lra Lia.
From Verif Require Import Base BaseLemmas RField DftSys ComplexSys Filters_Proofs Sig_Proofs Vec_Model BitStream_Model BitStream_Spec BitStream_Proofs TeleBits_Model TeleBits_Spec TeleBits_Proofs Fourier_Model Fourier_Spec Fest_Model Fest_Proofs Fest_Proofs3 Fest_Proofs4 Del_Model Del_Spec Del_Proofs Del_Proofs2 Del_Proofs3 Del_Props Cmp_Model Cmp_Spec Cmp_Proofs Cmp_Proofs2.
Local Open Scope R_scope.

(** The integer delay of any two signals is a lag of greatest correlation, ties included *)
Theorem C71_best : forall (junk : Complex) (x y : list Complex), let N := Nat.max (List.length x) (List.length y) in (0 < N)%nat -> (3 * N <= 2 ^ 29)%nat ->
  exists d s, estimation_delais_entier junk x y = Ok (d, s) /\ 0 <= s < 1 /\ (Z.abs d < Z.of_nat N)%Z /\ forall m, xabs x y m <= xabs x y d.
Proof.
  intros junk x y N HN HM. destruct (int_peak junk x y HN HM) as (d & s & E & Hs & Hd & Top). exists d, s. split; [exact E|]. split; [exact Hs|]. split; [exact Hd|]. intros m. destruct (Z_lt_dec (Z.abs m) (Z.of_nat N)) as [L|L]; [apply Top, L|]. rewrite (xcorr_far x y m) by lia. apply xabs_pos.
Qed.
Print Assumptions C71_best.
(** ... and two signals which overlap somewhere are cut to windows starting at that lag *)
Theorem C71_align_best : forall (junk : Complex) (x y : list Complex), (3 * np2 (Nat.max (List.length x) (List.length y)) <= 2 ^ 29)%nat -> (exists m, 0 < xabs x y m) ->
  exists xa ya d s, aligne_entier junk x y = Ok (xa, ya, d, s) /\ 0 <= s < 1 /\ (forall m, xabs x y m <= xabs x y d) /\
    Z.of_nat (List.length xa) = Z.min (Z.of_nat (List.length x) - Z.max 0 (- d)) (Z.of_nat (List.length y) - Z.max 0 d) /\ (0 < List.length xa)%nat /\ List.length ya = List.length xa /\
    forall j, (j < List.length xa)%nat -> samp xa j = sampZ x (Z.of_nat j + Z.max 0 (- d)) /\ samp ya j = sampZ y (Z.of_nat j + Z.max 0 d).
Proof.
  intros junk x y HM Hp. destruct (align_best junk x y HM Hp) as (xa & ya & d & s & E & Hs & Top & Px & Py & Hd & L1 & L2 & V). exists xa, ya, d, s. split; [exact E|]. split; [exact Hs|]. split; [exact Top|]. split; [exact L1|]. split; [lia|]. split; [exact L2|exact V].
Qed.
Print Assumptions C71_align_best.

(** Two streams with at least a 1 each: the offset gives the greatest number of
    coincidences of 1s; the errors are the differences of the bits in common read with
    that offset, leaving out 50 bits on each side when more than 100 are in common *)
Theorem C79_compare : forall (junk : Complex) s1 s2 l1 l2, shows s1 l1 -> shows s2 l2 -> In true l1 -> In true l2 -> (3 * np2 (Nat.max (List.length l1) (List.length l2)) <= 2 ^ 29)%nat ->
  exists r, let d := cr_dec r in let n := overlap l1 l2 d in let a := if (100 <? n)%nat then 50%nat else 0%nat in let b := if (100 <? n)%nat then (n - 50)%nat else n in
    cmp_bits junk s1 s2 = Ok r /\ (forall m, (coinc l1 l2 m <= coinc l1 l2 d)%nat) /\ (0 < n)%nat /\
    cr_nerr r = differences l1 l2 d a b /\ cr_ber r = Some (INR (cr_nerr r) / INR (b - a)) /\ 0 <= cr_score r < 1 /\ cr_phase r = 0%nat /\
    List.length (cr_b0 r) = n /\ List.length (cr_b1 r) = n /\
    forall j, (j < n)%nat -> nth j (cr_b0 r) 0 = (if bitZ l1 (Z.of_nat j + Z.max 0 (- d)) then 1 else 0) /\ nth j (cr_b1 r) 0 = (if bitZ l2 (Z.of_nat j + Z.max 0 d) then 1 else 0).
Proof.
  intros junk s1 s2 l1 l2 H1 H2 I1 I2 HM. destruct (align_best junk (cb l1) (cb l2)) as (xa & ya & d & s & E & Hs & Top & Px & Py & Hd & L1 & L2 & V).
  { rewrite !cb_length. exact HM. } { destruct (coinc_pos l1 l2 I1 I2) as [m Hm]. exists m. rewrite coinc_xabs. apply lt_0_INR. exact Hm. }
  rewrite !cb_length in *. pose proof (cmp_core junk s1 s2 l1 l2 xa ya d s H1 H2 E L2 V) as C. cbv zeta in C. eexists. split; [exact C|]. cbn [cr_dec cr_nerr cr_ber cr_score cr_phase cr_b0 cr_b1].
  assert (En : overlap l1 l2 d = List.length xa) by (unfold overlap; lia). assert (Pn : (0 < List.length xa)%nat) by lia. rewrite En. split; [intros m; apply INR_le; rewrite <- !coinc_xabs; apply Top|]. split; [exact Pn|]. split; [reflexivity|]. split; [destruct (Nat.eqb_spec (List.length xa) 0); [lia|reflexivity]|].
  split; [exact Hs|]. split; [reflexivity|]. split; [unfold window; rewrite !map_length, seq_length; reflexivity|]. split; [unfold window; rewrite !map_length, seq_length; reflexivity|].
  intros j Hj. change 0 with (b2r false). rewrite !(map_nth b2r), !window_nth by exact Hj. split; reflexivity.
Qed.
Print Assumptions C79_compare.
(** The second stream being the first one d bits later (earlier when d < 0), with 0s
    before and after: no error, offset d *)
Theorem C79_delayed : forall (junk : Complex) s1 s2 l1 l2 d, shows s1 l1 -> shows s2 l2 -> In true l1 -> (forall z, bitZ l2 z = bitZ l1 (z - d)) -> (3 * np2 (Nat.max (List.length l1) (List.length l2)) <= 2 ^ 29)%nat ->
  exists r, cmp_bits junk s1 s2 = Ok r /\ cr_dec r = d /\ cr_nerr r = 0%nat /\ cr_ber r = Some 0.
Proof.
  intros junk s1 s2 l1 l2 d H1 H2 I1 Hz HM. destruct (In_nth l1 true false I1) as (a & Ha & Va). destruct (C71_align junk (cb l1) (cb l2) d c1) as (xa & ya & s & E & Hs & L1 & L2 & V).
  { intros z. rewrite !cb_sampZ, Hz. apply C_ext; cbn; ring. } { exists (Z.of_nat a). rewrite cb_sampZ, <- nth_bitZ, Va. cbn [b2r]. intros Q. injection Q. lra. } { intros Q. injection Q. lra. } { rewrite !cb_length. exact HM. }
  assert (V' : forall j, (j < List.length xa)%nat -> samp xa j = sampZ (cb l1) (Z.of_nat j + Z.max 0 (- d)) /\ samp ya j = sampZ (cb l2) (Z.of_nat j + Z.max 0 d)).
  { intros j Hj. destruct (V j Hj) as [V1 V2]. split; [exact V1|]. rewrite V2, V1, !cb_sampZ, Hz. replace (Z.of_nat j + Z.max 0 d - d)%Z with (Z.of_nat j + Z.max 0 (- d))%Z by lia. apply C_ext; cbn; ring. }
  pose proof (cmp_core junk s1 s2 l1 l2 xa ya d s H1 H2 E L2 V') as C. cbv zeta in C. eexists. split; [exact C|]. cbn [cr_dec cr_nerr cr_ber]. split; [reflexivity|].
  assert (Z0 : forall u v, differences l1 l2 d u v = 0%nat). { intros u v. unfold differences. rewrite (filter_ext_len _ (fun _ => false)); [generalize (seq u (v - u)); clear; intros q; induction q; [reflexivity|exact IHq]|]. intros j _. rewrite Hz. replace (Z.of_nat j + Z.max 0 d - d)%Z with (Z.of_nat j + Z.max 0 (- d))%Z by lia. rewrite Bool.eqb_reflx. reflexivity. }
  rewrite Z0. split; [reflexivity|]. rewrite !cb_length in L1.
  assert (Pn : (0 < List.length xa)%nat). { pose proof (Hz (Z.of_nat a + d)%Z) as Q. replace (Z.of_nat a + d - d)%Z with (Z.of_nat a) in Q by lia. rewrite <- nth_bitZ, Va in Q. apply bitZ_in in Q. lia. }
  destruct (Nat.eqb_spec (List.length xa) 0); [lia|]. f_equal. cbn [INR]. unfold Rdiv. apply Rmult_0_l.
Qed.
Print Assumptions C79_delayed.

(** ** Phase ambiguity *)
Lemma rotate_ok s l2 k l : shows s l2 -> (0 < k <= 30)%nat -> exists s', rotate s k l = Ok s' /\ shows s' (rotated l2 k l).
Proof.
  intros H Hk. unfold rotate. rewrite (symmap_spec s l2 k H Hk). cbn [bind]. destruct (symdemap_wf (map (fun v => Z.rem (v + Z.of_nat l) (2 ^ Z.of_nat k)) (map (fun i => bits_val (group l2 k i)) (seq 0 (ngroups (List.length l2) k)))) k bs_empty WF_empty) as (s' & E & W & _ & B); [lia|].
  exists s'. split; [exact E|]. change (bits bs_empty) with (@nil bool) in B. cbn [app] in B. replace (rotated l2 k l) with (bits s'); [apply WF_shows, W|]. rewrite B. unfold rotated. rewrite !map_map. f_equal. apply map_ext. intros i. f_equal. apply Z.rem_mod_nonneg; [|lia]. assert (0 <= bits_val (group l2 k i))%Z; [|lia]. generalize (group l2 k i). clear. intros q. induction q as [|[|] q IH]; cbn [bits_val]; lia.
Qed.
(** The result is the comparison of the first stream with the rotation of the symbols of
    the second one which has the fewest errors, the smallest one in case of a tie *)
Theorem C79_psk : forall (junk : Complex) s1 s2 l1 l2 k, shows s1 l1 -> shows s2 l2 -> (0 < k <= 30)%nat -> In true l1 -> (forall l, (l < 2 ^ k)%nat -> In true (rotated l2 k l)) ->
  (forall l, (l < 2 ^ k)%nat -> (3 * np2 (Nat.max (List.length l1) (List.length (rotated l2 k l))) <= 2 ^ 29)%nat) ->
  exists rs r, (forall l, (l < 2 ^ k)%nat -> exists s', shows s' (rotated l2 k l) /\ cmp_bits junk s1 s' = Ok (rs l)) /\ cmp_bits_psk junk s1 s2 k = Ok r /\
    let p := cr_phase r in (p < 2 ^ k)%nat /\ r = mkcmp (cr_b0 (rs p)) (cr_b1 (rs p)) (cr_nerr (rs p)) (cr_ber (rs p)) (cr_dec (rs p)) p (cr_score (rs p)) /\
    forall l, (l < 2 ^ k)%nat -> (cr_nerr r <= cr_nerr (rs l))%nat /\ ((l < p)%nat -> (cr_nerr r < cr_nerr (rs l))%nat).
Proof.
  intros junk s1 s2 l1 l2 k H1 H2 Hk I1 I2 HM.
  assert (T : forall l, (l < 2 ^ k)%nat -> exists s' r, rotate s2 k l = Ok s' /\ shows s' (rotated l2 k l) /\ cmp_bits junk s1 s' = Ok r).
  { intros l Hl. destruct (rotate_ok s2 l2 k l H2 Hk) as (s' & E & Sh). destruct (C79_compare junk s1 s' l1 (rotated l2 k l) H1 Sh I1 (I2 l Hl) (HM l Hl)) as (r & Er & _). exists s', r. repeat split; try assumption; apply Sh. }
  set (rs := fun l => match rotate s2 k l with Ok s' => match cmp_bits junk s1 s' with Ok r => r | _ => mkcmp [] [] 0 None 0 0 0 end | _ => mkcmp [] [] 0 None 0 0 0 end).
  set (w := fun p => mkcmp (cr_b0 (rs p)) (cr_b1 (rs p)) (cr_nerr (rs p)) (cr_ber (rs p)) (cr_dec (rs p)) p (cr_score (rs p))).
  assert (G : forall n, (S n <= 2 ^ k)%nat -> exists p, (p <= n)%nat /\ loop (S n) (fun l (br : option cmp_res) =>
      let* bs := rotate s2 k l in
      let* r := cmp_bits junk s1 bs in
      let r' := mkcmp (cr_b0 r) (cr_b1 r) (cr_nerr r) (cr_ber r) (cr_dec r) l (cr_score r) in
      Ok (match br with None => Some r' | Some b => if (cr_nerr r <? cr_nerr b)%nat then Some r' else Some b end)) None = Ok (Some (w p)) /\
    forall l, (l <= n)%nat -> (cr_nerr (rs p) <= cr_nerr (rs l))%nat /\ ((l < p)%nat -> (cr_nerr (rs p) < cr_nerr (rs l))%nat)).
  { induction n as [|n IH]; intros Hn.
    - exists 0%nat. split; [lia|]. destruct (T 0%nat ltac:(lia)) as (s' & r & E1 & _ & E2). split; [|intros l Hl; assert (l = 0)%nat as -> by lia; split; [lia|lia]]. rewrite loop_S. cbn [loop bind]. unfold w, rs. rewrite E1. cbn [bind]. rewrite E2. reflexivity.
    - destruct (IH ltac:(lia)) as (p & Hp & E & B). destruct (T (S n) ltac:(lia)) as (s' & r & E1 & _ & E2). assert (Er : rs (S n) = r) by (unfold rs; rewrite E1, E2; reflexivity). rewrite loop_S, E. cbn [bind]. rewrite E1. cbn [bind]. rewrite E2. cbn [bind]. change (cr_nerr (w p)) with (cr_nerr (rs p)).
      destruct (Nat.ltb_spec (cr_nerr r) (cr_nerr (rs p))) as [L|L].
      + exists (S n). split; [lia|]. split; [unfold w; rewrite Er; reflexivity|]. intros l Hl. rewrite Er. destruct (Nat.eq_dec l (S n)) as [->|Ne]; [rewrite Er; split; lia|]. destruct (B l ltac:(lia)) as [B1 _]. split; lia.
      + exists p. split; [lia|]. split; [reflexivity|]. intros l Hl. destruct (Nat.eq_dec l (S n)) as [->|Ne]; [rewrite Er; split; lia|]. apply B. lia. }
  assert (P2 : (2 ^ k <> 0)%nat) by (apply Nat.pow_nonzero; lia). destruct (G (2 ^ k - 1)%nat ltac:(lia)) as (p & Hp & E & B). replace (S (2 ^ k - 1)) with (2 ^ k)%nat in E by lia.
  exists rs, (w p). split; [intros l Hl; destruct (T l Hl) as (s' & r & E1 & Sh & E2); exists s'; split; [exact Sh|]; unfold rs; rewrite E1, E2; reflexivity|].
  split; [unfold cmp_bits_psk; destruct (Nat.ltb_spec 30 k); [lia|]; etransitivity; [apply (f_equal (fun o => bind o (fun o => match o with None => UB | Some r => Ok r end))); exact E|reflexivity]|]. cbn [cr_phase w]. split; [lia|]. split; [reflexivity|]. intros l Hl. change (cr_nerr (w p)) with (cr_nerr (rs p)). apply B. lia.
Qed.
Print Assumptions C79_psk.
(** If the first stream is one of the rotations of the second one: no error *)
Theorem C79_psk_rotation : forall (junk : Complex) s1 s2 l2 k p, shows s1 (rotated l2 k p) -> shows s2 l2 -> (0 < k <= 30)%nat -> (p < 2 ^ k)%nat -> (forall l, (l < 2 ^ k)%nat -> In true (rotated l2 k l)) ->
  (3 * np2 (ngroups (List.length l2) k * k) <= 2 ^ 29)%nat -> exists r, cmp_bits_psk junk s1 s2 k = Ok r /\ cr_nerr r = 0%nat /\ (cr_phase r <= p)%nat.
Proof.
  intros junk s1 s2 l2 k p H1 H2 Hk Hp I2 HM. assert (LR : forall l, List.length (rotated l2 k l) = (ngroups (List.length l2) k * k)%nat). { intros l. unfold rotated. rewrite (concat_const_length _ k), map_length, seq_length; [reflexivity|]. intros q Hq. apply in_map_iff in Hq. destruct Hq as (v & <- & _). apply int_bits_length. }
  destruct (C79_psk junk s1 s2 (rotated l2 k p) l2 k H1 H2 Hk (I2 p Hp) I2) as (rs & r & Ers & E & Bp & Er & B); [intros l Hl; rewrite !LR, Nat.max_id; exact HM|]. exists r. split; [exact E|].
  destruct (Ers p Hp) as (s' & Sh & Ec). destruct (C79_delayed junk s1 s' (rotated l2 k p) (rotated l2 k p) 0 H1 Sh (I2 p Hp)) as (r0 & E0 & _ & N0 & _); [intros z; rewrite Z.sub_0_r; reflexivity|rewrite !LR, Nat.max_id; exact HM|]. rewrite Ec in E0. injection E0 as <-.
  destruct (B p Hp) as [B1 _]. split; [lia|]. destruct (le_lt_dec (cr_phase r) p) as [L|L]; [exact L|]. destruct (B p Hp) as [_ B2]. specialize (B2 L). lia.
Qed.
Print Assumptions C79_psk_rotation.

(** ** Findings *)
Lemma null_delay junk x y : (forall l, xabs x y l = 0) -> let N := Nat.max (List.length x) (List.length y) in (0 < N)%nat -> (3 * N <= 2 ^ 29)%nat -> estimation_delais junk x y = Ok (- (INR N - 1), 0).
Proof.
  intros H N HN HM. assert (SZ : forall l, score x y N l = 0) by (intros l; unfold score; rewrite (H l); unfold Rdiv; ring).
  assert (IM : index_max (cnv x y N) = Ok 0%nat).
  { destruct (index_max_ok (cnv x y N)) as [k [E [Hk M]]]; [intros EZ; apply (f_equal (@List.length R)) in EZ; rewrite cnv_length in EZ; cbn in EZ; lia|].
    destruct k as [|k]; [exact E|]. pose proof (index_max_first _ _ E 0%nat ltac:(lia)) as F. rewrite cnv_length in Hk. rewrite !cnv_nth, !SZ in F by lia. lra. }
  assert (I : interp (cnv x y N) 0 = Ok 0) by (unfold interp; rewrite (vget_nth _ 0 0) by (rewrite cnv_length; lia); reflexivity).
  rewrite (estimation_unfold junk x y 0 0 HN HM IM ltac:(lia) I). fold N. rewrite SZ. do 2 f_equal. rewrite minus_IZR, minus_IZR, <- !INR_IZR_INZ. cbn [INR]. lra.
Qed.
(** A stream without any 1 (nothing received, say) leads to an access outside the first
    stream, whose length plus one is below the power of two used *)
Theorem C79_silence_refuted : forall (junk : Complex) s1 s2 l1 l2, shows s1 l1 -> shows s2 l2 -> ~ In true l1 \/ ~ In true l2 -> let n := np2 (Nat.max (List.length l1) (List.length l2)) in
  (List.length l1 + 1 < n)%nat -> (3 * n <= 2 ^ 29)%nat -> cmp_bits junk s1 s2 = UB.
Proof.
  intros junk s1 s2 l1 l2 H1 H2 I n HL HM. unfold cmp_bits. rewrite (array_shows s1 l1 H1), (array_shows s2 l2 H2). cbn [bind]. fold (cb l1) (cb l2).
  assert (A : aligne_entier junk (cb l1) (cb l2) = UB); [|rewrite A; reflexivity].
  assert (Nb : forall l z, ~ In true l -> bitZ l z = false). { intros l z Hn. destruct (bitZ l z) eqn:E; [|reflexivity]. exfalso. apply Hn. pose proof (bitZ_in l z E). unfold bitZ in E. destruct (Z.ltb_spec z 0); [discriminate|]. rewrite <- E. apply nth_In. lia. }
  assert (X0 : forall d, xabs (cb l1) (cb l2) d = 0). { intros d. rewrite coinc_xabs. replace (coinc l1 l2 d) with 0%nat; [reflexivity|]. unfold coinc. symmetry. rewrite (filter_ext_len _ (fun _ => false)); [generalize (seq 0 (List.length l1)); clear; intros q; induction q; [reflexivity|exact IHq]|]. intros j _. rewrite nth_bitZ. destruct I as [I|I]; rewrite (Nb _ _ I); [reflexivity|apply Bool.andb_false_r]. }
  unfold aligne_entier, pad_zeros_p2. rewrite !cb_length. fold n. pose proof (np2_ge (Nat.max (List.length l1) (List.length l2))) as G. fold n in G.
  set (xp := cb l1 ++ repeat c0 (n - List.length l1)). set (yp := cb l2 ++ repeat c0 (n - List.length l2)). assert (LX : List.length xp = n) by (unfold xp; rewrite app_length, repeat_length, cb_length; lia). assert (LY : List.length yp = n) by (unfold yp; rewrite app_length, repeat_length, cb_length; lia).
  unfold estimation_delais_entier. rewrite null_delay; [|intros l; unfold xp, yp; rewrite xabs_pad; apply X0|rewrite LX, LY; lia|rewrite LX, LY; lia].
  rewrite LX, LY, Nat.max_id. cbn [bind fst snd]. replace (- (INR n - 1)) with (IZR (1 - Z.of_nat n)) by (rewrite minus_IZR, <- INR_IZR_INZ; ring). rewrite roundZ_IZR.
  destruct (Z.eqb_spec (1 - Z.of_nat n) 0); [lia|]. destruct (Z.ltb_spec (1 - Z.of_nat n) 0); [|lia]. unfold tailZ. rewrite cb_length. destruct (Z.ltb_spec (Z.of_nat (List.length l1) + (1 - Z.of_nat n)) 0); [reflexivity|lia].
Qed.
Print Assumptions C79_silence_refuted.
Lemma shows_list l : exists s, shows s l.
Proof.
  assert (G : exists s, WF s /\ bits s = l). { induction l as [|b l (s & W & B)] using rev_ind; [exists bs_empty; split; [apply WF_empty|reflexivity]|]. destruct (bs_push_spec s b W) as (s' & _ & W' & B' & _). exists s'. split; [exact W'|]. rewrite B', B. reflexivity. }
  destruct G as (s & W & <-). exists s. apply WF_shows, W.
Qed.
(** ... so do symbols which are all the same (here five bits 1, in BPSK): one of the rotations has no 1 *)
Theorem C79_psk_constant_refuted : forall junk : Complex, exists s1 s2, shows s1 [true; false; true; true; false] /\ shows s2 [true; true; true; true; true] /\ cmp_bits_psk junk s1 s2 1 = UB.
Proof.
  intros junk. destruct (shows_list [true; false; true; true; false]) as (s1 & H1). destruct (shows_list [true; true; true; true; true]) as (s2 & H2). exists s1, s2. split; [exact H1|]. split; [exact H2|].
  unfold cmp_bits_psk. cbn [Nat.ltb Nat.leb]. change (2 ^ 1)%nat with 2%nat. rewrite !loop_S. cbn [loop bind]. pose proof small29 as S29.
  destruct (rotate_ok s2 _ 1 0 H2 ltac:(lia)) as (t0 & E0 & T0). destruct (rotate_ok s2 _ 1 1 H2 ltac:(lia)) as (t1 & E1 & T1). rewrite E0. cbn [bind].
  destruct (C79_compare junk s1 t0 _ _ H1 T0) as (r & Er & _); [left; reflexivity|left; reflexivity|apply Nat.le_trans with (3 * 16)%nat; [apply Nat.leb_le; vm_compute; reflexivity|exact S29]|]. rewrite Er. cbn [bind]. rewrite E1. cbn [bind].
  rewrite (C79_silence_refuted junk s1 t1 _ _ H1 T1); [reflexivity|right; cbn; intros [Q|[Q|[Q|[Q|[Q|[]]]]]]; discriminate|apply Nat.ltb_lt; vm_compute; reflexivity|apply Nat.le_trans with (3 * 16)%nat; [apply Nat.leb_le; vm_compute; reflexivity|exact S29]].
Qed.
Print Assumptions C79_psk_constant_refuted.
(** Finding: the documentation says that the first two and the last two bits are left
    out; here the eleventh of 122 bits differs and no error is counted *)
Theorem C79_margins_refuted : forall junk : Complex, let l1 := repeat false 60 ++ [true; true] ++ repeat false 60 in let l2 := upd l1 10 true in
  List.length l1 = 122%nat /\ List.length l2 = 122%nat /\ nth 10 l1 false <> nth 10 l2 false /\
  forall s1 s2, shows s1 l1 -> shows s2 l2 -> exists r, cmp_bits junk s1 s2 = Ok r /\ cr_dec r = 0%Z /\ cr_nerr r = 0%nat /\ cr_ber r = Some 0.
Proof.
  intros junk l1 l2. split; [reflexivity|]. split; [reflexivity|]. split; [discriminate|]. intros s1 s2 H1 H2.
  assert (S29 : (3 * 128 <= 2 ^ 29)%nat) by (apply Nat.le_trans with (2 ^ 9)%nat; [apply Nat.leb_le; reflexivity|apply Nat.pow_le_mono_r; lia]).
  destruct (C79_compare junk s1 s2 l1 l2 H1 H2) as (r & Er & Top & _ & Ne & Be & _ & _); [apply in_or_app; right; left; reflexivity|apply (nth_In l2 false (n := 60)); apply Nat.ltb_lt; reflexivity|exact S29|].
  assert (D0 : cr_dec r = 0%Z).
  { specialize (Top 0%Z). change (coinc l1 l2 0) with 2%nat in Top. destruct (Z.eq_dec (cr_dec r) 0) as [|Nz]; [assumption|]. exfalso. assert (Le : (coinc l1 l2 (cr_dec r) <= 1)%nat); [|lia]. clear - Nz. unfold coinc. set (d := cr_dec r) in *. clearbody d.
    change (seq 0 (List.length l1)) with (seq 0 60 ++ [60; 61] ++ seq 62 60)%nat. rewrite !filter_app, !app_length.
    assert (Z1 : forall a, nth a l1 false = true -> a = 60%nat \/ a = 61%nat). { intros a. destruct (Nat.lt_ge_cases a 122) as [L|L]; [|rewrite nth_overflow by exact L; discriminate]. intros Q. destruct (in_dec Nat.eq_dec a [60; 61]%nat) as [I|I]; [destruct I as [<-|[<-|[]]]; auto|]. exfalso. assert (F : forallb (fun b => implb (nth b l1 false) (if in_dec Nat.eq_dec b [60; 61]%nat then true else false)) (seq 0 122) = true) by (vm_compute; reflexivity). rewrite forallb_forall in F. specialize (F a ltac:(apply in_seq; lia)). rewrite Q in F. cbn [implb] in F. destruct (in_dec Nat.eq_dec a [60; 61]%nat); [contradiction|discriminate]. }
    assert (Z2 : forall z, bitZ l2 z = true -> (z = 10 \/ z = 60 \/ z = 61)%Z). { intros z Q. pose proof (bitZ_in l2 z Q) as B. change (List.length l2) with 122%nat in B. unfold bitZ in Q. destruct (Z.ltb_spec z 0); [lia|]. set (a := Z.to_nat z) in *. assert (F : forallb (fun b => implb (nth b l2 false) (if in_dec Nat.eq_dec b [10; 60; 61]%nat then true else false)) (seq 0 122) = true) by (vm_compute; reflexivity). rewrite forallb_forall in F. specialize (F a ltac:(apply in_seq; lia)). rewrite Q in F. cbn [implb] in F. destruct (in_dec Nat.eq_dec a [10; 60; 61]%nat) as [I|]; [|discriminate]. destruct I as [I|[I|[I|[]]]]; unfold a in I; lia. }
    assert (F0 : forall q, (forall a, In a q -> a <> 60%nat /\ a <> 61%nat) -> List.length (filter (fun a => nth a l1 false && bitZ l2 (Z.of_nat a + d))%bool q) = 0%nat). { intros q. induction q as [|a q IH]; intros Hq; [reflexivity|]. cbn [filter]. destruct (nth a l1 false) eqn:Ea; [destruct (Z1 a Ea); destruct (Hq a (or_introl eq_refl)); contradiction|]. cbn [andb]. apply IH. intros b Hb. apply Hq. right. exact Hb. }
    rewrite F0 by (intros a Ha; apply in_seq in Ha; lia). rewrite (F0 (seq 62 60)) by (intros a Ha; apply in_seq in Ha; lia). cbn [filter]. change (nth 60 l1 false) with true. change (nth 61 l1 false) with true. cbn [andb].
    destruct (bitZ l2 (Z.of_nat 60 + d)) eqn:B1; destruct (bitZ l2 (Z.of_nat 61 + d)) eqn:B2; cbn [List.length]; try lia. apply Z2 in B1. apply Z2 in B2. lia. }
  exists r. split; [exact Er|]. split; [exact D0|]. rewrite D0 in Ne, Be. change (overlap l1 l2 0) with 122%nat in Ne, Be. assert (N0 : cr_nerr r = 0%nat) by (rewrite Ne; vm_compute; reflexivity). split; [exact N0|]. rewrite Be, N0. f_equal. cbn [INR]. unfold Rdiv. apply Rmult_0_l.
Qed.
Print Assumptions C79_margins_refuted.
(** Concrete case: the example of the documentation *)
Example C79_case : forall junk : Complex, exists s1 s2 r, shows s1 [false; true; false; false; false; true] /\ shows s2 [true; false; false; false; true] /\ cmp_bits junk s1 s2 = Ok r /\ cr_dec r = (-1)%Z /\ cr_nerr r = 0%nat /\ cr_ber r = Some 0.
Proof.
  intros junk. destruct (shows_list [false; true; false; false; false; true]) as (s1 & H1). destruct (shows_list [true; false; false; false; true]) as (s2 & H2). pose proof small29 as S29.
  destruct (C79_delayed junk s1 s2 _ _ (-1)%Z H1 H2) as (r & E & D & N & B); [right; left; reflexivity| |apply Nat.le_trans with (3 * 16)%nat; [apply Nat.leb_le; vm_compute; reflexivity|exact S29]|exists s1, s2, r; repeat split; try assumption; apply H1 || apply H2].
  intros z. destruct (Z_lt_dec z 0) as [L|L].
  - unfold bitZ. destruct (Z.ltb_spec z 0); [|lia]. destruct (Z.ltb_spec (z - -1) 0); [reflexivity|]. replace z with (-1)%Z by lia. reflexivity.
  - unfold bitZ. destruct (Z.ltb_spec z 0); [lia|]. destruct (Z.ltb_spec (z - -1) 0); [lia|]. replace (Z.to_nat (z - -1)) with (S (Z.to_nat z)) by lia. reflexivity.
Qed.
(** QPSK, symbols 0 1 2 sent and received one quarter of a turn late *)
Example C79_psk_case : forall junk : Complex, exists s1 s2 r, shows s1 (rotated [true; false; false; true; true; true] 2 3) /\ rotated [true; false; false; true; true; true] 2 3 = [false; false; true; false; false; true] /\ shows s2 [true; false; false; true; true; true] /\ cmp_bits_psk junk s1 s2 2 = Ok r /\ cr_nerr r = 0%nat.
Proof.
  intros junk. destruct (shows_list (rotated [true; false; false; true; true; true] 2 3)) as (s1 & H1). destruct (shows_list [true; false; false; true; true; true]) as (s2 & H2). pose proof small29 as S29.
  destruct (C79_psk_rotation junk s1 s2 _ 2 3 H1 H2) as (r & E & N & _); [lia|cbn; lia| |apply Nat.le_trans with (3 * 16)%nat; [apply Nat.leb_le; vm_compute; reflexivity|exact S29]|exists s1, s2, r; split; [exact H1|]; split; [vm_compute; reflexivity|]; split; [exact H2|]; split; assumption].
  intros l Hl. change (2 ^ 2)%nat with 4%nat in Hl. destruct l as [|[|[|[|l]]]]; [| | | |lia]; vm_compute; tauto.
Qed.
