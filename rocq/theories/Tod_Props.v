(** C77: discrete wavelet transform. *)
From Coq Require Import Reals Lra Field.
From Verif Require Import Base BaseLemmas Filters_Proofs Sig_Proofs Poly_Model Poly_Spec Poly_Proofs RField Tod_Model Tod_Spec Tod_Proofs Tod_Proofs2 Tod_Proofs3 Tod_Proofs4.

Lemma shiftr_nat n d : (1 <= d)%Z -> Z.to_nat (Z.shiftr (Z.of_nat n) (d - 1)) = (n / 2 ^ Z.to_nat (d - 1))%nat.
Proof.
  intros H. rewrite Z.shiftr_div_pow2 by lia. replace (2 ^ (d - 1))%Z with (Z.of_nat (2 ^ Z.to_nat (d - 1))) by (rewrite Nat2Z.inj_pow; f_equal; lia). rewrite <- Nat2Z.inj_div, Nat2Z.id. reflexivity.
Qed.
Lemma depth_ok d : (1 <= d <= 32)%Z -> ((d <? 1) || (32 <? d))%Z%bool = false.
Proof. intros H. destruct (Z.ltb_spec d 1); [lia|]. destruct (Z.ltb_spec 32 d); [lia|]. reflexivity. Qed.
Lemma pow2_gt n : (n < 2 ^ n)%nat. Proof. apply Nat.pow_gt_lin_r. lia. Qed.

Section Any.
  Context {K : cring}.
  Local Open Scope cring_scope.
  Add Ring Kr_tod : (cth K).
  (** A length divisible by 2^depth: exactly [depth] levels, each one splitting the
      current approximation into its even and odd samples and applying the lifting
      stages to them, details after approximations.  A depth of one more than log2 of
      the length gives log2 levels. *)
  Theorem C77_dwt : forall (w : lift K) x d q, (1 <= d <= 32)%Z -> (0 < q)%nat -> length x = (2 ^ Z.to_nat d * q)%nat -> dwt w x d = Ok (levels w (Z.to_nat d) x).
  Proof.
    intros w x d q Hd Hq L. unfold dwt. rewrite depth_ok, shiftr_nat by lia. set (c := Z.to_nat d) in *. assert (P : (2 ^ c * q = 2 * q * 2 ^ Z.to_nat (d - 1))%nat). { replace c with (S (Z.to_nat (d - 1))) by lia. cbn [Nat.pow]. lia. }
    replace (length x / 2 ^ Z.to_nat (d - 1))%nat with (2 * q)%nat; [|rewrite L, P, Nat.div_mul by (apply Nat.pow_nonzero; lia); reflexivity]. rewrite <- (app_nil_r x) at 2. rewrite L. rewrite (dwt_levels w q Hq c x []); [rewrite app_nil_r; reflexivity|lia|exact L|]. pose proof (pow2_gt c). nia.
  Qed.
  Theorem C77_dwt_full : forall (w : lift K) x k, (k < 32)%nat -> length x = (2 ^ k)%nat -> dwt w x (Z.of_nat (S k)) = Ok (levels w k x).
  Proof.
    intros w x k Hk L. unfold dwt. rewrite depth_ok, shiftr_nat by lia. replace (Z.to_nat (Z.of_nat (S k) - 1)) with k by lia. rewrite L, Nat.div_same by (apply Nat.pow_nonzero; lia). apply dwt_levels1; [exact L|]. pose proof (pow2_gt k). lia.
  Qed.
  (** Any length of at least 2^(depth - 1): the transforms end, keep the length, and two
      different signals never have the same transform. *)
  Theorem C77_dwt_total : forall (w : lift K) x d, (1 <= d <= 32)%Z -> (2 ^ Z.to_nat (d - 1) <= length x)%nat -> exists y, dwt w x d = Ok y /\ length y = length x.
  Proof.
    intros w x d Hd H. unfold dwt. rewrite depth_ok, shiftr_nat by lia. apply dwt_loop_total; [|lia|lia]. apply Nat.div_str_pos. split; [pose proof (Nat.pow_nonzero 2 (Z.to_nat (d - 1)) ltac:(lia)); lia|exact H].
  Qed.
  Theorem C77_dwt_injective : forall (w : lift K) x x' d y, (1 <= d <= 32)%Z -> (2 ^ Z.to_nat (d - 1) <= length x)%nat -> length x = length x' -> dwt w x d = Ok y -> dwt w x' d = Ok y -> x = x'.
  Proof.
    intros w x x' d y Hd H L. unfold dwt. rewrite depth_ok, !shiftr_nat, <- L by lia. apply dwt_loop_inj; [|lia|lia|lia]. apply Nat.div_str_pos. split; [pose proof (Nat.pow_nonzero 2 (Z.to_nat (d - 1)) ltac:(lia)); lia|exact H].
  Qed.
  Theorem C77_iwt_total : forall (w : lift K) x d, (1 <= d <= 32)%Z -> (2 ^ Z.to_nat (d - 1) <= length x)%nat -> (Z.of_nat (length x) < 2 ^ 30)%Z -> exists y, iwt w x d = Ok y /\ length y = length x.
  Proof.
    intros w x d Hd H B. unfold iwt. rewrite depth_ok, shiftr_nat by lia. destruct (Z.leb_spec (2 ^ 30) (Z.of_nat (length x))); [lia|]. assert (0 < length x / 2 ^ Z.to_nat (d - 1))%nat. { apply Nat.div_str_pos. split; [pose proof (Nat.pow_nonzero 2 (Z.to_nat (d - 1)) ltac:(lia)); lia|exact H]. }
    apply iwt_loop_total; [reflexivity|assumption|lia].
  Qed.
  (** Finding: on any shorter signal neither transform ends. *)
  Theorem C77_end_refuted : forall (w : lift K) x d, (1 <= d <= 32)%Z -> (length x < 2 ^ Z.to_nat (d - 1))%nat -> (Z.of_nat (length x) < 2 ^ 30)%Z -> dwt w x d = Diverge /\ iwt w x d = Diverge.
  Proof.
    intros w x d Hd H B. unfold dwt, iwt. rewrite depth_ok, shiftr_nat by lia. rewrite Nat.div_small by exact H. split; [apply dwt_div; lia|]. destruct (Z.leb_spec (2 ^ 30) (Z.of_nat (length x))); [lia|]. apply iwt_div.
  Qed.
  (** Finding: one level forward then backward, whatever the wavelet, does not give the
      signal back: every sample of even rank k > 0 is replaced by the sample whose rank
      is the odd part of k. *)
  Lemma dwt_1 (w : lift K) x : (0 < length x)%nat -> dwt w x 1 = lift_step w x (length x).
  Proof.
    intros H. unfold dwt. rewrite depth_ok, shiftr_nat by lia. change (2 ^ Z.to_nat (1 - 1))%nat with 1%nat. rewrite Nat.div_1_r. cbn [dwt_loop]. rewrite Nat.ltb_irrefl. destruct (lift_len w x (length x) (le_n _)) as (y & E & Ly). rewrite E. cbn [bind]. destruct (Nat.eqb_spec (length x) 0); [lia|].
    destruct (length x) as [|p] eqn:El; [lia|]. cbn [dwt_loop]. pose proof (div2_lt (S p) ltac:(lia)). destruct (Nat.ltb_spec (Nat.div2 (S p)) (S p)); [reflexivity|lia].
  Qed.
  Lemma iwt_1 (w : lift K) x : (0 < length x)%nat -> (Z.of_nat (length x) < 2 ^ 30)%Z -> iwt w x 1 = ilift_step w x (length x).
  Proof.
    intros H B. unfold iwt. rewrite depth_ok, shiftr_nat by lia. destruct (Z.leb_spec (2 ^ 30) (Z.of_nat (length x))); [lia|]. change (2 ^ Z.to_nat (1 - 1))%nat with 1%nat. rewrite Nat.div_1_r. cbn [iwt_loop]. rewrite Nat.ltb_irrefl. destruct (ilift_len w x (length x) (le_n _)) as (y & E & Ly). rewrite E. cbn [bind]. destruct (Nat.eqb_spec (length x) 0); [lia|].
    destruct (length x) as [|p] eqn:El; [lia|]. cbn [iwt_loop]. destruct (Nat.ltb_spec (S p) (2 * S p)); [reflexivity|lia].
  Qed.
  Theorem C77_one_level_back : forall (w : lift K) x, (0 < length x)%nat -> (Z.of_nat (length x) < 2 ^ 30)%Z -> exists y z, dwt w x 1 = Ok y /\ iwt w y 1 = Ok z /\ length z = length x /\ forall k, (k < length x)%nat -> nth k z 0 = nth (oddpart k) x 0.
  Proof.
    intros w x H B. destruct (lift_ilift w x (length x) (le_n _)) as (y & E & Ly & E2). exists y. eexists. rewrite dwt_1 by exact H. split; [exact E|]. rewrite iwt_1, Ly by (rewrite Ly; assumption). split; [exact E2|]. rewrite skipn_all, app_nil_r. split; [rewrite map_length, seq_length; reflexivity|].
    intros k Hk. rewrite (nth_map_seq (X := K)) by exact Hk. reflexivity.
  Qed.
  (** exact for one or two samples, never beyond *)
  Theorem C77_one_level_back_2 : forall (w : lift K) x, (0 < length x <= 2)%nat -> exists y, dwt w x 1 = Ok y /\ iwt w y 1 = Ok x.
  Proof.
    intros w x H. assert (B : (Z.of_nat (length x) < 2 ^ 30)%Z) by lia. destruct (C77_one_level_back w x ltac:(lia) B) as (y & z & E1 & E2 & L & V). exists y. split; [exact E1|]. rewrite E2. f_equal. apply (list_ext 0); [exact L|]. intros k Hk. rewrite V by lia. f_equal. assert (C : k = 0%nat \/ k = 1%nat) by lia. destruct C as [-> | ->]; reflexivity.
  Qed.
  Theorem C77_reconstruction_refuted : (0 : K) <> 1 -> forall (w : lift K) n, (2 < n)%nat -> (Z.of_nat n < 2 ^ 30)%Z -> exists x y z, length x = n /\ dwt w x 1 = Ok y /\ iwt w y 1 = Ok z /\ z <> x.
  Proof.
    intros N w n Hn B. set (x := 0 :: 1 :: repeat (0 : K) (n - 2)). assert (L : length x = n) by (unfold x; cbn [length]; rewrite repeat_length; lia). destruct (C77_one_level_back w x ltac:(lia)) as (y & z & E1 & E2 & _ & V); [rewrite L; exact B|]. exists x, y, z. split; [exact L|]. split; [exact E1|]. split; [exact E2|].
    intros ->. specialize (V 2%nat ltac:(lia)). change (oddpart 2) with 1%nat in V. unfold x in V. destruct (n - 2)%nat as [|m] eqn:Em; [lia|]. cbn in V. exact (N V).
  Qed.
End Any.
Print Assumptions C77_dwt.
Print Assumptions C77_dwt_full.
Print Assumptions C77_dwt_total.
Print Assumptions C77_dwt_injective.
Print Assumptions C77_iwt_total.
Print Assumptions C77_end_refuted.
Print Assumptions C77_one_level_back.
Print Assumptions C77_one_level_back_2.
Print Assumptions C77_reconstruction_refuted.

Local Open Scope R_scope.
(** ** Haar *)
(** dwt with the Haar scheme of a length 2^d q: the q first values are the means of the
    blocks of 2^d samples, and the detail j at scale i is the difference of the means
    of the blocks 2j + 1 and 2j of 2^i samples. *)
Definition mean_block (x : list R) (len start : nat) : R := sum (K := Rring) len (fun t => nth (start + t) x 0) / INR len.
Lemma bmean_mean u i j : bmean u i j = mean_block u (2 ^ i) (j * 2 ^ i).
Proof. unfold bmean, mean_block. rewrite pow_INR. replace (INR 2) with 2 by (cbn; ring). reflexivity. Qed.
Theorem C77_haar : forall (x : list R) d q, (1 <= d <= 32)%Z -> (0 < q)%nat -> length x = (2 ^ Z.to_nat d * q)%nat -> let c := Z.to_nat d in
  exists y : list R, dwt lift_haar x d = Ok y /\ length y = length x /\
    (forall j, (j < q)%nat -> nth j y 0 = mean_block x (2 ^ c) (j * 2 ^ c)) /\
    forall i j, (i < c)%nat -> (j < 2 ^ (c - 1 - i) * q)%nat ->
      nth (2 ^ (c - 1 - i) * q + j) y 0 = mean_block x (2 ^ i) ((2 * j + 1) * 2 ^ i) - mean_block x (2 ^ i) (2 * j * 2 ^ i).
Proof.
  intros x d q Hd Hq L c. exists (levels lift_haar c x : list R). split; [exact (C77_dwt (K := Rring) lift_haar x d q Hd Hq L)|]. destruct (haar_levels c x q L) as (H1 & H2 & H3). split; [rewrite L; exact H1|]. split.
  - intros j Hj. rewrite <- bmean_mean. apply H2. exact Hj.
  - intros i j Hi Hj. rewrite <- !bmean_mean. apply H3; assumption.
Qed.
Print Assumptions C77_haar.
Lemma cneq01 : (c0 : Rring) <> c1. Proof. change (0 <> 1). lra. Qed.
(** Finding: the scale factor K of the scheme is never applied, so the transform does
    not keep the energy: the Haar transform of (1, 1) is (1, 0). *)
Theorem C77_energy_refuted : exists y : list R, dwt lift_haar [1; 1] 1 = Ok y /\ sum (K := Rring) 2 (fun i => nth i y 0 * nth i y 0) <> sum (K := Rring) 2 (fun i => nth i [1; 1] 0 * nth i [1; 1] 0).
Proof.
  destruct (C77_haar [1; 1] 1 1 ltac:(lia) ltac:(lia) eq_refl) as (y & E & L & A & D). exists y. split; [exact E|]. pose proof (A 0%nat ltac:(lia)) as A0. pose proof (D 0%nat 0%nat ltac:(cbn; lia) ltac:(cbn; lia)) as D0. unfold mean_block in A0, D0. change (Z.to_nat 1) with 1%nat in *. cbn in A0, D0, L.
  destruct y as [|a [|b [|]]]; try discriminate L. cbn in A0, D0 |- *. intros X. assert (a = 1) by lra. assert (b = 0) by lra. subst. lra.
Qed.
Print Assumptions C77_energy_refuted.
(** Finding: with the Haar scheme, for every length 2^d q of at least 4 and this depth d,
    some signal is not given back by iwt after dwt. *)
Theorem C77_haar_reconstruction_refuted : forall d q, (1 <= d <= 29)%Z -> (0 < q)%nat -> (2 < 2 ^ Z.to_nat d * q)%nat -> (Z.of_nat (2 ^ Z.to_nat d * q) < 2 ^ 30)%Z ->
  exists x y z : list R, length x = (2 ^ Z.to_nat d * q)%nat /\ dwt lift_haar x d = Ok y /\ iwt lift_haar y d = Ok z /\ z <> x.
Proof.
  intros d q Hd Hq H2 B. destruct (Z.to_nat d) as [|c] eqn:Ec; [lia|]. set (m := (2 ^ c * q)%nat). assert (Pm : (2 ^ S c * q = 2 * m)%nat) by (unfold m; cbn [Nat.pow]; lia). rewrite Pm in *.
  set (x := 1 :: -1 :: repeat 0 (2 * m - 2)). assert (L : length x = (2 * m)%nat) by (unfold x; cbn [length]; rewrite repeat_length; lia).
  assert (Lv : level lift_haar x = (repeat 0 m, -2 :: repeat 0 (m - 1))).
  { rewrite (haar_level x m L). assert (Z0 : forall i, (2 <= i)%nat -> nth i x 0 = 0) by (intros i Hi; unfold x; destruct i as [|[|i]]; try lia; cbn [nth]; apply nth_repeat). f_equal.
    - apply (list_ext 0); [rewrite map_length, seq_length, repeat_length; reflexivity|]. intros j Hj. rewrite map_length, seq_length in Hj. rewrite (nth_map_seq (X := R)), nth_repeat by exact Hj. destruct j as [|j]; [unfold x; cbn; lra|]. rewrite !Z0 by lia. lra.
    - apply (list_ext 0); [rewrite map_length, seq_length; cbn [length]; rewrite repeat_length; lia|]. intros j Hj. rewrite map_length, seq_length in Hj. rewrite (nth_map_seq (X := R)) by exact Hj. destruct j as [|j]; [unfold x; cbn; lra|]. rewrite !Z0 by lia. cbn [nth]. rewrite nth_repeat. lra. }
  set (y := repeat 0 m ++ -2 :: repeat 0 (m - 1)). assert (Ly : length y = (2 * m)%nat) by (unfold y; rewrite app_length; cbn [length]; rewrite !repeat_length; lia).
  assert (E1 : lift_step lift_haar x (2 * m) = Ok y). { pose proof (lift_level (K := Rring) lift_haar x [] m L) as E. rewrite Lv in E. cbn [fst snd] in E. rewrite !app_nil_r in E. exact E. }
  assert (Ed : dwt lift_haar x d = Ok y).
  { unfold dwt. rewrite depth_ok, shiftr_nat by lia. change (@length (car Rring) x) with (length x). rewrite L. replace (Z.to_nat (d - 1)) with c by lia. replace (2 * m / 2 ^ c)%nat with (2 * q)%nat by (unfold m; replace (2 * (2 ^ c * q))%nat with (2 * q * 2 ^ c)%nat by lia; symmetry; apply Nat.div_mul, Nat.pow_nonzero; lia).
    cbn [dwt_loop]. destruct (Nat.ltb_spec (2 * m) (2 * q)); [unfold m in *; pose proof (Nat.pow_nonzero 2 c ltac:(lia)); nia|]. rewrite E1. cbn [bind]. destruct (Nat.eqb_spec (2 * m) 0); [lia|]. rewrite div2_even. apply (dwt_zeros (K := Rring)); lia. }
  destruct (lift_ilift (K := Rring) lift_haar x (2 * m) ltac:(apply Nat.eq_le_incl; symmetry; exact L)) as (y' & E1' & _ & E2). assert (y' = y) by (rewrite E1 in E1'; injection E1' as ->; reflexivity). subst y'. set (z := map _ _ ++ _) in E2. exists x, y, z. split; [exact L|]. split; [exact Ed|]. split.
  - unfold iwt. rewrite depth_ok, shiftr_nat by lia. change (@length (car Rring) y) with (length y). rewrite Ly. destruct (Z.leb_spec (2 ^ 30) (Z.of_nat (2 * m))); [lia|]. replace (Z.to_nat (d - 1)) with c by lia. replace (2 * m / 2 ^ c)%nat with (2 * q)%nat by (unfold m; replace (2 * (2 ^ c * q))%nat with (2 * q * 2 ^ c)%nat by lia; symmetry; apply Nat.div_mul, Nat.pow_nonzero; lia).
    destruct (iwt_zeros (K := Rring) lift_haar q (-2 :: repeat 0 (m - 1)) c (S (2 * m)) Hq) as (fu & F1 & F2); [exact Ly|fold m; lia|]. etransitivity; [exact (F2 m eq_refl)|]. destruct fu as [|fu]; [lia|]. cbn [iwt_loop]. rewrite Nat.ltb_irrefl.
    etransitivity; [apply f_equal2; [exact E2|reflexivity]|]. cbn [bind]. destruct (Nat.eqb_spec (2 * m) 0); [lia|]. destruct fu; cbn [iwt_loop]; (destruct (Nat.ltb_spec (2 * m) (2 * (2 * m))); [reflexivity|lia]).
  - intros E. assert (V : nth 2 z 0 = nth 2 x 0) by (rewrite E; reflexivity). unfold z in V. change (nth 2 (map (fun k => nth (oddpart k) x 0) (seq 0 (2 * m)) ++ skipn (2 * m) x) 0 = nth 2 x 0) in V. rewrite app_nth1 in V by (rewrite map_length, seq_length; lia). rewrite (nth_map_seq (X := R)) in V by lia. change (oddpart 2) with 1%nat in V. unfold x in V. cbn [nth] in V. rewrite nth_repeat in V. lra.
Qed.
Print Assumptions C77_haar_reconstruction_refuted.

(** ** Daubechies (order 2) *)
(** One level: up to the scale factor, which is not applied, approximations are the
    outputs of the Daubechies 4-tap low-pass filter and details those of its mirror
    high-pass filter; at both ends the missing samples count as zero in the lifting
    stages.  Details vanish on affine signals, except the first one. *)
Theorem C77_db2 : forall (x : list R) m, (0 < m)%nat -> length x = (2 * m)%nat -> exists y : list R, dwt lift_db2 x 1 = Ok y /\ length y = (2 * m)%nat /\
  let K := (sqrt 3 - 1) / sqrt 2 in let X k := nth k x 0 in
  (forall j, (S j < m)%nat -> K * nth j y 0 = d4 0 * X (2 * j)%nat + d4 1 * X (2 * j + 1)%nat + d4 2 * X (2 * j + 2)%nat + d4 3 * X (2 * j + 3)%nat) /\
  (forall j, (S j < m)%nat -> nth (m + S j) y 0 / K = - d4 3 * X (2 * j)%nat + d4 2 * X (2 * j + 1)%nat - d4 1 * X (2 * j + 2)%nat + d4 0 * X (2 * j + 3)%nat) /\
  nth (m - 1) y 0 = X (2 * m - 2)%nat + sqrt 3 * X (2 * m - 1)%nat /\
  nth m y 0 = X 1%nat - sqrt 3 / 4 * (X 0%nat + sqrt 3 * X 1%nat) /\
  (forall al be, (forall k, (k < 2 * m)%nat -> X k = al + be * INR k) -> forall j, (S j < m)%nat -> nth (m + S j) y 0 = 0).
Proof.
  intros x m Hm L. pose proof (C77_dwt (K := Rring) lift_db2 x 1 m ltac:(lia) Hm L) as E. change (levels lift_db2 (Z.to_nat 1) x) with (let (s, d) := level lift_db2 x in (s ++ d : list R)) in E. rewrite (db2_level x m L) in E. cbv zeta beta iota in E.
  set (s := map (fun j => sg x j - (if (S j <? m)%nat then dt x (S j) else 0)) (seq 0 m)) in E. set (d := map (dt x) (seq 0 m)) in E. exists (s ++ d). split; [exact E|].
  assert (Ls : length s = m) by (unfold s; rewrite map_length, seq_length; reflexivity). assert (Ld : length d = m) by (unfold d; rewrite map_length, seq_length; reflexivity). split; [rewrite app_length; lia|].
  assert (Vs : forall j, (j < m)%nat -> nth j (s ++ d) 0 = sg x j - (if (S j <? m)%nat then dt x (S j) else 0)) by (intros j Hj; rewrite app_nth1 by lia; unfold s; rewrite (nth_map_seq (X := R)) by exact Hj; reflexivity).
  assert (Vd : forall j, (j < m)%nat -> nth (m + j) (s ++ d) 0 = dt x j) by (intros j Hj; rewrite app_nth2 by lia; replace (m + j - length s)%nat with j by lia; unfold d; rewrite (nth_map_seq (X := R)) by exact Hj; reflexivity).
  cbv zeta. repeat split.
  - intros j Hj. rewrite Vs by lia. destruct (Nat.ltb_spec (S j) m); [|lia]. apply db2_low.
  - intros j Hj. rewrite Vd by lia. apply db2_high.
  - rewrite Vs by lia. destruct (Nat.ltb_spec (S (m - 1)) m); [lia|]. unfold sg. replace (2 * (m - 1) + 1)%nat with (2 * m - 1)%nat by lia. replace (2 * (m - 1))%nat with (2 * m - 2)%nat by lia. eqR. ring.
  - rewrite <- (Nat.add_0_r m) at 1. rewrite Vd by lia. unfold dt, sg. cbn [Nat.mul Nat.add]. eqR. ring.
  - intros al be Ha j Hj. rewrite Vd by lia. apply (db2_affine x m al be Ha). lia.
Qed.
Print Assumptions C77_db2.
(** These taps are the Daubechies filter: unit energy, orthogonal to its shift by two,
    sum sqrt 2, and the mirror filter kills constants and ramps. *)
Theorem C77_d4 : let s := sqrt 2 in
  d4 0 * d4 0 + d4 1 * d4 1 + d4 2 * d4 2 + d4 3 * d4 3 = 1 /\ d4 0 * d4 2 + d4 1 * d4 3 = 0 /\ d4 0 + d4 1 + d4 2 + d4 3 = s /\
  - d4 3 + d4 2 - d4 1 + d4 0 = 0 /\ 0 * - d4 3 + 1 * d4 2 - 2 * d4 1 + 3 * d4 0 = 0.
Proof.
  unfold d4. cbn [nth]. pose proof (sqrt_sqrt 3 ltac:(lra)) as Q. pose proof (sqrt_sqrt 2 ltac:(lra)) as Q2. assert (P : 0 < sqrt 2) by (apply sqrt_lt_R0; lra). set (a := sqrt 3) in *. cbv zeta. set (r := sqrt 2) in *. clearbody a r.
  repeat split.
  - replace ((1 + a) / (4 * r) * ((1 + a) / (4 * r)) + (3 + a) / (4 * r) * ((3 + a) / (4 * r)) + (3 - a) / (4 * r) * ((3 - a) / (4 * r)) + (1 - a) / (4 * r) * ((1 - a) / (4 * r))) with ((20 + 4 * (a * a)) / (16 * (r * r))) by (field; lra). rewrite Q, Q2. field.
  - replace ((1 + a) / (4 * r) * ((3 - a) / (4 * r)) + (3 + a) / (4 * r) * ((1 - a) / (4 * r))) with ((6 - 2 * (a * a)) / (16 * (r * r))) by (field; lra). rewrite Q, Q2. field.
  - replace ((1 + a) / (4 * r) + (3 + a) / (4 * r) + (3 - a) / (4 * r) + (1 - a) / (4 * r)) with (r * (2 / (r * r))) by (field; lra). rewrite Q2. field.
  - field. lra.
  - field. lra.
Qed.
Print Assumptions C77_d4.

(** ** Polyphase matrix and quadrature mirror filters *)
(** For schemes given by coefficients, the matrix built from the stages is, at every
    non-null z, the product of the documented elementary matrices, scaled by diag(K, 1/K);
    its determinant is 1. *)
Theorem C77_polyphase : forall (K : cfield) (w : lift K) (z : K), by_coefs w -> (li_K w <> 0)%K -> (z <> 0)%K ->
  ppval (polyphase_of w) z = mmul (M2 (li_K w) 0%K 0%K (1 / li_K w)%K) (mstages z (li_steps w)) /\ mdet (ppval (polyphase_of w) z) = 1%K.
Proof.
  intros K w z B HK Hz. destruct (polyphase_ok w z B Hz) as (_ & E). split; [exact E|]. rewrite E. apply pp_det. exact HK.
Qed.
Print Assumptions C77_polyphase.
(** The analysis filters of the QMF form: never an assertion failure, and H0, H1 are, up
    to an even advance each, H00(z^2) + z H01(z^2) and H10(z^2) + z H11(z^2); they form
    an alias-free pair (the determinant of the modulation matrix is a monomial). *)
Theorem C77_qmf : forall (K : cfield) (w : lift K), by_coefs w -> (li_K w <> 0)%K -> exists q d0 d1, qmf_of (polyphase_of w) = Ok q /\ (0 <= d0)%Z /\ (0 <= d1)%Z /\ forall z : K, (z <> 0)%K ->
  let P := mmul (M2 (li_K w) 0%K 0%K (1 / li_K w)%K) (mstages (z * z)%K (li_steps w)) in
  value (q_h0 q) z = (zpow (z * z) d0 * (m00 P + z * m01 P))%K /\
  value (q_h1 q) z = (zpow (z * z) d1 * (m10 P + z * m11 P))%K /\
  (value (q_h0 q) z * value (q_h1 q) (- z) - value (q_h0 q) (- z) * value (q_h1 q) z)%K = (- ((1 + 1) * z * zpow (z * z) (d0 + d1)))%K.
Proof.
  intros K w B HK. destruct (qmf_ok (polyphase_of w)) as (q & d0 & d1 & E & D0 & D1 & _ & _ & V); [apply (polyphase_ok w 1%K B), one_ne|apply polyphase_rows|]. exists q, d0, d1. split; [exact E|]. split; [exact D0|]. split; [exact D1|].
  intros z Hz. cbv zeta. assert (Z2 : (z * z <> 0)%K) by (apply mul_ne; exact Hz). rewrite <- (proj2 (polyphase_ok w (z * z)%K B Z2)). destruct (V z Hz) as (V0 & V1). split; [exact V0|]. split; [exact V1|].
  apply (modulation_det w); assumption.
Qed.
Print Assumptions C77_qmf.
(** Finding: the synthesis filters G0 and G1 are left empty: there is nothing in the
    QMF form to rebuild a signal with. *)
Theorem C77_synthesis_refuted : forall (K : cfield) (w : lift K) q, qmf_of (polyphase_of w) = Ok q -> p_coefs (q_g0 q) = [] /\ p_coefs (q_g1 q) = [].
Proof. intros K w q E. unfold qmf_of in E. destruct (_ <? 0)%Z; [discriminate E|]. injection E as <-. split; reflexivity. Qed.
Print Assumptions C77_synthesis_refuted.

(** ** Examples *)
Example haar_by_coefs : by_coefs lift_haar. Proof. repeat constructor. Qed.
Example db2_by_coefs : by_coefs lift_db2. Proof. repeat constructor. Qed.
(** The QMF form of Haar: H0 = (1 + z) / sqrt 2 and H1 = (z - 1) / sqrt 2, up to even powers of z. *)
Example haar_qmf : exists q d0 d1, qmf_of (polyphase_of (K := Rfield) lift_haar) = Ok q /\ forall z : R, z <> 0 ->
  value (K := Rring) (q_h0 q) z = zpow (K := Rfield) (z * z) d0 * ((1 + z) / sqrt 2) /\ value (K := Rring) (q_h1 q) z = zpow (K := Rfield) (z * z) d1 * ((z - 1) / sqrt 2).
Proof.
  pose proof (sqrt_sqrt 2 ltac:(lra)) as Q. assert (P : 0 < sqrt 2) by (apply sqrt_lt_R0; lra).
  destruct (C77_qmf Rfield lift_haar haar_by_coefs) as (q & d0 & d1 & E & _ & _ & V); [change (sqrt 2 <> 0); lra|]. exists q, d0, d1. split; [exact E|]. intros z Hz. specialize (V z Hz). cbv zeta in V.
  assert (Em : forall zz : Rfield, mstages zz (li_steps lift_haar) = M2 (K := Rfield) (1 / 2) (1 / 2) (-1) 1).
  { intros zz. unfold lift_haar. cbn [li_steps mstages mstage e_predict e_lau]. unfold lval, p_neg, p_scale, p_one, p_of. cbn [l_pol l_n0 p_roots p_coefs map]. rewrite !(pval_cons Rring), !(pval_nil Rring). unfold zpow. cbn [Z.leb Z.compare Z.to_nat cpow]. unfold mmul, mid. cbn. f_equal; field. }
  rewrite Em in V. destruct V as (V0 & V1 & _). clear Em. split; [etransitivity; [exact V0|]|etransitivity; [exact V1|]]; cbn -[zpow sqrt]; generalize (zpow (K := Rfield) (z * z) d0) (zpow (K := Rfield) (z * z) d1); intros u v; set (r := sqrt 2) in *.
  - replace ((1 + z) / r) with (r * r * ((1 + z) / (2 * r))) by (rewrite Q; field; lra). change (@eq R (u * (r * (1 / 2) + 0 * -1 + z * (r * (1 / 2) + 0 * 1))) (u * (r * r * ((1 + z) / (2 * r))))). field. lra.
  - change (@eq R (v * (0 * (1 / 2) + 1 / r * -1 + z * (0 * (1 / 2) + 1 / r * 1))) (v * ((z - 1) / r))). field. lra.
Qed.
(** (3, 5, 1, 2) over three levels: mean 11/4, difference of the half means -5/2, then 2 and 1. *)
Example haar_4 : dwt lift_haar [3; 5; 1; 2] 2 = Ok (levels lift_haar 2 [3; 5; 1; 2]).
Proof. exact (C77_dwt (K := Rring) lift_haar [3; 5; 1; 2] 2 1 ltac:(lia) ltac:(lia) eq_refl). Qed.
