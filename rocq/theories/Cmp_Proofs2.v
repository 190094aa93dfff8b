From Coq Require Import Reals ZArith Lra Lia.
From Verif Require Import Base BaseLemmas RField DftSys ComplexSys Filters_Proofs Sig_Proofs Vec_Model BitStream_Model BitStream_Spec BitStream_Proofs TeleBits_Model TeleBits_Spec TeleBits_Proofs Fourier_Model Fourier_Spec Fest_Model Del_Model Del_Spec Del_Proofs Del_Proofs2 Del_Props Cmp_Model Cmp_Spec Cmp_Proofs.
Local Open Scope R_scope.

Definition b2r (b : bool) : R := if b then 1 else 0.
Lemma array_shows s l : shows s l -> bs_array s = Ok (map b2r l).
Proof.
  intros [L G]. unfold bs_array. rewrite L.
  assert (A : forall n, (n <= List.length l)%nat -> loop n (fun i acc => let* b := bs_get s i in Ok (acc ++ [if b then 1 else 0])) [] = Ok (map b2r (firstn n l))).
  { induction n as [|n IH]; intros Hn; [reflexivity|].
    cbn [loop]. rewrite IH by lia. cbn [bind]. rewrite G by lia. cbn [bind]. f_equal.
    clear - Hn. revert n Hn. induction l as [|a t IHl]; intros n Hn; simpl in *; [lia|].
    destruct n as [|n]; [reflexivity|]. simpl. rewrite <- IHl by lia. reflexivity. }
  rewrite A by lia. rewrite firstn_all. reflexivity.
Qed.
Definition cb (l : list bool) : list Complex := as_complex (map b2r l).
Lemma cb_length l : List.length (cb l) = List.length l. Proof. unfold cb, as_complex. rewrite !map_length. reflexivity. Qed.
Lemma cb_samp l i : samp (cb l) i = ((b2r (nth i l false), 0) : Complex).
Proof.
  unfold samp, cb, as_complex. destruct (Nat.lt_ge_cases i (List.length l)) as [H|H].
  - rewrite (nth_indep _ _ ((b2r false, 0) : Complex)) by (rewrite !map_length; exact H). rewrite (map_nth (fun v => ((v, 0) : Complex)) (map b2r l) (b2r false)), (map_nth b2r). reflexivity.
  - rewrite (nth_overflow _ (c0 : Complex)) by (rewrite !map_length; exact H). rewrite nth_overflow by exact H. reflexivity.
Qed.
Lemma cb_sampZ l z : sampZ (cb l) z = ((b2r (bitZ l z), 0) : Complex).
Proof.
  unfold bitZ. destruct (Z.ltb_spec z 0) as [H|H]; [rewrite sampZ_out by (left; exact H); reflexivity|]. replace z with (Z.of_nat (Z.to_nat z)) at 1 by lia. rewrite <- samp_Z. apply cb_samp.
Qed.
Lemma csum_count (f : nat -> bool) n : sum (K := Complex) n (fun a => ((b2r (f a), 0) : Complex)) = ((INR (List.length (filter f (seq 0 n))), 0) : Complex).
Proof.
  induction n as [|n IH]; [reflexivity|]. etransitivity; [apply (f_equal2 (@cadd Complex)); [exact IH|reflexivity]|]. rewrite seq_S, filter_app, app_length. cbn [Nat.add filter]. rewrite plus_INR. apply C_ext; cbn; [|ring]. destruct (f n); cbn; ring.
Qed.
Lemma coinc_xcorr l1 l2 d : xcorr_at (cb l1) (cb l2) d = ((INR (coinc l1 l2 d), 0) : Complex).
Proof.
  unfold xcorr_at, coinc. rewrite cb_length. etransitivity; [|apply csum_count]. apply (sum_ext Cring). intros i Hi. rewrite cb_samp, cb_sampZ. apply C_ext; cbn; destruct (nth i l1 false), (bitZ l2 (Z.of_nat i + d)); cbn; ring.
Qed.
Lemma coinc_xabs l1 l2 d : xabs (cb l1) (cb l2) d = INR (coinc l1 l2 d).
Proof. unfold xabs. rewrite coinc_xcorr. unfold Cnorm2. cbn [fst snd]. replace (INR (coinc l1 l2 d) * INR (coinc l1 l2 d) + 0 * 0) with (INR (coinc l1 l2 d) * INR (coinc l1 l2 d)) by ring. apply sqrt_square, pos_INR. Qed.

(** ** Counting *)
Lemma round_bit b : roundZ (b2r b) = if b then 1%Z else 0%Z.
Proof. destruct b; cbn [b2r]; [apply (roundZ_IZR 1)|apply (roundZ_IZR 0)]. Qed.
Lemma count_ok a b : List.length b = List.length a -> count_errors (map b2r a) (map b2r b) = Ok (List.length (filter (fun j => negb (Bool.eqb (nth j a false) (nth j b false))) (seq 0 (List.length a)))).
Proof.
  intros L. unfold count_errors. rewrite map_length.
  assert (G : forall n, (n <= List.length a)%nat -> loop n (fun i m => let* u := vget (map b2r a) i in let* v := vget (map b2r b) i in Ok (if Z.eq_dec (roundZ u) (roundZ v) then m else S m)) 0%nat = Ok (List.length (filter (fun j => negb (Bool.eqb (nth j a false) (nth j b false))) (seq 0 n)))).
  { induction n as [|n IH]; intros Hn; [reflexivity|]. rewrite loop_S, IH by lia. cbn [bind]. rewrite (vget_ok (map b2r a) n (b2r false)), (vget_ok (map b2r b) n (b2r false)) by (rewrite map_length; lia). cbn [bind]. rewrite !map_nth, !round_bit, seq_S, filter_app, app_length. cbn [Nat.add filter]. f_equal. destruct (nth n a false), (nth n b false); cbn; lia. }
  apply G. lia.
Qed.
Lemma trim_map a : trim (map b2r a) = map b2r (if (100 <? List.length a)%nat then firstn (List.length a - 100) (skipn 50 a) else a).
Proof. unfold trim. rewrite map_length. destruct (100 <? List.length a)%nat; [|reflexivity]. rewrite skipn_map, firstn_map. reflexivity. Qed.
Definition window (l : list bool) (o : Z) (n : nat) : list bool := map (fun j => bitZ l (Z.of_nat j + o)) (seq 0 n).
Lemma reals_window (xa : list Complex) l o : (forall j, (j < List.length xa)%nat -> samp xa j = sampZ (cb l) (Z.of_nat j + o)) -> reals xa = map b2r (window l o (List.length xa)).
Proof.
  intros H. unfold reals, window. rewrite map_map. apply (list_ext (fst (c0 : Complex))); [rewrite !map_length, seq_length; reflexivity|]. intros n Hn. rewrite map_length in Hn. rewrite (map_nth (fun z : Complex => fst z)). specialize (H n Hn). unfold samp in H. rewrite H, cb_sampZ. cbn [fst]. rewrite (nth_map_seq (X := R)) by exact Hn. reflexivity.
Qed.
Lemma window_nth l o n j : (j < n)%nat -> nth j (window l o n) false = bitZ l (Z.of_nat j + o).
Proof. intros H. unfold window. rewrite (nth_map_seq (X := bool)) by exact H. reflexivity. Qed.
Lemma filter_shift (f : nat -> bool) o n : List.length (filter (fun j => f (j + o)%nat) (seq 0 n)) = List.length (filter f (seq o n)).
Proof.
  induction n as [|n IH]; [reflexivity|]. rewrite !seq_S, !filter_app, !app_length, IH. cbn [Nat.add filter]. rewrite (Nat.add_comm n o). destruct (f (o + n)%nat); reflexivity.
Qed.
Lemma filter_ext_len (f g : nat -> bool) o n : (forall j, (o <= j < o + n)%nat -> f j = g j) -> List.length (filter f (seq o n)) = List.length (filter g (seq o n)).
Proof. intros H. f_equal. apply filter_ext_in. intros j Hj. apply in_seq in Hj. apply H. lia. Qed.
(** the bits kept by the count: all of them up to 100, all but 50 on each side beyond *)
Definition lo (n : nat) : nat := if (100 <? n)%nat then 50%nat else 0%nat.
Definition hi (n : nat) : nat := if (100 <? n)%nat then (n - 50)%nat else n.
Lemma cmp_core junk s1 s2 l1 l2 xa ya d sc : shows s1 l1 -> shows s2 l2 -> aligne_entier junk (cb l1) (cb l2) = Ok (xa, ya, d, sc) -> List.length ya = List.length xa ->
  (forall j, (j < List.length xa)%nat -> samp xa j = sampZ (cb l1) (Z.of_nat j + Z.max 0 (- d)) /\ samp ya j = sampZ (cb l2) (Z.of_nat j + Z.max 0 d)) ->
  let n := List.length xa in let ne := differences l1 l2 d (lo n) (hi n) in
  cmp_bits junk s1 s2 = Ok (mkcmp (map b2r (window l1 (Z.max 0 (- d)) n)) (map b2r (window l2 (Z.max 0 d) n)) ne (if (n =? 0)%nat then None else Some (INR ne / INR (hi n - lo n))) d 0 sc).
Proof.
  intros H1 H2 Ea Ly V n ne. unfold cmp_bits. rewrite (array_shows s1 l1 H1), (array_shows s2 l2 H2). cbn [bind]. fold (cb l1) (cb l2). rewrite Ea. cbn [bind].
  rewrite (reals_window xa l1 (Z.max 0 (- d))) by (intros j Hj; apply V; exact Hj). rewrite (reals_window ya l2 (Z.max 0 d)) by (intros j Hj; apply V; lia). rewrite Ly. fold n.
  set (w1 := window l1 (Z.max 0 (- d)) n). set (w2 := window l2 (Z.max 0 d) n). assert (L1 : List.length w1 = n) by (unfold w1, window; rewrite map_length, seq_length; reflexivity). assert (L2 : List.length w2 = n) by (unfold w2, window; rewrite map_length, seq_length; reflexivity).
  rewrite !trim_map, L1, L2. set (t1 := if (100 <? n)%nat then firstn (n - 100) (skipn 50 w1) else w1). set (t2 := if (100 <? n)%nat then firstn (n - 100) (skipn 50 w2) else w2).
  assert (T1 : List.length t1 = (hi n - lo n)%nat) by (unfold t1, hi, lo; destruct (Nat.ltb_spec 100 n); [rewrite firstn_length, skipn_length|]; lia). assert (T2 : List.length t2 = (hi n - lo n)%nat) by (unfold t2, hi, lo; destruct (Nat.ltb_spec 100 n); [rewrite firstn_length, skipn_length|]; lia).
  rewrite count_ok by lia. cbn [bind]. rewrite !map_length, L2, T1, T2.
  assert (N1 : forall j, (j < hi n - lo n)%nat -> nth j t1 false = bitZ l1 (Z.of_nat (j + lo n) + Z.max 0 (- d)) /\ nth j t2 false = bitZ l2 (Z.of_nat (j + lo n) + Z.max 0 d)).
  { intros j Hj. unfold t1, t2, hi, lo in *. destruct (Nat.ltb_spec 100 n).
    - rewrite !nth_firstn' by lia. rewrite !nth_skipn'. unfold w1, w2. rewrite !window_nth by lia. split; f_equal; lia.
    - unfold w1, w2. rewrite !window_nth by lia. split; f_equal; lia. }
  assert (C : List.length (filter (fun j => negb (Bool.eqb (nth j t1 false) (nth j t2 false))) (seq 0 (hi n - lo n))) = ne).
  { unfold ne, differences. rewrite <- (filter_shift _ (lo n)). apply filter_ext_len. intros j Hj. destruct (N1 j ltac:(lia)) as [-> ->]. reflexivity. }
  rewrite C. reflexivity.
Qed.
Lemma nth_bitZ l i : nth i l false = bitZ l (Z.of_nat i).
Proof. unfold bitZ. destruct (Z.ltb_spec (Z.of_nat i) 0); [lia|]. rewrite Nat2Z.id. reflexivity. Qed.
Lemma bitZ_in l z : bitZ l z = true -> (0 <= z < Z.of_nat (List.length l))%Z.
Proof. unfold bitZ. destruct (Z.ltb_spec z 0); [discriminate|]. intros H0. destruct (Nat.lt_ge_cases (Z.to_nat z) (List.length l)); [lia|]. rewrite nth_overflow in H0 by assumption. discriminate. Qed.
Lemma coinc_pos l1 l2 : In true l1 -> In true l2 -> exists m, (0 < coinc l1 l2 m)%nat.
Proof.
  intros I1 I2. destruct (In_nth l1 true false I1) as (a & Ha & Va). destruct (In_nth l2 true false I2) as (b & Hb & Vb). exists (Z.of_nat b - Z.of_nat a)%Z. unfold coinc. destruct (filter _ _) as [|q t] eqn:E; [|cbn; lia]. exfalso.
  assert (Q : In a (filter (fun c => nth c l1 false && bitZ l2 (Z.of_nat c + (Z.of_nat b - Z.of_nat a)))%bool (seq 0 (List.length l1)))). { apply filter_In. split; [apply in_seq; lia|]. rewrite Va. cbn [andb]. replace (Z.of_nat a + (Z.of_nat b - Z.of_nat a))%Z with (Z.of_nat b) by lia. rewrite <- nth_bitZ. exact Vb. }
  rewrite E in Q. destruct Q.
Qed.
