(** Proofs about rate adaptation. *)
From Coq Require Import Reals Lra Lia ZArith.
From Verif Require Import Base BaseLemmas RField Filters_Model Ra_Model Ra_Spec.
Local Open Scope R_scope.

Lemma ceil_spec x : x <= IZR (ceilZ x) < x + 1.
Proof. unfold ceilZ. rewrite opp_IZR. destruct (base_Int_part (- x)). lra. Qed.
Definition cnt (r : R) (N : nat) : nat := Z.to_nat (ceilZ (r * INR N)).
Lemma cnt_lt r N k : (k < cnt r N)%nat <-> INR k < r * INR N.
Proof.
  unfold cnt. destruct (ceil_spec (r * INR N)) as [A B]. rewrite (INR_IZR_INZ k). split; intros H.
  - assert (Q : (Z.of_nat k <= ceilZ (r * INR N) - 1)%Z) by lia. apply IZR_le in Q. rewrite minus_IZR in Q. lra.
  - assert (Q : (Z.of_nat k < ceilZ (r * INR N))%Z) by (apply lt_IZR; lra). lia.
Qed.
Lemma cnt_mono r N M : 0 < r -> (N <= M)%nat -> (cnt r N <= cnt r M)%nat.
Proof.
  intros Hr H. destruct (Nat.le_gt_cases (cnt r N) (cnt r M)) as [G|G]; [exact G|]. exfalso. apply cnt_lt in G. apply le_INR in H.
  assert (r * INR N <= r * INR M) by nra. assert (Q : INR (cnt r M) < r * INR M) by lra. apply cnt_lt in Q. lia.
Qed.
Lemma cnt_0 r : cnt r 0 = 0%nat.
Proof. destruct (cnt r 0) as [|n] eqn:E; [reflexivity|]. assert (Q : (n < cnt r 0)%nat) by lia. apply cnt_lt in Q. pose proof (pos_INR n). cbn in Q. lra. Qed.
Lemma cnt_bound r N : 0 < r -> r * INR N <= INR (cnt r N) < r * INR N + 1.
Proof.
  intros Hr. pose proof (pos_INR N). assert (0 <= r * INR N) by nra. unfold cnt. destruct (ceil_spec (r * INR N)) as [A B]. rewrite (INR_IZR_INZ (Z.to_nat _)), Z2Nat.id; [lra|].
  apply le_IZR. lra.
Qed.
Lemma div_lt r a b : 0 < r -> a / r < b <-> a < r * b.
Proof.
  intros Hr. split; intros H.
  - apply Rmult_lt_compat_r with (r := r) in H; [|exact Hr]. unfold Rdiv in H. rewrite Rmult_assoc, Rinv_l in H by lra. lra.
  - apply Rmult_lt_reg_r with r; [exact Hr|]. unfold Rdiv. rewrite Rmult_assoc, Rinv_l by lra. lra.
Qed.
Lemma cnt_iff r N k : 0 < r -> (k < cnt r N)%nat <-> INR k / r < INR N.
Proof. intros Hr. rewrite cnt_lt, div_lt by exact Hr. reflexivity. Qed.
Lemma int_part_eq x i : IZR i <= x < IZR i + 1 -> Int_part x = i.
Proof.
  intros H. destruct (base_Int_part x) as [A B]. assert (P1 : IZR i < IZR (Int_part x) + 1) by lra. assert (P2 : IZR (Int_part x) < IZR i + 1) by lra.
  rewrite <- plus_IZR in P1, P2. apply lt_IZR in P1, P2. lia.
Qed.

Section Simple.
  Variables (A : Type) (d : A) (K : nat) (itp : list A -> R -> res A) (f : list A -> R -> A) (r : R).
  Hypothesis Hr : 0 < r.
  Hypothesis HK : (0 < K)%nat.
  Hypothesis Hitp : forall w phi, length w = K -> 0 <= phi < 1 -> itp w phi = Ok (f w phi).
  Lemma while_ok fen i : length fen = K -> forall room k, INR i <= INR k / r -> (k <= cnt r (S i))%nat -> (cnt r (S i) <= k + room)%nat ->
    ra_while itp room (1 / r) fen (INR k / r - INR i) =
    Ok (INR (cnt r (S i)) / r - INR i, (room - (cnt r (S i) - k))%nat, map (fun q => f fen (INR q / r - INR i)) (seq k (cnt r (S i) - k))).
  Proof.
    intros L room. induction room as [|m IH]; intros k H0 H1 H2.
    - assert (E : k = cnt r (S i)) by lia. subst k. cbn [ra_while]. destruct (Rlt_dec _ 1) as [G|_].
      + exfalso. assert (Q : INR (cnt r (S i)) / r < INR (S i)) by (rewrite S_INR; lra). apply cnt_iff in Q; [lia|exact Hr].
      + rewrite Nat.sub_diag. reflexivity.
    - cbn [ra_while]. destruct (Nat.eq_dec k (cnt r (S i))) as [E|NE].
      + rewrite <- E, Nat.sub_diag. destruct (Rlt_dec _ 1) as [G|_]; [|reflexivity].
        exfalso. assert (Q : INR k / r < INR (S i)) by (rewrite S_INR; lra). apply cnt_iff in Q; [lia|exact Hr].
      + assert (Lt : (k < cnt r (S i))%nat) by lia. pose proof (proj1 (cnt_iff r (S i) k Hr) Lt) as Q. rewrite S_INR in Q.
        destruct (Rlt_dec _ 1) as [_|G]; [|lra]. rewrite Hitp by (try exact L; lra). cbn [bind].
        replace (INR k / r - INR i + 1 / r) with (INR (S k) / r - INR i) by (rewrite S_INR; field; lra).
        rewrite IH; [| |lia|lia].
        * cbn [bind]. replace (cnt r (S i) - k)%nat with (S (cnt r (S i) - S k)) by lia. cbn [seq map]. repeat f_equal; lia.
        * rewrite S_INR. assert (0 < / r) by (apply Rinv_0_lt_compat; exact Hr). unfold Rdiv in *. lra.
  Qed.
  (** output number q of the whole stream X *)
  Definition gout (X : list A) (q : nat) : A := f (last_samples d X K (Int_part (INR q / r))) (INR q / r - IZR (Int_part (INR q / r))).
  Lemma last_length X i : length (last_samples d X K i) = K.
  Proof. unfold last_samples. rewrite map_length, seq_length. reflexivity. Qed.
  Lemma shift_ok X i a : before d X i = a -> ra_shift (last_samples d X K (i - 1)) a = last_samples d X K i.
  Proof.
    intros <-. unfold ra_shift, last_samples. destruct K as [|k] eqn:EK; [lia|]. clear EK. cbn [seq map tl]. rewrite <- seq_shift, map_map.
    transitivity (map (fun j => before d X (i - Z.of_nat (S k) + 1 + Z.of_nat j)) (seq 0 k ++ [k])).
    - rewrite map_app. cbn [map]. f_equal; [apply map_ext; intros; f_equal; lia|]. do 2 f_equal. lia.
    - change [k] with [(0 + k)%nat]. rewrite <- seq_S. cbn [seq map]. rewrite <- seq_shift, map_map. reflexivity.
  Qed.
  Lemma cnt_phase i : INR i <= INR (cnt r i) / r.
  Proof. destruct (cnt_bound r i Hr) as [B _]. apply Rmult_le_reg_r with r; [exact Hr|]. unfold Rdiv. rewrite Rmult_assoc, Rinv_l by lra. lra. Qed.
  Lemma loop_ok X : forall x pre post room, X = pre ++ x ++ post -> (cnt r (length pre + length x) <= cnt r (length pre) + room)%nat ->
    let i := length pre in let n := length x in
    ra_loop itp (1 / r) room (mkra (INR (cnt r i) / r - INR i) (last_samples d X K (Z.of_nat i - 1))) x =
    Ok (mkra (INR (cnt r (i + n)) / r - INR (i + n)) (last_samples d X K (Z.of_nat (i + n) - 1)), map (gout X) (seq (cnt r i) (cnt r (i + n) - cnt r i))).
  Proof.
    intros x. induction x as [|a t IH]; intros pre post room E H i n.
    - unfold n. cbn [ra_loop length]. rewrite Nat.add_0_r, Nat.sub_diag. reflexivity.
    - cbn [ra_loop ra_fen ra_phase]. rewrite (shift_ok X (Z.of_nat i) a).
      2:{ unfold before. replace (Z.of_nat i <? 0)%Z with false by (symmetry; apply Z.ltb_ge; lia). rewrite Nat2Z.id, E. unfold i. rewrite app_nth2 by lia. rewrite Nat.sub_diag. reflexivity. }
      cbn [length] in H. assert (M1 : (cnt r i <= cnt r (S i))%nat) by (apply cnt_mono; [exact Hr|lia]). assert (M2 : (cnt r (S i) <= cnt r (i + n))%nat) by (apply cnt_mono; [exact Hr|unfold n; cbn [length]; lia]).
      fold i in H. replace (i + S (length t))%nat with (i + n)%nat in H by (unfold n; cbn [length]; lia).
      rewrite while_ok; [|apply last_length|apply cnt_phase|exact M1|lia]. cbn [bind fst snd].
      specialize (IH (pre ++ [a]) post (room - (cnt r (S i) - cnt r i))%nat). rewrite !app_length in IH. cbn [length] in IH. cbn zeta in IH.
      replace (length pre + 1)%nat with (S i) in IH by (unfold i; lia). replace (S i + length t)%nat with (i + n)%nat in IH by (unfold n; cbn [length]; lia).
      replace (INR (cnt r (S i)) / r - INR i - 1) with (INR (cnt r (S i)) / r - INR (S i)) by (rewrite S_INR; lra).
      replace (Z.of_nat i) with (Z.of_nat (S i) - 1)%Z by lia. rewrite IH; [|rewrite E, <- app_assoc; reflexivity|lia]. cbn [bind]. do 2 f_equal.
      replace (cnt r (i + n) - cnt r i)%nat with ((cnt r (S i) - cnt r i) + (cnt r (i + n) - cnt r (S i)))%nat by lia. rewrite seq_app, map_app. f_equal.
      + apply map_ext_in. intros q Hq. apply in_seq in Hq. unfold gout. assert (P : Int_part (INR q / r) = Z.of_nat i).
        { apply int_part_eq. rewrite <- INR_IZR_INZ. split.
          - apply Rle_trans with (1 := cnt_phase i). unfold Rdiv. apply Rmult_le_compat_r; [left; apply Rinv_0_lt_compat; exact Hr|]. apply le_INR. lia.
          - rewrite <- S_INR. apply cnt_iff; [exact Hr|]. lia. }
        rewrite P, <- INR_IZR_INZ. repeat f_equal. lia.
      + do 2 f_equal; lia.
  Qed.
  Lemma room_ok i n : (cnt r (i + n) <= cnt r i + Z.to_nat (ceilZ (r * INR n) + 10))%nat.
  Proof.
    pose proof (cnt_bound r i Hr). pose proof (cnt_bound r (i + n) Hr). destruct (ceil_spec (r * INR n)) as [C _]. rewrite plus_INR in *.
    apply INR_le. rewrite plus_INR. assert (Q : IZR (ceilZ (r * INR n) + 10) <= INR (Z.to_nat (ceilZ (r * INR n) + 10))) by (rewrite (INR_IZR_INZ (Z.to_nat _)); apply IZR_le; lia). rewrite plus_IZR in Q. lra.
  Qed.
  Lemma step_ok X x pre post : X = pre ++ x ++ post ->
    let i := length pre in let n := length x in
    ra_step itp r (mkra (INR (cnt r i) / r - INR i) (last_samples d X K (Z.of_nat i - 1))) x =
    Ok (mkra (INR (cnt r (i + n)) / r - INR (i + n)) (last_samples d X K (Z.of_nat (i + n) - 1)), map (gout X) (seq (cnt r i) (cnt r (i + n) - cnt r i))).
  Proof.
    intros E i n. unfold ra_step. fold n. destruct (Nat.eqb_spec n 0) as [Z|NZ].
    - rewrite Z, Nat.add_0_r, Nat.sub_diag. reflexivity.
    - apply (loop_ok X x pre post _ E). apply room_ok.
  Qed.
  Lemma run_ok X : forall blocks pre, X = pre ++ concat blocks ->
    let i := length pre in let n := length (concat blocks) in
    run (ra_step itp r) (mkra (INR (cnt r i) / r - INR i) (last_samples d X K (Z.of_nat i - 1))) blocks =
    Ok (mkra (INR (cnt r (i + n)) / r - INR (i + n)) (last_samples d X K (Z.of_nat (i + n) - 1)), map (gout X) (seq (cnt r i) (cnt r (i + n) - cnt r i))).
  Proof.
    intros blocks. induction blocks as [|b bs IH]; intros pre E i n.
    - unfold n. cbn [run concat length]. rewrite Nat.add_0_r, Nat.sub_diag. reflexivity.
    - cbn [run]. cbn [concat] in E. unfold i. rewrite (step_ok X b pre (concat bs) E). cbn [bind].
      specialize (IH (pre ++ b)). rewrite app_length in IH. cbn zeta in IH. rewrite IH by (rewrite E, app_assoc; reflexivity). cbn [bind]. fold i. unfold n. cbn [concat]. rewrite app_length, Nat.add_assoc.
      do 2 f_equal. rewrite <- map_app. f_equal.
      assert (M1 : (cnt r i <= cnt r (i + length b))%nat) by (apply cnt_mono; [exact Hr|lia]).
      assert (M2 : (cnt r (i + length b) <= cnt r (i + length b + length (concat bs)))%nat) by (apply cnt_mono; [exact Hr|lia]).
      replace (cnt r (i + length b + length (concat bs)) - cnt r i)%nat with ((cnt r (i + length b) - cnt r i) + (cnt r (i + length b + length (concat bs)) - cnt r (i + length b)))%nat by lia.
      rewrite seq_app. do 2 f_equal. lia.
  Qed.
  Definition gall (X : list A) : list A := map (gout X) (seq 0 (cnt r (length X))).
  Lemma run_init blocks : exists s, run (ra_step itp r) (ra_init d K) blocks = Ok (s, gall (concat blocks)).
  Proof.
    pose proof (run_ok (concat blocks) blocks [] eq_refl) as Q. cbn zeta in Q. cbn [length] in Q. rewrite cnt_0 in Q. cbn [INR] in Q.
    replace (mkra (0 / r - 0) (last_samples d (concat blocks) K (Z.of_nat 0 - 1))) with (ra_init d K) in Q.
    - eexists. rewrite Q. unfold gall. rewrite Nat.sub_0_r. reflexivity.
    - unfold ra_init. f_equal; [field; lra|]. unfold last_samples. 
      assert (G : forall (g : nat -> A) a n, (forall j, (j < n)%nat -> g (a + j)%nat = d) -> map g (seq a n) = repeat d n).
      { intros g a n. revert a. induction n as [|n IHn]; intros a H; [reflexivity|]. cbn [seq map repeat]. f_equal; [rewrite <- (H 0%nat) by lia; f_equal; lia|]. apply IHn. intros j Hj. rewrite <- (H (S j)) by lia. f_equal. lia. }
      symmetry. apply G. intros j Hj. unfold before. replace (_ <? 0)%Z with true by (symmetry; apply Z.ltb_lt; lia). reflexivity.
  Qed.
  Lemma gall_spec X : resampled d K f r X (gall X).
  Proof.
    assert (L : length (gall X) = cnt r (length X)) by (unfold gall; rewrite map_length, seq_length; reflexivity). split.
    - intros k. rewrite L. apply cnt_iff. exact Hr.
    - intros k Hk. rewrite L in Hk. exists (Int_part (INR k / r)), (INR k / r - IZR (Int_part (INR k / r))). split; [ring|]. destruct (base_Int_part (INR k / r)). split; [lra|].
      unfold gall. rewrite nth_indep with (d' := gout X 0) by (rewrite map_length, seq_length; exact Hk). rewrite map_nth, seq_nth by exact Hk. reflexivity.
  Qed.
End Simple.
