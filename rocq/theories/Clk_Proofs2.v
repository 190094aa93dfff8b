From Coq Require Import Reals ZArith Lra Lia Psatz Field.
From Verif Require Import Base BaseLemmas RField DftSys ComplexSys Rii_Model Filters_Model Filters_Proofs Interp_Model Fest_Proofs3 Clk_Model Clk_Spec Clk_Proofs.
Local Open Scope R_scope.

Section Clock.
  Variables (c : clkconfig) (h : R -> list R) (X : list Complex).
  Let it := ck_itrp c. Let K := it_K it. Let N1 := ck_osf c. Let K1 := INR N1. Let K2 := ted_osf (ck_ted c). Let g := clk_gain c.
  Hypotheses (V : valid it h) (P2 : (0 < K2)%nat) (P1 : (3 <= N1)%nat) (PS : (N1 * K2 + 4 * K2 <= 4 * N1)%nat).
  Local Notation T := (instant h K K1 K2 g X).
  Local Notation s := (value h K K1 K2 g X).
  Definition pa k : Complex := snd (fst (reading h K K1 K2 g X k)).
  Definition pb k : Complex := snd (reading h K K1 K2 g X k).
  Definition dl k : R := if (k mod K2 =? K2 - 1)%nat then clamp (g * fst ((s k - pb k) * conj (pa k))%K) (- K1 / 4) (K1 / 4) else 0.
  Lemma T_0 : T 0 = K1 / 2 - 1. Proof. reflexivity. Qed.
  Lemma T_S k : T (S k) = T k + K1 / INR K2 - dl k.
  Proof. unfold instant, dl, value, instant, pa, pb. cbn [reading]. destruct (reading h K K1 K2 g X k) as [[t a] b]. reflexivity. Qed.
  Lemma pa_S k : pa (S k) = s k.
  Proof. unfold value, instant, pa. cbn [reading]. destruct (reading h K K1 K2 g X k) as [[t a] b]. reflexivity. Qed.
  Lemma pb_S k : pb (S k) = pa k.
  Proof. unfold pa, pb. cbn [reading]. destruct (reading h K K1 K2 g X k) as [[t a] b]. reflexivity. Qed.
  Lemma K1_pos : 3 <= K1. Proof using P1. unfold K1. replace 3 with (INR 3) by (cbn; lra). apply le_INR. exact P1. Qed.
  Lemma dl_range k : - (K1 / 4) <= dl k <= K1 / 4.
  Proof using P1. pose proof K1_pos. unfold dl. destruct (_ =? _)%nat; [|lra]. replace (- K1 / 4) with (- (K1 / 4)) by field. apply clamp_range. lra. Qed.
  Lemma step_ge : 1 + K1 / 4 <= K1 / INR K2.
  Proof using P1 P2 PS.
    assert (H2 : 0 < INR K2) by (apply lt_0_INR; exact P2). assert (H : INR (N1 * K2 + 4 * K2) <= INR (4 * N1)) by (apply le_INR; exact PS).
    rewrite plus_INR, !mult_INR in H. change (INR 4) with (1 + 1 + 1 + 1) in H. fold K1 in H.
    apply (Rmult_le_reg_r (INR K2)); [exact H2|]. unfold Rdiv. rewrite (Rmult_assoc K1), Rinv_l, Rmult_1_r by lra. lra.
  Qed.
  Lemma T_inc k : T k + 1 <= T (S k).
  Proof using P1 P2 PS. rewrite T_S. pose proof step_ge. pose proof (dl_range k). lra. Qed.
  Lemma T_mono j k : (j <= k)%nat -> T j + INR (k - j) <= T k.
  Proof using P1 P2 PS.
    intros H. induction k as [|k IH]; [assert (j = 0%nat) by lia; subst; cbn; lra|]. destruct (Nat.eq_dec j (S k)) as [->|N]; [rewrite Nat.sub_diag; cbn; lra|].
    specialize (IH ltac:(lia)). rewrite Nat.sub_succ_l, S_INR by lia. pose proof (T_inc k). lra.
  Qed.
  Lemma T0_pos : 0 < T 0. Proof using P1. rewrite T_0. pose proof K1_pos. lra. Qed.

  Definition Inv (n k : nat) (st : clk) : Prop :=
    ck_phase st = T k - INR n + 1 /\ INR n < T k /\ (k = 0%nat \/ T (k - 1) <= INR n) /\ ck_cnt st = (k mod K2)%nat /\ winok X K n (ck_win st) /\ ck_idx st = (n mod K)%nat /\ ck_x2 st = pa k /\ ck_x1 st = pb k.
  Lemma mod_next a m : (0 < m)%nat -> (S a mod m = if a mod m =? m - 1 then 0 else S (a mod m))%nat.
  Proof.
    intros Hm. pose proof (Nat.div_mod a m ltac:(lia)) as D. pose proof (Nat.mod_upper_bound a m ltac:(lia)) as U. destruct (Nat.eqb_spec (a mod m) (m - 1)) as [E|E].
    - symmetry. apply (Nat.mod_unique _ _ (S (a / m))); [lia|]. rewrite E in D. rewrite Nat.mul_succ_r. lia.
    - symmetry. apply (Nat.mod_unique _ _ (a / m)); lia.
  Qed.
  Lemma div_next a m : (0 < m)%nat -> (S a / m = if a mod m =? m - 1 then S (a / m) else a / m)%nat.
  Proof.
    intros Hm. pose proof (Nat.div_mod a m ltac:(lia)) as D. pose proof (Nat.mod_upper_bound a m ltac:(lia)) as U. destruct (Nat.eqb_spec (a mod m) (m - 1)) as [E|E].
    - symmetry. apply (Nat.div_unique _ _ _ 0); [lia|]. rewrite E in D. rewrite Nat.mul_succ_r. lia.
    - symmetry. apply (Nat.div_unique _ _ _ (S (a mod m))); lia.
  Qed.
  Lemma sample_ok n k st nmax o : (n < List.length X)%nat -> Inv n k st ->
    (INR (S n) < T k /\ exists st', clk_sample c nmax (st, o) (samp X n) = Ok (st', o, []) /\ Inv (S n) k st') \/
    (T k <= INR (S n) /\ (k mod K2 <> K2 - 1)%nat /\ exists st', clk_sample c nmax (st, o) (samp X n) = Ok (st', o, []) /\ Inv (S n) (S k) st') \/
    (T k <= INR (S n) /\ (k mod K2 = K2 - 1)%nat /\ (o < nmax)%nat /\ exists st', clk_sample c nmax (st, o) (samp X n) = Ok (st', S o, [s k]) /\ Inv (S n) (S k) st') \/
    (T k <= INR (S n) /\ (k mod K2 = K2 - 1)%nat /\ (nmax <= o)%nat /\ clk_sample c nmax (st, o) (samp X n) = Exc).
  Proof using V P1 P2 PS.
    intros Hn (Ph & Lt & Pv & Cn & W & Ix & A2 & A1). destruct V as [HK _]. fold K in HK.
    destruct (winok_step X K n (ck_win st) HK W) as [w [Ew W']]. unfold clk_sample. fold K1 K2 it K g.
    rewrite Ix. replace (vset (ck_win st) (n mod K) (samp X n)) with (Ok w) by (symmetry; exact Ew). cbn [bind]. unfold imod. destruct (Nat.eqb_spec K 0); [lia|]. cbn [bind].
    assert (Ei : ((n mod K + 1) mod K = S n mod K)%nat) by (rewrite Nat.add_mod_idemp_l by lia; f_equal; lia). rewrite Ei. rewrite Ph.
    replace (T k - INR n + 1 - 1) with (T k - INR n) by ring. rewrite S_INR. destruct (Rlt_dec 1 (T k - INR n)) as [L1|L1].
    - left. split; [lra|]. eexists. split; [reflexivity|]. unfold Inv. cbn [ck_phase ck_cnt ck_win ck_idx ck_x1 ck_x2]. rewrite S_INR.
      split; [ring|]. split; [lra|]. split; [destruct Pv; [left; assumption|right; lra]|]. split; [exact Cn|]. split; [exact W'|]. split; [reflexivity|]. split; assumption.
    - right. assert (Tn : INR n < T k <= INR n + 1) by lra.
      assert (IR : itrp_run it w (S n mod K) (T k - INR n) = Ok (s k)).
      { rewrite (itrp_run_ok it h w (S n mod K) (T k - INR n) V (proj1 W') ltac:(lra)). f_equal. fold K. unfold value, read.
        assert (CE : ceilZ (T k) = Z.of_nat (S n)) by (apply ceil_unique; rewrite <- INR_IZR_INZ, S_INR; lra). rewrite CE. replace (Z.of_nat (S n) - 1)%Z with (Z.of_nat n) by lia.
        apply (sum_ext Cring). intros m Hm. rewrite <- INR_IZR_INZ. f_equal. rewrite Nat.add_mod_idemp_l by lia. destruct W' as [_ W2]. etransitivity; [apply W2; exact Hm|]. f_equal. lia. }
      rewrite IR. cbn [bind]. rewrite Cn, A1, A2. pose proof (T_inc k) as TI. pose proof (T_S k) as TS. unfold dl in TS.
      pose proof (mod_next k K2 P2) as MN. destruct (Nat.eqb_spec (k mod K2) (K2 - 1)) as [Ek|Ek].
      + right. destruct (Nat.ltb_spec o nmax) as [Lo|Lo]; [left|right; repeat split; try assumption; lra].
        split; [lra|]. split; [exact Ek|]. split; [exact Lo|]. eexists. split; [rewrite Nat.add_1_r; reflexivity|]. unfold Inv. cbn [ck_phase ck_cnt ck_win ck_idx ck_x1 ck_x2]. rewrite S_INR.
        split; [change (INR (ck_osf c)) with K1; rewrite TS; ring|]. split; [lra|]. split; [right; replace (S k - 1)%nat with k by lia; lra|]. split; [symmetry; exact MN|]. split; [exact W'|]. split; [reflexivity|]. split; [symmetry; apply pa_S|symmetry; apply pb_S].
      + left. split; [lra|]. split; [exact Ek|]. eexists. split; [reflexivity|]. unfold Inv. cbn [ck_phase ck_cnt ck_win ck_idx ck_x1 ck_x2]. rewrite S_INR.
        split; [change (INR (ck_osf c)) with K1; rewrite TS; ring|]. split; [lra|]. split; [right; replace (S k - 1)%nat with k by lia; lra|]. split; [rewrite MN; lia|]. split; [exact W'|]. split; [reflexivity|]. split; [symmetry; apply pa_S|symmetry; apply pb_S].
  Qed.
  Definition outs (k k' : nat) : list Complex := map (fun j => s (K2 * (j + 1) - 1)) (seq (k / K2) (k' / K2 - k / K2)).
  Lemma outs_same k k' : (k' / K2 = k / K2)%nat -> outs k k' = [].
  Proof. intros E. unfold outs. rewrite E, Nat.sub_diag. reflexivity. Qed.
  Lemma outs_cons k k' : (k mod K2 = K2 - 1)%nat -> (S k <= k')%nat -> outs k k' = s k :: outs (S k) k'.
  Proof using P1 P2 PS.
    intros E H. unfold outs. pose proof (div_next k K2 P2) as D. rewrite E, Nat.eqb_refl in D. pose proof (Nat.div_le_mono (S k) k' K2 ltac:(lia) H) as M. rewrite D in *.
    replace (k' / K2 - k / K2)%nat with (S (k' / K2 - S (k / K2))) by lia. cbn [seq map]. f_equal. f_equal. pose proof (Nat.div_mod k K2 ltac:(lia)). rewrite Nat.mul_add_distr_l. lia.
  Qed.
  Lemma outs_skip k k' : (k mod K2 <> K2 - 1)%nat -> outs k k' = outs (S k) k'.
  Proof using P1 P2 PS. intros E. unfold outs. rewrite (div_next k K2 P2). destruct (Nat.eqb_spec (k mod K2) (K2 - 1)); [contradiction|reflexivity]. Qed.
  Lemma outs_length k k' : List.length (outs k k') = (k' / K2 - k / K2)%nat.
  Proof. unfold outs. rewrite map_length. apply seq_length. Qed.
  Lemma flat_ok nmax b : forall n k st o, (n + List.length b <= List.length X)%nat -> (forall i, (i < List.length b)%nat -> samp b i = samp X (n + i)) -> Inv n k st ->
    (exists st' k', (k <= k')%nat /\ flat_st (clk_sample c nmax) (st, o) b = Ok ((st', (o + (k' / K2 - k / K2))%nat), outs k k') /\ Inv (n + List.length b) k' st') \/
    (flat_st (clk_sample c nmax) (st, o) b = Exc /\ exists k', (k < k')%nat /\ T (k' - 1) <= INR (n + List.length b) /\ (nmax < o + (k' / K2 - k / K2))%nat).
  Proof using V P1 P2 PS.
    induction b as [|v b IH]; intros n k st o Hl Hb I.
    - left. exists st, k. split; [lia|]. cbn [flat_st List.length]. rewrite outs_same by reflexivity. rewrite Nat.sub_diag, !Nat.add_0_r. split; [reflexivity|exact I].
    - cbn [List.length] in *. assert (Ev : v = samp X n) by (specialize (Hb 0%nat ltac:(lia)); rewrite Nat.add_0_r in Hb; exact Hb). cbn [flat_st]. rewrite Ev.
      assert (Hb' : forall i, (i < List.length b)%nat -> samp b i = samp X (S n + i)) by (intros i Hi; specialize (Hb (S i) ltac:(lia)); rewrite Nat.add_succ_r in Hb; exact Hb).
      replace (n + S (List.length b))%nat with (S n + List.length b)%nat by lia.
      destruct (sample_ok n k st nmax o ltac:(lia) I) as [[_ [st1 [E1 I1]]]|[[Tk [Mk [st1 [E1 I1]]]]|[[Tk [Mk [Lo [st1 [E1 I1]]]]]|[Tk [Mk [Lo E1]]]]]]; rewrite E1; cbn [bind].
      + destruct (IH (S n) k st1 o ltac:(lia) Hb' I1) as [[st' [k' [L [E I']]]]|[E Q]]; rewrite E; cbn [bind].
        * left. exists st', k'. split; [exact L|]. split; [reflexivity|exact I'].
        * right. split; [reflexivity|exact Q].
      + pose proof (div_next k K2 P2) as D. destruct (Nat.eqb_spec (k mod K2) (K2 - 1)) as [|_]; [contradiction|].
        destruct (IH (S n) (S k) st1 o ltac:(lia) Hb' I1) as [[st' [k' [L [E I']]]]|[E [k' [L [Q R]]]]]; rewrite E; cbn [bind]; rewrite D in *.
        * left. exists st', k'. split; [lia|]. rewrite (outs_skip k k') by exact Mk. split; [reflexivity|exact I'].
        * right. split; [reflexivity|]. exists k'. split; [lia|]. split; assumption.
      + pose proof (div_next k K2 P2) as D. rewrite Mk, Nat.eqb_refl in D.
        destruct (IH (S n) (S k) st1 (S o) ltac:(lia) Hb' I1) as [[st' [k' [L [E I']]]]|[E [k' [L [Q R]]]]]; rewrite E; cbn [bind]; rewrite D in *.
        * left. exists st', k'. split; [lia|]. rewrite (outs_cons k k') by (try exact Mk; lia). pose proof (Nat.div_le_mono (S k) k' K2 ltac:(lia) L). rewrite D in *.
          replace (o + (k' / K2 - k / K2))%nat with (S o + (k' / K2 - S (k / K2)))%nat by lia. split; [reflexivity|exact I'].
        * right. split; [reflexivity|]. exists k'. split; [lia|]. split; [exact Q|]. lia.
      + right. split; [reflexivity|]. exists (S k). split; [lia|]. split.
        * replace (S k - 1)%nat with k by lia. eapply Rle_trans; [exact Tk|]. apply le_INR. lia.
        * pose proof (div_next k K2 P2) as D. rewrite Mk, Nat.eqb_refl in D. lia.
  Qed.

  (** *** Spacing of the outputs *)
  Lemma after_out q j : (1 <= j <= K2)%nat -> T (K2 * (q + 1) - 1 + j) = T (K2 * (q + 1) - 1) + INR j * (K1 / INR K2) - dl (K2 * (q + 1) - 1).
  Proof using P1 P2 PS.
    intros Hj. induction j as [|j IH]; [lia|]. rewrite Nat.add_succ_r, T_S, S_INR. destruct (Nat.eq_dec j 0) as [->|N]; [rewrite Nat.add_0_r; cbn [INR]; ring|].
    rewrite IH by lia. assert (Z : dl (K2 * (q + 1) - 1 + j) = 0).
    { unfold dl. assert (E : ((K2 * (q + 1) - 1 + j) mod K2 = j - 1)%nat) by (symmetry; apply (Nat.mod_unique _ _ (q + 1)); lia). rewrite E. destruct (Nat.eqb_spec (j - 1) (K2 - 1)); [lia|reflexivity]. }
    rewrite Z. ring.
  Qed.
  Lemma out_step q : T (K2 * (S q + 1) - 1) = T (K2 * (q + 1) - 1) + K1 - dl (K2 * (q + 1) - 1).
  Proof using P1 P2 PS.
    replace (K2 * (S q + 1) - 1)%nat with (K2 * (q + 1) - 1 + K2)%nat by lia. rewrite after_out by lia. assert (0 < INR K2) by (apply lt_0_INR; exact P2). field. lra.
  Qed.
  Lemma out_spacing q : 3 / 4 * K1 <= T (K2 * (S q + 1) - 1) - T (K2 * (q + 1) - 1) <= 5 / 4 * K1.
  Proof using P1 P2 PS. rewrite out_step. pose proof (dl_range (K2 * (q + 1) - 1)). lra. Qed.
  Lemma out_far q m : T (K2 * (q + 1) - 1) + INR m * (3 / 4 * K1) <= T (K2 * (q + m + 1) - 1).
  Proof using P1 P2 PS. induction m as [|m IH]; [rewrite Nat.add_0_r; cbn [INR]; lra|]. rewrite S_INR. pose proof (out_spacing (q + m)) as Sp. replace (q + S m)%nat with (S (q + m)) by lia. lra. Qed.
  Lemma no_overflow n k k' len : (4 * len <= 15 * N1)%nat -> INR n < T k -> (k < k')%nat -> T (k' - 1) <= INR (n + len) -> (k' / K2 - k / K2 <= 2 + len / N1)%nat.
  Proof using P1 P2 PS.
    intros HL Lt Lk Le. destruct (Nat.le_gt_cases (k' / K2 - k / K2) (2 + len / N1)) as [|G]; [assumption|]. exfalso. set (q := (k / K2)%nat) in *. set (q' := (k' / K2)%nat) in *. set (d := (len / N1)%nat) in *.
    pose proof (Nat.div_mod k K2 ltac:(lia)) as D1. pose proof (Nat.div_mod k' K2 ltac:(lia)) as D2. fold q in D1. fold q' in D2. pose proof (Nat.mod_upper_bound k K2 ltac:(lia)) as U1. pose proof (Nat.mod_upper_bound k' K2 ltac:(lia)) as U2.
    pose proof (T_mono k (K2 * (q + 1) - 1) ltac:(lia)) as M1. pose proof (T_mono (K2 * (q + (q' - 1 - q) + 1) - 1) (k' - 1)) as M2. replace (q + (q' - 1 - q) + 1)%nat with q' in M2 by lia. specialize (M2 ltac:(nia)).
    pose proof (out_far q (q' - 1 - q)) as F. replace (q + (q' - 1 - q) + 1)%nat with q' in F by lia. pose proof (pos_INR (K2 * (q + 1) - 1 - k)) as N1p. pose proof (pos_INR (k' - 1 - (K2 * q' - 1))) as N2p. rewrite plus_INR in Le.
    assert (F2 : INR (q' - 1 - q) * (3 / 4 * K1) < INR len) by lra.
    assert (C : INR (2 + d) <= INR (q' - 1 - q)) by (apply le_INR; lia). pose proof K1_pos as KP. assert (F3 : INR (2 + d) * (3 / 4 * K1) < INR len) by nra.
    assert (F4 : INR ((2 + d) * 3 * N1) < INR (4 * len)). { rewrite !mult_INR. fold K1. change (INR 3) with (1 + 1 + 1). change (INR 4) with (1 + 1 + 1 + 1). nra. }
    apply INR_lt in F4. pose proof (Nat.div_mod len N1 ltac:(lia)) as D. fold d in D. pose proof (Nat.mod_upper_bound len N1 ltac:(lia)) as U. assert (Hd : (d <= 2 \/ 3 <= d)%nat) by lia. destruct Hd as [Hd|Hd]; nia.
  Qed.
  Lemma block_ok b n k st : (n + List.length b <= List.length X)%nat -> (forall i, (i < List.length b)%nat -> samp b i = samp X (n + i)) -> Inv n k st ->
    (exists st' k', (k <= k')%nat /\ clk_step c st b = Ok (st', outs k k') /\ Inv (n + List.length b) k' st') \/ (clk_step c st b = Exc /\ (15 * N1 < 4 * List.length b)%nat).
  Proof using V P1 P2 PS.
    intros Hl Hb I. unfold clk_step. fold N1. destruct (Nat.eqb_spec N1 0); [lia|]. destruct (flat_ok (2 + List.length b / N1) b n k st 0 Hl Hb I) as [[st' [k' [L [E I']]]]|[E [k' [L [Q R]]]]]; rewrite E; cbn [bind fst].
    - left. exists st', k'. split; [exact L|]. split; [reflexivity|exact I'].
    - right. split; [reflexivity|]. destruct (Nat.le_gt_cases (4 * List.length b) (15 * N1)) as [Q2|Q2]; [|exact Q2]. exfalso. destruct I as (_ & Lt & _). pose proof (no_overflow n k k' (List.length b) Q2 Lt L Q). lia.
  Qed.
  Lemma outs_app k k1 k2 : (k <= k1)%nat -> (k1 <= k2)%nat -> outs k k1 ++ outs k1 k2 = outs k k2.
  Proof using P1 P2 PS.
    intros A B. unfold outs. pose proof (Nat.div_le_mono k k1 K2 ltac:(lia) A). pose proof (Nat.div_le_mono k1 k2 K2 ltac:(lia) B).
    replace (k2 / K2 - k / K2)%nat with ((k1 / K2 - k / K2) + (k2 / K2 - k1 / K2))%nat by lia. rewrite seq_app, map_app. f_equal. do 2 f_equal. lia.
  Qed.
  Lemma blocks_ok bs : forall n k st, (n + List.length (concat bs) <= List.length X)%nat -> (forall i, (i < List.length (concat bs))%nat -> samp (concat bs) i = samp X (n + i)) -> Inv n k st ->
    (exists st' k', (k <= k')%nat /\ run (clk_step c) st bs = Ok (st', outs k k') /\ Inv (n + List.length (concat bs)) k' st') \/ (run (clk_step c) st bs = Exc /\ exists b, In b bs /\ (15 * N1 < 4 * List.length b)%nat).
  Proof using V P1 P2 PS.
    induction bs as [|b bs IH]; intros n k st Hl Hb I.
    - left. exists st, k. split; [lia|]. cbn [run concat List.length]. rewrite outs_same, Nat.add_0_r by reflexivity. split; [reflexivity|exact I].
    - cbn [concat] in *. rewrite app_length in *. cbn [run].
      assert (H1 : forall i, (i < List.length b)%nat -> samp b i = samp X (n + i)). { intros i Hi. specialize (Hb i ltac:(lia)). unfold samp in *. rewrite app_nth1 in Hb by exact Hi. exact Hb. }
      assert (H2 : forall i, (i < List.length (concat bs))%nat -> samp (concat bs) i = samp X (n + List.length b + i)).
      { intros i Hi. specialize (Hb (List.length b + i)%nat ltac:(lia)). unfold samp in *. rewrite app_nth2_plus in Hb. rewrite <- Nat.add_assoc. exact Hb. }
      destruct (block_ok b n k st ltac:(lia) H1 I) as [[st1 [k1 [L1 [E1 I1]]]]|[E1 Q]]; rewrite E1; cbn [bind]; [|right; split; [reflexivity|exists b; split; [left; reflexivity|exact Q]]].
      destruct (IH (n + List.length b)%nat k1 st1 ltac:(lia) H2 I1) as [[st2 [k2 [L2 [E2 I2]]]]|[E2 [b' [B1 B2]]]]; rewrite E2; cbn [bind]; [|right; split; [reflexivity|exists b'; split; [right; exact B1|exact B2]]].
      left. exists st2, k2. split; [lia|]. rewrite outs_app by assumption. split; [reflexivity|]. rewrite Nat.add_assoc. exact I2.
  Qed.
  Lemma init_ok : exists st, clk_init c = Ok st /\ Inv 0 0 st.
  Proof using P1 P2 PS.
    unfold clk_init. fold K2 it K N1. change (INR N1) with K1. destruct (Nat.eqb_spec K2 0); [lia|]. eexists. split; [reflexivity|]. unfold Inv. cbn [ck_phase ck_cnt ck_win ck_idx ck_x1 ck_x2 INR]. fold K1.
    split; [rewrite T_0; ring|]. split; [apply T0_pos|]. split; [left; reflexivity|]. split; [symmetry; apply Nat.mod_small; lia|]. split; [apply winok_init|]. split; [|split; reflexivity]. destruct K as [|k]; [reflexivity|]. symmetry. apply Nat.mod_small. lia.
  Qed.
  Lemma final n k st q : Inv n k st -> ((q < k / K2)%nat <-> T (K2 * (q + 1) - 1) <= INR n).
  Proof using P1 P2 PS.
    intros (_ & Lt & Pv & _). pose proof (Nat.div_mod k K2 ltac:(lia)) as D. pose proof (Nat.mod_upper_bound k K2 ltac:(lia)) as U. split.
    - intros H. assert (Q : (K2 * (q + 1) - 1 <= k - 1)%nat) by nia. destruct Pv as [->|Pv]; [rewrite Nat.div_0_l in H by lia; lia|]. pose proof (T_mono _ _ Q). pose proof (pos_INR (k - 1 - (K2 * (q + 1) - 1))). lra.
    - intros H. destruct (Nat.lt_ge_cases q (k / K2)) as [|G]; [assumption|]. exfalso. assert (Q : (k <= K2 * (q + 1) - 1)%nat) by nia. pose proof (T_mono _ _ Q). pose proof (pos_INR (K2 * (q + 1) - 1 - k)). lra.
  Qed.
End Clock.
