From Coq Require Import List Arith ZArith Reals Lia Lra Field.
From Verif Require Import Base BaseLemmas DftSys ComplexSys Filters_Model Filters_Proofs Fourier_Model Fourier_Proofs Fourier_Proofs2 Fourier_Proofs3 Fourier_Spec
  Freq_Proofs2 Sig_Proofs Del_Model Chn_Spec Fdt_Model Fdt_Spec Fdt_Proofs Fdt_Proofs2.
Import ListNotations.
Local Open Scope R_scope.

Lemma Ok_inj {A} (a b : A) : Ok a = Ok b -> a = b.
Proof. congruence. Qed.
(** ** rééchan_freq on the original grid *)
Lemma roundZ_near n2 r : INR n2 - 1 / 2 <= r < INR n2 + 1 / 2 -> 0 <= r -> Z.to_nat (roundZ r) = n2.
Proof.
  intros H H0. unfold roundZ. destruct (Rle_dec 0 r); [|lra]. rewrite (Int_part_spec (Z.of_nat n2)) by (rewrite <- INR_IZR_INZ; lra). apply Nat2Z.id.
Qed.
Lemma refreq_grid reel junk (x : list C) h L y : length x = (2 * h)%nat -> (0 < h)%nat -> (2 <= L)%nat -> (2 * h * L <= 2 ^ 29)%nat ->
  (reel = true -> is_real (F := Complex) x) ->
  refreq reel junk x (INR L) = Ok y -> length y = (2 * h * L)%nat /\ forall i, (i < 2 * h)%nat -> nth (L * i) y (0, 0) = (fst (nth i x (0, 0)), 0).
Proof.
  intros Lx Hh HL Hmax HR. assert (E2 : Z.to_nat (roundZ (INR (length x) * INR L)) = (2 * h * L)%nat) by (rewrite Lx, <- mult_INR, roundZ_INR; apply Nat2Z.id).
  assert (P : (2 * h <= 2 * h * L)%nat) by nia. assert (2 <= INR L) by (change 2 with (INR 2); apply le_INR; exact HL).
  pose proof (refreq_ok reel junk x (INR L)) as K. cbv zeta in K. rewrite E2, Lx in K.
  rewrite K; [|lia|lia|lra|lra|exact HR]. intros HE. apply Ok_inj in HE. subst y. split; [rewrite map_length, seq_length; reflexivity|]. intros i Hi.
  assert (HLi : (L * i < 2 * h * L)%nat) by nia.
  rewrite (map_nth0 _ (seq 0 (2 * h * L)) (L * i) 0%nat) by (rewrite seq_length; exact HLi). rewrite seq_nth, Nat.add_0_l by exact HLi.
  assert (B : bw (2 * h) (2 * h * L) = h) by (unfold bw; rewrite Nat.min_l by exact P; rewrite Nat.mul_comm; apply Nat.div_mul; lia).
  rewrite B. pose proof (resamp_grid Complex h L i x Hh ltac:(lia) Lx Hi) as G. f_equal.
  rewrite (f_equal fst G). change (rt (d := Complex) L) with ((sqrt (INR L), 0) : C).
  assert (S : sqrt (INR L) <> 0) by (assert (Q : 0 < INR L) by lra; pose proof (sqrt_lt_R0 _ Q); lra).
  change (samp (K := Complex) x i) with (nth i x ((0, 0) : C)). destruct (nth i x (0, 0)) as [a b]. cbn. unfold Cnorm2. cbn. field. exact S.
Qed.
Lemma refreq_snd reel junk x lom y : lom <> 1 -> refreq reel junk x lom = Ok y -> Forall (fun v => snd v = 0) y.
Proof.
  intros H. unfold refreq. destruct (Req_EM_T lom 1); [lra|]. cbv zeta.
  destruct (if reel then _ else _) as [X| | |]; cbn [bind]; try discriminate.
  intros HE. repeat match type of HE with bind ?o _ = _ => destruct o eqn:?; cbn [bind] in HE; try discriminate HE end.
  apply Ok_inj in HE. subst y. apply Forall_forall. intros v Hv. apply in_map_iff in Hv. destruct Hv as [w [<- _]]. reflexivity.
Qed.

(** ** czt *)
Lemma czt_size junk x m s z0 : (0 < length x)%nat -> (0 < m)%nat -> (length x + 2 * m <= 2 ^ 29)%nat -> length x <> m -> czt junk x m s z0 = Exc.
Proof.
  intros Hn Hm Hmax Hne. unfold czt. set (n := length x) in *. cbv zeta. set (nm := Nat.max n m).
  set (h0 := map _ (seq 0 nm)). set (h := h0 ++ map _ (seq nm (nm - 1))).
  set (g := map _ (seq 0 n)).
  assert (Lh : length h = (2 * nm - 1)%nat). { unfold h, h0. rewrite app_length, !map_length, !seq_length. lia. }
  assert (Lg : length g = n) by (unfold g; rewrite map_length, seq_length; reflexivity).
  unfold seg at 1. rewrite Lh. destruct (Nat.leb_spec (nm - 1 + m) (2 * nm - 1)) as [_|C]; [|lia]. cbn [bind].
  set (a := firstn m (skipn (nm - 1) h)). assert (La : length a = m) by (unfold a; rewrite firstn_length, skipn_length; lia).
  unfold hd_set at 1, set_seg at 1. rewrite repeat_length, La. cbn [Nat.add]. destruct (Nat.leb_spec m (m + n - 1)) as [_|C]; [|lia]. cbn [bind].
  set (hc := firstn 0 _ ++ a ++ skipn m _). assert (Lhc : length hc = (m + n - 1)%nat). { unfold hc. cbn [firstn app]. rewrite app_length, skipn_length, repeat_length, La. lia. }
  unfold seg at 1. rewrite Lh. destruct (Nat.leb_spec (nm - n + (n - 1)) (2 * nm - 1)) as [_|C]; [|lia]. cbn [bind].
  set (b := firstn (n - 1) (skipn (nm - n) h)). assert (Lb : length b = (n - 1)%nat) by (unfold b; rewrite firstn_length, skipn_length; lia).
  unfold tl_set. rewrite Lhc. destruct (Nat.ltb_spec (m + n - 1) (n - 1)) as [C|_]; [lia|]. unfold set_seg at 1. rewrite Lhc, Lb.
  destruct (Nat.leb_spec (m + n - 1 - (n - 1) + (n - 1)) (m + n - 1)) as [_|C]; [|lia]. cbn [bind].
  set (hc2 := firstn (m + n - 1 - (n - 1)) hc ++ _).
  assert (Lhc2 : length hc2 = (m + n - 1)%nat). { unfold hc2. rewrite !app_length, firstn_length, skipn_length, Lb, Lhc. lia. }
  unfold hd_set, set_seg. rewrite repeat_length, Lg. cbn [Nat.add]. destruct (Nat.leb_spec n (m + m - 1)) as [Q|Q]; [|reflexivity]. cbn [bind].
  set (gc := firstn 0 _ ++ g ++ _). assert (Lgc : length gc = (m + m - 1)%nat). { unfold gc. cbn [firstn app]. rewrite app_length, skipn_length, repeat_length, Lg. lia. }
  rewrite (fft_ok Complex junk hc2) by (change (0 < length hc2 <= 2 ^ 29)%nat; rewrite Lhc2; lia). cbn [bind].
  rewrite (fft_ok Complex junk gc) by (change (0 < length gc <= 2 ^ 29)%nat; rewrite Lgc; lia). cbn [bind].
  assert (L1 : length (DFT (F := Complex) 1 hc2) = (m + n - 1)%nat) by (rewrite DFT_length; exact Lhc2).
  assert (L2 : length (DFT (F := Complex) 1 gc) = (m + m - 1)%nat) by (rewrite DFT_length; exact Lgc).
  match goal with |- (if negb (?a =? ?b)%nat then _ else _) = _ => replace (a =? b)%nat with false; [reflexivity|] end.
  symmetry. apply Nat.eqb_neq. intros C. assert (m + n - 1 = m + m - 1)%nat; [|lia].
  transitivity (length (DFT (F := Complex) 1 hc2)); [symmetry; exact L1|]. etransitivity; [exact C|exact L2].
Qed.
Lemma Cpw_1 k : Cpw (1, 0) k = (1, 0).
Proof. induction k as [|k IH]; [reflexivity|]. cbn [Cpw]. rewrite IH. apply C_ext; cbn; ring. Qed.
(** The equal sizes: output before the last division, as a circular convolution. *)
Lemma czt_sq junk (x : list C) s z0 : let n := length x in (0 < n)%nat -> (3 * n <= 2 ^ 29)%nat ->
  let h0 := map (fun i => Cinv (Cpw s (i * i))) (seq 0 n) in
  let h := h0 ++ map (fun i => nth (n - 1 - (i - n)) h0 (0, 0)) (seq n (n - 1)) in
  let g := map (fun i => Cdiv (Cmul (nth i x (0, 0)) (Cinv (Cpw z0 i))) (nth (n + i - 1) h (0, 0))) (seq 0 n) in
  let hc := firstn n (skipn (n - 1) h) ++ firstn (n - 1) h in
  let gc := g ++ repeat ((0, 0) : C) (n - 1) in
  czt junk x n s z0 = Ok (map (fun k => Cdiv (Cdiv (cconv (F := Complex) hc gc k) (sqrt (INR (2 * n - 1)), 0)) (nth (n - 1 + k) h (0, 0))) (seq 0 n)).
Proof.
  cbv zeta. intros Hn Hmax. unfold czt. set (n := length x) in *. cbv zeta. rewrite Nat.max_id.
  set (h0 := map (fun i => Cinv (Cpw s (i * i))) (seq 0 n)). set (h := h0 ++ map (fun i => nth (n - 1 - (i - n)) h0 (0, 0)) (seq n (n - 1))).
  set (g := map (fun i => Cdiv (Cmul (nth i x (0, 0)) (Cinv (Cpw z0 i))) (nth (n + i - 1) h (0, 0))) (seq 0 n)).
  assert (Lh : length h = (2 * n - 1)%nat). { unfold h, h0. rewrite app_length, !map_length, !seq_length. lia. }
  assert (Lg : length g = n) by (unfold g; rewrite map_length, seq_length; reflexivity).
  unfold seg at 1. rewrite Lh. destruct (Nat.leb_spec (n - 1 + n) (2 * n - 1)) as [_|C]; [|lia]. cbn [bind].
  set (a := firstn n (skipn (n - 1) h)). assert (La : length a = n) by (unfold a; rewrite firstn_length, skipn_length; lia).
  assert (Lb : length (firstn (n - 1) h) = (n - 1)%nat) by (rewrite firstn_length; lia).
  assert (HC : (let* hc := hd_set (repeat ((0, 0) : C) (n + n - 1)) n a in let* b := seg h (n - n) (n - 1) in tl_set hc (n - 1) b) = Ok (a ++ firstn (n - 1) h)).
  { unfold hd_set, set_seg. rewrite repeat_length, La. cbn [Nat.add]. destruct (Nat.leb_spec n (n + n - 1)); [|lia]. cbn [bind firstn app].
    unfold seg. rewrite Nat.sub_diag, Lh. cbn [skipn]. destruct (Nat.leb_spec (0 + (n - 1)) (2 * n - 1)); [|lia]. cbn [bind].
    unfold tl_set, set_seg. rewrite app_length, skipn_length, repeat_length, La, Lb.
    replace (n + (n + n - 1 - n))%nat with (n + n - 1)%nat by lia. destruct (Nat.ltb_spec (n + n - 1) (n - 1)); [lia|].
    replace (n + n - 1 - (n - 1) + (n - 1))%nat with (n + n - 1)%nat by lia. rewrite Nat.leb_refl. f_equal.
    replace (n + n - 1 - (n - 1))%nat with n by lia. rewrite firstn_app, La, Nat.sub_diag, firstn_all2 by lia. cbn [firstn]. rewrite app_nil_r. f_equal.
    rewrite (skipn_all2 (a ++ _)); [apply app_nil_r|]. rewrite app_length, skipn_length, repeat_length, La. lia. }
  destruct (hd_set (repeat ((0, 0) : C) (n + n - 1)) n a) as [u| | |]; try discriminate HC. cbn [bind] in HC |- *.
  destruct (seg h (n - n) (n - 1)) as [v| | |]; try discriminate HC. cbn [bind] in HC |- *. rewrite HC. cbn [bind]. clear HC u v.
  unfold hd_set at 1, set_seg at 1. rewrite repeat_length, Lg. cbn [Nat.add]. destruct (Nat.leb_spec n (n + n - 1)) as [_|Q]; [|lia]. cbn [bind firstn app].
  assert (SK : skipn n (repeat ((0, 0) : C) (n + n - 1)) = repeat (0, 0) (n - 1)).
  { replace (n + n - 1)%nat with (n + (n - 1))%nat by lia. rewrite repeat_app, skipn_app, repeat_length, Nat.sub_diag, skipn_all2 by (rewrite repeat_length; lia). reflexivity. }
  rewrite SK. clear SK. set (hc := a ++ firstn (n - 1) h). set (gc := g ++ repeat (0, 0) (n - 1)).
  assert (Lhc : length hc = (2 * n - 1)%nat) by (unfold hc; rewrite app_length, La, Lb; lia).
  assert (Lgc : length gc = (2 * n - 1)%nat) by (unfold gc; rewrite app_length, repeat_length, Lg; lia).
  rewrite (fft_ok Complex junk hc) by (change (0 < length hc <= 2 ^ 29)%nat; rewrite Lhc; lia). cbn [bind].
  rewrite (fft_ok Complex junk gc) by (change (0 < length gc <= 2 ^ 29)%nat; rewrite Lgc; lia). cbn [bind].
  assert (L1 : length (DFT (F := Complex) 1 hc) = (2 * n - 1)%nat) by (rewrite DFT_length; exact Lhc).
  assert (L2 : length (DFT (F := Complex) 1 gc) = (2 * n - 1)%nat) by (rewrite DFT_length; exact Lgc).
  match goal with |- (if negb (?a =? ?b)%nat then _ else _) = _ => replace (a =? b)%nat with true end.
  2:{ symmetry. apply Nat.eqb_eq. etransitivity; [exact L1|symmetry; exact L2]. }
  cbn [negb]. rewrite (ifft_ok Complex).
  2:{ rewrite (zipmul_length Complex). change (0 < Nat.min (length (DFT (F := Complex) 1 hc)) (length (DFT (F := Complex) 1 gc)) <= 2 ^ 29)%nat. rewrite L1, L2. lia. }
  cbn [bind]. pose proof (conv_theorem Complex hc gc) as CT.
  change (@length (car (dfd Complex)) hc) with (@length C hc) in CT. change (@length (car (dfd Complex)) gc) with (@length C gc) in CT.
  rewrite Lhc, Lgc in CT. specialize (CT ltac:(lia) eq_refl). rewrite CT. clear CT.
  rewrite hd_get_ok by (rewrite map_length, seq_length; lia). cbn [bind].
  unfold seg. rewrite Lh. destruct (Nat.leb_spec (n - 1 + n) (2 * n - 1)) as [_|C]; [|lia]. cbn [bind]. fold a. f_equal.
  apply (list_ext ((0, 0) : C)).
  { rewrite !map_length, combine_length, seq_length, La. unfold vhead. rewrite firstn_length, map_length, seq_length. lia. }
  rewrite map_length, combine_length. intros k Hk.
  assert (Hk' : (k < n)%nat) by (rewrite La in Hk; lia).
  rewrite (map_nth0 _ (seq 0 n) k 0%nat) by (rewrite seq_length; exact Hk'). rewrite seq_nth, Nat.add_0_l by exact Hk'.
  rewrite (map_nth0 _ (combine _ a) k ((0, 0) : C, (0, 0) : C)) by (rewrite combine_length; exact Hk).
  rewrite combine_nth by (rewrite La; unfold vhead; rewrite firstn_length, map_length, seq_length; lia). cbn [fst snd].
  assert (A1 : nth k a (0, 0) = nth (n - 1 + k) h (0, 0)). { unfold a. rewrite nth_firstn' by exact Hk'. rewrite nth_skipn'. reflexivity. }
  rewrite A1. f_equal. unfold vhead. rewrite nth_firstn' by exact Hk'.
  rewrite (map_nth0 _ (seq 0 (2 * n - 1)) k 0%nat) by (rewrite seq_length; lia). rewrite seq_nth by lia. reflexivity.
Qed.
