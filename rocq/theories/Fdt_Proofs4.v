From Coq Require Import List Arith ZArith Reals Lia Lra Field.
From Verif Require Import Base BaseLemmas DftSys ComplexSys Filters_Model Filters_Proofs Fourier_Model Fourier_Proofs Fourier_Proofs2 Fourier_Proofs3 Fourier_Spec
  Freq_Proofs2 Chn_Spec Chn_Proofs Fdt_Model Fdt_Spec Fdt_Proofs Fdt_Proofs2 Fdt_Proofs3.
Import ListNotations.
Local Open Scope R_scope.

(** ** Power of a transform *)
Lemma fst_sum n (f : nat -> Complex) : fst (sum (K := Complex) n f) = total n (fun j => fst (f j)).
Proof. induction n as [|n IH]; [reflexivity|]. cbn [total]. rewrite <- IH. reflexivity. Qed.
Lemma snd_sum n (f : nat -> Complex) : snd (sum (K := Complex) n f) = total n (fun j => snd (f j)).
Proof. induction n as [|n IH]; [reflexivity|]. cbn [total]. rewrite <- IH. reflexivity. Qed.
Lemma norm2_dftZ (x : list C) k : (0 < length x)%nat -> Cnorm2 (dftZ Complex 1 x k) = periodogram (length x) (smp x) k.
Proof.
  intros Hn. set (n := length x) in *. assert (P : 0 < INR n) by (apply lt_0_INR; exact Hn).
  unfold dftZ. change (@length (car (dfd Complex)) x) with n. change (rt (d := Complex) n) with ((sqrt (INR n), 0) : C).
  set (S := sum (K := Complex) n _).
  assert (S1 : fst S = total n (fun j => fst (smp x j) * cos (2 * PI * IZR k * INR j / INR n) + snd (smp x j) * sin (2 * PI * IZR k * INR j / INR n))).
  { unfold S. rewrite fst_sum. apply total_ext. intros j _. rewrite wz_complex by exact Hn.
    replace (2 * PI * IZR (1 * Z.of_nat j * k) / INR n) with (2 * PI * IZR k * INR j / INR n) by (rewrite !mult_IZR, <- INR_IZR_INZ; field; lra).
    cbn. change (samp (K := Cring) x j) with (smp x j). ring. }
  assert (S2 : snd S = total n (fun j => snd (smp x j) * cos (2 * PI * IZR k * INR j / INR n) - fst (smp x j) * sin (2 * PI * IZR k * INR j / INR n))).
  { unfold S. rewrite snd_sum. apply total_ext. intros j _. rewrite wz_complex by exact Hn.
    replace (2 * PI * IZR (1 * Z.of_nat j * k) / INR n) with (2 * PI * IZR k * INR j / INR n) by (rewrite !mult_IZR, <- INR_IZR_INZ; field; lra).
    cbn. change (samp (K := Cring) x j) with (smp x j). ring. }
  unfold periodogram. rewrite <- S1, <- S2. clearbody S. destruct S as [u v]. cbn [fst snd].
  change (Cnorm2 (Cdiv (u, v) (sqrt (INR n), 0)) = (u ^ 2 + v ^ 2) / INR n).
  pose proof (sqrt_sqrt (INR n) ltac:(lra)) as Q. assert (Hs : sqrt (INR n) <> 0) by (pose proof (sqrt_lt_R0 _ P); lra).
  set (r := sqrt (INR n)) in *. clearbody r. rewrite <- Q. unfold Cnorm2, Cdiv, Cinv, Cmul, Cnorm2. cbn [fst snd]. field. exact Hs.
Qed.
Lemma fftshift_map {A B} (g : A -> B) (X : list A) : fftshift (map g X) = map g (fftshift X).
Proof. unfold fftshift, vtail, vhead. rewrite map_length, map_app, <- firstn_map, <- skipn_map. reflexivity. Qed.
Lemma wmul_length x f : length x = length f -> length (wmul x f) = length x.
Proof. intros H. unfold wmul. rewrite map_length, combine_length. lia. Qed.
Lemma wmul_nth x f j : length x = length f -> (j < length x)%nat -> smp (wmul x f) j = windowed (fun i => nth i f 0) (smp x) j.
Proof.
  intros H Hj. unfold smp at 1, wmul. rewrite (map_nth0 _ (combine x f) j ((0, 0) : C, 0)) by (rewrite combine_length; lia).
  rewrite combine_nth by exact H. cbn [fst snd]. unfold windowed, smp. f_equal; ring.
Qed.
Lemma periodogram_ext N x y k : (forall j, (j < N)%nat -> x j = y j) -> periodogram N x k = periodogram N y k.
Proof. intros H. unfold periodogram. f_equal. f_equal; (f_equal; apply total_ext; intros j Hj; rewrite (H j Hj); reflexivity). Qed.
Lemma sp_sub_ok s junk x : let N := length (sp_f s) in fp_norm (sp_plan s) = true -> length x = N -> (0 < N <= 2 ^ 29)%nat ->
  sp_sub s junk x = Ok (map (fun k => periodogram N (windowed (fun i => nth i (sp_f s) 0) (smp x)) (Z.of_nat k - Z.of_nat (N / 2))) (seq 0 N)).
Proof.
  cbv zeta. intros Hp Lx HN. unfold sp_sub. rewrite Lx, Nat.eqb_refl. cbn [negb]. unfold fplan_step. rewrite Hp.
  set (N := length (sp_f s)) in *. assert (Lw : length (wmul x (sp_f s)) = N) by (rewrite wmul_length by exact Lx; exact Lx).
  rewrite (fft_ok Complex) by (change (0 < length (wmul x (sp_f s)) <= 2 ^ 29)%nat; rewrite Lw; exact HN). cbn [bind]. f_equal.
  rewrite (@fftshift_map C R). set (X := DFT (F := Complex) 1 (wmul x (sp_f s))).
  assert (LX : length X = N) by (unfold X; rewrite DFT_length; exact Lw).
  assert (LS : length (fftshift X) = N) by (rewrite (fftshift_length Complex); exact LX).
  apply (list_ext 0); [rewrite !map_length, seq_length; exact LS|]. rewrite map_length. intros k Hk.
  assert (Hk' : (k < N)%nat) by (rewrite <- LS; exact Hk).
  rewrite (map_nth0 _ (seq 0 N) k 0%nat) by (rewrite seq_length; exact Hk'). rewrite seq_nth, Nat.add_0_l by exact Hk'.
  rewrite (map_nth0 Cnorm2 (fftshift X) k ((0, 0) : C)) by exact Hk.
  change (nth k (fftshift X) (0, 0)) with (samp (K := Complex) (fftshift X) k). rewrite (fftshift_ok Complex) by (rewrite LX; exact Hk').
  rewrite LX. set (k' := ((k + (N + 1) / 2) mod N)%nat). assert (Hk'' : (k' < N)%nat) by (apply Nat.mod_upper_bound; lia).
  assert (HZ : exists q, (Z.of_nat k' = (Z.of_nat k - Z.of_nat (N / 2)) + q * Z.of_nat N)%Z).
  { exists (1 - Z.of_nat ((k + (N + 1) / 2) / N))%Z. pose proof (Nat.div_mod (k + (N + 1) / 2) N ltac:(lia)) as D. fold k' in D.
    assert (H2 : ((N + 1) / 2 + N / 2 = N)%nat). { pose proof (Nat.div_mod (N + 1) 2 ltac:(lia)). pose proof (Nat.mod_upper_bound (N + 1) 2 ltac:(lia)). pose proof (Nat.div_mod N 2 ltac:(lia)). pose proof (Nat.mod_upper_bound N 2 ltac:(lia)). lia. }
    nia. }
  destruct HZ as [q HZ]. unfold X. rewrite (samp_DFT Complex 1 (wmul x (sp_f s)) k' (Z.of_nat k - Z.of_nat (N / 2))%Z q).
  2:{ change (k' < length (wmul x (sp_f s)))%nat. rewrite Lw. exact Hk''. }
  2:{ change (Z.of_nat k' = Z.of_nat k - Z.of_nat (N / 2) + q * Z.of_nat (length (wmul x (sp_f s))))%Z. rewrite Lw. exact HZ. }
  rewrite norm2_dftZ by (rewrite Lw; lia). rewrite Lw. apply periodogram_ext. intros j Hj. apply wmul_nth; [exact Lx|rewrite Lx; exact Hj].
Qed.

(** ** Vectors given by functions *)
Definition tab (n : nat) (M : nat -> R) : list R := map M (seq 0 n).
Lemma tab_length n M : length (tab n M) = n.
Proof. unfold tab. rewrite map_length, seq_length. reflexivity. Qed.
Lemma tab_nth n M i : (i < n)%nat -> nth i (tab n M) 0 = M i.
Proof. intros H. unfold tab. rewrite (map_nth0 M (seq 0 n) i 0%nat) by (rewrite seq_length; exact H). rewrite seq_nth by exact H. reflexivity. Qed.
Lemma tab_ext n M M' : (forall i, (i < n)%nat -> M i = M' i) -> tab n M = tab n M'.
Proof. intros H. apply map_ext_in. intros i Hi. apply in_seq in Hi. apply H. lia. Qed.
Lemma tab_map n M g : map g (tab n M) = tab n (fun i => g (M i)).
Proof. unfold tab. rewrite map_map. reflexivity. Qed.
Lemma tab_combine n (M M' : nat -> R) (g : R * R -> R) : map g (combine (tab n M) (tab n M')) = tab n (fun i => g (M i, M' i)).
Proof.
  apply (list_ext 0); [rewrite map_length, combine_length, !tab_length; lia|]. rewrite map_length, combine_length, !tab_length. intros i Hi. assert (i < n)%nat by lia.
  rewrite (map_nth0 g _ i (0, 0)) by (rewrite combine_length, !tab_length; lia). rewrite combine_nth by (rewrite !tab_length; reflexivity). rewrite !tab_nth by assumption. reflexivity.
Qed.
Lemma tab_radd n M M' : radd (tab n M) (tab n M') = tab n (fun i => M i + M' i).
Proof. apply tab_combine. Qed.
Lemma tab_zero n : repeat 0 n = tab n (fun _ => 0).
Proof. unfold tab. induction n as [|n IH] using nat_ind; [reflexivity|]. rewrite seq_S, map_app, <- IH, <- repeat_cons. reflexivity. Qed.
Lemma seg_add_tab n m i (M v : nat -> R) : (i + m <= n)%nat ->
  seg_add (tab n M) i (tab m v) = Ok (tab n (fun k => M k + (if (i <=? k)%nat && (k <? i + m)%nat then v (k - i)%nat else 0))).
Proof.
  intros H. unfold seg_add, seg. rewrite !tab_length. destruct (Nat.leb_spec (i + m) n); [|lia]. cbn [bind].
  assert (S1 : firstn m (skipn i (tab n M)) = tab m (fun k => M (i + k)%nat)).
  { apply (list_ext 0); [rewrite firstn_length, skipn_length, !tab_length; lia|]. rewrite firstn_length, skipn_length, tab_length. intros k Hk.
    rewrite nth_firstn' by lia. rewrite nth_skipn', !tab_nth by lia. reflexivity. }
  rewrite S1, tab_combine. unfold set_seg. rewrite !tab_length. destruct (Nat.leb_spec (i + m) n); [|lia]. f_equal.
  apply (list_ext 0); [rewrite !app_length, firstn_length, skipn_length, !tab_length; lia|].
  rewrite !app_length, firstn_length, skipn_length, !tab_length. intros k Hk. rewrite (tab_nth n) by lia.
  destruct (Nat.leb_spec i k) as [A|A]; cbn [andb].
  - rewrite app_nth2 by (rewrite firstn_length, tab_length; lia). rewrite firstn_length, tab_length. replace (k - Nat.min i n)%nat with (k - i)%nat by lia.
    destruct (Nat.ltb_spec k (i + m)) as [B|B].
    + rewrite app_nth1 by (rewrite tab_length; lia). rewrite tab_nth by lia. cbn [fst snd]. replace (i + (k - i))%nat with k by lia. reflexivity.
    + rewrite app_nth2 by (rewrite tab_length; lia). rewrite tab_length, nth_skipn', tab_nth by lia. replace (i + m + (k - i - m))%nat with k by lia. ring.
  - rewrite app_nth1 by (rewrite firstn_length, tab_length; lia). rewrite nth_firstn', tab_nth by lia. ring.
Qed.
Lemma tab_list (l : list R) : l = tab (length l) (fun i => nth i l 0).
Proof. apply (list_ext 0); [rewrite tab_length; reflexivity|]. intros i Hi. rewrite tab_nth by exact Hi. reflexivity. Qed.
Lemma set_seg_tab n m i (M v : nat -> R) : (i + m <= n)%nat ->
  set_seg (tab n M) i (tab m v) = Ok (tab n (fun k => if (i <=? k)%nat && (k <? i + m)%nat then v (k - i)%nat else M k)).
Proof.
  intros H. unfold set_seg. rewrite !tab_length. destruct (Nat.leb_spec (i + m) n); [|lia]. f_equal.
  apply (list_ext 0); [rewrite !app_length, firstn_length, skipn_length, !tab_length; lia|].
  rewrite !app_length, firstn_length, skipn_length, !tab_length. intros k Hk. rewrite (tab_nth n) by lia.
  destruct (Nat.leb_spec i k) as [A|A]; cbn [andb].
  - rewrite app_nth2 by (rewrite firstn_length, tab_length; lia). rewrite firstn_length, tab_length. replace (k - Nat.min i n)%nat with (k - i)%nat by lia.
    destruct (Nat.ltb_spec k (i + m)) as [B|B].
    + rewrite app_nth1 by (rewrite tab_length; lia). rewrite tab_nth by lia. reflexivity.
    + rewrite app_nth2 by (rewrite tab_length; lia). rewrite tab_length, nth_skipn', tab_nth by lia. f_equal. lia.
  - rewrite app_nth1 by (rewrite firstn_length, tab_length; lia). rewrite nth_firstn', tab_nth by lia. reflexivity.
Qed.
Lemma tab_one n : repeat 1 n = tab n (fun _ => 1).
Proof. unfold tab. induction n as [|n IH] using nat_ind; [reflexivity|]. rewrite seq_S, map_app, <- IH, <- repeat_cons. reflexivity. Qed.
