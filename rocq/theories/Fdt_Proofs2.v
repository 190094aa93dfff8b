From Coq Require Import List Arith ZArith Reals Lia Lra Field.
From Verif Require Import Base BaseLemmas DftSys ComplexSys Filters_Model Filters_Proofs Fourier_Model Fourier_Proofs Fourier_Proofs2 Fourier_Proofs3 Fourier_Spec
  Freq_Proofs2 Sig_Proofs Del_Model Chn_Spec Fdt_Model Fdt_Spec Fdt_Proofs.
Import ListNotations.
Local Open Scope R_scope.

Lemma roundZ_lo n r : INR n <= r -> (Z.of_nat n <= roundZ r)%Z.
Proof.
  intros H. pose proof (pos_INR n). unfold roundZ. destruct (Rle_dec 0 r); [|lra]. pose proof (base_Int_part (r + 1 / 2)) as [A B].
  assert (IZR (Z.of_nat n) < IZR (Int_part (r + 1 / 2) + 1)) by (rewrite plus_IZR, <- INR_IZR_INZ; lra). apply lt_IZR in H1. lia.
Qed.
Lemma roundZ_hi n r : 0 <= r -> r <= INR n -> (0 <= roundZ r <= Z.of_nat n)%Z.
Proof.
  intros H0 H. unfold roundZ. destruct (Rle_dec 0 r); [|lra]. pose proof (base_Int_part (r + 1 / 2)) as [A B]. split.
  - assert (IZR 0 < IZR (Int_part (r + 1 / 2) + 1)) by (rewrite plus_IZR; lra). apply lt_IZR in H1. lia.
  - assert (IZR (Int_part (r + 1 / 2)) < IZR (Z.of_nat n + 1)) by (rewrite plus_IZR, <- INR_IZR_INZ; lra). apply lt_IZR in H1. lia.
Qed.
Lemma roundZ_INR n : roundZ (INR n) = Z.of_nat n.
Proof.
  pose proof (pos_INR n) as P. pose proof (roundZ_lo n (INR n) ltac:(lra)). pose proof (roundZ_hi n (INR n) P ltac:(lra)). lia.
Qed.

Definition bw (n n2 : nat) : nat := (Nat.min n n2 / 2)%nat.
Lemma bw_le n n2 : (2 * bw n n2 <= n)%nat /\ (2 * bw n n2 <= n2)%nat.
Proof. unfold bw. pose proof (Nat.div_mod (Nat.min n n2) 2 ltac:(lia)). lia. Qed.
Lemma bw_lt n n2 f : (2 * f + 2 <= n)%nat -> (2 * f + 2 <= n2)%nat -> (f < bw n n2)%nat.
Proof. intros A B. unfold bw. pose proof (Nat.div_mod (Nat.min n n2) 2 ltac:(lia)). pose proof (Nat.mod_upper_bound (Nat.min n n2) 2 ltac:(lia)). lia. Qed.
Lemma bw_ge n n2 f : (n2 < 2 * f)%nat -> (bw n n2 < f)%nat.
Proof. intros A. unfold bw. pose proof (Nat.div_mod (Nat.min n n2) 2 ltac:(lia)). lia. Qed.

Lemma refreq_ok reel junk (x : list C) lom : let n := length x in let n2 := Z.to_nat (roundZ (INR n * lom)) in
  (0 < n <= 2 ^ 29)%nat -> (0 < n2 <= 2 ^ 29)%nat -> 0 < lom -> lom <> 1 -> (reel = true -> is_real (F := Complex) x) ->
  refreq reel junk x lom = Ok (map (fun t => (fst (resamp Complex n n2 (bw n n2) (Z.of_nat t) (samp (K := Complex) x)) * sqrt lom, 0) : C) (seq 0 n2)).
Proof.
  cbv zeta. intros Hn Hn2 Hl H1 HR. unfold refreq. destruct (Req_EM_T lom 1) as [E|_]; [lra|]. cbv zeta.
  set (n := length x) in *. set (n2 := Z.to_nat (roundZ (INR n * lom))) in *.
  assert (E : (if reel then rfft (F := Complex) junk x else fft (F := Complex) junk x) = Ok (DFT (F := Complex) 1 x)).
  { destruct reel; [apply (rfft_ok Complex); [exact Hn|apply HR; reflexivity]|apply (fft_ok Complex); exact Hn]. }
  assert (M : (if Rlt_dec 1 lom then (n / 2)%nat else (n2 / 2)%nat) = bw n n2).
  { assert (0 < INR n) by (apply lt_0_INR; lia). unfold bw. destruct (Rlt_dec 1 lom).
    - rewrite Nat.min_l; [reflexivity|]. pose proof (roundZ_lo n (INR n * lom)) as Q. assert (INR n <= INR n * lom) by nra. specialize (Q H0). unfold n2. lia.
    - rewrite Nat.min_r; [reflexivity|]. assert (INR n * lom <= INR n) by nra. assert (0 <= INR n * lom) by nra. pose proof (roundZ_hi n (INR n * lom) H2 H0) as Q. unfold n2. lia. }
  rewrite M. destruct (bw_le n n2) as [B1 B2]. set (m := bw n n2) in *.
  etransitivity; [apply (f_equal (fun o => bind o _)); exact E|]. cbn [bind]. clear E.
  assert (LD : length (DFT (F := Complex) 1 x) = n) by apply DFT_length.
  assert (Hm : (m <= length (DFT (F := Complex) 1 x))%nat) by (rewrite LD; lia).
  rewrite (hd_get_ok (DFT (F := Complex) 1 x) m Hm), (tl_get_ok (DFT (F := Complex) 1 x) m Hm). cbn [bind].
  pose proof (band_ok ((0, 0) : C) n2 m (vhead m (DFT (F := Complex) 1 x)) (vtail m (DFT (F := Complex) 1 x)) B2) as BO.
  destruct (hd_set (repeat ((0, 0) : C) n2) m (vhead m (DFT (F := Complex) 1 x))) as [X2| | |]; cbn [bind] in BO |- *;
    specialize (BO ltac:(apply vhead_length; exact Hm) ltac:(apply vtail_length; exact Hm)); try discriminate BO.
  rewrite BO. cbn [bind]. clear BO X2.
  change (vhead m (DFT (F := Complex) 1 x) ++ repeat ((0, 0) : C) (n2 - 2 * m) ++ vtail m (DFT (F := Complex) 1 x)) with (band Complex m n2 (DFT (F := Complex) 1 x)).
  assert (LB : length (band Complex m n2 (DFT (F := Complex) 1 x)) = n2) by (apply band_length; assumption).
  rewrite (ifft_ok Complex) by (rewrite LB; exact Hn2). cbn [bind]. f_equal.
  assert (LD2 : length (DFT (F := Complex) (-1) (band Complex m n2 (DFT (F := Complex) 1 x))) = n2) by (rewrite DFT_length; exact LB).
  apply (list_ext ((0, 0) : C)); [rewrite !map_length, seq_length; exact LD2|]. rewrite map_length. intros t Ht.
  assert (Ht' : (t < n2)%nat) by (rewrite <- LD2; exact Ht).
  rewrite (map_nth0 _ (seq 0 n2) t 0%nat) by (rewrite seq_length; exact Ht'). rewrite seq_nth, Nat.add_0_l by exact Ht'.
  rewrite (map_nth0 _ (DFT (F := Complex) (-1) (band Complex m n2 (DFT (F := Complex) 1 x))) t ((0, 0) : C)) by exact Ht.
  change (nth t (DFT (F := Complex) (-1) (band Complex m n2 (DFT (F := Complex) 1 x))) (0, 0)) with (samp (K := Complex) (DFT (F := Complex) (-1) (band Complex m n2 (DFT (F := Complex) 1 x))) t).
  rewrite (resamp_ok Complex x m n2 t); [reflexivity|change (0 < n)%nat; lia|change (2 * m <= n)%nat; lia|lia|lia].
Qed.

(** ** Tones *)
Local Notation RS n n2 t := (resamp Complex n n2 (bw n n2) t).
Definition ang (p : R) : C := (cos p, sin p).
Lemma tone_split n i a f phi : (0 < n)%nat ->
  ((tone_at n i (a, f, phi), 0) : Complex) =
  ((((a / 2 * cos phi, a / 2 * sin phi)%R : Complex) * wz (F := Complex) n (- (Z.of_nat f * Z.of_nat i)))
   + (((a / 2 * cos phi, - (a / 2 * sin phi))%R : Complex) * wz (F := Complex) n (- (- Z.of_nat f * Z.of_nat i))))%K.
Proof.
  intros Hn. assert (0 < INR n) by (apply lt_0_INR; exact Hn). rewrite !wz_complex by exact Hn.
  replace (2 * PI * IZR (- (Z.of_nat f * Z.of_nat i)) / INR n) with (- (2 * PI * INR f * INR i / INR n))
    by (rewrite opp_IZR, mult_IZR, <- !INR_IZR_INZ; field; lra).
  replace (2 * PI * IZR (- (- Z.of_nat f * Z.of_nat i)) / INR n) with (2 * PI * INR f * INR i / INR n)
    by (rewrite opp_IZR, mult_IZR, opp_IZR, <- !INR_IZR_INZ; field; lra).
  unfold tone_at. set (th := 2 * PI * INR f * INR i / INR n). rewrite cos_neg, sin_neg, cos_plus. apply C_ext; cbn; field.
Qed.
Lemma wz_flip n f t : (0 < n)%nat -> wz (F := Complex) n (- (- Z.of_nat f * t)) = Cconj (wz (F := Complex) n (- (Z.of_nat f * t))).
Proof.
  intros Hn. change (Cconj (wz (F := Complex) n (- (Z.of_nat f * t)))) with (conj (wz (F := Complex) n (- (Z.of_nat f * t)))).
  rewrite conj_wz by exact Hn. f_equal. lia.
Qed.
(** One tone: amplitude kept, halved or removed, according to the place of its frequency. *)
Lemma tone_resamp n n2 t a f phi : (0 < n)%nat -> (0 < n2)%nat -> (2 * f < n)%nat ->
  let m := bw n n2 in
  fst (RS n n2 (Z.of_nat t) (fun i => ((tone_at n i (a, f, phi), 0) : Complex))) =
  sqrt (INR n) / sqrt (INR n2) * tone_at n2 t (a, f, phi) * (if (f <? m)%nat then 1 else if (f =? m)%nat && (0 <? m)%nat then 1 / 2 else 0).
Proof.
  cbv zeta. intros Hn H2 Hf. destruct (bw_le n n2) as [B1 B2]. set (m := bw n n2) in *.
  assert (P2 : 0 < INR n2) by (apply lt_0_INR; exact H2).
  rewrite (resamp_ext Complex n n2 m (Z.of_nat t) _ (fun i => ((((a / 2 * cos phi, a / 2 * sin phi)%R : Complex) * wz (F := Complex) n (- (Z.of_nat f * Z.of_nat i)))
   + (((a / 2 * cos phi, - (a / 2 * sin phi))%R : Complex) * wz (F := Complex) n (- (- Z.of_nat f * Z.of_nat i))))%K)) by (intros i _; apply tone_split; exact Hn).
  rewrite (resamp_add Complex), !(resamp_mul Complex).
  assert (Hs : sqrt (INR n2) <> 0) by (pose proof (sqrt_lt_R0 _ P2); lra).
  assert (V : forall f', (- Z.of_nat m <= f' < Z.of_nat n - Z.of_nat m)%Z -> resamp Complex n n2 m (Z.of_nat t) (fun i => wz (F := Complex) n (- (f' * Z.of_nat i))) =
     if (f' <? Z.of_nat m)%Z then (rt (d := Complex) n / rt (d := Complex) n2 * wz (F := Complex) n2 (- (f' * Z.of_nat t)))%K else 0%K) by (intros f' Hf'; apply (resamp_exp Complex); assumption).
  assert (ND : (rt (d := Complex) n / rt (d := Complex) n2)%K = ((sqrt (INR n) / sqrt (INR n2), 0)%R : C)).
  { change (rt (d := Complex) n) with ((sqrt (INR n), 0) : C). change (rt (d := Complex) n2) with ((sqrt (INR n2), 0) : C).
    assert (sqrt (INR n2) <> 0) by (pose proof (sqrt_lt_R0 _ P2); lra). apply C_ext; cbn; unfold Cnorm2; cbn; field; assumption. }
  rewrite ND in V. clear ND.
  assert (WT : wz (F := Complex) n2 (- (Z.of_nat f * Z.of_nat t)) = ((cos (2 * PI * INR f * INR t / INR n2), sin (2 * PI * INR f * INR t / INR n2)) : C)).
  { rewrite wz_complex by exact H2. replace (2 * PI * IZR (- (Z.of_nat f * Z.of_nat t)) / INR n2) with (- (2 * PI * INR f * INR t / INR n2))
     by (rewrite opp_IZR, mult_IZR, <- !INR_IZR_INZ; field; lra). rewrite cos_neg, sin_neg, Ropp_involutive. reflexivity. }
  pose proof (wz_flip n2 f (Z.of_nat t) H2) as WF. rewrite WT in WF.
  unfold tone_at. set (th := 2 * PI * INR f * INR t / INR n2) in *. rewrite cos_plus.
  destruct (Nat.ltb_spec f m) as [A|A].
  - rewrite !V by lia. destruct (Z.ltb_spec (Z.of_nat f) (Z.of_nat m)); [|lia]. destruct (Z.ltb_spec (- Z.of_nat f) (Z.of_nat m)); [|lia].
    rewrite WT, WF. unfold Cconj. cbn. field. exact Hs.
  - rewrite (V (Z.of_nat f)) by lia. destruct (Z.ltb_spec (Z.of_nat f) (Z.of_nat m)); [lia|].
    destruct (Nat.eqb_spec f m) as [->|B]; cbn [andb].
    + rewrite (V (- Z.of_nat m)%Z) by lia. destruct (Z.ltb_spec (- Z.of_nat m) (Z.of_nat m)) as [Q|Q].
      * destruct (Nat.ltb_spec 0 m); [|lia]. rewrite WF. cbn. field. exact Hs.
      * destruct (Nat.ltb_spec 0 m); [lia|]. cbn. field. exact Hs.
    + rewrite (resamp_ext Complex n n2 m (Z.of_nat t) (fun i => wz (F := Complex) n (- (- Z.of_nat f * Z.of_nat i))) (fun i => wz (F := Complex) n (- ((Z.of_nat n - Z.of_nat f) * Z.of_nat i)))).
      2:{ intros i _. apply (wz_mod Complex). replace (- ((Z.of_nat n - Z.of_nat f) * Z.of_nat i))%Z with (- (- Z.of_nat f * Z.of_nat i) + (- Z.of_nat i) * Z.of_nat n)%Z by ring. rewrite Z.mod_add by lia. reflexivity. }
      rewrite (V (Z.of_nat n - Z.of_nat f)%Z) by lia. destruct (Z.ltb_spec (Z.of_nat n - Z.of_nat f) (Z.of_nat m)); [lia|]. cbn. field. exact Hs.
Qed.
Lemma refreq_1 reel junk x : refreq reel junk x 1 = Ok x.
Proof. unfold refreq. destruct (Req_EM_T 1 1); [reflexivity|lra]. Qed.
Definition kept (n n2 f : nat) : R := if (f <? bw n n2)%nat then 1 else if (f =? bw n n2)%nat && (0 <? bw n n2)%nat then 1 / 2 else 0.
Lemma tones_resamp n n2 t l : (0 < n)%nat -> (0 < n2)%nat -> Forall (fun o => 2 * freq o < n)%nat l ->
  fst (RS n n2 (Z.of_nat t) (fun i => ((tones l n i, 0) : Complex))) =
  sqrt (INR n) / sqrt (INR n2) * fold_right (fun o s => kept n n2 (freq o) * tone_at n2 t o + s) 0 l.
Proof.
  intros Hn H2. induction l as [|[[a f] phi] l IH]; intros HF.
  - cbn [tones fold_right]. change (fun _ : nat => ((0, 0) : Complex)) with (fun _ : nat => (0%K : Complex)). rewrite (resamp_0 Complex). cbn. ring.
  - inversion_clear HF as [|? ? H HF']. cbn [tones fold_right].
    rewrite (resamp_ext Complex n n2 _ (Z.of_nat t) _ (fun i => Cadd (tone_at n i (a, f, phi), 0) (tones l n i, 0))) by (intros i _; apply C_ext; cbn; ring).
    pose proof (resamp_add Complex n n2 (bw n n2) (Z.of_nat t) (fun i => ((tone_at n i (a, f, phi), 0) : Complex)) (fun i => ((tones l n i, 0) : Complex))) as RA.
    etransitivity; [apply (f_equal fst); exact RA|].
    pose proof (tone_resamp n n2 t a f phi Hn H2 H) as T. cbv zeta in T. specialize (IH HF').
    transitivity (fst (RS n n2 (Z.of_nat t) (fun i => ((tone_at n i (a, f, phi), 0) : Complex))) + fst (RS n n2 (Z.of_nat t) (fun i => ((tones l n i, 0) : Complex)))); [reflexivity|].
    rewrite T, IH. unfold freq, kept. cbn [fst snd]. ring.
Qed.
Lemma samp_real n f i : (i < n)%nat -> samp (K := Complex) (real_signal n f) i = ((f i, 0) : Complex).
Proof. intros H. unfold samp, real_signal. rewrite (map_nth0 _ (seq 0 n) i 0%nat) by (rewrite seq_length; exact H). rewrite seq_nth by exact H. reflexivity. Qed.
Lemma real_length n f : length (real_signal n f) = n.
Proof. unfold real_signal. rewrite map_length, seq_length. reflexivity. Qed.
Lemma real_real n f : is_real (F := Complex) (real_signal n f).
Proof.
  intros i. destruct (Nat.lt_ge_cases i n) as [H|H].
  - rewrite samp_real by exact H. apply C_ext; cbn; ring.
  - unfold samp. rewrite nth_overflow by (rewrite real_length; exact H). apply C_ext; cbn; ring.
Qed.
Lemma refreq_tones reel junk l n n2 lom : (0 < n <= 2 ^ 29)%nat -> 0 < lom -> lom <> 1 -> n2 = Z.to_nat (roundZ (INR n * lom)) -> (0 < n2 <= 2 ^ 29)%nat ->
  Forall (fun o => 2 * freq o < n)%nat l ->
  refreq reel junk (real_signal n (tones l n)) lom =
  Ok (real_signal n2 (fun t => sqrt (INR n * lom / INR n2) * fold_right (fun o s => kept n n2 (freq o) * tone_at n2 t o + s) 0 l)).
Proof.
  intros Hn Hl H1 E2 Hn2 HF. pose proof (refreq_ok reel junk (real_signal n (tones l n)) lom) as K. cbv zeta in K. rewrite real_length, <- E2 in K.
  rewrite K; [|assumption..|intros _; apply real_real]. f_equal. unfold real_signal at 2. apply map_ext_in. intros t Ht. apply in_seq in Ht. f_equal.
  rewrite (resamp_ext Complex n n2 _ (Z.of_nat t) _ (fun i => ((tones l n i, 0) : Complex))) by (intros i Hi; apply samp_real; exact Hi).
  rewrite tones_resamp by (try lia; assumption).
  assert (P : 0 < INR n) by (apply lt_0_INR; lia). assert (P2 : 0 < INR n2) by (apply lt_0_INR; lia).
  rewrite sqrt_div, sqrt_mult by nra. pose proof (sqrt_lt_R0 _ P2). field. lra.
Qed.
