(** Proofs about the modulator: pulse shaping, reachable states. *)
From Coq Require Import Reals Lra Lia ZArith.
From Verif Require Import Base BaseLemmas Filters_Model Filters_Spec Filters_Proofs Conv_Lemmas RField DftSys ComplexSys Fourier_Model BitStream_Model Demod_Model Special_Model Design_Model Design_Spec Design_Proofs Design_Proofs2 Rif_Model Rif_Proofs Gauss_Proofs Polyphase_Model Polyphase_Spec Polyphase_Proofs Polyphase_Proofs2 Polyphase_Props Ra_Model Sig_Model Sig_Spec Sig_Proofs Rii_Model Mod_Model Mod_Spec.
Local Open Scope R_scope.

(** ** sums over a stuffed signal *)
Section Stuff.
Variable K : cring.
Local Open Scope cring_scope.
Add Ring Kr : (cth K).
Lemma sum_stuff r (x : list K) (f : nat -> K) : (0 < r)%nat ->
  sum (length x * r) (fun i => samp (stuff r x) i * f i) = sum (length x) (fun k => samp x k * f (k * r)%nat).
Proof.
  intros Hr. induction (length x) as [|n IH]; [reflexivity|].
  replace (S n * r)%nat with (n * r + r)%nat by lia. rewrite sum_split, IH. cbn [sum]. f_equal.
  rewrite (sum_single K r _ 0%nat Hr).
  - rewrite Nat.add_0_r. f_equal. unfold samp. rewrite nth_stuff by exact Hr. rewrite Nat.mod_mul by lia. cbn [Nat.eqb]. rewrite Nat.div_mul by lia. reflexivity.
  - intros i Hi Hne. unfold samp. rewrite nth_stuff by exact Hr. rewrite Nat.add_comm, Nat.mod_add by lia. rewrite Nat.mod_small by lia. destruct (Nat.eqb_spec i 0); [lia|]. ring.
Qed.
Lemma conv_stuff r (g x : list K) n : (0 < r)%nat -> conv g (stuff r x) n = sum (length x) (fun k => samp x k * sampZ g (Z.of_nat n - Z.of_nat (k * r))).
Proof.
  intros Hr. rewrite conv_comm. unfold conv. rewrite stuff_length by exact Hr.
  exact (sum_stuff r x (fun i => sampZ g (Z.of_nat n - Z.of_nat i)) Hr).
Qed.
End Stuff.

(** ** the coefficients *)
Lemma somme_sq h : somme (map (fun v => v * v) h) = energy h.
Proof.
  unfold somme, energy. rewrite map_length. apply rsum_ext. intros i Hi.
  rewrite (nth_indep _ 0 (0 * 0)) by (rewrite map_length; exact Hi). exact (map_nth (fun v => v * v) h 0 i).
Qed.
Lemma energy_nonneg h : 0 <= energy h.
Proof. unfold energy. apply rsum_nonneg. intros i _. apply Rle_0_sqr. Qed.
Lemma sampZ_re g z : sampZ (K := Cring) (map re g) z = re (sampZ (K := Rring) g z).
Proof. unfold sampZ, samp. destruct (Z.ltb_spec z 0); [reflexivity|]. exact (map_nth re g 0 (Z.to_nat z)). Qed.
Lemma rscale_mul a (z : C) : cmul (c := Cring) z (re a) = rscale a z.
Proof. apply C_ext; cbn; ring. Qed.
Lemma map_rev_repeat n : rev (repeat (0 : R) n) = repeat 0 n.
Proof. induction n as [|n IH]; [reflexivity|]. cbn [repeat rev]. rewrite IH. clear IH. induction n; [reflexivity|]. cbn. f_equal. assumption. Qed.
(** the taps actually used, backwards: the documented pulse *)
Lemma ups_pulse h r : (0 < r)%nat -> 0 < energy h ->
  rev (ups_coefs (K := Cring) (map re (map (fun v => v * ((sqrt (INR r) / sqrt (energy h)) / INR r)) h)) r) = map re (pulse h r).
Proof.
  intros Hr He. unfold ups_coefs, pulse. rewrite rev_app_distr, map_app, !map_length. f_equal.
  - rewrite <- map_rev_repeat. rewrite map_rev. f_equal. induction ((r - length h mod r) mod r)%nat as [|n IH]; [reflexivity|]. cbn [repeat map]. rewrite IH. reflexivity.
  - rewrite (map_rev (fun v => v * sqrt (INR r / energy h)) h), (map_rev re). f_equal. rewrite !map_map. apply map_ext. intros v. rewrite cnat_C.
    assert (0 < INR r) by (apply lt_0_INR; exact Hr). assert (0 < sqrt (energy h)) by (apply sqrt_lt_R0; exact He).
    rewrite sqrt_div_alt by exact He. apply C_ext; cbn; field; lra.
Qed.

(** ** runs *)
Lemma run_snoc {St A B} (step : St -> list A -> res (St * list B)) s bs b s1 y1 :
  run step s bs = Ok (s1, y1) -> run step s (bs ++ [b]) = let* (s2, y2) := step s1 b in Ok (s2, y1 ++ y2).
Proof.
  revert s s1 y1. induction bs as [|a bs IH]; intros s s1 y1 E; cbn [run app] in *.
  - injection E as <- <-. destruct (step s b) as [[s2 y2]| | |]; cbn [bind]; [rewrite app_nil_r|..]; reflexivity.
  - destruct (step s a) as [[sa ya]| | |]; try discriminate E. cbn [bind] in *. destruct (run step sa bs) as [[sb yb]| | |] eqn:Eb; try discriminate E. cbn [bind] in E. injection E as <- <-.
    rewrite (IH sa sb yb Eb). destruct (step sb b) as [[s2 y2]| | |]; cbn [bind]; [rewrite app_assoc|..]; reflexivity.
Qed.
Lemma run_opt {S A} (step : S -> list A -> res (S * list A)) bs : forall s s1 y1,
  run step s bs = Ok (s1, y1) -> run (opt_step step) (F_on s) bs = Ok (F_on s1, y1).
Proof.
  induction bs as [|a bs IH]; intros s s1 y1 E; cbn [run] in *; [injection E as <- <-; reflexivity|].
  cbn [opt_step]. destruct (step s a) as [[sa ya]| | |]; try discriminate E. cbn [bind] in *. destruct (run step sa bs) as [[sb yb]| | |] eqn:Eb; try discriminate E. cbn [bind] in E. injection E as <- <-.
  rewrite (IH sa sb yb Eb). reflexivity.
Qed.
Lemma run_id {S A} (step : S -> list A -> res (S * list A)) bs : run (opt_step step) F_id bs = Ok (F_id, concat bs).
Proof. induction bs as [|a bs IH]; [reflexivity|]. cbn [run opt_step bind]. rewrite IH. reflexivity. Qed.

(** ** the shaping filter *)
Lemma pam_one g s n : sampZ (K := Rring) g 0 = 1 -> (forall z, z <> 0%Z -> sampZ (K := Rring) g z = 0) -> (n < length s)%nat -> pam g 1 s n = nth n s (0, 0).
Proof.
  intros G0 G1 Hn. unfold pam. rewrite (sum_single Cring _ _ n Hn).
  - replace (Z.of_nat n - Z.of_nat (n * 1))%Z with 0%Z by lia. rewrite G0. apply C_ext; cbn; ring.
  - intros i Hi Hne. rewrite G1 by lia. apply C_ext; cbn; ring.
Qed.
Lemma good_1 f nc h : good_coefs f nc 1 h -> h = [1].
Proof. intros [E _]. cbn in E. injection E as <-. reflexivity. Qed.
Lemma energy_one : energy [1] = 1.
Proof. unfold energy. cbn. ring. Qed.
Lemma pulse_one : pulse [1] 1 = [1].
Proof. unfold pulse. rewrite energy_one. change (INR 1) with 1. replace (1 / 1) with 1 by field. cbn [length rev app map repeat]. rewrite Nat.mod_1_r. cbn. rewrite sqrt_1. f_equal. ring. Qed.
Lemma sampZ_single (z : Z) : z <> 0%Z -> sampZ (K := Rring) [1] z = 0.
Proof. intros H. unfold sampZ, samp. destruct (Z.ltb_spec z 0); [reflexivity|]. destruct (Z.to_nat z) as [|[|k]] eqn:E; [lia|reflexivity|reflexivity]. Qed.
Lemma shape_ok f nc r h : (0 < r)%nat -> good_coefs f nc r h -> exists F0, shape_new f nc (Z.of_nat r) = Ok F0 /\
  forall blocks, exists F y, run shape_step F0 blocks = Ok (F, y) /\ length y = (length (concat blocks) * r)%nat /\
    forall n, (n < length y)%nat -> nth n y (0, 0) = pam (pulse h r) r (concat blocks) n.
Proof.
  intros Hr G. unfold shape_new. destruct (Z.eqb_spec (Z.of_nat r) 1) as [E|E].
  - assert (r = 1)%nat by lia. subst r. rewrite (good_1 f nc h G). exists F_id. split; [reflexivity|]. intros blocks. exists F_id, (concat blocks).
    split; [apply run_id|]. split; [lia|]. intros n Hn. rewrite pulse_one. symmetry. apply pam_one; [reflexivity|apply sampZ_single|exact Hn].
  - destruct G as [Eh He]. rewrite Eh. cbn [bind]. rewrite somme_sq, Nat2Z.id, <- INR_IZR_INZ.
    set (c := map re (map (fun v => v * (sqrt (INR r) / sqrt (energy h) / INR r)) h)).
    assert (Hc : c <> []). { intros X. apply (f_equal (@length _)) in X. unfold c in X. rewrite !map_length in X. destruct h; [unfold energy in He; cbn in He; lra|discriminate X]. }
    destruct (proj1 (C17_construct Cring c r) Hr) as [s0 Es]. exists (F_on s0). split; [rewrite Es; reflexivity|].
    intros blocks. destruct (C17_oversample Cring c r blocks s0 Hr Hc Es) as (s & y & E1 & L & V). exists (F_on s), y. split; [apply run_opt; exact E1|]. split; [exact L|].
    intros n Hn. etransitivity; [exact (V n Hn)|]. rewrite conv_stuff by exact Hr. unfold pam. apply (sum_ext Cring). intros k Hk.
    unfold c. rewrite ups_pulse by assumption. rewrite sampZ_re. exact (rscale_mul _ _).
Qed.

(** ** reachable states of the modulator *)
(** Samples n0, ..., n0 + k - 1 of the baseband signal of the symbols s. *)
Definition bb (g : list R) (r : nat) (s : list C) (n0 k : nat) : list C := map (fun i => pam g r s (n0 + i)) (seq 0 k).
(** What a call makes of the baseband samples x, n0 samples having been produced. *)
Definition emitted (c : mconf) (r n0 : nat) (x : list C) : list C :=
  let x := if mc_fsk c then fsk_map (mc_index c) (Z.of_nat r) x else x in
  if Req_EM_T (mc_fi c) 0 then x else
  map (fun i => let z := on_carrier (mc_fi c / mc_fe c) (n0 + i) (nth i x (0, 0)) in if mc_real c then (fst z, 0) else z) (seq 0 (length x)).
Record reach (c : mconf) (r : nat) (h : list R) (sent : list C) (m : modgen) : Prop := {
  re_conf : md_conf m = c; re_osf : md_osf m = Z.of_nat r; re_wave : md_wave m = mc_wave c;
  re_lat : mod_delais m = INR (length h - 1) / 2 + INR ((r - length h mod r) mod r);
  re_filt : exists F0 hist y, shape_new (mc_forme c) (mc_ncoefs c) (Z.of_nat r) = Ok F0 /\ run shape_step F0 hist = Ok (md_filt m, y) /\ concat hist = sent;
  re_ol : mc_fi c <> 0 -> md_ol m = (unit_at (2 * PI * (mc_fi c / mc_fe c) * INR (length sent * r)), unit_at (2 * PI * (mc_fi c / mc_fe c))) }.
Lemma good_ne f nc r h : good_coefs f nc r h -> (1 <= length h)%nat.
Proof. intros [_ H]. destruct h; [unfold energy in H; cbn in H; lra|cbn; lia]. Qed.
Lemma new_ok c r h : accepted c r h -> exists m, mod_new c = Ok m /\ reach c r h [] m.
Proof.
  intros (Hr & Eo & G). destruct (shape_ok _ _ _ _ Hr G) as (F0 & E0 & _). unfold mod_new. rewrite Eo. cbn [bind]. rewrite E0. cbn [bind]. rewrite (proj1 G). cbn [bind].
  unfold ups_delais. destruct (Z.eqb_spec (Z.of_nat r) 0); [lia|]. cbn [bind]. eexists. split; [reflexivity|]. pose proof (good_ne _ _ _ _ G) as Lh.
  constructor; cbn; try reflexivity.
  - rewrite Z.rem_mod_nonneg by lia. rewrite <- Nat2Z.inj_mod by lia. f_equal; [rewrite INR_IZR_INZ; do 2 f_equal; lia|]. rewrite INR_IZR_INZ. f_equal. pose proof (Nat.mod_upper_bound (length h) r).
    destruct (Z.eqb_spec (Z.of_nat (length h mod r)) 0).
    + replace (length h mod r)%nat with 0%nat by lia. rewrite Nat.sub_0_r, Nat.mod_same by lia. reflexivity.
    + rewrite (Nat.mod_small (r - _)) by lia. lia.
  - exists F0, [], []. split; [exact E0|]. split; reflexivity.
  - intros _. unfold ohc_new, ohc_conf. rewrite unit_0. rewrite Rmult_0_r. reflexivity.
Qed.
Lemma pam_more g r s t n : (forall k, (k < length s)%nat -> True) -> (n < length s * r)%nat -> pam g r (s ++ t) n = pam g r s n.
Proof.
  intros _ Hn. unfold pam. rewrite app_length, (sum_split Cring). transitivity (cadd (c := Cring) (sum (K := Cring) (length s) (fun k => rscale (sampZ (K := Rring) g (Z.of_nat n - Z.of_nat (k * r))) (nth k s (0, 0)))) (c0 (c := Cring))).
  - f_equal.
    + apply (sum_ext Cring). intros k Hk. rewrite app_nth1 by exact Hk. reflexivity.
    + apply (sum_zero Cring). intros k Hk. rewrite (sampZ_neg Rring) by nia. apply C_ext; cbn; ring.
  - apply C_ext; cbn; ring.
Qed.
Lemma carrier_ok f n0 (x : list C) :
  map (fun p : Cring * Cring => cmul (c := Cring) (fst p) (snd p)) (combine x (tone (2 * PI * f * INR n0) f (length x))) =
  map (fun i => on_carrier f (n0 + i) (nth i x (0, 0))) (seq 0 (length x)).
Proof.
  assert (Lt : length (tone (2 * PI * f * INR n0) f (length x)) = length x) by (unfold tone; rewrite map_length, seq_length; reflexivity).
  apply (list_ext (0, 0)); [rewrite !map_length, combine_length, seq_length, Lt; apply Nat.min_id|].
  intros i Hi. rewrite map_length, combine_length, Lt, Nat.min_id in Hi. rewrite (nth_map_seq (X := C)) by exact Hi.
  etransitivity; [apply (nth_indep _ (0, 0) ((fun p : Cring * Cring => cmul (c := Cring) (fst p) (snd p)) ((0, 0), (0, 0)))); rewrite map_length, combine_length, Lt, Nat.min_id; exact Hi|].
  rewrite (map_nth (fun p : Cring * Cring => cmul (c := Cring) (fst p) (snd p))). rewrite combine_nth by (symmetry; exact Lt). cbn [fst snd]. unfold tone. rewrite (nth_map_seq (X := C)) by exact Hi.
  unfold unit_at, on_carrier. replace (2 * PI * f * INR n0 + 2 * PI * f * INR i) with (2 * PI * f * INR (n0 + i)) by (rewrite plus_INR; ring). generalize (2 * PI * f * INR (n0 + i)). intros t. cbv zeta. apply C_ext; reflexivity.
Qed.
Lemma mod_step_ok c r h sent m s : accepted c r h -> reach c r h sent m ->
  exists m', mod_step m s = Ok (m', emitted c r (length sent * r) (bb (pulse h r) r (sent ++ s) (length sent * r) (length s * r))) /\ reach c r h (sent ++ s) m'.
Proof.
  intros (Hr & Eo & G) [Ec Eosf Ew El (F0 & hist & y & E0 & E1 & Ecat) Eol]. destruct (shape_ok _ _ _ _ Hr G) as (F0' & E0' & SH). rewrite E0 in E0'. injection E0' as <-.
  destruct (SH hist) as (F1 & y1 & R1 & L1 & _). rewrite E1 in R1. injection R1 as <- <-.
  destruct (SH (hist ++ [s])) as (F2 & y2 & R2 & L2 & V2). rewrite (run_snoc _ _ _ _ _ _ E1) in R2.
  unfold mod_step. destruct (shape_step (md_filt m) s) as [[F' ys]| | |] eqn:Es; try discriminate R2. cbn [bind] in R2. injection R2 as <- <-. cbn [bind].
  rewrite concat_app in L2, V2. cbn [concat] in L2, V2. rewrite app_nil_r in L2, V2. rewrite Ecat in *. rewrite !app_length in L2. rewrite app_length in V2.
  assert (Lys : length ys = (length s * r)%nat) by lia.
  assert (Eys : ys = bb (pulse h r) r (sent ++ s) (length sent * r) (length s * r)).
  { apply (list_ext (0, 0)); [unfold bb; rewrite map_length, seq_length; exact Lys|]. intros i Hi. assert (Hi2 : (i < length s * r)%nat) by (rewrite <- Lys; exact Hi). unfold bb. rewrite (nth_map_seq (X := C)) by exact Hi2. assert (L1' : @length C y = (length sent * r)%nat) by exact L1. rewrite <- V2; [|rewrite L1', Lys; apply Nat.add_lt_mono_l; exact Hi2]. rewrite app_nth2 by (rewrite L1'; apply Nat.le_add_r). rewrite L1'. replace (length sent * r + i - length sent * r)%nat with i by lia. reflexivity. }
  rewrite Ec, Eosf. set (x := if mc_fsk c then fsk_map (mc_index c) (Z.of_nat r) ys else ys).
  assert (Lx : length x = (length s * r)%nat). { unfold x. destruct (mc_fsk c); [|exact Lys]. unfold fsk_map. rewrite map_length. etransitivity; [apply (cumsum_length Rring)|]. rewrite !map_length. exact Lys. }
  unfold emitted. rewrite <- Eys. fold x. destruct (Req_EM_T (mc_fi c) 0) as [F|F].
  - eexists. split; [reflexivity|]. constructor; cbn; try reflexivity; try assumption.
    + exists F0, (hist ++ [s]), (y ++ ys). split; [exact E0|]. split; [rewrite (run_snoc _ _ _ _ _ _ E1), Es; reflexivity|]. rewrite concat_app. cbn [concat]. rewrite app_nil_r, Ecat. reflexivity.
    + intros X. contradiction.
  - rewrite (Eol F), ohc_step_ok. cbv zeta iota beta. eexists. split.
    + f_equal. f_equal. rewrite carrier_ok. destruct (mc_real c); [rewrite map_map|]; reflexivity.
    + constructor; cbn; try reflexivity; try assumption.
      * exists F0, (hist ++ [s]), (y ++ ys). split; [exact E0|]. split; [rewrite (run_snoc _ _ _ _ _ _ E1), Es; reflexivity|]. rewrite concat_app. cbn [concat]. rewrite app_nil_r, Ecat. reflexivity.
      * intros _. f_equal. f_equal. rewrite Lx, app_length, Nat.mul_add_distr_r, plus_INR. ring.
Qed.
