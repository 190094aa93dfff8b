(** C72: clock recovery. *)
From Coq Require Import Reals ZArith Lra Lia Psatz Field.
From Verif Require Import Base BaseLemmas RField DftSys ComplexSys Rii_Model Filters_Model Filters_Proofs Interp_Model Interp_Props Fest_Proofs3 Clk_Model Clk_Spec Clk_Proofs Clk_Proofs2.
Local Open Scope R_scope.

(** the interpolators of the library (the instants asked are in (0, 1]) *)
Lemma lin_valid : valid itrp_lineaire (fun tau => lin_coefs (F := Rfield) tau).
Proof. split; [cbn; lia|]. intros tau _. split; reflexivity. Qed.
Lemma lagrange_valid d : valid (itrp_lagrange d) (fun tau => lagrange_coefs (F := Rfield) d tau).
Proof. split; [cbn; lia|]. intros tau _. split; [reflexivity|]. unfold lagrange_coefs. rewrite map_length, seq_length. reflexivity. Qed.
Definition cspline_h (tau : R) : list R := nth (Z.to_nat (trunc (tau * 256))) (cspline_lut (F := Rfield) 256 0) [].
Lemma cspline_valid : valid itrp_cspline cspline_h.
Proof.
  split; [cbn; lia|]. intros tau H. assert (B : (0 <= trunc (tau * 256) <= 256)%Z).
  { unfold trunc. destruct (Rle_dec 0 (tau * 256)); [|lra]. destruct (base_Int_part (tau * 256)) as [A Bq]. split.
    - assert (Q : -1 < IZR (Int_part (tau * 256))) by lra. apply lt_IZR in Q. lia.
    - apply le_IZR. lra. }
  unfold itrp_cspline. cbn [it_coefs it_K]. destruct (Z.leb_spec 0 (trunc (tau * 256))); [|lia]. destruct (Z.leb_spec (trunc (tau * 256)) 256); [|lia]. cbn [andb].
  assert (L : List.length (cspline_lut (F := Rfield) 256 0) = 257%nat) by (unfold cspline_lut; rewrite map_length, seq_length; reflexivity).
  split; [apply (vget_nth (A := list R) _ _ []); eapply Nat.lt_le_trans; [|apply Nat.eq_le_incl; symmetry; exact L]; lia|]. unfold cspline_h, cspline_lut. rewrite (Sig_Proofs.nth_map_seq (X := list R)) by lia. reflexivity.
Qed.

(** For any interpolator which accepts the fractions of (0, 1], a number K2 of readings per symbol, an oversampling osf large enough (4 or more for the Gardner detector),
    any input cut into any blocks: the outputs are the values interpolated at the instants of the specification, one reading out of K2, all those that fall within the input.
    Only a block longer than 3.75 symbols can make the call throw. *)
Theorem C72_readings : forall (c : clkconfig) (h : R -> list R) (blocks : list (list Complex)),
  let K := it_K (ck_itrp c) in let K1 := INR (ck_osf c) in let K2 := ted_osf (ck_ted c) in let X := concat blocks in
  let T := instant h K K1 K2 (clk_gain c) X in let v := value h K K1 K2 (clk_gain c) X in
  valid (ck_itrp c) h -> (0 < K2)%nat -> (3 <= ck_osf c)%nat -> (ck_osf c * K2 + 4 * K2 <= 4 * ck_osf c)%nat ->
  exists st0, clk_init c = Ok st0 /\
   ((exists st J, run (clk_step c) st0 blocks = Ok (st, map (fun j => v (K2 * (j + 1) - 1)%nat) (seq 0 J)) /\
      forall j, (j < J)%nat <-> T (K2 * (j + 1) - 1)%nat <= INR (List.length X)) \/
    (run (clk_step c) st0 blocks = Exc /\ exists b, In b blocks /\ (15 * ck_osf c < 4 * List.length b)%nat)).
Proof.
  intros c h blocks K K1 K2 X T v V P2 P1 PS. destruct (init_ok c h X P2 P1 PS) as [st0 [E0 I0]]. exists st0. split; [exact E0|].
  destruct (blocks_ok c h X V P2 P1 PS blocks 0 0 st0) as [[st [k [_ [E I]]]]|Q]; [apply le_n|reflexivity|exact I0| |right; exact Q].
  left. exists st, (k / K2)%nat. split; [rewrite E; unfold outs; rewrite Nat.div_0_l, Nat.sub_0_r by (unfold K2 in *; lia); reflexivity|].
  intros j. apply (final c h X P2 P1 PS _ k st j I).
Qed.
Print Assumptions C72_readings.

(** Two successive outputs are read between 3/4 and 5/4 symbol apart, so the number of outputs follows the number of samples. *)
Theorem C72_rate : forall (c : clkconfig) (h : R -> list R) (X : list Complex),
  let K := it_K (ck_itrp c) in let K1 := INR (ck_osf c) in let K2 := ted_osf (ck_ted c) in
  let T := instant h K K1 K2 (clk_gain c) X in
  (0 < K2)%nat -> (3 <= ck_osf c)%nat -> (ck_osf c * K2 + 4 * K2 <= 4 * ck_osf c)%nat ->
  (forall j, 3 / 4 * K1 <= T (K2 * (S j + 1) - 1)%nat - T (K2 * (j + 1) - 1)%nat <= 5 / 4 * K1) /\
  (forall J n, (forall j, (j < J)%nat <-> T (K2 * (j + 1) - 1)%nat <= INR n) -> 3 / 4 * K1 * (INR J - 1) <= INR n < K1 * (5 / 4 * INR J + 3 / 2)).
Proof.
  intros c h X K K1 K2 T P2 P1 PS. pose proof (out_spacing c h X P2 P1 PS) as SP. split; [exact SP|]. intros J n H. pose proof (K1_pos c P1) as KP. fold K1 in KP.
  assert (N0 : T (K2 * (0 + 1) - 1)%nat = K1 / 2 - 1 + INR (K2 - 1) * (K1 / INR K2)).
  { replace (K2 * (0 + 1) - 1)%nat with (K2 - 1)%nat by lia. assert (G : forall r, (r <= K2 - 1)%nat -> T r = K1 / 2 - 1 + INR r * (K1 / INR K2)).
    { induction r as [|r IH]; intros Hr; [pose proof (T_0 c h X) as Q; change (T 0%nat = K1 / 2 - 1) in Q; rewrite Q; cbn [INR]; ring|]. pose proof (T_S c h X r) as Q. change (T (S r) = T r + K1 / INR K2 - dl c h X r) in Q. rewrite Q, (IH ltac:(lia)), S_INR. unfold dl. fold K2. rewrite Nat.mod_small by lia. destruct (Nat.eqb_spec r (K2 - 1)); [lia|]. ring. }
    apply G. lia. }
  assert (B0 : INR (K2 - 1) * (K1 / INR K2) <= K1).
  { assert (0 < INR K2) by (apply lt_0_INR; exact P2). assert (INR (K2 - 1) <= INR K2) by (apply le_INR; lia). apply (Rmult_le_reg_r (INR K2)); [assumption|]. unfold Rdiv. rewrite Rmult_assoc, (Rmult_assoc K1), Rinv_l by lra. nra. }
  assert (B1 : 0 <= INR (K2 - 1) * (K1 / INR K2)). { apply Rmult_le_pos; [apply pos_INR|]. apply Rmult_le_pos; [lra|]. apply Rlt_le, Rinv_0_lt_compat, lt_0_INR; exact P2. }
  assert (U : forall m, T (K2 * (m + 1) - 1)%nat <= T (K2 * (0 + 1) - 1)%nat + INR m * (5 / 4 * K1)).
  { induction m as [|m IH]; [cbn [INR]; lra|]. rewrite S_INR. pose proof (SP m) as Q. unfold T, K2, K1, K in *. lra. }
  split.
  - destruct J as [|J]; [cbn [INR]; pose proof (pos_INR n); nra|]. assert (Q : T (K2 * (J + 1) - 1)%nat <= INR n) by (apply H; lia). pose proof (out_far c h X P2 P1 PS 0 J) as F. cbn [Nat.add] in F. rewrite S_INR.
    assert (F' : T (K2 * (0 + 1) - 1)%nat + INR J * (3 / 4 * K1) <= T (K2 * (J + 1) - 1)%nat) by exact F. rewrite N0 in F'. lra.
  - assert (Q : ~ T (K2 * (J + 1) - 1)%nat <= INR n) by (intros Q; apply H in Q; lia). specialize (U J). rewrite N0 in U. lra.
Qed.
Print Assumptions C72_rate.

(** In lock (null error at the nominal instants) the signal is read at the nominal instants, for ever. *)
Theorem C72_lock : forall (h : R -> list R) K K1 K2 g (X : list Complex), (0 < K2)%nat -> 0 <= K1 ->
  let r := fun k : Z => if (k <? 0)%Z then c0 else read h K X (K1 / 2 - 1 + IZR k * (K1 / INR K2)) in
  (forall k : nat, (k mod K2 = K2 - 1)%nat -> fst ((r (Z.of_nat k) - r (Z.of_nat k - 2)%Z) * conj (r (Z.of_nat k - 1)%Z))%K = 0) ->
  forall k, instant h K K1 K2 g X k = K1 / 2 - 1 + INR k * (K1 / INR K2) /\ value h K K1 K2 g X k = r (Z.of_nat k).
Proof.
  intros h K K1 K2 g X P2 PK r H.
  assert (R : forall k, reading h K K1 K2 g X k = (K1 / 2 - 1 + INR k * (K1 / INR K2), r (Z.of_nat k - 1)%Z, r (Z.of_nat k - 2)%Z)).
  { induction k as [|k IH]; [cbn [reading INR]; apply f_equal2; [apply f_equal2; [ring|reflexivity]|reflexivity]|]. cbn [reading]. rewrite IH.
    assert (E : read h K X (K1 / 2 - 1 + INR k * (K1 / INR K2)) = r (Z.of_nat k)) by (unfold r; destruct (Z.ltb_spec (Z.of_nat k) 0); [lia|]; rewrite <- INR_IZR_INZ; reflexivity). rewrite E.
    replace (Z.of_nat (S k) - 1)%Z with (Z.of_nat k) by lia. replace (Z.of_nat (S k) - 2)%Z with (Z.of_nat k - 1)%Z by lia. apply f_equal2; [apply f_equal2; [|reflexivity]|reflexivity]. rewrite S_INR. destruct (Nat.eqb_spec (k mod K2) (K2 - 1)) as [M|M]; [|ring].
    rewrite (H k M), Rmult_0_r. unfold clamp. destruct (Rlt_dec 0 (- K1 / 4)); [lra|]. destruct (Rlt_dec (K1 / 4) 0); [lra|]. ring. }
  intros k. unfold value, instant. rewrite R. cbn [fst]. split; [reflexivity|]. unfold r. destruct (Z.ltb_spec (Z.of_nat k) 0); [lia|]. rewrite <- INR_IZR_INZ. reflexivity.
Qed.
Print Assumptions C72_lock.

(** Direction: at a transition from -a to a read when the signal is already at u a (late for u > 0, early for u < 0), the error has the sign of u, and a positive error advances the next
    readings; the error does not depend on the phase of the carrier. *)
Theorem C72_direction : forall a z x0 x1 x2 : Complex, forall u : R,
  gardner (- a)%K (re u * a)%K a = 2 * Cnorm2 a * u /\ gardner (z * x0)%K (z * x1)%K (z * x2)%K = Cnorm2 z * gardner x0 x1 x2.
Proof. intros [a1 a2] [z1 z2] [p1 p2] [q1 q2] [r1 r2] u. unfold gardner, Cnorm2, re. cbn. split; ring. Qed.
Print Assumptions C72_direction.

(** With the linear interpolator, a ramp is read exactly, with a delay of one sample. *)
Theorem C72_linear : forall (X : list Complex) (a b : Complex) T, let i := (ceilZ T - 1)%Z in
  sampZ X (i - 1) = (a + b * re (IZR (i - 1)))%K -> sampZ X i = (a + b * re (IZR i))%K ->
  read (fun tau => lin_coefs (F := Rfield) tau) 2 X T = (a + b * re (T - 1))%K.
Proof.
  intros X a b T i H0 H1. unfold read. fold i. cbn [sum]. change (Z.of_nat 2) with 2%Z. change (Z.of_nat 0) with 0%Z. change (Z.of_nat 1) with 1%Z.
  replace (i - 2 + 1 + 0)%Z with (i - 1)%Z by lia. replace (i - 2 + 1 + 1)%Z with i by lia. rewrite H0, H1, minus_IZR. unfold lin_coefs, re. cbn [nth]. destruct a, b. apply C_ext; cbn; ring.
Qed.
Print Assumptions C72_linear.

(** Finding: the detector of the configuration is only asked for its number of readings per symbol: the error is always that of Gardner.
    Choosing early-late or Mueller and Muller instead changes nothing else. *)
Theorem C72_detector_refuted : forall osf it tc (t t' : ted), ted_osf t = ted_osf t' ->
  clk_init (mkclk osf t it tc) = clk_init (mkclk osf t' it tc) /\
  forall st x, clk_step (mkclk osf t it tc) st x = clk_step (mkclk osf t' it tc) st x.
Proof. intros osf it tc [n f] [n' f'] H. cbn in H. subst n'. split; reflexivity. Qed.
Print Assumptions C72_detector_refuted.
Example C72_early_late osf it tc st x : clk_step (mkclk osf TedEL it tc) st x = clk_step (mkclk osf TedGardner it tc) st x.
Proof. apply C72_detector_refuted. reflexivity. Qed.

(** Finding: at 2 samples per symbol (the cubic spline interpolator and the Gardner detector of the default configuration), the phase can become negative,
    and the interpolator then throws: the first correction is enough. *)
Lemma trunc_0 : trunc (0 * 256) = 0%Z.
Proof. unfold trunc. destruct (Rle_dec 0 (0 * 256)) as [_|H]; [|exfalso; apply H; lra]. apply Sig_Proofs.Int_part_spec. lra. Qed.
Lemma trunc_neg t : 1 / 256 < t -> (trunc (- t * 256) < 0)%Z.
Proof.
  intros H. unfold trunc. destruct (Rle_dec 0 (- t * 256)) as [Q|_]; [lra|]. destruct (base_Int_part (- (- t * 256))) as [A B].
  assert (P : 0 < IZR (Int_part (- (- t * 256)))) by lra. apply lt_IZR in P. lia.
Qed.
Lemma two_ne : cnat (K := Rfield) 2 <> c0.
Proof. rewrite cnat_R. cbn. lra. Qed.
Lemma cspline_at0 a b d e k : (k < 4)%nat -> itrp_run itrp_cspline [a; b; d; e] k 0 = Ok (samp [a; b; d; e] ((k + 1) mod 4)).
Proof.
  intros Hk. unfold itrp_run, itrp_cspline. cbn [it_coefs it_K]. rewrite trunc_0. cbn [Z.leb andb Z.compare]. change (Z.to_nat 0) with 0%nat.
  assert (E : vget (cspline_lut (F := Rfield) 256 0) 0 = Ok [0; 1; 0; 0]).
  { unfold cspline_lut. cbn [Nat.add seq map vget nth_error]. cbn [vget]. f_equal. destruct (C21_cspline Rfield two_ne) as [_ [Q _]]. specialize (Q c0). destruct Q as [Q _].
    replace (cnat (K := Rfield) 0 / cnat 256)%K with (c0 (c := Rfield)); [exact Q|]. cbn. unfold Rdiv. ring. }
  rewrite E. cbn [bind]. unfold itrp_step. cbn [map List.length Nat.eqb negb loop bind imod vget nth_error].
  destruct k as [|[|[|[|k]]]]; [| | | |lia]; cbn; unfold Nat.modulo; cbn; f_equal; destruct a, b, d, e; apply C_ext; cbn; ring.
Qed.

(** one sample at the phase 1: the sample two places before is read *)
Lemma sample_first tc nmax a b d e k x x0 x1 x2 o : (k < 4)%nat ->
  clk_sample (mkclk 2 TedGardner itrp_cspline tc) nmax (mkst 1 0 [a; b; d; e] k x0 x1 x2, o) x =
  let w := upd [a; b; d; e] k x in let v := samp w ((k + 2) mod 4) in
  Ok (mkst 1 1 w ((k + 1) mod 4) x1 x2 v, o, []).
Proof.
  intros Hk. unfold clk_sample. cbn [ck_osf ck_ted ck_itrp ck_win ck_idx ck_phase ck_x0 ck_x1 ck_x2 ck_cnt ted_osf TedGardner].
  rewrite vset_ok by (cbn; lia). cbn [bind]. unfold imod. cbn [it_K itrp_cspline Nat.eqb bind]. replace (1 - 1) with 0 by ring. destruct (Rlt_dec 1 0); [lra|].
  assert (E : itrp_run itrp_cspline (upd [a; b; d; e] k x) ((k + 1) mod 4) 0 = Ok (samp (upd [a; b; d; e] k x) ((k + 2) mod 4))).
  { destruct k as [|[|[|[|k]]]]; [| | | |lia]; cbn [upd]; rewrite cspline_at0 by (unfold Nat.modulo; cbn; lia); reflexivity. }
  fold itrp_cspline. rewrite E. cbn [bind Nat.sub Nat.eqb]. replace (0 + INR 2 / INR 2) with 1 by (cbn; field). reflexivity.
Qed.
Lemma sample_second tc nmax a b d e k x x0 x1 x2 o : (k < 4)%nat -> (o < nmax)%nat ->
  clk_sample (mkclk 2 TedGardner itrp_cspline tc) nmax (mkst 1 1 [a; b; d; e] k x0 x1 x2, o) x =
  let w := upd [a; b; d; e] k x in let v := samp w ((k + 2) mod 4) in
  Ok (mkst (1 - clamp (clk_gain (mkclk 2 TedGardner itrp_cspline tc) * gardner x1 x2 v) (- (1) / 2) (1 / 2)) 0 w ((k + 1) mod 4) x1 x2 v, (o + 1)%nat, [v]).
Proof.
  intros Hk Ho. unfold clk_sample. cbn [ck_osf ck_ted ck_itrp ck_win ck_idx ck_phase ck_x0 ck_x1 ck_x2 ck_cnt ted_osf TedGardner].
  rewrite vset_ok by (cbn; lia). cbn [bind]. unfold imod. cbn [it_K itrp_cspline Nat.eqb bind]. replace (1 - 1) with 0 by ring. destruct (Rlt_dec 1 0); [lra|].
  assert (E : itrp_run itrp_cspline (upd [a; b; d; e] k x) ((k + 1) mod 4) 0 = Ok (samp (upd [a; b; d; e] k x) ((k + 2) mod 4))).
  { destruct k as [|[|[|[|k]]]]; [| | | |lia]; cbn [upd]; rewrite cspline_at0 by (unfold Nat.modulo; cbn; lia); reflexivity. }
  fold itrp_cspline. rewrite E. cbn [bind Nat.sub Nat.eqb]. replace (0 + INR 2 / INR 2) with 1 by (cbn; field). destruct (Nat.ltb_spec o nmax); [|lia].
  replace (- INR 2 / 4) with (- (1) / 2) by (cbn; field). replace (INR 2 / 4) with (1 / 2) by (cbn; field). reflexivity.
Qed.
Theorem C72_two_samples_refuted : forall tc (s0 s1 s2 s3 s4 : Complex) (l : list Complex), let c := mkclk 2 TedGardner itrp_cspline tc in
  1 / 256 < clk_gain c * fst (s1 * conj s0)%K ->
  exists st0, clk_init c = Ok st0 /\ clk_step c st0 (s0 :: s1 :: s2 :: s3 :: s4 :: l) = Exc.
Proof.
  intros tc s0 s1 s2 s3 s4 l c H. eexists. split; [reflexivity|]. unfold clk_step. cbn [ck_osf c Nat.eqb it_K itrp_cspline ck_itrp repeat].
  assert (NM : (2 <= 2 + List.length (s0 :: s1 :: s2 :: s3 :: s4 :: l) / 2)%nat) by lia. revert NM. generalize (2 + List.length (s0 :: s1 :: s2 :: s3 :: s4 :: l) / 2)%nat. intros nmax NM.
  replace (INR 2 / 2) with 1 by (cbn; field). fold itrp_cspline. cbn [flat_st]. unfold c.
  rewrite sample_first by lia. cbn [bind upd]. unfold Nat.modulo; cbn [Nat.divmod Nat.add Nat.sub snd].
  rewrite sample_second by lia. cbn [bind upd]. unfold Nat.modulo; cbn [Nat.divmod Nat.add Nat.sub snd samp nth].
  assert (Z : 1 - clamp (clk_gain (mkclk 2 TedGardner itrp_cspline tc) * gardner c0 c0 c0) (- (1) / 2) (1 / 2) = 1).
  { replace (gardner c0 c0 c0) with 0 by (unfold gardner; cbn; ring). rewrite Rmult_0_r. unfold clamp. destruct (Rlt_dec 0 (- (1) / 2)); [lra|]. destruct (Rlt_dec (1 / 2) 0); lra. }
  cbn [samp nth]. unfold samp. cbn [nth]. rewrite Z. clear Z. unfold samp. cbn [nth].
  rewrite sample_first by lia. cbn [bind upd]. unfold Nat.modulo, samp; cbn [Nat.divmod Nat.add Nat.sub snd nth].
  rewrite sample_second by lia. cbn [bind upd]. unfold Nat.modulo, samp; cbn [Nat.divmod Nat.add Nat.sub snd nth].
  set (D := clamp _ _ _). assert (HD : 1 / 256 < D).
  { unfold D, clamp. replace (gardner c0 s0 s1) with (fst (s1 * conj s0)%K) by (unfold gardner; destruct s0, s1; cbn; ring). fold c. destruct (Rlt_dec _ (- (1) / 2)) as [Q|Q]; [lra|]. destruct (Rlt_dec (1 / 2) _); lra. }
  unfold clk_sample. cbn [ck_osf ck_ted ck_itrp ck_win ck_idx ck_phase ck_x0 ck_x1 ck_x2 ck_cnt ted_osf TedGardner vset List.length Nat.ltb Nat.leb bind upd]. unfold imod. cbn [it_K itrp_cspline Nat.eqb bind].
  replace (1 - D - 1) with (- D) by ring. destruct (Rlt_dec 1 (- D)); [lra|]. unfold itrp_run. cbn [it_coefs itrp_cspline]. pose proof (trunc_neg D HD) as TN. destruct (Z.leb_spec 0 (trunc (- D * 256))); [lia|]. reflexivity.
Qed.
Print Assumptions C72_two_samples_refuted.

(** Finding: on one long block, the buffer of the outputs (2 + n / osf) can be too small, and the call throws: a simple ramp is enough. *)
Lemma flat_count c nmax b : forall st o st' o' y, flat_st (clk_sample c nmax) (st, o) b = Ok ((st', o'), y) -> (o <= nmax)%nat -> (o' = o + List.length y /\ o' <= nmax)%nat.
Proof.
  induction b as [|v b IH]; intros st o st' o' y E Ho; cbn [flat_st] in E.
  - injection E as <- <- <-. cbn. lia.
  - destruct (clk_sample c nmax (st, o) v) as [[[s1 o1] y1]| | |] eqn:E1; cbn [bind] in E; try discriminate.
    destruct (flat_st (clk_sample c nmax) (s1, o1) b) as [[[s2 o2] y2]| | |] eqn:E2; cbn [bind] in E; try discriminate. injection E as <- <- <-.
    assert (Q : (o1 = o + List.length y1 /\ o1 <= nmax)%nat).
    { unfold clk_sample in E1. destruct (vset (ck_win st) (ck_idx st) v) as [w| | |]; cbn [bind] in E1; try discriminate. destruct (imod _ _) as [ix| | |]; cbn [bind] in E1; try discriminate.
      destruct (Rlt_dec 1 _); [injection E1 as <- <- <-; cbn; lia|]. destruct (itrp_run _ _ _ _) as [z| | |]; cbn [bind] in E1; try discriminate.
      destruct (_ =? _)%nat; [|injection E1 as <- <- <-; cbn; lia]. destruct (Nat.ltb_spec o nmax); [|discriminate]. injection E1 as <- <- <-. cbn. lia. }
    destruct (IH _ _ _ _ _ E2 (proj2 Q)) as [A B]. pose proof (app_length (A := Complex) y1 y2) as L. change (o2 = o + List.length (A := Complex) (y1 ++ y2) /\ o2 <= nmax)%nat. rewrite L. lia.
Qed.

Lemma step_count c st b st' y : clk_step c st b = Ok (st', y) -> (List.length (A := Complex) y <= 2 + List.length b / ck_osf c)%nat.
Proof.
  unfold clk_step. destruct (ck_osf c =? 0)%nat; [discriminate|]. destruct (flat_st _ _ b) as [[[s2 o2] y2]| | |] eqn:E; cbn [bind fst]; intros H; try discriminate. injection H as <- <-.
  apply flat_count in E; [|apply Nat.le_0_l]. destruct E as [E1 E2]. rewrite E1 in E2. exact E2.
Qed.
Definition ramp (A : R) (n : nat) : list Complex := map (fun j => re (A * INR j)) (seq 0 n).
Lemma ramp_samp A n j : (j < n)%nat -> samp (ramp A n) j = re (A * INR j).
Proof. intros H. unfold samp, ramp. rewrite (Sig_Proofs.nth_map_seq (X := Complex)) by exact H. reflexivity. Qed.
Lemma ramp_read A n k : (k < n)%nat -> read (fun tau => lin_coefs (F := Rfield) tau) 2 (ramp A n) (INR (S k)) = re (A * INR k).
Proof.
  intros H. unfold read. assert (CE : ceilZ (INR (S k)) = Z.of_nat (S k)) by (apply ceil_unique; rewrite <- INR_IZR_INZ; lra). rewrite CE. replace (Z.of_nat (S k) - 1)%Z with (Z.of_nat k) by lia.
  cbn [sum]. replace (Z.of_nat k - Z.of_nat 2 + 1 + Z.of_nat 1)%Z with (Z.of_nat k) by lia.
  assert (E : sampZ (ramp A n) (Z.of_nat k) = re (A * INR k)) by (etransitivity; [apply (sampZ_nat Complex)|apply ramp_samp; exact H]). rewrite E.
  replace (INR (S k) - IZR (Z.of_nat k)) with 1 by (rewrite <- INR_IZR_INZ, S_INR; ring). unfold lin_coefs. cbn [nth]. destruct (sampZ (ramp A n) _) as [u w]. unfold re. apply C_ext; cbn; ring.
Qed.
Section Ramp.
  Variables (tc A : R) (n : nat).
  Let c := mkclk 4 TedGardner itrp_lineaire tc.
  Let hl := (fun tau => lin_coefs (F := Rfield) tau).
  Hypothesis (HA : 1 <= 16 * clk_gain c * (A * A)).
  Let rd := reading hl 2 (INR 4) 2 (clk_gain c) (ramp A n).
  Lemma rd_S T a b k : (k < n)%nat -> forall j, rd j = (T, a, b) -> T = INR (S k) ->
    rd (S j) = (T + 2 - (if (j mod 2 =? 1)%nat then clamp (clk_gain c * fst ((re (A * INR k) - b) * conj a)%K) (-1) 1 else 0), re (A * INR k), a).
  Proof using.
    intros Hk j E ->. unfold rd in *. cbn [reading]. rewrite E. pose proof (ramp_read A n k Hk) as RR. change (read hl 2 (ramp A n) (INR (S k)) = re (A * INR k)) in RR. cbv zeta. rewrite RR.
    replace (INR 4 / INR 2) with 2 by (cbn; field). replace (- INR 4 / 4) with (-1) by (cbn; field). replace (INR 4 / 4) with 1 by (cbn; field). reflexivity.
  Qed.
  Lemma rd_q q : (3 * q + 7 < n)%nat -> rd (2 * q + 4) = (8 + 3 * INR q, re (A * INR (3 * q + 6)), re (A * INR (3 * q + 4))).
  Proof using HA.
    assert (G0 : 0 < clk_gain c * (A * A)) by lra. induction q as [|q IH]; intros Hq.
    - assert (R0 : rd 0 = (1, c0, c0)) by (unfold rd; cbn [reading]; repeat f_equal; cbn; field).
      assert (R1 : rd 1 = (3, re 0, c0)). { rewrite (rd_S _ _ _ 0 ltac:(lia) 0 R0) by (cbn; reflexivity). apply f_equal2; [apply f_equal2; [change (0 mod 2 =? 1)%nat with false; cbv iota; ring|cbn [INR]; rewrite Rmult_0_r; reflexivity]|reflexivity]. }
      assert (R2 : rd 2 = (5, re (A * INR 2), re 0)).
      { rewrite (rd_S _ _ _ 2 ltac:(lia) 1 R1) by (cbn; ring). apply f_equal2; [apply f_equal2; [|reflexivity]|reflexivity]. change (1 mod 2 =? 1)%nat with true. cbv iota. unfold clamp.
        replace (clk_gain c * _) with 0 by (unfold re; cbn; ring). destruct (Rlt_dec 0 (-1)); [lra|]. destruct (Rlt_dec 1 0); lra. }
      assert (R3 : rd 3 = (7, re (A * INR 4), re (A * INR 2))). { rewrite (rd_S _ _ _ 4 ltac:(lia) 2 R2) by (cbn; ring). apply f_equal2; [apply f_equal2; [|reflexivity]|reflexivity]. change (2 mod 2 =? 1)%nat with false. cbv iota. ring. }
      cbn [Nat.mul Nat.add]. rewrite (rd_S _ _ _ 6 ltac:(lia) 3 R3) by (cbn; ring). apply f_equal2; [apply f_equal2; [|reflexivity]|reflexivity]. change (3 mod 2 =? 1)%nat with true. cbv iota.
      replace (clk_gain c * _) with (16 * clk_gain c * (A * A)) by (unfold re; cbn; ring). unfold clamp. destruct (Rlt_dec _ (-1)); [lra|]. destruct (Rlt_dec 1 _); cbn [INR]; lra.
    - specialize (IH ltac:(lia)). replace (2 * S q + 4)%nat with (S (S (2 * q + 4))) by lia. pose proof (pos_INR q) as PQ.
      assert (M0 : ((2 * q + 4) mod 2 =? 1)%nat = false) by (replace (2 * q + 4)%nat with (0 + (q + 2) * 2)%nat by lia; rewrite Nat.mod_add by lia; reflexivity).
      assert (M1 : (S (2 * q + 4) mod 2 =? 1)%nat = true) by (replace (S (2 * q + 4))%nat with (1 + (q + 2) * 2)%nat by lia; rewrite Nat.mod_add by lia; reflexivity).
      assert (R1 := rd_S _ _ _ (3 * q + 7) ltac:(lia) (2 * q + 4) IH). rewrite M0 in R1.
      assert (T1 : 8 + 3 * INR q = INR (S (3 * q + 7))) by (rewrite S_INR, plus_INR, mult_INR; cbn; ring). specialize (R1 T1).
      assert (R2 := rd_S _ _ _ (3 * q + 9) ltac:(lia) (S (2 * q + 4)) R1). rewrite M1 in R2.
      assert (T2 : 8 + 3 * INR q + 2 - 0 = INR (S (3 * q + 9))) by (rewrite S_INR, plus_INR, mult_INR; cbn; ring). specialize (R2 T2). rewrite R2.
      replace (3 * S q + 6)%nat with (3 * q + 9)%nat by lia. replace (3 * S q + 4)%nat with (3 * q + 7)%nat by lia. apply f_equal2; [apply f_equal2; [|reflexivity]|reflexivity].
      replace (clk_gain c * _) with (3 * (3 * INR q + 7) * (clk_gain c * (A * A))) by (rewrite !plus_INR, mult_INR; unfold re; cbn; ring).
      rewrite S_INR. unfold clamp. assert (1 <= 3 * (3 * INR q + 7) * (clk_gain c * (A * A))) by nra. destruct (Rlt_dec _ (-1)); [lra|]. destruct (Rlt_dec 1 _); lra.
  Qed.
  Lemma ramp_out j : (2 <= j)%nat -> (3 * j + 4 <= n)%nat -> instant hl 2 (INR 4) 2 (clk_gain c) (ramp A n) (2 * (j + 1) - 1) = INR (3 * j + 4).
  Proof using HA.
    intros H1 H2. replace (2 * (j + 1) - 1)%nat with (S (2 * (j - 2) + 4)) by lia. unfold instant. fold rd.
    assert (M0 : ((2 * (j - 2) + 4) mod 2 =? 1)%nat = false) by (replace (2 * (j - 2) + 4)%nat with (0 + j * 2)%nat by lia; rewrite Nat.mod_add by lia; reflexivity).
    assert (R1 := rd_S _ _ _ (3 * (j - 2) + 7) ltac:(lia) (2 * (j - 2) + 4) (rd_q (j - 2) ltac:(lia))). rewrite M0 in R1. rewrite R1 by (rewrite S_INR, plus_INR, mult_INR; cbn; ring). cbn [fst].
    replace (3 * j + 4)%nat with (3 * (j - 2) + 10)%nat by lia. rewrite plus_INR, mult_INR. cbn. ring.
  Qed.
End Ramp.
Theorem C72_overflow_refuted : forall tc A n, let c := mkclk 4 TedGardner itrp_lineaire tc in
  1 <= 16 * clk_gain c * (A * A) -> (37 <= n)%nat ->
  exists st0, clk_init c = Ok st0 /\ clk_step c st0 (ramp A n) = Exc.
Proof.
  intros tc A n c HA Hn. destruct (C72_readings c (fun tau => lin_coefs (F := Rfield) tau) [ramp A n] lin_valid) as [st0 [E0 Q]]; [cbn; lia|cbn; lia|cbn; lia|]. exists st0. split; [exact E0|].
  cbn [run concat] in Q. rewrite app_nil_r in Q. destruct Q as [[st [J [E HJ]]]|[E _]].
  - exfalso. destruct (clk_step c st0 (ramp A n)) as [[s1 y1]| | |] eqn:ES; cbn [bind] in E; try discriminate. rewrite app_nil_r in E. injection E as <- Ey. apply step_count in ES. rewrite Ey in ES. rewrite map_length, seq_length in ES.
    assert (LR : List.length (ramp A n) = n) by (unfold ramp; rewrite map_length, seq_length; reflexivity). rewrite LR in *. change (ck_osf c) with 4%nat in ES.
    pose proof (Nat.div_mod n 4 ltac:(lia)) as DM. pose proof (Nat.mod_upper_bound n 4 ltac:(lia)).
    assert (L : (2 + n / 4 < J)%nat); [|lia]. apply HJ. change (it_K (ck_itrp c)) with 2%nat. change (ck_osf c) with 4%nat. change (ted_osf (ck_ted c)) with 2%nat.
    pose proof (ramp_out tc A n HA (2 + n / 4) ltac:(lia) ltac:(lia)) as RO. eapply Rle_trans; [apply Req_le; exact RO|]. apply le_INR. lia.
  - destruct (clk_step c st0 (ramp A n)) as [[s1 y1]| | |]; cbn [bind] in E; try discriminate. reflexivity.
Qed.
Print Assumptions C72_overflow_refuted.
(** the gain is positive, so a steep enough ramp exists *)
Lemma gain_pos c : (0 < ck_osf c)%nat -> 0 < ck_tc c -> 0 < clk_gain c.
Proof.
  intros H1 H2. unfold clk_gain. assert (P : 0 < INR (ck_osf c)) by (apply lt_0_INR; exact H1). apply Rmult_lt_0_compat; [exact P|].
  assert (Q : exp (- (1) / (ck_tc c * INR (ck_osf c))) < exp 0). { apply exp_increasing. assert (0 < / (ck_tc c * INR (ck_osf c))) by (apply Rinv_0_lt_compat; nra). unfold Rdiv. lra. }
  rewrite exp_0 in Q. lra.
Qed.
Example C72_steep tc : 0 < tc -> exists A, 1 <= 16 * clk_gain (mkclk 4 TedGardner itrp_lineaire tc) * (A * A).
Proof.
  intros H. pose proof (gain_pos (mkclk 4 TedGardner itrp_lineaire tc) ltac:(cbn; lia) H) as G. set (g := clk_gain _) in *. exists (1 + / g). assert (P : 0 < / g) by (apply Rinv_0_lt_compat; exact G).
  assert (E : g * / g = 1) by (apply Rinv_r; lra). nra.
Qed.
(** the hypotheses of C72_readings are met by the three detectors from 4 samples per symbol on, with the three interpolators *)
Example C72_case osf tc blocks : (4 <= osf)%nat -> forall t, In t [TedMM; TedEL; TedGardner] -> forall it h, In (it, h) [(itrp_lineaire, fun tau => lin_coefs (F := Rfield) tau); (itrp_lagrange 3, fun tau => lagrange_coefs (F := Rfield) 3 tau); (itrp_cspline, cspline_h)] ->
  (forall b, In b blocks -> (4 * List.length b <= 15 * osf)%nat) -> let c := mkclk osf t it tc in
  exists st0 st y, clk_init c = Ok st0 /\ run (clk_step c) st0 blocks = Ok (st, y).
Proof.
  intros H t Ht it h Hi Hb c. assert (V : valid it h) by (destruct Hi as [E|[E|[E|[]]]]; injection E as <- <-; [apply lin_valid|apply lagrange_valid|apply cspline_valid]).
  destruct (C72_readings c h blocks V) as [st0 [E0 Q]].
  - destruct Ht as [<-|[<-|[<-|[]]]]; cbn; lia.
  - cbn; lia.
  - destruct Ht as [<-|[<-|[<-|[]]]]; cbn; lia.
  - exists st0. destruct Q as [[st [J [E _]]]|[_ [b [I L]]]]; [|specialize (Hb b I); exfalso; apply (Nat.lt_irrefl (15 * osf)); eapply Nat.lt_le_trans; [exact L|exact Hb]]. exists st. eexists. split; [exact E0|exact E].
Qed.
