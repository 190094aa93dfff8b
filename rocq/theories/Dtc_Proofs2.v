From Coq Require Import Reals ZArith Lra Lia Psatz Field.
From Verif Require Import Base BaseLemmas RField DftSys ComplexSys Rii_Model Filters_Model Filters_Spec Filters_Proofs Filters_Props Fest_Model Fest_Proofs Fest_Proofs3 Del_Spec Del_Proofs Del_Proofs2 Hil_Proofs2 Dtc_Model Dtc_Spec Dtc_Proofs.
Local Open Scope R_scope.
Local Notation rs := (sum (K := Rring)).

(** ** Blocks of a filter *)
Lemma block_of {St A B} (f : St -> A -> res (St * B)) s0 pre s ypre b (d : B) (F : nat -> B) :
  map_st f s0 pre = Ok (s, ypre) -> (exists s' y, map_st f s0 (pre ++ b) = Ok (s', y) /\ forall n, (n < List.length (pre ++ b))%nat -> nth n y d = F n) ->
  exists s' yb, map_st f s b = Ok (s', yb) /\ List.length yb = List.length b /\ (forall i, (i < List.length b)%nat -> nth i yb d = F (List.length pre + i)%nat) /\ map_st f s0 (pre ++ b) = Ok (s', ypre ++ yb).
Proof.
  intros E [s' [y [E2 H]]]. rewrite map_st_app, E in E2. cbn [bind] in E2. destruct (map_st f s b) as [[s1 yb]| | |] eqn:E3; cbn [bind] in E2; try discriminate. injection E2 as Es Ey. subst s1.
  exists s', yb. split; [reflexivity|]. split; [eapply map_st_length; exact E3|]. pose proof (map_st_length _ _ _ _ _ E) as L. split.
  - intros i Hi. rewrite <- H by (rewrite app_length; lia). rewrite <- Ey, <- L. rewrite app_nth2_plus. reflexivity.
  - rewrite map_st_app, E. cbn [bind]. rewrite E3. reflexivity.
Qed.

(** ** The correlator and the energy *)
Lemma div_re (z : Cfield) r : r <> 0 -> (z / re r)%K = (fst z / r, snd z / r).
Proof. intros H. destruct z as [a b]. unfold re. apply C_ext; cbn; unfold Cnorm2; cbn; field; exact H. Qed.
Lemma rsum_scale n (f : nat -> R) c : sum (K := Rring) n (fun i => f i / c) = sum (K := Rring) n f / c.
Proof. induction n as [|n IH]; [cbn; unfold Rdiv; ring|]. cbn [sum]. rewrite IH. cbn. unfold Rdiv. ring. Qed.
Definition sc (nm : R) (m : list Complex) : list Complex := map (fun z => (z / re nm)%K) m.
Lemma sc_samp nm m i : nm <> 0 -> samp (sc nm m) i = (fst (samp m i) / nm, snd (samp m i) / nm).
Proof.
  intros H. unfold samp, sc. destruct (Nat.lt_ge_cases i (List.length m)) as [L|L].
  - rewrite (nth_indep _ _ ((fun z : Cfield => (z / re nm)%K) c0)) by (rewrite map_length; exact L). rewrite (map_nth (fun z : Cfield => (z / re nm)%K)). apply div_re. exact H.
  - rewrite !nth_overflow by (try rewrite map_length; exact L). cbn. f_equal; unfold Rdiv; ring.
Qed.
Lemma norm_div (a b nm : R) : 0 < nm -> sqrt (Cnorm2 (a / nm, b / nm)) = sqrt (Cnorm2 (a, b)) / nm.
Proof.
  intros H. unfold Cnorm2. cbn [fst snd]. replace (a / nm * (a / nm) + b / nm * (b / nm)) with ((a * a + b * b) / (nm * nm)) by (field; lra).
  rewrite sqrt_div_alt by nra. rewrite sqrt_square by lra. reflexivity.
Qed.
Lemma rs_zero n f : (forall i, (i < n)%nat -> 0 <= f i) -> rs n f = 0 -> forall i, (i < n)%nat -> f i = 0.
Proof.
  induction n as [|n IH]; intros P E i Hi; [lia|]. rewrite rs_S in E. pose proof (rs_nonneg n f ltac:(intros; apply P; lia)) as Q. pose proof (P n ltac:(lia)) as Q2.
  destruct (Nat.eq_dec i n) as [->|N]; [lra|]. apply IH; [intros; apply P; lia|lra|lia].
Qed.
Lemma abs_sum_pos m : energy m <> 0 -> sum (K := Rring) (List.length m) (fun i => sqrt (Cnorm2 (samp m i))) <> 0.
Proof.
  intros H E. apply H. unfold energy. apply rs_0. intros i Hi. pose proof (rs_zero (List.length m) (fun i => sqrt (Cnorm2 (samp m i))) (fun i _ => sqrt_pos _) E i Hi) as Z. cbv beta in Z.
  rewrite <- (sqrt_sqrt (Cnorm2 (samp m i))) by apply Cnorm2_nonneg. rewrite Z. ring.
Qed.
Lemma est_reel_sc nm m : 0 < nm -> energy m <> 0 -> est_reel (sc nm m) = est_reel m.
Proof.
  intros H HE. pose proof (abs_sum_pos m HE) as NZ. unfold est_reel. replace (List.length (sc nm m)) with (List.length m) by (unfold sc; rewrite map_length; reflexivity).
  assert (E1 : sum (K := Rring) (List.length m) (fun i => Rabs (snd (samp (sc nm m) i))) = sum (K := Rring) (List.length m) (fun i => Rabs (snd (samp m i))) / nm).
  { rewrite <- rsum_scale. apply (sum_ext Rring). intros i _. rewrite sc_samp by lra. cbn [snd]. unfold Rdiv. rewrite Rabs_mult, (Rabs_right (/ nm)); [reflexivity|]. apply Rle_ge, Rlt_le, Rinv_0_lt_compat. exact H. }
  assert (E2 : sum (K := Rring) (List.length m) (fun i => sqrt (Cnorm2 (samp (sc nm m) i))) = sum (K := Rring) (List.length m) (fun i => sqrt (Cnorm2 (samp m i))) / nm).
  { rewrite <- rsum_scale. apply (sum_ext Rring). intros i _. rewrite sc_samp by lra. rewrite norm_div by exact H. destruct (samp m i). reflexivity. }
  rewrite E1, E2. revert NZ. set (b := rs _ (fun i => sqrt (Cnorm2 (samp m i)))). intros NZ. set (a := rs _ (fun i => Rabs _)). replace (a / nm / (b / nm)) with (a / b); [reflexivity|]. field. split; [lra|exact NZ].
Qed.
Lemma coefs_samp nm m k : 0 < nm -> energy m <> 0 -> samp (coefs_motif (sc nm m)) k = (conj (samp (pattern m) k) / re nm)%K.
Proof.
  intros H HE. unfold coefs_motif, pattern. rewrite est_reel_sc by assumption. symmetry. etransitivity; [apply div_re; lra|]. symmetry.
  destruct (est_reel m); unfold samp; (destruct (Nat.lt_ge_cases k (List.length m)) as [L|L]; [|rewrite !nth_overflow by (try (unfold sc); rewrite ?map_length; exact L); cbn; f_equal; unfold Rdiv; ring]).
  - rewrite (nth_indep _ _ ((fun z : Complex => re (fst z)) c0)) by (unfold sc; rewrite !map_length; exact L). rewrite (map_nth (fun z : Complex => re (fst z))).
    rewrite (nth_indep (map (fun z : Complex => re (fst z)) m) _ ((fun z : Complex => re (fst z)) c0)) by (rewrite map_length; exact L). rewrite (map_nth (fun z : Complex => re (fst z))).
    pose proof (sc_samp nm m k ltac:(lra)) as Q. unfold samp in Q. rewrite Q. apply C_ext; cbn; unfold Rdiv; ring.
  - rewrite (nth_indep _ _ ((fun z : Complex => conj z) c0)) by (unfold sc; rewrite !map_length; exact L). rewrite (map_nth (fun z : Complex => conj z)).
    pose proof (sc_samp nm m k ltac:(lra)) as Q. unfold samp in Q. rewrite Q. apply C_ext; cbn; unfold Rdiv; ring.
Qed.
Lemma coefs_length m : List.length (coefs_motif m) = List.length m.
Proof. unfold coefs_motif. destruct (est_reel m); apply map_length. Qed.
Lemma rev_samp {K : cring} (h : list K) M k : List.length h = M -> (k < M)%nat -> samp (rev h) k = samp h (M - 1 - k).
Proof. intros <- H. unfold samp. rewrite rev_nth by exact H. f_equal. lia. Qed.
Lemma Csum_div n (f : nat -> Cfield) r : r <> 0 -> sum n (fun k => (f k / re r)%K) = (sum n f / re r)%K.
Proof.
  intros H. induction n as [|n IH]; [cbn [sum]; apply C_ext; cbn; unfold Cnorm2; cbn; field; exact H|]. cbn [sum]. rewrite IH. rewrite !div_re by exact H. apply C_ext; cbn; field; exact H.
Qed.
Lemma corr_ok nm m (X : list Complex) n : 0 < nm -> energy m <> 0 ->
  conv (K := Cring) (rev (coefs_motif (sc nm m))) X n = (product m X n / re nm)%K.
Proof.
  intros H HE. unfold conv. rewrite rev_length, coefs_length. replace (List.length (sc nm m)) with (List.length m) by (unfold sc; rewrite map_length; reflexivity).
  rewrite (sum_rev Cring). unfold product. rewrite <- Csum_div by lra. apply (sum_ext Cring). intros k Hk. set (M := List.length m) in *.
  assert (LC : List.length (coefs_motif (sc nm m)) = M) by (rewrite coefs_length; unfold sc; rewrite map_length; reflexivity).
  rewrite (rev_samp (K := Cring) _ M _ LC) by lia. replace (M - 1 - (M - 1 - k))%nat with k by lia.
  etransitivity; [apply (f_equal2 (@cmul Cring)); [apply coefs_samp; assumption|reflexivity]|]. unfold window. replace (Z.of_nat n - Z.of_nat (M - 1 - k))%Z with (Z.of_nat n - Z.of_nat M + 1 + Z.of_nat k)%Z by lia.
  set (a := sampZ X _). change (sampZ (K := Cring) X _) with a. generalize (samp (pattern m) k). intros b. rewrite !div_re by lra. destruct a, b. apply C_ext; cbn; field; lra.
Qed.
Lemma vabs2_sampZ (X : list Complex) z : sampZ (K := Rring) (vabs2 X) z = Cnorm2 (sampZ X z).
Proof.
  assert (Z0 : Cnorm2 (c0 : Complex) = 0) by (unfold Cnorm2; cbn; ring). unfold sampZ. destruct (z <? 0)%Z; [symmetry; exact Z0|]. unfold vabs2, samp.
  destruct (Nat.lt_ge_cases (Z.to_nat z) (List.length X)) as [L|L].
  - rewrite (nth_indep _ _ ((fun z : Complex => Cnorm2 z) c0)) by (rewrite map_length; exact L). rewrite (map_nth (fun z : Complex => Cnorm2 z)). reflexivity.
  - rewrite !nth_overflow by (try rewrite map_length; exact L). symmetry. exact Z0.
Qed.
Lemma energy_ok M (X : list Complex) n : (0 < M)%nat ->
  fdiv (sum M (fun i => sampZ (K := Rfield) (vabs2 X) (Z.of_nat n - Z.of_nat i))) (cnat M) = wenergy M X n / INR M.
Proof.
  intros HM. rewrite cnat_R. unfold wenergy. change (fdiv ?a ?b) with (Rdiv a b). f_equal. rewrite (sum_rev Rring). apply (sum_ext Rring). intros k Hk. etransitivity; [apply vabs2_sampZ|]. unfold window. do 2 f_equal. lia.
Qed.
Lemma wenergy_pos M X n : 0 <= wenergy M X n. Proof. apply rs_nonneg. intros. apply Cnorm2_nonneg. Qed.
Lemma e20_pos : 0 < / 10 ^ 20. Proof. apply Rinv_0_lt_compat, pow_lt. lra. Qed.
Lemma e6_pos : 0 < / 10 ^ 6. Proof. apply Rinv_0_lt_compat, pow_lt. lra. Qed.
Definition seuille (z : Complex) : Complex := if Rle_dec (sqrt (Cnorm2 z)) (/ 10 ^ 6) then c0 else z.
Lemma value_ok m X n : (0 < List.length m)%nat -> 0 < energy m ->
  1 / sqrt (INR (List.length m)) * sqrt (Cnorm2 (seuille (product m X n / re (norme m))%K) / (wenergy (List.length m) X n / INR (List.length m) + / 10 ^ 20)) = score m X n.
Proof.
  intros HM HE. unfold score. fold (norme m). assert (NP : 0 < norme m) by (apply sqrt_lt_R0; exact HE). set (nm := norme m) in *. set (M := INR (List.length m)). assert (MP : 0 < M) by (apply lt_0_INR; exact HM).
  pose proof (wenergy_pos (List.length m) X n) as WP. set (e := wenergy (List.length m) X n) in *. pose proof e20_pos as E20. set (eps := / 10 ^ 20) in *. pose proof e6_pos as E6. set (q := / 10 ^ 6) in *.
  set (P := product m X n). unfold seuille. assert (ND : sqrt (Cnorm2 (P / re nm)%K) = sqrt (Cnorm2 P) / nm).
  { etransitivity; [apply (f_equal (fun z => sqrt (Cnorm2 z))); apply div_re; lra|]. rewrite norm_div by exact NP. destruct P. reflexivity. }
  rewrite ND. fold q. destruct (Rle_dec (sqrt (Cnorm2 P) / nm) q) as [L|L]; destruct (Rle_dec (sqrt (Cnorm2 P)) (q * nm)) as [L2|L2].
  - replace (Cnorm2 (c0 : Complex)) with 0 by (unfold Cnorm2; cbn; ring). unfold Rdiv at 2. rewrite Rmult_0_l, sqrt_0. ring.
  - exfalso. apply L2. apply (Rmult_le_reg_r (/ nm)); [apply Rinv_0_lt_compat; exact NP|]. rewrite Rmult_assoc, Rinv_r by lra. unfold Rdiv in L. lra.
  - exfalso. apply L. apply (Rmult_le_reg_r nm); [exact NP|]. unfold Rdiv. rewrite Rmult_assoc, Rinv_l by lra. lra.
  - assert (D : 0 < e / M + eps) by (assert (0 <= e / M) by (apply Rmult_le_pos; [exact WP|apply Rlt_le, Rinv_0_lt_compat; exact MP]); lra).
    rewrite sqrt_div_alt by exact D. rewrite ND. replace (e + M * eps) with (M * (e / M + eps)) by (field; lra). rewrite sqrt_mult by lra.
    assert (0 < sqrt M) by (apply sqrt_lt_R0; exact MP). assert (0 < sqrt (e / M + eps)) by (apply sqrt_lt_R0; exact D). field. repeat split; lra.
Qed.

(** ** Causality *)
Lemma window_app X Y M n k : (n < List.length X)%nat -> (k < M)%nat -> window (X ++ Y) M n k = window X M n k.
Proof. intros Hn Hk. unfold window, sampZ. destruct (Z.ltb_spec (Z.of_nat n - Z.of_nat M + 1 + Z.of_nat k) 0); [reflexivity|]. unfold samp. apply app_nth1. lia. Qed.
Lemma product_app m X Y n : (n < List.length X)%nat -> product m (X ++ Y) n = product m X n.
Proof. intros H. unfold product. apply (sum_ext Cring). intros k Hk. rewrite window_app by assumption. reflexivity. Qed.
Lemma score_app m X Y n : (n < List.length X)%nat -> score m (X ++ Y) n = score m X n.
Proof.
  intros H. unfold score. rewrite product_app by exact H. replace (wenergy (List.length m) (X ++ Y) n) with (wenergy (List.length m) X n); [reflexivity|]. unfold wenergy. apply (sum_ext Rring). intros k Hk. rewrite window_app by assumption. reflexivity.
Qed.

(** ** The filters *)
Lemma fir_map (K : cring) (h : list K) l : h <> [] -> exists s y, map_st fir_sample (fir_init h) l = Ok (s, y) /\ forall n, (n < List.length l)%nat -> nth n y c0 = conv h l n.
Proof.
  intros H. destruct (C10_convolution K h [l] H) as [s [y [E [L F]]]]. cbn [run concat] in E, L, F. rewrite app_nil_r in *. unfold fir_step in E.
  destruct (_ =? 0)%nat; [discriminate|]. destruct (map_st fir_sample (fir_init h) l) as [[s1 y1]| | |]; cbn [bind] in E; try discriminate. rewrite app_nil_r in E. injection E as -> ->. exists s, y. split; [reflexivity|]. intros n Hn. apply F. rewrite L. exact Hn.
Qed.
Lemma mg_map (K : cfield) k (l : list K) : (0 < k)%nat -> exists s y, map_st mg_sample (mg_init k) l = Ok (s, y) /\ forall n, (n < List.length l)%nat -> nth n y c0 = fdiv (sum k (fun i => sampZ l (Z.of_nat n - Z.of_nat i))) (cnat k).
Proof.
  intros H. destruct (C14_mean K k [l] H) as [s [y [E [L F]]]]. cbn [run concat] in E, L, F. rewrite app_nil_r in *. unfold mg_step in E.
  destruct (_ =? 0)%nat; [discriminate|]. destruct (map_st mg_sample (mg_init k) l) as [[s1 y1]| | |]; cbn [bind] in E; try discriminate. rewrite app_nil_r in E. injection E as -> ->. exists s, y. split; [reflexivity|]. intros n Hn. apply F. rewrite L. exact Hn.
Qed.
Lemma fir_keep (K : cring) l : forall (s s' : fir K) y, map_st fir_sample s l = Ok (s', y) -> fir_coefs s' = fir_coefs s.
Proof.
  induction l as [|a l IH]; intros s s' y E; cbn [map_st] in E; [injection E as <- _; reflexivity|].
  destruct (fir_sample s a) as [[s1 b]| | |] eqn:E1; cbn [bind] in E; try discriminate. destruct (map_st fir_sample s1 l) as [[s2 z]| | |] eqn:E2; cbn [bind] in E; try discriminate. injection E as <- _.
  rewrite (IH _ _ _ E2). unfold fir_sample in E1. destruct (vset _ _ _) as [f| | |]; cbn [bind] in E1; try discriminate. destruct (imod _ _) as [ix| | |]; cbn [bind] in E1; try discriminate. destruct (circ_dot _ _ _) as [q| | |]; cbn [bind] in E1; try discriminate. injection E1 as <- _. reflexivity.
Qed.
Lemma vset_length {A} (l l' : list A) i v : vset l i v = Ok l' -> List.length l' = List.length l.
Proof. unfold vset. destruct (i <? List.length l)%nat; intros E; [injection E as <-; apply upd_length|discriminate]. Qed.
Lemma mg_keep (K : cring) l : forall (s s' : mg K) y, map_st mg_sample s l = Ok (s', y) -> List.length (mg_fen s') = List.length (mg_fen s).
Proof.
  induction l as [|a l IH]; intros s s' y E; cbn [map_st] in E; [injection E as <- _; reflexivity|].
  destruct (mg_sample s a) as [[s1 b]| | |] eqn:E1; cbn [bind] in E; try discriminate. destruct (map_st mg_sample s1 l) as [[s2 z]| | |] eqn:E2; cbn [bind] in E; try discriminate. injection E as <- _.
  rewrite (IH _ _ _ E2). unfold mg_sample in E1. destruct (vget _ _) as [f| | |]; cbn [bind] in E1; try discriminate. destruct (vset _ _ _) as [g| | |] eqn:EV; cbn [bind] in E1; try discriminate. destruct (imod _ _) as [q| | |]; cbn [bind] in E1; try discriminate. injection E1 as <- _. cbn [mg_fen]. eapply vset_length. exact EV.
Qed.

(** ** The loop over the peaks *)
Lemma frac_range a b d v : qint_frac a b d = Some v -> - (1 / 2) <= v <= 1 / 2.
Proof.
  unfold qint_frac. destruct (Req_EM_T _ 0).
  - destruct (Rlt_dec 0 _); [intros E; injection E as <-; lra|]. destruct (Rlt_dec _ 0); [intros E; injection E as <-; lra|discriminate].
  - intros E. injection E as <-. destruct (Rlt_dec _ (- (1 / 2))); [lra|]. destruct (Rlt_dec (1 / 2) _); lra.
Qed.
Section Detections.
  Variables (M : nat) (nm : R) (s : dst) (y : list R) (corr : list Complex).
  Let n := List.length y.
  Hypotheses (HN : (2 <= n)%nat) (LC : List.length corr = n).
  (** a detection of this call: a selected peak, or the final peak of the call before *)
  Definition sound (sel : list nat) (d : det) : Prop :=
    (forall v, dt_frac d = Some v -> - (1 / 2) <= v <= 1 / 2) /\
    ((exists i, In i sel /\ dt_score d = nth i y 0 /\ (dt_pos d = Z.of_nat i - (Z.of_nat M - 1))%Z) \/
     (exists sc p, d_pf s = Some (sc, p) /\ dt_score d = sc /\ (dt_pos d = p - d_lastn s)%Z)).
  Lemma sound_more sel i d : sound sel d -> sound (i :: sel) d.
  Proof. intros [A [[j [B C]]|B]]; (split; [exact A|]); [left; exists j; split; [right; exact B|exact C]|right; exact B]. Qed.
  Lemma dets_sel sel : (forall i, In i sel -> (i < n)%nat) -> exists r, detections M nm s y corr (map Some sel) = Ok r /\ (forall d, In d (fst r) -> sound sel d) /\
    (forall sc p, snd r = Some (sc, p) -> In (n - 1)%nat sel /\ sc = nth (n - 1) y 0 /\ (p = Z.of_nat n - Z.of_nat M)%Z).
  Proof using HN LC.
    induction sel as [|i sel IH]; intros HI; [exists ([], None); split; [reflexivity|]; split; [intros d []|discriminate]|].
    destruct IH as [r [E [A B]]]; [intros j Hj; apply HI; right; exact Hj|]. assert (Hi : (i < n)%nat) by (apply HI; left; reflexivity). cbn [map detections].
    rewrite (vget_nth y i 0) by exact Hi. cbn [bind]. rewrite (vget_nth corr i c0) by (rewrite LC; exact Hi). cbn [bind]. destruct (Nat.eqb_spec i 0) as [Z|Z].
    - rewrite (vget_nth y 1 0) by (fold n; lia). cbn [bind]. rewrite (vget_nth corr 1 c0) by (rewrite LC; lia). cbn [bind]. destruct (Rlt_dec _ _).
      + eexists. split; [reflexivity|]. split; [intros d []|discriminate].
      + rewrite E. cbn [bind]. eexists. split; [reflexivity|]. cbn [fst snd]. split.
        * intros d [<-|Hd]; [|apply sound_more, A, Hd]. split; [cbn [report dt_frac]; intros v; apply frac_range|]. left. exists i. split; [left; reflexivity|split; reflexivity].
        * intros sc p Hp. destruct (B sc p Hp) as [B1 B2]. split; [right; exact B1|exact B2].
    - fold n. destruct (Nat.eqb_spec i (n - 1)) as [Q|Q].
      + eexists. split; [reflexivity|]. cbn [fst snd]. split; [intros d []|]. intros sc p Hp. injection Hp as <- <-. split; [left; exact Q|]. split; [rewrite Q; reflexivity|lia].
      + rewrite (vget_nth y (i - 1) 0) by (fold n; lia). cbn [bind]. rewrite (vget_nth corr (i - 1) c0) by (rewrite LC; lia). cbn [bind]. rewrite (vget_nth y (i + 1) 0) by (fold n; lia). cbn [bind]. rewrite (vget_nth corr (i + 1) c0) by (rewrite LC; lia). cbn [bind].
        rewrite E. cbn [bind]. eexists. split; [reflexivity|]. cbn [fst snd]. split.
        * intros d [<-|Hd]; [|apply sound_more, A, Hd]. split; [cbn [report dt_frac]; intros v; apply frac_range|]. left. exists i. split; [left; reflexivity|split; reflexivity].
        * intros sc p Hp. destruct (B sc p Hp) as [B1 B2]. split; [right; exact B1|exact B2].
  Qed.
  Lemma dets_all sel : (forall i, In i sel -> (i < n)%nat) -> exists r, detections M nm s y corr ((match d_pf s with Some _ => [None] | None => [] end) ++ map Some sel) = Ok r /\ (forall d, In d (fst r) -> sound sel d) /\
    (forall sc p, snd r = Some (sc, p) -> In (n - 1)%nat sel /\ sc = nth (n - 1) y 0 /\ (p = Z.of_nat n - Z.of_nat M)%Z).
  Proof using HN LC.
    intros HI. destruct (dets_sel sel HI) as [r [E [A B]]]. destruct (d_pf s) as [[sc p]|] eqn:PF; [|exists r; split; [exact E|split; assumption]]. cbn [app detections]. rewrite PF.
    rewrite (vget_nth y 0 0) by (fold n; lia). cbn [bind]. rewrite (vget_nth corr 0 c0) by (rewrite LC; lia). cbn [bind]. destruct (Rlt_dec _ _); [eexists; split; [reflexivity|]; split; [intros d []|discriminate]|].
    rewrite E. cbn [bind]. eexists. split; [reflexivity|]. cbn [fst snd]. split; [|exact B]. intros d [<-|Hd]; [|apply A, Hd]. split; [cbn [report dt_frac]; intros v; apply frac_range|]. right. exists sc, p. split; [exact PF|split; reflexivity].
  Qed.
  (** all the peaks are reported when none is on an edge *)
  Lemma dets_inside sel : (forall i, In i sel -> (0 < i < n - 1)%nat) -> detections M nm s y corr (map Some sel) =
    Ok (map (fun i => report nm (nth i y 0) (Z.of_nat i - (Z.of_nat M - 1)) (nth (i - 1) y 0) (nth i y 0) (nth (i + 1) y 0) (nth (i - 1) corr c0) (nth i corr c0) (nth (i + 1) corr c0)) sel, None).
  Proof using HN LC.
    induction sel as [|i sel IH]; intros HI; [reflexivity|]. assert (Hi : (0 < i < n - 1)%nat) by (apply HI; left; reflexivity). cbn [map detections].
    rewrite (vget_nth y i 0) by (fold n; lia). cbn [bind]. rewrite (vget_nth corr i c0) by (rewrite LC; lia). cbn [bind]. destruct (Nat.eqb_spec i 0); [lia|]. fold n. destruct (Nat.eqb_spec i (n - 1)); [lia|].
    rewrite (vget_nth y (i - 1) 0) by (fold n; lia). cbn [bind]. rewrite (vget_nth corr (i - 1) c0) by (rewrite LC; lia). cbn [bind]. rewrite (vget_nth y (i + 1) 0) by (fold n; lia). cbn [bind]. rewrite (vget_nth corr (i + 1) c0) by (rewrite LC; lia). cbn [bind].
    rewrite IH by (intros j Hj; apply HI; right; exact Hj). reflexivity.
  Qed.
End Detections.

(** ** One call *)
Section Step.
  Variable c : dcfg.
  Let m := d_motif c. Let M := List.length m.
  Hypotheses (HE : 0 < energy m) (HS : 0 <= d_seuil c).
  Lemma M_pos : (0 < M)%nat.
  Proof using HE. destruct (Nat.eq_dec M 0) as [E|]; [|lia]. exfalso. unfold energy in HE. fold M in HE. rewrite E in HE. cbn in HE. lra. Qed.
  Let h := rev (coefs_motif (sc (norme m) m)).
  Definition corr_val (X : list Complex) (n : nat) : Complex := seuille (product m X n / re (norme m))%K.
  Definition DInv (pre : list Complex) (s : dst) : Prop :=
    (exists y, map_st (fir_sample (K := Cring)) (fir_init (K := Cring) h) pre = Ok (d_fir s, y)) /\ (exists y, map_st (mg_sample (K := Rring)) (mg_init (K := Rfield) M) (vabs2 pre) = Ok (d_mg s, y)) /\
    List.length (fir_coefs (d_fir s)) = M /\ List.length (mg_fen (d_mg s)) = M /\
    (forall sc p, d_pf s = Some (sc, p) -> pre <> [] /\ sc = score m pre (List.length pre - 1) /\ d_seuil c < sc /\ (p - d_lastn s = - Z.of_nat M)%Z) /\
    d_alc s = (if (List.length pre =? 0)%nat then 0 else score m pre (List.length pre - 1)).
  Lemma nm_pos : 0 < norme m. Proof using HE. apply sqrt_lt_R0. exact HE. Qed.
  Lemma init_inv : exists s, dtc_init c = Ok s /\ DInv [] s.
  Proof using HE.
    unfold dtc_init. fold m. pose proof nm_pos as NP. destruct (Req_EM_T (norme m) 0); [lra|]. rewrite map_length. fold m. change (List.length (d_motif c)) with M. change (map (fun z : Complex => (z / re (norme m))%K) m) with (sc (norme m) m). eexists. split; [reflexivity|].
    assert (L : List.length (sc (norme m) m) = M) by (unfold sc; rewrite map_length; reflexivity). fold h. unfold DInv. cbn [d_fir d_mg d_pf d_alc]. split; [eexists; reflexivity|]. split; [eexists; reflexivity|].
    split; [cbn [fir_init fir_coefs]; unfold h; rewrite rev_length; etransitivity; [apply coefs_length|exact L]|]. split; [cbn [mg_init mg_fen]; apply repeat_length|]. split; [discriminate|reflexivity].
  Qed.
  (** the vectors computed by a call *)
  Lemma vectors pre s b : DInv pre s -> exists g f en corr,
    mg_step (d_mg s) (vabs2 b) = Ok (g, en) /\ fir_step (d_fir s) b = Ok (f, corr) /\ List.length en = List.length b /\ List.length corr = List.length b /\
    (forall i, (i < List.length b)%nat -> nth i en 0 = wenergy M (pre ++ b) (List.length pre + i) / INR M) /\
    (forall i, (i < List.length b)%nat -> nth i corr (c0 : Complex) = (product m (pre ++ b) (List.length pre + i) / re (norme m))%K) /\
    (exists y, map_st (fir_sample (K := Cring)) (fir_init (K := Cring) h) (pre ++ b) = Ok (f, y)) /\ (exists y, map_st (mg_sample (K := Rring)) (mg_init (K := Rfield) M) (vabs2 (pre ++ b)) = Ok (g, y)) /\
    List.length (fir_coefs f) = M /\ List.length (mg_fen g) = M.
  Proof using HE.
    intros ([yf EF] & [ym EM] & LF & LM & _). pose proof M_pos as MP. pose proof nm_pos as NP.
    assert (HN : h <> []). { intros Q. assert (LH : List.length h = M) by (unfold h; rewrite rev_length; etransitivity; [apply coefs_length|unfold sc; rewrite map_length; reflexivity]). rewrite Q in LH. cbn in LH. lia. }
    destruct (block_of (fir_sample (K := Cring)) _ _ _ _ b (c0 (c := Cring)) (conv (K := Cring) h (pre ++ b)) EF (fir_map Cring h (pre ++ b) HN)) as [f [corr [E1 [L1 [V1 A1]]]]].
    destruct (block_of (mg_sample (K := Rring)) _ (vabs2 pre) _ _ (vabs2 b) (0 : R) (fun n => fdiv (sum M (fun i => sampZ (K := Rfield) (vabs2 (pre ++ b)) (Z.of_nat n - Z.of_nat i))) (cnat M)) EM) as [g [en [E2 [L2 [V2 A2]]]]].
    { destruct (mg_map Rfield M (vabs2 (pre ++ b)) MP) as [s' [y [Q1 Q2]]]. unfold vabs2 in *. rewrite <- map_app. exists s', y. split; [exact Q1|exact Q2]. }
    exists g, f, en, corr. unfold mg_step, fir_step. destruct (Nat.eqb_spec (List.length (mg_fen (d_mg s))) 0) as [Q|_]; [lia|]. destruct (Nat.eqb_spec (List.length (fir_coefs (d_fir s))) 0) as [Q|_]; [lia|].
    assert (LV : forall l, List.length (vabs2 l) = List.length l) by (intros; apply map_length).
    split; [exact E2|]. split; [exact E1|]. split; [rewrite L2; apply LV|]. split; [exact L1|]. split.
    - intros i Hi. rewrite V2 by (rewrite LV; exact Hi). rewrite LV. apply energy_ok. exact MP.
    - split; [intros i Hi; etransitivity; [apply V1; exact Hi|]; apply corr_ok; [exact NP|lra]|]. split; [eexists; exact A1|]. split; [eexists; unfold vabs2 in *; rewrite map_app; exact A2|].
      split; [rewrite (fir_keep _ _ _ _ _ E1); exact LF|rewrite (mg_keep _ _ _ _ _ E2); exact LM].
  Qed.
  Hypothesis HM : (2 <= M)%nat.
  Lemma step_ok pre s b : DInv pre s -> (2 <= List.length b)%nat -> exists s' y ds sel corr, dtc_step c s b = Ok (s', y, ds) /\ DInv (pre ++ b) s' /\ List.length y = List.length b /\
    (forall i, (i < List.length b)%nat -> nth i y 0 = score m (pre ++ b) (List.length pre + i)) /\
    List.length corr = List.length b /\ (forall i, (i < List.length b)%nat -> nth i corr (c0 : Complex) = corr_val (pre ++ b) (List.length pre + i)) /\
    selection M (d_seuil c) y = Ok sel /\ (forall d, In d ds -> sound M s y sel d) /\
    detections M (norme m) s y corr ((match d_pf s with Some _ => [None] | None => [] end) ++ map Some sel) = Ok (ds, d_pf s').
  Proof using HE HS HM.
    intros I Hb. pose proof (M_pos) as MP. destruct (vectors pre s b I) as (g & f & en & corr0 & E2 & E1 & L2 & L1 & V2 & V1 & A1 & A2 & LF & LM). unfold dtc_step. fold m M. rewrite E2. cbn [bind]. rewrite E1. cbn [bind].
    set (corr := map (fun z : Complex => if Rle_dec (sqrt (Cnorm2 z)) (/ 10 ^ 6) then (c0 : Complex) else z) corr0).
    set (y := map (fun p : Complex * R => 1 / sqrt (INR M) * sqrt (Cnorm2 (fst p) / (snd p + / 10 ^ 20))) (combine corr en)).
    assert (LC : List.length corr = List.length b) by (unfold corr; rewrite map_length; exact L1).
    assert (LY : List.length y = List.length b) by (unfold y; rewrite map_length, combine_length; lia).
    assert (VC : forall i, (i < List.length b)%nat -> nth i corr (c0 : Complex) = corr_val (pre ++ b) (List.length pre + i)).
    { intros i Hi. unfold corr. rewrite (nth_indep _ _ ((fun z : Complex => if Rle_dec (sqrt (Cnorm2 z)) (/ 10 ^ 6) then (c0 : Complex) else z) c0)) by (rewrite map_length; eapply Nat.lt_le_trans; [exact Hi|apply Nat.eq_le_incl; symmetry; exact L1]).
      rewrite (map_nth (fun z : Complex => if Rle_dec (sqrt (Cnorm2 z)) (/ 10 ^ 6) then (c0 : Complex) else z)). rewrite V1 by exact Hi. reflexivity. }
    assert (VY : forall i, (i < List.length b)%nat -> nth i y 0 = score m (pre ++ b) (List.length pre + i)).
    { intros i Hi. unfold y. rewrite (nth_indep _ _ ((fun p : Complex * R => 1 / sqrt (INR M) * sqrt (Cnorm2 (fst p) / (snd p + / 10 ^ 20))) (c0, 0))) by (rewrite map_length, combine_length; lia).
      rewrite (map_nth (fun p : Complex * R => 1 / sqrt (INR M) * sqrt (Cnorm2 (fst p) / (snd p + / 10 ^ 20)))). rewrite combine_nth by (exact (eq_trans LC (eq_sym L2))). cbn [fst snd]. rewrite VC, V2 by exact Hi. apply value_ok; assumption. }
    match goal with |- context [selection M (d_seuil c) ?l] => change l with y end. match goal with |- context [detections M (norme m) s y ?l] => change l with corr end.
    clearbody corr y. destruct (selection_ok M (d_seuil c) y MP HS) as [sel [ES [S1 [S2 [S3 S4]]]]]. rewrite ES. cbn [bind].
    assert (HI : forall i, In i sel -> (i < List.length y)%nat) by (intros i Hi; apply S1; exact Hi). assert (LCY : List.length corr = List.length y) by lia. assert (HY : (2 <= List.length y)%nat) by lia.
    destruct (dets_all M (norme m) s y corr HY LCY sel HI) as [r [ED [SD PF]]]. rewrite ED. cbn [bind]. destruct (Nat.leb_spec M 1) as [Q|_]; [lia|]. cbn [andb].
    assert (VG : forall k, (1 <= k <= 2)%Z -> vgetZ y (Z.of_nat (List.length b) - k) = Ok (nth (List.length b - Z.to_nat k) y 0)).
    { intros k Hk. unfold vgetZ. destruct (Z.ltb_spec (Z.of_nat (List.length b) - k) 0); [lia|]. replace (Z.to_nat (Z.of_nat (List.length b) - k)) with (List.length b - Z.to_nat k)%nat by lia. apply vget_nth. lia. }
    assert (VGC : forall k, (1 <= k <= 2)%Z -> vgetZ corr (Z.of_nat (List.length b) - k) = Ok (nth (List.length b - Z.to_nat k) corr (c0 : Complex))).
    { intros k Hk. unfold vgetZ. destruct (Z.ltb_spec (Z.of_nat (List.length b) - k) 0); [lia|]. replace (Z.to_nat (Z.of_nat (List.length b) - k)) with (List.length b - Z.to_nat k)%nat by lia. apply vget_nth. lia. }
    rewrite (VG 2%Z) by lia. cbn [bind]. rewrite (VGC 2%Z) by lia. cbn [bind]. rewrite (VG 1%Z) by lia. cbn [bind]. rewrite (VGC 1%Z) by lia. cbn [bind].
    eexists. exists y, (fst r), sel, corr. split; [reflexivity|]. assert (LA : (List.length (pre ++ b) - 1 = List.length pre + (List.length b - 1))%nat) by (rewrite app_length; lia). split.
    - unfold DInv. cbn [d_fir d_mg d_pf d_lastn d_alc]. split; [exact A1|]. split; [exact A2|]. split; [exact LF|]. split; [exact LM|]. split.
      + intros sc0 p Hp. destruct (PF sc0 p Hp) as [P1 [P2 P3]]. split; [intros Q; apply app_eq_nil in Q; destruct Q as [_ ->]; cbn in Hb; lia|]. rewrite LA, <- VY by lia. rewrite <- LY. split; [exact P2|]. split; [rewrite P2; apply S1; exact P1|]. lia.
      + destruct (Nat.eqb_spec (List.length (pre ++ b)) 0) as [Q|_]; [rewrite app_length in Q; lia|]. rewrite LA, <- VY by lia. reflexivity.
    - split; [exact LY|]. split; [exact VY|]. split; [exact LC|]. split; [exact VC|]. split; [exact ES|]. split; [exact SD|]. cbn [d_pf]. rewrite ED. destruct r. reflexivity.
  Qed.
End Step.
