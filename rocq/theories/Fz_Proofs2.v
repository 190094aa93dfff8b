(** Proofs for filter responses: tones, phase, group delay. *)
From Coq Require Import Reals Lra.
From Verif Require Import Base BaseLemmas RField DftSys ComplexSys Poly_Model Poly_Spec Poly_Proofs Filters_Model Filters_Spec Filters_Proofs Design_Model Design_Proofs Sig_Proofs Rii_Model But_Proofs Phase_Model Phase_Spec Phase_Proofs Phase_Props Geo_Model Geo_Proofs2 Pll_Model Fz_Model Fz_Spec Fz_Proofs.
Local Open Scope R_scope.

(** ** Tones *)
Lemma ctone_length a f N : length (ctone a f N) = N. Proof. unfold ctone. rewrite map_length, seq_length. reflexivity. Qed.
Lemma ctone_samp a f N n : (n < N)%nat -> samp (K := Complex) (ctone a f N) n = (a * (eit (2 * PI * f * INR n) : Complex))%K.
Proof. intros H. unfold samp, ctone. apply (nth_map_seq (X := Complex)). exact H. Qed.
Lemma conv_tone h a f N n : (length h <= n + 1)%nat -> (n < N)%nat -> conv (K := Cfield) (map re h) (ctone a f N) n = ((resp h f : Cfield) * (a * eit (2 * PI * f * INR n)))%K.
Proof.
  intros H1 H2. rewrite <- transfer_resp. unfold conv, transfer. rewrite map_length. rewrite <- (sum_mul_r Cring). apply (sum_ext Cring). intros k Hk.
  replace (Z.of_nat n - Z.of_nat k)%Z with (Z.of_nat (n - k)) by lia. etransitivity; [apply f_equal; apply (sampZ_nat Cring)|]. etransitivity; [apply f_equal; apply ctone_samp; lia|].
  rewrite inv_eit, eit_pow. replace (2 * PI * f * INR (n - k)) with (INR k * - (2 * PI * f) + 2 * PI * f * INR n) by (rewrite minus_INR by lia; ring). rewrite eit_add.
  generalize (samp (K := Cfield) (map re h) k) (eit (INR k * - (2 * PI * f))) (eit (2 * PI * f * INR n)). intros u v w. apply C_ext; cbn; ring.
Qed.

(** ** Arguments *)
Lemma arg_congruent g t : 0 < g -> congruent (2 * PI) (arg (g * cos t, g * sin t)) t.
Proof.
  intros Hg. destruct (C40_modulo_2pi (PI - t)) as (B & (k & Hk) & Ec & Es). set (m := modulo_2pi (PI - t)) in *. set (t' := PI - m).
  assert (Ct : cos t' = cos t). { unfold t'. rewrite Rtrigo_facts.cos_pi_minus. rewrite Ec. rewrite Rtrigo_facts.cos_pi_minus. ring. }
  assert (St : sin t' = sin t). { unfold t'. rewrite Rtrigo_facts.sin_pi_minus. rewrite Es. apply Rtrigo_facts.sin_pi_minus. }
  unfold arg. cbn [fst snd]. rewrite <- Ct, <- St. rewrite atan2_of_polar; [|exact Hg|unfold t'; lra]. exists k. unfold t'. lra.
Qed.
Lemma arg_signed g t : g <> 0 -> congruent (2 * PI) (arg (g * cos t, - (g * sin t))) (- t + (if Rlt_dec g 0 then PI else 0)).
Proof.
  intros Hg. destruct (Rlt_dec g 0).
  - replace (g * cos t) with (- g * cos (- t + PI)) by (rewrite neg_cos, cos_neg; ring). replace (- (g * sin t)) with (- g * sin (- t + PI)) by (rewrite neg_sin, sin_neg; ring). apply arg_congruent. lra.
  - replace (g * cos t) with (g * cos (- t + 0)) by (rewrite Rplus_0_r, cos_neg; ring). replace (- (g * sin t)) with (g * sin (- t + 0)) by (rewrite Rplus_0_r, sin_neg; ring). apply arg_congruent. lra.
Qed.
Lemma jumps_nth h : forall y i, jumps_within h y -> (S i < length y)%nat -> Rabs (nth (S i) y 0 - nth i y 0) <= h.
Proof.
  induction y as [|a y IH]; intros i J H; [cbn in H; lia|]. destruct y as [|b y]; [cbn in H; lia|]. destruct J as [J1 J2]. destruct i as [|i]; [exact J1|]. cbn [nth]. apply (IH i J2). cbn [length] in H |- *. lia.
Qed.
(** unwrapped phase: same first value, congruent, jumps of at most pi *)
Lemma unwrap_props x : x <> [] -> exists y, deplie_phase x (2 * PI) = Ok y /\ length y = length x /\ nth 0 y 0 = nth 0 x 0 /\ (forall i, (i < length x)%nat -> congruent (2 * PI) (nth i x 0) (nth i y 0)) /\ forall i, (S i < length x)%nat -> Rabs (nth (S i) y 0 - nth i y 0) <= PI.
Proof.
  intros H. destruct x as [|a x]; [congruence|]. destruct (C40_unwrap_congruent (2 * PI) a x) as (y & E & F); [pose proof PI_RGT_0; lra|]. destruct (C40_unwrap_continuous a x) as (y' & E' & J). rewrite E in E'. injection E' as <-.
  exists (a :: y). split; [exact E|]. assert (L : length (a :: y) = length (a :: x)) by (clear - F; symmetry; induction F; cbn; congruence). split; [exact L|]. split; [reflexivity|]. split.
  - assert (G : forall (u v : list R), Forall2 (congruent (2 * PI)) u v -> forall i, (i < length u)%nat -> congruent (2 * PI) (nth i u 0) (nth i v 0)).
    { intros u v Fu. induction Fu as [|p q u v Hpq Fu IH]; intros i Hi; [cbn in Hi; lia|]. destruct i as [|i]; [exact Hpq|]. cbn [nth]. apply IH. cbn [length] in Hi. lia. }
    apply G. exact F.
  - intros i Hi. apply jumps_nth; [exact J|lia].
Qed.
Lemma cong_small a b : congruent (2 * PI) a b -> Rabs a <= PI -> Rabs b < PI -> a = b.
Proof.
  intros (k & Hk) Ha Hb. pose proof PI_RGT_0. assert (Hd : Rabs (a - b) < 2 * PI). { eapply Rle_lt_trans; [apply Rabs_triang|]. rewrite Rabs_Ropp. lra. }
  rewrite Hk, Rabs_mult, (Rabs_right (2 * PI)) in Hd by lra. assert (Rabs (IZR k) < 1) by (apply (Rmult_lt_reg_r (2 * PI)); lra). rewrite <- abs_IZR in H0. apply lt_IZR in H0. assert (k = 0%Z) by lia. subst k. lra.
Qed.
Lemma rabs_bnd a m : Rabs a <= m -> - m <= a <= m.
Proof. intros H. pose proof (Rle_abs a). pose proof (Rle_abs (- a)). rewrite Rabs_Ropp in *. lra. Qed.
Lemma cong_abs a b : congruent (2 * PI) a b -> Rabs a <= PI -> Rabs b <= PI -> Rabs a = Rabs b.
Proof.
  intros (k & Hk) Ha Hb. pose proof PI_RGT_0. assert (Hd : Rabs (a - b) <= 2 * PI). { eapply Rle_trans; [apply Rabs_triang|]. rewrite Rabs_Ropp. lra. }
  rewrite Hk, Rabs_mult, (Rabs_right (2 * PI)) in Hd by lra. assert (H0 : Rabs (IZR k) <= 1) by (apply (Rmult_le_reg_r (2 * PI)); lra). rewrite <- abs_IZR in H0. apply le_IZR in H0. assert (D : k = 0%Z \/ k = 1%Z \/ k = (-1)%Z) by lia. apply rabs_bnd in Ha. apply rabs_bnd in Hb.
  destruct D as [->|[->| ->]].
  - f_equal. lra.
  - assert (a = PI) by lra. assert (b = - PI) by lra. subst. rewrite Rabs_Ropp. reflexivity.
  - assert (a = - PI) by lra. assert (b = PI) by lra. subst. rewrite Rabs_Ropp. reflexivity.
Qed.
Lemma cong_sub m a b c d : congruent m a b -> congruent m c d -> congruent m (a - c) (b - d).
Proof. intros (k & Hk) (l & Hl). exists (k - l)%Z. rewrite minus_IZR. lra. Qed.

Section Lin.
  Variables (d : design) (n : nat) (D : R) (g : nat -> R).
  Hypothesis Hp : proper d.
  Hypothesis Hn : (0 < n)%nat.
  Hypothesis Hl : linear_phase d n D g.
  Hypothesis Hg : forall i, (i < n)%nat -> g i <> 0.
  Lemma Pn : 0 < INR n. Proof. apply lt_0_INR. exact Hn. Qed.
  Lemma phase_props : exists y, frphase d n = Ok (fgrid n, y) /\ length y = n /\ nth 0 y 0 = arg (response d 0) /\
    (forall i, (i < n)%nat -> congruent (2 * PI) (nth i y 0) (- (PI * D / INR n * INR i) + (if Rlt_dec (g i) 0 then PI else 0))) /\
    forall i, (S i < n)%nat -> Rabs (nth (S i) y 0 - nth i y 0) <= PI.
  Proof.
    destruct (frat_indep d Hp) as (F & E & V). unfold frphase. destruct (Nat.eqb_spec n 0); [lia|]. rewrite E. cbn [bind]. set (x := map _ (fgrid n)). assert (Lx : length x = n) by (unfold x; rewrite map_length; apply fgrid_length).
    assert (Vx : forall i, (i < n)%nat -> nth i x 0 = arg (response d (INR i / (2 * INR n)))).
    { intros i Hi. unfold x. rewrite fgrid_eq, map_map. rewrite (nth_map_seq (X := R)) by exact Hi. rewrite V. reflexivity. }
    destruct (unwrap_props x) as (y & Ey & Ly & Y0 & Yc & Yj); [destruct x; [cbn in Lx; lia|discriminate]|]. rewrite Ey. cbn [bind]. exists y. split; [reflexivity|]. split; [lia|]. split; [rewrite Y0, Vx by exact Hn; f_equal; f_equal; cbn; lra|]. rewrite Lx in *. split; [|exact Yj].
    intros i Hi. specialize (Yc i Hi). rewrite Vx in Yc by exact Hi. apply congruent_sym in Yc. eapply congruent_trans; [exact Yc|]. rewrite (Hl i Hi). cbv zeta. replace (- (PI * D / INR n * INR i)) with (- (2 * PI * (INR i / (2 * INR n)) * D)) by (field; apply Rgt_not_eq, Pn). apply arg_signed. apply Hg. exact Hi.
  Qed.
  Definition delta_true (i : nat) : R := - (PI * D / INR n) + (if Rlt_dec (g (S i)) 0 then PI else 0) - (if Rlt_dec (g i) 0 then PI else 0).
  Lemma diff_cong y : (forall i, (i < n)%nat -> congruent (2 * PI) (nth i y 0) (- (PI * D / INR n * INR i) + (if Rlt_dec (g i) 0 then PI else 0))) -> forall i, (S i < n)%nat -> congruent (2 * PI) (nth (S i) y 0 - nth i y 0) (delta_true i).
  Proof.
    intros H i Hi. assert (C := cong_sub _ _ _ _ _ (H (S i) Hi) (H i ltac:(lia))). unfold delta_true. rewrite S_INR in C. match type of C with congruent _ _ ?r => replace (- (PI * D / INR n) + (if Rlt_dec (g (S i)) 0 then PI else 0) - (if Rlt_dec (g i) 0 then PI else 0)) with r by ring end. exact C.
  Qed.
  Lemma same_sign y : (forall i, (i < n)%nat -> congruent (2 * PI) (nth i y 0) (- (PI * D / INR n * INR i) + (if Rlt_dec (g i) 0 then PI else 0))) ->
    (forall i, (S i < n)%nat -> Rabs (nth (S i) y 0 - nth i y 0) <= PI) -> Rabs D < INR n -> forall i, (S i < n)%nat -> 0 < g i * g (S i) -> nth (S i) y 0 - nth i y 0 = - (PI * D / INR n).
  Proof.
    intros C J B i Hi S0. pose proof Pn as P. pose proof PI_RGT_0. assert (E : delta_true i = - (PI * D / INR n)). { unfold delta_true. destruct (Rlt_dec (g (S i)) 0), (Rlt_dec (g i) 0); try lra; exfalso; nra. }
    rewrite <- E. apply cong_small; [apply diff_cong; assumption|apply J; exact Hi|]. rewrite E, Rabs_Ropp. replace (PI * D / INR n) with (D / INR n * PI) by (field; lra). rewrite Rabs_mult, (Rabs_right PI) by lra. rewrite <- (Rmult_1_l PI) at 2. apply Rmult_lt_compat_r; [lra|]. unfold Rdiv. rewrite Rabs_mult, (Rabs_right (/ INR n)) by (left; apply Rinv_0_lt_compat; exact P). apply (Rmult_lt_reg_r (INR n)); [exact P|]. rewrite Rmult_assoc, Rinv_l by lra. lra.
  Qed.
  Lemma small_D c : 0 < c -> Rabs D * c < INR n -> Rabs (PI * D / INR n) < PI / c.
  Proof.
    intros Hc B. pose proof Pn as P. pose proof PI_RGT_0. replace (PI * D / INR n) with (D / INR n * PI) by (field; lra). rewrite Rabs_mult, (Rabs_right PI) by lra. unfold Rdiv at 1. rewrite Rabs_mult, (Rabs_right (/ INR n)) by (left; apply Rinv_0_lt_compat; exact P).
    apply (Rmult_lt_reg_r (c * INR n)); [nra|]. replace (Rabs D * / INR n * PI * (c * INR n)) with (Rabs D * c * PI) by (field; lra). replace (PI / c * (c * INR n)) with (INR n * PI) by (field; lra). apply Rmult_lt_compat_r; lra.
  Qed.
  Lemma opposite_sign y : (forall i, (i < n)%nat -> congruent (2 * PI) (nth i y 0) (- (PI * D / INR n * INR i) + (if Rlt_dec (g i) 0 then PI else 0))) ->
    (forall i, (S i < n)%nat -> Rabs (nth (S i) y 0 - nth i y 0) <= PI) -> Rabs D * 2 < INR n -> forall i, (S i < n)%nat -> g i * g (S i) < 0 -> PI / 2 < Rabs (nth (S i) y 0 - nth i y 0).
  Proof.
    intros C J B i Hi S0. pose proof Pn as P. pose proof PI_RGT_0. pose proof (small_D 2 ltac:(lra) B) as Sm. set (e := PI * D / INR n) in *. apply Rabs_def2 in Sm.
    assert (T : exists t, congruent (2 * PI) (delta_true i) t /\ PI / 2 < Rabs t <= PI).
    { unfold delta_true. fold e. destruct (Rlt_dec (g (S i)) 0), (Rlt_dec (g i) 0); try (exfalso; nra).
      - destruct (Rle_dec 0 e).
        + exists (- e + PI). split; [exists 0%Z; lra|]. rewrite Rabs_right by lra. lra.
        + exists (- e - PI). split; [exists 1%Z; lra|]. rewrite Rabs_left by lra. lra.
      - destruct (Rle_dec 0 e).
        + exists (- e + PI). split; [exists (-1)%Z; lra|]. rewrite Rabs_right by lra. lra.
        + exists (- e - PI). split; [exists 0%Z; lra|]. rewrite Rabs_left by lra. lra. }
    destruct T as (t & Ct & Bt). assert (E : Rabs (nth (S i) y 0 - nth i y 0) = Rabs t). { apply cong_abs; [eapply congruent_trans; [apply diff_cong; assumption|exact Ct]|apply J; exact Hi|lra]. } rewrite E. lra.
  Qed.
  Lemma diffs_length : forall x p, length (diffs p x) = length x. Proof. induction x as [|a x IH]; intros p; cbn; [reflexivity|rewrite IH; reflexivity]. Qed.
  Lemma diffs_nth : forall x p i, (i < length x)%nat -> nth i (diffs p x) 0 = nth (S i) (p :: x) 0 - nth i (p :: x) 0.
  Proof. induction x as [|a x IH]; intros p i Hi; [cbn in Hi; lia|]. destruct i as [|i]; [reflexivity|]. cbn [diffs nth]. apply IH. cbn [length] in Hi. lia. Qed.
  (** what frgroup returns, from the unwrapped phase *)
  Lemma group_props junk : (2 <= n)%nat -> (exists m, frmag junk d n = Ok m) -> exists y l, frphase d n = Ok (fgrid n, y) /\ length y = n /\
    (forall i, (i < n)%nat -> congruent (2 * PI) (nth i y 0) (- (PI * D / INR n * INR i) + (if Rlt_dec (g i) 0 then PI else 0))) /\
    (forall i, (S i < n)%nat -> Rabs (nth (S i) y 0 - nth i y 0) <= PI) /\
    frgroup junk d n = Ok (fgrid n, l) /\ length l = n /\ (forall i, (S i < n)%nat -> nth i l None = if Rlt_dec (PI / 2) (Rabs (nth (S i) y 0 - nth i y 0)) then None else Some (- (nth (S i) y 0 - nth i y 0) / (PI / INR n))) /\ nth (n - 1) l None = nth (n - 2) l None.
  Proof.
    intros H2 (m & Em). destruct phase_props as (y & E & L & _ & C & J). pose proof Pn as P. set (gr := fun v => if Rlt_dec (PI / 2) (Rabs v) then None else Some (- v / (PI / INR n))).
    destruct y as [|a t]; [cbn in L; lia|]. assert (Lt : length t = (n - 1)%nat) by (cbn in L; lia). exists (a :: t). exists (map gr (diffs a t) ++ [nth (n - 2) (map gr (diffs a t)) None]). split; [exact E|]. split; [exact L|]. split; [exact C|]. split; [exact J|].
    assert (Lg : length (map gr (diffs a t)) = (n - 1)%nat) by (rewrite map_length, diffs_length; exact Lt).
    assert (V : forall i, (S i < n)%nat -> nth i (map gr (diffs a t)) None = gr (nth (S i) (a :: t) 0 - nth i (a :: t) 0)).
    { intros i Hi. rewrite (nth_indep _ None (gr 0)) by lia. rewrite map_nth, diffs_nth by lia. reflexivity. }
    split; [|split; [rewrite app_length, Lg; cbn [length]; lia|]].
    - unfold frgroup. rewrite E. cbn [bind fst snd]. rewrite Em. cbn [bind]. rewrite (vget_ok _ 1 0), (vget_ok _ 0 0) by (rewrite fgrid_length; lia). cbn [bind]. rewrite !fgrid_nth by lia. replace (2 * PI * (INR 1 / (2 * INR n) - INR 0 / (2 * INR n))) with (PI / INR n) by (cbn [INR]; field; lra). fold gr. rewrite (vget_ok _ (n - 2) None) by lia. reflexivity.
    - split; [intros i Hi; rewrite app_nth1 by lia; rewrite V by exact Hi; reflexivity|]. rewrite app_nth2 by lia. rewrite Lg, Nat.sub_diag. cbn [nth]. rewrite app_nth1 by lia. reflexivity.
  Qed.
End Lin.

(** ** Symmetric taps *)
Lemma rsumn_rev n f : rsumn n f = rsumn n (fun k => f (n - 1 - k)%nat).
Proof. unfold rsumn. etransitivity; [apply (sum_rev Rring)|]. apply (sum_ext Rring). intros k Hk. f_equal. Qed.
Lemma rsumn_add n f g : rsumn n (fun k => f k + g k) = rsumn n f + rsumn n g.
Proof. unfold rsumn. induction n as [|n IH]; [cbn; lra|]. cbn [sum]. rewrite IH. cbn. lra. Qed.
Lemma rsumn_mul n f c : rsumn n (fun k => c * f k) = c * rsumn n f.
Proof. unfold rsumn. induction n as [|n IH]; [cbn; lra|]. cbn [sum]. rewrite IH. cbn. lra. Qed.
Lemma sym_response h f : sym h -> h <> [] -> resp h f = (amplitude h f * cos (2 * PI * f * ((INR (length h) - 1) / 2)), - (amplitude h f * sin (2 * PI * f * ((INR (length h) - 1) / 2)))).
Proof.
  intros S0 H. set (n := length h). assert (Hn : (0 < n)%nat) by (unfold n; destruct h; [congruence|cbn; lia]). set (D := (INR n - 1) / 2). set (w := 2 * PI * f).
  assert (Z : rsumn n (fun k => nth k h 0 * sin (w * (D - INR k))) = 0).
  { set (q := rsumn _ _). assert (E : q = - q); [|lra]. etransitivity; [unfold q; apply rsumn_rev|]. unfold q. rewrite <- rsumn_opp. apply rsumn_ext. intros k Hk. rewrite S0 by exact Hk. replace (INR (n - 1 - k)) with (INR n - 1 - INR k) by (rewrite !minus_INR by lia; cbn; ring). replace (w * (D - (INR n - 1 - INR k))) with (- (w * (D - INR k))) by (unfold D; field). rewrite sin_neg. ring. }
  unfold resp, amplitude. fold n. fold D. fold w. set (A := rsumn n (fun k => nth k h 0 * cos (w * (D - INR k)))). fold A in Z |- *.
  f_equal.
  - transitivity (rsumn n (fun k => cos (w * D) * (nth k h 0 * cos (w * (D - INR k))) + sin (w * D) * (nth k h 0 * sin (w * (D - INR k))))).
    + apply rsumn_ext. intros k _. replace (w * INR k) with (w * D - w * (D - INR k)) by ring. rewrite cos_minus. ring.
    + rewrite rsumn_add, !rsumn_mul, Z. fold A. ring.
  - f_equal. transitivity (rsumn n (fun k => sin (w * D) * (nth k h 0 * cos (w * (D - INR k))) + (- cos (w * D)) * (nth k h 0 * sin (w * (D - INR k))))).
    + apply rsumn_ext. intros k _. replace (w * INR k) with (w * D - w * (D - INR k)) by ring. rewrite sin_minus. ring.
    + rewrite rsumn_add, !rsumn_mul, Z. fold A. ring.
Qed.
