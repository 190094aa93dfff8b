(** Dispersive channel and Doppler distribution. *)
From Coquelicot Require Import Coquelicot.
From Coq Require Import List Arith ZArith Lia Bool Reals Lra.
From Verif Require Import Base BaseLemmas ComplexSys Filters_Proofs Chn_Model Chn_Spec Chn_Proofs.
Import ListNotations.
Local Open Scope R_scope.
Notation Cx := ComplexSys.C.

Lemma map2_trunc {A B D} (f : A -> B -> D) : forall a b b', length a = length b -> map2 f a (b ++ b') = map2 f a b.
Proof.
  intros a b b' H. rewrite <- (app_nil_r a) at 1. rewrite map2_app by exact H. unfold map2 at 2. cbn. apply app_nil_r.
Qed.

Lemma map2_firstn {A B D} (f : A -> B -> D) a b : (length a <= length b)%nat ->
  map2 f a (firstn (length a) b) = map2 f a b.
Proof.
  intros H. rewrite <- (firstn_skipn (length a) b) at 2. rewrite map2_trunc; [reflexivity|].
  rewrite firstn_length. lia.
Qed.

Section D.
Context {S : Type}.
Variable gen : S -> nat -> res (S * list Cx).
Variables (fd fe : R) (nh : nat).
Notation step := (cd_step gen fd fe nh).

Lemma cd_step_ok s x s' y : step s x = Ok (s', y) ->
  exists g0 m x2, (if cd_first s then exists g, gen (cd_gen s) nh = Ok (g0, g) else g0 = cd_gen s) /\
    gen g0 m = Ok (cd_gen s', x2) /\ cd_first s' = false /\
    (length x <= length (cd_rest s ++ x2))%nat /\
    y = map2 Cmul x (cd_rest s ++ x2) /\ cd_rest s' = skipn (length x) (cd_rest s ++ x2).
Proof.
  unfold cd_step. set (m := Zceil _).
  destruct (if cd_first s then let* p := gen (cd_gen s) nh in Ok (fst p) else Ok (cd_gen s)) as [g0| | |] eqn:G;
    cbn [bind]; try discriminate.
  destruct (m <? 0)%Z; [discriminate|]. destruct (gen g0 (Z.to_nat m)) as [[g1 x2]| | |] eqn:E; cbn [bind]; try discriminate.
  destruct (length x <? length (cd_rest s))%nat eqn:N; [discriminate|]. apply Nat.ltb_ge in N.
  destruct (length x2 <? length x - length (cd_rest s))%nat eqn:N2; [discriminate|]. apply Nat.ltb_ge in N2.
  intros H. injection H as <- <-. exists g0, (Z.to_nat m), x2. cbn [cd_gen cd_rest cd_first].
  split; [|split; [exact E|split; [reflexivity|split; [rewrite app_length; lia|split]]]].
  - destruct (cd_first s); [|injection G as <-; reflexivity].
    destruct (gen (cd_gen s) nh) as [[a g]| | |]; cbn [bind] in G; try discriminate. injection G as <-. exists g. reflexivity.
  - transitivity (map2 Cmul (firstn (length (cd_rest s)) x ++ skipn (length (cd_rest s)) x) (cd_rest s ++ x2));
      [|rewrite firstn_skipn; reflexivity].
    rewrite map2_app by (rewrite firstn_length; lia). f_equal.
    replace (length x - length (cd_rest s))%nat with (length (skipn (length (cd_rest s)) x))
      by (rewrite skipn_length; reflexivity).
    apply map2_firstn. rewrite skipn_length. exact N2.
  - rewrite skipn_app, (skipn_all2 (cd_rest s)) by exact N. reflexivity.
Qed.

Lemma cd_run_ok l : forall s s' ys, map_st step s l = Ok (s', ys) -> l <> [] ->
  exists g0 gs, (if cd_first s then exists g, gen (cd_gen s) nh = Ok (g0, g) else g0 = cd_gen s) /\
    delivers gen g0 gs (cd_gen s') /\ length gs = length l /\
    (length (concat l) <= length (cd_rest s ++ concat gs))%nat /\
    map (@length Cx) ys = map (@length Cx) l /\
    concat ys = map2 Cmul (concat l) (cd_rest s ++ concat gs) /\
    cd_rest s' = skipn (length (concat l)) (cd_rest s ++ concat gs).
Proof.
  induction l as [|x l IH]; intros s s' ys H NE; [congruence|].
  cbn [map_st] in H. destruct (step s x) as [[s1 y]| | |] eqn:E; cbn [bind] in H; try discriminate.
  destruct (map_st step s1 l) as [[s2 ys']| | |] eqn:E2; cbn [bind] in H; try discriminate.
  injection H as <- <-.
  destruct (cd_step_ok s x s1 y E) as (g0 & m & x2 & G0 & G1 & F & L & Y & Rr).
  assert (Ly : length y = length x) by (rewrite Y, map2_length; lia).
  destruct l as [|x' l].
  - cbn in E2. injection E2 as <- <-. exists g0, [x2]. split; [exact G0|].
    split; [econstructor; [exact G1|constructor]|]. cbn [concat map length]. rewrite !app_nil_r.
    split; [reflexivity|]. split; [exact L|]. split; [rewrite Ly; reflexivity|]. split; assumption.
  - destruct (IH s1 s2 ys' E2 ltac:(discriminate)) as (g1 & gs & G0' & Dl & Lg & L' & M' & Y' & R').
    rewrite F in G0'. subst g1. exists g0, (x2 :: gs). split; [exact G0|].
    split; [econstructor; [exact G1|exact Dl]|].
    set (l' := x' :: l) in *. change (concat (x :: l')) with (x ++ concat l').
    change (concat (x2 :: gs)) with (x2 ++ concat gs). change (concat (y :: ys')) with (y ++ concat ys').
    rewrite app_assoc. set (a := cd_rest s ++ x2) in *.
    rewrite Rr in L', Y', R'.
    assert (A : a ++ concat gs = firstn (length x) a ++ (skipn (length x) a ++ concat gs))
      by (rewrite app_assoc, firstn_skipn; reflexivity).
    assert (La : length (firstn (length x) a) = length x) by (rewrite firstn_length; lia).
    split; [cbn [length]; rewrite Lg; reflexivity|].
    split; [|split; [cbn [map]; rewrite Ly, M'; reflexivity|split]].
    + rewrite A, !app_length, La. rewrite app_length in L'. lia.
    + rewrite A, map2_app by (rewrite La; reflexivity). rewrite Y', Y. f_equal. symmetry. apply map2_firstn. exact L.
    + rewrite R', app_length, A. rewrite (skipn_app (length x + length (concat l'))). rewrite (skipn_all2 (firstn (length x) a)) by lia. rewrite La.
      cbn [app]. f_equal. lia.
Qed.

Lemma cd_small s x : (length x < length (cd_rest s))%nat -> forall r, step s x <> Ok r.
Proof.
  intros H r E. destruct r as [s' y].
  unfold cd_step in E. destruct (if cd_first s then _ else _); cbn [bind] in E; try discriminate.
  destruct (Zceil _ <? 0)%Z; [discriminate|]. destruct (gen _ _) as [[]| | |]; cbn [bind] in E; try discriminate.
  apply Nat.ltb_lt in H. rewrite H in E. discriminate.
Qed.
End D.

(** ** Rice *)
Lemma Cnorm2_mul a b : Cnorm2 (Cmul a b) = Cnorm2 a * Cnorm2 b.
Proof. destruct a, b. unfold Cnorm2, Cmul; cbn. ring. Qed.

Lemma Cnorm2_div a b : b <> (0, 0) -> Cnorm2 (Cdiv a b) = Cnorm2 a / Cnorm2 b.
Proof.
  intros H. unfold Cdiv. rewrite Cnorm2_mul. unfold Rdiv. f_equal. pose proof (Cnorm2_ne b H) as N.
  unfold Cinv, Cnorm2 in *; cbn. field. exact N.
Qed.

Lemma power_map x f : power (map f x) = mean (length x) (fun k => Cnorm2 (f (nth k x (0, 0)))).
Proof.
  unfold power, mean. rewrite map_length. f_equal. apply total_ext. intros k Hk.
  erewrite nth_indep by (rewrite map_length; exact Hk). rewrite map_nth. reflexivity.
Qed.

Lemma power_div x g : g <> (0, 0) -> power (map (fun z => Cdiv z g) x) = power x / Cnorm2 g.
Proof.
  intros H. rewrite power_map. unfold power, mean.
  rewrite (total_ext _ _ (fun k => / Cnorm2 g * Cnorm2 (nth k x (0, 0)))).
  - rewrite total_scal. unfold Rdiv.
    match goal with |- ?a * ?b * ?c = ?d * ?e * ?f => change d with b; change e with c; change f with a end. ring.
  - intros k _. rewrite Cnorm2_div by exact H. unfold Rdiv. apply Rmult_comm.
Qed.

(** ** Doppler distribution *)
Lemma doppler_in f fd fc : Rabs (f - fc) < fd ->
  doppler_distri f fd fc = 1 / (PI * fd * sqrt (1 - ((f - fc) / fd) * ((f - fc) / fd))).
Proof. intros H. unfold doppler_distri. destruct (Rle_dec _ _); [lra|reflexivity]. Qed.

Lemma ratio_bound f fd fc : Rabs (f - fc) < fd -> -1 < (f - fc) / fd < 1.
Proof.
  intros H. assert (0 < fd) by (pose proof (Rabs_pos (f - fc)); lra). apply Rabs_def2 in H.
  split; [apply Rlt_div_r|apply Rlt_div_l]; lra.
Qed.

Lemma doppler_root f fd fc : Rabs (f - fc) < fd -> 0 < 1 - ((f - fc) / fd) * ((f - fc) / fd).
Proof. intros H. apply ratio_bound in H. nra. Qed.

Lemma doppler_derive f fd fc : Rabs (f - fc) < fd ->
  is_derive (fun u => asin ((u - fc) / fd) / PI) f (doppler_distri f fd fc).
Proof.
  intros H. rewrite doppler_in by exact H. pose proof (ratio_bound f fd fc H) as B.
  pose proof (doppler_root f fd fc H) as Q. assert (0 < fd) by (pose proof (Rabs_pos (f - fc)); lra).
  pose proof PI_RGT_0.
  assert (D1 : is_derive (fun u => (u - fc) / fd) f (/ fd)).
  { auto_derive; [trivial|field; lra]. }
  assert (D2 : is_derive asin ((f - fc) / fd) (1 / sqrt (1 - ((f - fc) / fd)²))).
  { apply is_derive_Reals. rewrite <- (derive_pt_asin _ B). apply derive_pt_eq_1 with (derivable_pt_asin _ B). reflexivity. }
  assert (D3 := is_derive_comp asin (fun u => (u - fc) / fd) f _ _ D2 D1).
  assert (D4 := is_derive_scal _ _ (/ PI) _ D3).
  replace (1 / (PI * fd * sqrt (1 - (f - fc) / fd * ((f - fc) / fd))))
    with (/ PI * (scal (/ fd) (1 / sqrt (1 - ((f - fc) / fd)²)))).
  - eapply is_derive_ext; [|exact D4]. intros u. cbn. unfold Rdiv. ring.
  - unfold scal; cbn; unfold mult; cbn. unfold Rsqr. apply sqrt_lt_R0 in Q. field. repeat split; lra.
Qed.

Lemma doppler_cont f fd fc : Rabs (f - fc) < fd -> continuous (fun u => doppler_distri u fd fc) f.
Proof.
  intros H. assert (P : 0 < fd) by (pose proof (Rabs_pos (f - fc)); lra).
  apply (continuous_ext_loc _ (fun u => 1 / (PI * fd * sqrt (1 - ((u - fc) / fd) * ((u - fc) / fd))))).
  - assert (E : 0 < fd - Rabs (f - fc)) by lra. exists (mkposreal _ E). intros u Hu. symmetry. apply doppler_in.
    unfold ball in Hu; cbn in Hu. unfold AbsRing_ball, abs, minus, plus, opp in Hu; cbn in Hu.
    replace (u - fc) with ((u + - f) + (f - fc)) by ring. pose proof (Rabs_triang (u + - f) (f - fc)). lra.
  - pose proof (doppler_root f fd fc H) as Q. pose proof PI_RGT_0. pose proof (sqrt_lt_R0 _ Q).
    apply (ex_derive_continuous (fun u : R => 1 / (PI * fd * sqrt (1 - ((u - fc) / fd) * ((u - fc) / fd))))).
    auto_derive. split; [exact Q|]. split; [|trivial].
    apply Rgt_not_eq. apply Rmult_lt_0_compat; [apply Rmult_lt_0_compat; assumption|assumption].
Qed.

Lemma doppler_int fd fc t : 0 < fd -> 0 < t < PI / 2 ->
  is_RInt (fun f => doppler_distri f fd fc) (fc - fd * sin t) (fc + fd * sin t) (2 * t / PI).
Proof.
  intros Hfd Ht. pose proof PI_RGT_0 as HP.
  assert (S1 : 0 < sin t) by (apply sin_gt_0; lra).
  assert (S2 : sin t < 1).
  { rewrite <- sin_PI2. apply sin_increasing_1; lra. }
  assert (B : forall u, fc - fd * sin t <= u <= fc + fd * sin t -> Rabs (u - fc) < fd).
  { intros u Hu. apply Rabs_def1; nra. }
  assert (Mm : Rmin (fc - fd * sin t) (fc + fd * sin t) = fc - fd * sin t) by (apply Rmin_left; nra).
  assert (MM : Rmax (fc - fd * sin t) (fc + fd * sin t) = fc + fd * sin t) by (apply Rmax_right; nra).
  replace (2 * t / PI) with (minus (asin ((fc + fd * sin t - fc) / fd) / PI) (asin ((fc - fd * sin t - fc) / fd) / PI)).
  - apply (is_RInt_derive (fun u => asin ((u - fc) / fd) / PI)).
    + intros u. rewrite Mm, MM. intros Hu. apply doppler_derive, B, Hu.
    + intros u. rewrite Mm, MM. intros Hu. apply doppler_cont, B, Hu.
  - unfold minus, plus, opp; cbn.
    replace ((fc + fd * sin t - fc) / fd) with (sin t) by (field; lra).
    replace ((fc - fd * sin t - fc) / fd) with (- sin t) by (field; lra).
    rewrite asin_opp, asin_sin by lra. field. lra.
Qed.
