(** Proofs about the Goertzel filters. *)
From Coq Require Import Field Reals Lra.
From Verif Require Import Base BaseLemmas RField Filters_Model Filters_Spec Filters_Proofs Filters_Proofs2 Polyphase_Model HadGo_Model HadGo_Spec HadGo_Proofs.
Local Open Scope nat_scope.

Section R.
Local Open Scope R_scope.
Ltac rring := match goal with |- ?l = ?r => change (@eq R l r) end; ring.
Notation rsum := (sum (K := Rring)).
Lemma rsum_snoc n (f : nat -> R) : rsum (S n) f = rsum n f + f n.
Proof. reflexivity. Qed.
Lemma g_dft th (x : list R) : let w := fold_left (g_step (K := Rring) (cos th)) x (0, 0) in
  let C := rsum (length x) (fun i => samp (K := Rring) x i * cos (th * INR i)) in
  let S_ := rsum (length x) (fun i => samp (K := Rring) x i * sin (th * INR i)) in
  let p := th * (INR (length x) - 1) in
  fst w - cos th * snd w = cos p * C + sin p * S_ /\ sin th * snd w = sin p * C - cos p * S_.
Proof.
  induction x as [|a x IH] using rev_ind; cbv zeta in *.
  - cbn. split; ring.
  - rewrite fold_left_app. cbn [fold_left]. set (w := fold_left (g_step (K := Rring) (cos th)) x (0, 0)) in *.
    match goal with |- context [g_step _ ?f a] => change f with w end. clearbody w. destruct w as [w0 w1]. cbn [fst snd] in IH.
    rewrite app_length. cbn [length]. replace (length x + 1)%nat with (S (length x)) by lia. rewrite !rsum_snoc, S_INR.
    set (C := rsum (length x) (fun i => samp (K := Rring) x i * cos (th * INR i))) in *.
    set (S_ := rsum (length x) (fun i => samp (K := Rring) x i * sin (th * INR i))) in *.
    assert (EC : rsum (length x) (fun i => samp (K := Rring) (x ++ [a]) i * cos (th * INR i)) = C).
    { apply (sum_ext Rring). intros i Hi. unfold samp. rewrite app_nth1 by exact Hi. reflexivity. }
    assert (ES : rsum (length x) (fun i => samp (K := Rring) (x ++ [a]) i * sin (th * INR i)) = S_).
    { apply (sum_ext Rring). intros i Hi. unfold samp. rewrite app_nth1 by exact Hi. reflexivity. }
    rewrite EC, ES. assert (Ea : samp (K := Rring) (x ++ [a]) (length x) = a).
    { unfold samp. rewrite app_nth2 by lia. rewrite Nat.sub_diag. reflexivity. }
    rewrite Ea. unfold g_step. cbn [fst snd].
    set (p := th * (INR (length x) - 1)) in *.
    replace (th * (INR (length x) + 1 - 1)) with (th + p) by (unfold p; ring).
    replace (th * INR (length x)) with (th + p) by (unfold p; ring).
    destruct IH as [A B]. rewrite cos_plus, sin_plus.
    change (@csub Rring) with Rminus. change (@cadd Rring) with Rplus. change (@cmul Rring) with Rmult. change (cnat (K := Rring) 2) with (0 + 1 + 1).
    assert (Q : forall t, cos t * cos t + sin t * sin t = 1).
    { intros t. pose proof (sin2_cos2 t) as E. unfold Rsqr in E. lra. }
    pose proof (Q th) as Qt. pose proof (Q p) as Qp.
    assert (W0 : w0 = cos p * C + sin p * S_ + cos th * w1) by lra.
    assert (X1 : (cos th * cos p - sin th * sin p) * (cos th * cos p - sin th * sin p) + (sin th * cos p + cos th * sin p) * (sin th * cos p + cos th * sin p) = 1).
    { transitivity ((cos th * cos th + sin th * sin th) * (cos p * cos p + sin p * sin p)); [ring|rewrite Qt, Qp; ring]. }
    split.
    + transitivity (cos th * (cos p * C + sin p * S_) - sin th * (sin th * w1) + a * 1).
      * rewrite W0. transitivity (cos th * (cos p * C + sin p * S_) + cos th * cos th * w1 - (cos th * cos th + sin th * sin th) * w1 + a); [rewrite Qt; ring|ring].
      * rewrite B. rewrite <- X1. ring.
    + transitivity (sin th * (cos p * C + sin p * S_) + cos th * (sin th * w1)).
      * rewrite W0. ring.
      * rewrite B. ring.
Qed.

Lemma fold_sq (x : list R) : fold_left Rplus (map (fun v => v * v) x) 0 = rsum (length x) (fun i => samp (K := Rring) x i * samp (K := Rring) x i).
Proof.
  induction x as [|a x IH] using rev_ind; [reflexivity|].
  rewrite map_app, fold_left_app, IH, app_length. cbn [length map fold_left]. replace (length x + 1)%nat with (S (length x)) by lia.
  rewrite rsum_snoc. f_equal.
  - apply (sum_ext Rring). intros i Hi. unfold samp. rewrite app_nth1 by exact Hi. reflexivity.
  - unfold samp. rewrite app_nth2 by lia. rewrite Nat.sub_diag. reflexivity.
Qed.

Lemma goertzel_ok th (x : list R) : goertzel (K := Rfield) (cos th) x =
  2 * ((rsum (length x) (fun i => samp (K := Rring) x i * cos (th * INR i))) ^ 2 + (rsum (length x) (fun i => samp (K := Rring) x i * sin (th * INR i))) ^ 2) /
  (rsum (length x) (fun i => samp (K := Rring) x i ^ 2) * INR (length x)).
Proof.
  unfold goertzel. pose proof (g_dft th (x ++ [0])) as G. cbv zeta in G.
  rewrite fold_left_app in G. cbn [fold_left] in G. set (w := fold_left (g_step (K := Rring) (cos th)) x (0, 0)) in *.
  match type of G with context [g_step _ ?f 0] => change f with w in G end.
  rewrite app_length in G. cbn [length] in G. replace (length x + 1)%nat with (S (length x)) in G by lia. rewrite !rsum_snoc in G.
  set (C := rsum (length x) (fun i => samp (K := Rring) x i * cos (th * INR i))) in *.
  set (S_ := rsum (length x) (fun i => samp (K := Rring) x i * sin (th * INR i))) in *.
  assert (EC : rsum (length x) (fun i => samp (K := Rring) (x ++ [0]) i * cos (th * INR i)) = C).
  { apply (sum_ext Rring). intros i Hi. unfold samp. rewrite app_nth1 by exact Hi. reflexivity. }
  assert (ES : rsum (length x) (fun i => samp (K := Rring) (x ++ [0]) i * sin (th * INR i)) = S_).
  { apply (sum_ext Rring). intros i Hi. unfold samp. rewrite app_nth1 by exact Hi. reflexivity. }
  rewrite EC, ES in G. assert (Ea : samp (K := Rring) (x ++ [0]) (length x) = 0).
  { unfold samp. rewrite app_nth2 by lia. rewrite Nat.sub_diag. reflexivity. }
  rewrite Ea in G. set (p := th * (INR (S (length x)) - 1)) in *.
  replace (g_step (K := Rring) (cos th) w 0) with (cnat (K := Rring) 2 * cos th * fst w - snd w, fst w) in G.
  2:{ unfold g_step. change (@csub Rring) with Rminus. change (@cadd Rring) with Rplus. change (@cmul Rring) with Rmult. apply injective_projections; cbn [fst snd]; [rring|reflexivity]. }
  set (w' := (cnat (K := Rring) 2 * cos th * fst w - snd w, fst w)) in *.
  change (2 * (C ^ 2 + S_ ^ 2)) with (2 * (C ^ 2 + S_ ^ 2)).
  assert (En : g_energy (K := Rring) (cos th) w' = C ^ 2 + S_ ^ 2).
  { unfold g_energy. change (@csub Rring) with Rminus. change (@cadd Rring) with Rplus. change (@cmul Rring) with Rmult. change (cnat (K := Rring) 2) with (0 + 1 + 1).
    clearbody w'. destruct w' as [a b]. cbn [fst snd] in *. destruct G as [A B].
    pose proof (sin2_cos2 th) as E. pose proof (sin2_cos2 p) as E'. unfold Rsqr in E, E'.
    transitivity ((a - cos th * b) * (a - cos th * b) + (sin th * b) * (sin th * b)).
    - assert (E2 : sin th * sin th = 1 - cos th * cos th) by lra.
      replace (sin th * b * (sin th * b)) with (sin th * sin th * b * b) by rring. rewrite E2. rring.
    - rewrite A, B. transitivity ((sin p * sin p + cos p * cos p) * (C * C + S_ * S_)); [rring|rewrite E'; rring]. }
  unfold fdiv, Rfield. cbn [fring]. change (@cmul Rring) with Rmult in *. change (@cadd Rring) with Rplus.
  match goal with |- Rdiv (_ * ?e) ?d = _ => change e with (g_energy (K := Rring) (cos th) w') end.
  rewrite En, !cnat_R. change (INR 2) with (1 + 1).
  match goal with |- context [fold_left ?f ?l ?z] => change (fold_left f l z) with (fold_left Rplus (map (fun v => v * v) x) 0) end. rewrite fold_sq.
  match goal with |- Rdiv ?a (?b * ?n) = Rdiv ?c (?d * ?m) => assert (Ea2 : a = c) by rring; assert (Eb : b = d) end; [|rewrite Ea2, Eb; reflexivity].
  apply (sum_ext Rring). intros i Hi. change (@cmul Rring) with Rmult. rring.
Qed.
Lemma rsum_nonneg n (f : nat -> R) : (forall i, 0 <= f i) -> 0 <= rsum n f.
Proof. intros H. induction n as [|n IH]; [cbn; lra|]. rewrite rsum_snoc. specialize (H n). lra. Qed.
Lemma rsum_le n (f g : nat -> R) : (forall i, f i <= g i) -> rsum n f <= rsum n g.
Proof. intros H. induction n as [|n IH]; [cbn; lra|]. rewrite !rsum_snoc. specialize (H n). lra. Qed.
Lemma goertzel_bound th (x : list R) : rsum (length x) (fun i => samp (K := Rring) x i ^ 2) <> 0 -> 0 <= goertzel (K := Rfield) (cos th) x <= 2.
Proof.
  intros Hx. rewrite goertzel_ok. set (n := length x) in *. set (en := rsum n (fun i => samp (K := Rring) x i ^ 2)) in *.
  set (C := rsum n (fun i => samp (K := Rring) x i * cos (th * INR i))).
  set (S_ := rsum n (fun i => samp (K := Rring) x i * sin (th * INR i))).
  assert (He : 0 < en). { assert (0 <= en) by (apply rsum_nonneg; intros i; apply pow2_ge_0). lra. }
  assert (Hn : 0 < INR n). { destruct n; [exfalso; apply Hx; reflexivity|apply lt_0_INR; lia]. }
  set (X := C ^ 2 + S_ ^ 2). assert (HX : 0 <= X) by (unfold X; pose proof (pow2_ge_0 C); pose proof (pow2_ge_0 S_); lra).
  set (u := fun i => C * cos (th * INR i) + S_ * sin (th * INR i)).
  assert (E1 : X = rsum n (fun i => samp (K := Rring) x i * u i)).
  { unfold X, u. transitivity (C * C + S_ * S_); [rring|]. unfold C at 2, S_ at 2.
    rewrite <- (sum_mul_l Rring n C), <- (sum_mul_l Rring n S_), <- (sum_add Rring).
    apply (sum_ext Rring). intros i _. change (@cmul Rring) with Rmult. change (@cadd Rring) with Rplus. rring. }
  assert (E2 : rsum n (fun i => u i ^ 2) <= INR n * X).
  { rewrite <- (cnat_R n). change Rmult with (@cmul Rring). rewrite <- (sum_const Rring). apply rsum_le. intros i. unfold u, X.
    pose proof (sin2_cos2 (th * INR i)) as Q. unfold Rsqr in Q. pose proof (pow2_ge_0 (C * sin (th * INR i) - S_ * cos (th * INR i))) as Q2.
    set (cc := cos (th * INR i)) in *. set (ss := sin (th * INR i)) in *.
    replace (C ^ 2 + S_ ^ 2) with ((C ^ 2 + S_ ^ 2) * (ss * ss + cc * cc)) by (rewrite Q; ring). nra. }
  set (U := rsum n (fun i => u i ^ 2)) in *.
  assert (E3 : 0 <= en * en * U - en * X * X).
  { replace (en * en * U - en * X * X) with (rsum n (fun i => (en * u i - X * samp (K := Rring) x i) ^ 2)); [apply rsum_nonneg; intros; apply pow2_ge_0|].
    transitivity (rsum n (fun i => en * en * u i ^ 2 - (cadd (c := Rring) (en * X * (samp (K := Rring) x i * u i)) (en * X * (samp (K := Rring) x i * u i))) + X * X * samp (K := Rring) x i ^ 2)).
    - apply (sum_ext Rring). intros i _. change (@cadd Rring) with Rplus. rring.
    - rewrite (sum_add Rring n (fun i => en * en * u i ^ 2 - (cadd (c := Rring) (en * X * (samp (K := Rring) x i * u i)) (en * X * (samp (K := Rring) x i * u i))))).
      rewrite (sum_sub Rring n (fun i => en * en * u i ^ 2)). rewrite (sum_add Rring).
      rewrite (sum_mul_l Rring n (en * en)), (sum_mul_l Rring n (X * X)), (sum_mul_l Rring n (en * X)). fold U.
      fold en. rewrite <- E1. change (@cmul Rring) with Rmult. change (@cadd Rring) with Rplus. change (@csub Rring) with Rminus. rring. }
  assert (E4 : X * X <= en * U) by nra.
  assert (E5 : X * X <= en * INR n * X) by nra.
  assert (E6 : X <= en * INR n). { destruct (Req_dec X 0) as [->|]; [nra|]. assert (0 < X) by lra. nra. }
  assert (Hd : 0 < en * INR n) by nra.
  split.
  - apply Rmult_le_pos; [lra|]. left. apply Rinv_0_lt_compat. exact Hd.
  - apply (Rmult_le_reg_r (en * INR n)); [exact Hd|]. unfold Rdiv. rewrite Rmult_assoc, Rinv_l by lra. lra.
Qed.
End R.

Section S.
Context (K : cfield).
Add Field GKf : (fth K).
Lemma fold_sq_sum (x : list K) : fold_left cadd (map (fun v => cmul v v) x) c0 = sum (length x) (fun i => cmul (samp x i) (samp x i)).
Proof.
  induction x as [|a x IH] using rev_ind; [reflexivity|].
  rewrite map_app, fold_left_app, IH, app_length. cbn [length map fold_left]. replace (length x + 1) with (S (length x)) by lia.
  cbn [sum]. f_equal.
  - apply (sum_ext K). intros i Hi. unfold samp. rewrite app_nth1 by exact Hi. reflexivity.
  - unfold samp. rewrite app_nth2 by lia. rewrite Nat.sub_diag. reflexivity.
Qed.
Definition gzi (c : K) (R : nat) (h : list K) (s : (K * K) * nat) :=
  fst s = fold_left (g_step c) (remainder R h) (c0, c0) /\ snd s = length (remainder R h).
Definition sq (v : K) : K := cmul v v.
Lemma last_sq R (h : list K) a : 0 < R -> length (remainder R h) + 1 = R ->
  sum R (fun i => sampZ (map sq h ++ [sq a]) (Z.of_nat (length (map sq h)) - Z.of_nat i)) =
  fold_left cadd (map (fun v => cmul v v) (remainder R h ++ [a])) c0.
Proof.
  intros HR HL. rewrite fold_sq_sum. rewrite app_length. cbn [length]. rewrite HL.
  rewrite (sum_rev K R). apply (sum_ext K). intros i Hi.
  set (p := concat (packets R h)). assert (Eh : h = p ++ remainder R h) by (symmetry; apply packets_remainder; exact HR).
  assert (L : length h = length p + length (remainder R h)) by (rewrite Eh at 1; apply app_length).
  replace (map sq h ++ [sq a]) with (map sq (h ++ [a])) by (rewrite map_app; reflexivity).
  rewrite map_length. replace (Z.of_nat (length h) - Z.of_nat (R - 1 - i))%Z with (Z.of_nat (length p + i)) by lia.
  rewrite sampZ_nat. unfold samp.
  rewrite (nth_indep _ c0 (sq c0)) by (rewrite map_length, app_length; cbn [length]; lia). rewrite map_nth. unfold sq.
  assert (E : nth (length p + i) (h ++ [a]) c0 = nth i (remainder R h ++ [a]) c0).
  { rewrite Eh at 1. rewrite <- app_assoc. rewrite app_nth2_plus. reflexivity. }
  rewrite E. reflexivity.
Qed.
Lemma gz_body c R : 0 < R -> cnat (K := K) R <> c0 -> forall l h m s,
  mg_inv_ K R (fdiv c1 (cnat R)) (map sq h) m -> gzi c R h s ->
  exists m' en s' y, map_st mg_sample m (map sq l) = Ok (m', en) /\ flat_st (gz_sample c R) s (combine l en) = Ok (s', y) /\
    mg_inv_ K R (fdiv c1 (cnat R)) (map sq (h ++ l)) m' /\ gzi c R (h ++ l) s' /\
    map (goertzel c) (packets R (h ++ l)) = map (goertzel c) (packets R h) ++ y /\ length y = (length l + snd s) / R.
Proof.
  intros HR Hn l. induction l as [|a l IH]; intros h m s Hm Hs.
  - exists m, [], s, []. rewrite !app_nil_r. split; [reflexivity|]. split; [reflexivity|]. split; [exact Hm|]. split; [exact Hs|]. split; [reflexivity|].
    destruct Hs as [_ Hs]. cbn [length Nat.add]. rewrite Hs. symmetry. apply Nat.div_small. apply remainder_lt. exact HR.
  - cbn [map map_st]. destruct (mg_sample_ok K R _ _ _ (sq a) HR Hm) as [m1 [E1 I1]]. rewrite E1. cbn [bind].
    replace (map sq h ++ [sq a]) with (map sq (h ++ [a])) in I1 by (rewrite map_app; reflexivity).
    set (e := cmul (sum R (fun i => sampZ (map sq h ++ [sq a]) (Z.of_nat (length (map sq h)) - Z.of_nat i))) (fdiv c1 (cnat R))).
    destruct s as [w cnt]. destruct Hs as [Hw Hc]. cbn [fst snd] in Hw, Hc.
    pose proof (remainder_lt R h HR) as Lr.
    assert (St : exists s1 y1, gz_sample c R (w, cnt) (a, e) = Ok (s1, y1) /\ gzi c R (h ++ [a]) s1 /\
       map (goertzel c) (packets R (h ++ [a])) = map (goertzel c) (packets R h) ++ y1 /\ (length y1 * R + snd s1 = cnt + 1)%nat).
    { unfold gz_sample. cbn [fst snd]. unfold gzi. rewrite packets_app, remainder_app by exact HR.
      destruct (Nat.leb_spec R (cnt + 1)) as [Cc|Cc].
      - assert (Ep : length (remainder R h ++ [a]) = R) by (rewrite app_length; cbn [length]; lia).
        pose proof (packets_cons R (remainder R h ++ [a]) [] HR Ep) as Pc. pose proof (remainder_cons R (remainder R h ++ [a]) [] HR Ep) as Rc.
        rewrite app_nil_r in Pc, Rc. rewrite Pc, Rc. rewrite (packets_short R []) by exact HR. rewrite (remainder_short R []) by exact HR.
        eexists. eexists. split; [reflexivity|]. split; [split; reflexivity|]. split; [|cbn [length snd]; lia].
        rewrite map_app. cbn [map]. f_equal. f_equal. unfold goertzel.
        rewrite fold_left_app. cbn [fold_left]. rewrite <- Hw. rewrite Ep. rewrite <- last_sq by lia.
        unfold e. set (E := sum R _). f_equal. field. exact Hn.
      - assert (Ep : length (remainder R h ++ [a]) < R) by (rewrite app_length; cbn [length]; lia).
        rewrite (packets_short R (remainder R h ++ [a])), (remainder_short R (remainder R h ++ [a])) by exact Ep. eexists. eexists. split; [reflexivity|]. cbn [fst snd length]. split; [split|split].
        + rewrite fold_left_app. cbn [fold_left]. rewrite Hw. reflexivity.
        + rewrite app_length. cbn [length]. lia.
        + rewrite !app_nil_r. reflexivity.
        + lia. }
    destruct St as [s1 [y1 [Es [I2 [P2 L2]]]]].
    destruct (IH (h ++ [a]) m1 s1 I1 I2) as [m' [en [s' [y [A1 [A2 [A3 [A4 [A5 A6]]]]]]]]].
    exists m', (e :: en), s', (y1 ++ y). rewrite A1. cbn [bind combine flat_st]. rewrite Es. cbn [bind]. rewrite A2. cbn [bind].
    replace (h ++ a :: l) with ((h ++ [a]) ++ l) by (rewrite <- app_assoc; reflexivity).
    split; [reflexivity|]. split; [reflexivity|]. split; [exact A3|]. split; [exact A4|]. split.
    + rewrite A5, P2, <- app_assoc. reflexivity.
    + rewrite app_length, A6. cbn [length snd]. replace (S (length l) + cnt) with (length l + snd s1 + length y1 * R) by lia.
      rewrite Nat.div_add by lia. lia.
Qed.
Lemma gz_run c R (blocks : list (list K)) : 0 < R -> cnat (K := K) R <> c0 ->
  exists s, run gz_step (gz_init c R) blocks = Ok (s, map (goertzel c) (packets R (concat blocks))).
Proof.
  intros HR Hn.
  destruct (run_hist (gz_step (K := K)) (fun h s => gz_c s = c /\ gz_R s = R /\ mg_inv_ K R (fdiv c1 (cnat R)) (map sq h) (gz_mg s) /\ gzi c R h (gz_w s, gz_cnt s))
    (fun h => map (goertzel c) (packets R h))) with (s := gz_init c R) (blocks := blocks) as [s [E _]].
  - rewrite packets_short by exact HR. reflexivity.
  - intros h s b (Ec & ER & Hm & Hg). unfold gz_step. rewrite ER, Ec. destruct (Nat.eqb_spec R 0); [lia|].
    destruct (gz_body c R HR Hn b h (gz_mg s) (gz_w s, gz_cnt s) Hm Hg) as [m' [en [s' [y [A1 [A2 [A3 [A4 [A5 A6]]]]]]]]].
    unfold mg_step. destruct Hm as [HW Hm']. destruct HW as (Lw & _). rewrite Lw. destruct (Nat.eqb_spec R 0); [lia|].
    change (map (fun v : K => cmul v v) b) with (map sq b). rewrite A1. cbn [bind]. rewrite A2. cbn [bind]. cbn [snd] in A6. rewrite A6, Nat.eqb_refl.
    eexists. eexists. split; [reflexivity|]. split; [|exact A5]. cbn [gz_c gz_R gz_mg gz_w gz_cnt]. rewrite <- surjective_pairing. auto.
  - cbn [gz_init gz_c gz_R gz_mg gz_w gz_cnt]. split; [reflexivity|]. split; [reflexivity|]. split.
    + split; [apply hwin_init; exact HR|]. split; [reflexivity|]. cbn [mg_acc mg_init]. symmetry. apply sum_zero.
      intros i Hi. apply past_nil. exact Hi.
    + unfold gzi. rewrite remainder_short by exact HR. split; reflexivity.
  - exists s. exact E.
Qed.
End S.
