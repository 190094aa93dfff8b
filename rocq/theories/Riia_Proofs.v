(** From an analog prototype to the digital filter: pre-warping, frequency change, bilinear transform. *)
From Coq Require Import Reals Lra Lia.
From Verif Require Import Base BaseLemmas RField DftSys ComplexSys Poly_Model Poly_Spec Poly_Proofs Rii_Model Biq_Spec Biq_Proofs Biq_Props Tf_Proofs Tf_Props.
Local Open Scope R_scope.

(** a stable proper prototype given by its roots, without zero in the right half-plane *)
Definition good_proto (ha : frat Cfield) : Prop :=
  p_roots (f_num ha) = true /\ p_roots (f_den ha) = true /\
  (List.length (p_coefs (f_num ha)) <= List.length (p_coefs (f_den ha)))%nat /\
  (forall p, In p (p_coefs (f_den ha)) -> fst p < 0) /\ (forall r, In r (p_coefs (f_num ha)) -> fst r <= 0 /\ r <> c0).
Section CF.
Add Field Cf : (fth Cfield).
Lemma wa_tan fc : wd_vers_wa (2 * PI * fc) 1 = 2 * tan (PI * fc).
Proof. unfold wd_vers_wa. replace (2 * PI * fc / (2 * 1)) with (PI * fc) by field. ring. Qed.
Lemma tan_pos_ fc : 0 < fc < 1 / 2 -> 0 < tan (PI * fc).
Proof. intros H. pose proof PI_RGT_0. apply tan_gt_0; nra. Qed.
Lemma lap_lp fc (z : Cfield) : 0 < fc < 1 / 2 -> (z + 1)%K <> (c0 : Cfield) -> (re (2 * 1) * (z - 1) / (z + 1) / re (wd_vers_wa (2 * PI * fc) 1))%K = laplace fc z.
Proof.
  intros H N. pose proof (tan_pos_ fc H) as T. rewrite wa_tan. unfold laplace. rewrite Rmult_1_r, re_mul, re_2. pose proof (re_ne (tan (PI * fc)) ltac:(lra)) as T'. pose proof (re_ne 2 ltac:(lra)) as T2. rewrite re_2 in T2. field. repeat split; assumption.
Qed.
(** value of the digital filter at z = -1 *)
Lemma bil_nyquist0 (ha : frat Cfield) : p_roots (f_num ha) = true -> p_roots (f_den ha) = true -> p_mlt (f_den ha) <> c0 ->
  (forall r, In r (p_coefs (f_num ha)) \/ In r (p_coefs (f_den ha)) -> r <> re (2 * 1)) -> (List.length (p_coefs (f_num ha)) <= List.length (p_coefs (f_den ha)))%nat ->
  exists hz, trf_bilineaire ha 1 = Ok hz /\ f_horner hz (copp c1) = if Nat.eqb (List.length (p_coefs (f_num ha))) (List.length (p_coefs (f_den ha))) then (p_mlt (f_num ha) / p_mlt (f_den ha))%K else c0.
Proof.
  intros M1 M2 Hm Hr L. unfold trf_bilineaire, roots_c. rewrite M1, M2. cbn [bind]. eexists. split; [reflexivity|].
  set (zs := p_coefs (f_num ha)) in *. set (ps := p_coefs (f_den ha)) in *. set (k := re (2 * 1)) in *.
  assert (R1 : forall r, In r zs -> (k - r)%K <> (c0 : Cfield)). { intros r I E. apply (Hr r (or_introl I)). transitivity (k - (k - r))%K; [ring|]. rewrite E. ring. }
  assert (R2 : forall r, In r ps -> (k - r)%K <> (c0 : Cfield)). { intros r I E. apply (Hr r (or_intror I)). transitivity (k - (k - r))%K; [ring|]. rewrite E. ring. }
  assert (W : forall l : list Cfield, (forall r, In r l -> (k - r)%K <> (c0 : Cfield)) -> (rprod (map (fun r : Cfield => ((r + k) / (- r + k))%K) l) (copp c1) * rprod l k = cpow (- (k + k)) (List.length l))%K).
  { induction l as [|r l IH]; intros H; [cbn [map rprod List.length cpow]; ring|]. cbn [map rprod List.length cpow]. rewrite <- IH by (intros r' I; apply H; right; exact I). pose proof (H r (or_introl eq_refl)) as N.
    assert (N' : (- r + k)%K <> (c0 : Cfield)) by (intros E; apply N; rewrite <- E; ring). field. exact N'. }
  rewrite fhorner_ok. unfold fvalue, value. cbn [f_num f_den]. rewrite (fold_mul k zs), (fold_div k ps R2).
  replace (_ <? List.length zs)%nat with false by (symmetry; apply Nat.ltb_ge; exact L).
  pose proof (W zs R1) as W1. pose proof (W ps R2) as W2. pose proof (nz_rprod (K := Cfield) ps k R2) as N2.
  repeat match goal with |- context [@List.length ?A zs] => progress change (@List.length A zs) with (@List.length Cfield zs) end. repeat match goal with |- context [@List.length ?A ps] => progress change (@List.length A ps) with (@List.length Cfield ps) end.
  destruct (Nat.eqb_spec (@List.length Cfield zs) (@List.length Cfield ps)) as [EL|NL].
  - rewrite EL, Nat.ltb_irrefl. cbn [p_roots p_coefs p_mlt]. rewrite EL in W1.
    assert (NK : cpow (- (k + k))%K (List.length ps) <> (c0 : Cfield)). { apply nz_pow. intros E. apply (f_equal fst) in E. cbn in E. lra. }
    assert (N3 : rprod (map (fun r : Cfield => ((r + k) / (- r + k))%K) ps) (copp c1) <> (c0 : Cfield)). { intros E. apply NK. rewrite <- W2, E. ring. }
    set (A := rprod (map (fun r : Cfield => ((r + k) / (- r + k))%K) zs) (copp c1)) in *. set (B := rprod (map (fun r : Cfield => ((r + k) / (- r + k))%K) ps) (copp c1)) in *.
    transitivity ((p_mlt (f_num ha) / p_mlt (f_den ha)) * ((A * rprod zs k) / (B * rprod ps k)))%K; [field; repeat split; assumption|]. rewrite W1, W2. field. split; assumption.
  - replace (_ <? _)%nat with true by (symmetry; apply Nat.ltb_lt; lia). cbn [p_roots p_coefs p_mlt p_mul p_from_roots negb andb].
    rewrite rprod_app. destruct (Nat.leb_spec (List.length zs) (List.length ps)); [|lia]. rewrite rprod_repeat.
    replace (List.length ps - List.length zs)%nat with (S (List.length ps - List.length zs - 1)) by lia. cbn [cpow].
    match goal with |- (?a / ?b)%K = _ => replace a with (c0 : Cfield); [|ring] end.
    change (c0 / (p_mlt (f_den ha) * rprod (map (fun r : Cfield => ((r + k) / (- r + k))%K) ps) (- (1)))%K)%K with (fdiv (c0 : Cfield) (p_mlt (f_den ha) * rprod (map (fun r : Cfield => ((r + k) / (- r + k))%K) ps) (- (1)))%K).
    rewrite (Fdiv_def (fth Cfield)). ring.
Qed.
Lemma bil_nyquist (ha hz : frat Cfield) : trf_bilineaire ha 1 = Ok hz -> p_mlt (f_den ha) <> c0 ->
  (forall r, In r (p_coefs (f_num ha)) \/ In r (p_coefs (f_den ha)) -> r <> re (2 * 1)) -> (List.length (p_coefs (f_num ha)) <= List.length (p_coefs (f_den ha)))%nat ->
  f_horner hz (copp c1) = if Nat.eqb (List.length (p_coefs (f_num ha))) (List.length (p_coefs (f_den ha))) then (p_mlt (f_num ha) / p_mlt (f_den ha))%K else c0.
Proof.
  intros E Hm Hr L. destruct (p_roots (f_num ha)) eqn:M1; [|unfold trf_bilineaire, roots_c in E; rewrite M1 in E; discriminate E]. destruct (p_roots (f_den ha)) eqn:M2; [|unfold trf_bilineaire, roots_c in E; rewrite M1, M2 in E; discriminate E].
  destruct (bil_nyquist0 ha M1 M2 Hm Hr L) as (hz' & E' & V). rewrite E in E'. injection E' as ->. exact V.
Qed.
Lemma riia_lp (ha : frat Cfield) fc : good_proto ha -> p_mlt (f_den ha) <> c0 -> 0 < fc < 1 / 2 ->
  exists hz, (let* h := pban_vers_pba ha (wd_vers_wa (2 * PI * fc) 1) in trf_bilineaire h 1) = Ok hz /\
    (p_roots (f_den hz) = true /\ forall p, In p (p_coefs (f_den hz)) -> Cnorm2 p < 1) /\
    (forall z, (z + 1)%K <> (c0 : Cfield) -> p_horner (f_den ha) (laplace fc z) <> c0 -> f_horner hz z = f_horner ha (laplace fc z)) /\
    f_horner hz (copp c1) = if Nat.eqb (List.length (p_coefs (f_num ha))) (List.length (p_coefs (f_den ha))) then (p_mlt (f_num ha) / p_mlt (f_den ha))%K else c0.
Proof.
  intros (M1 & M2 & L & Hp & Hr) Hm Hf. pose proof (tan_pos_ fc Hf) as T. set (w := wd_vers_wa (2 * PI * fc) 1). assert (Hw : 0 < w) by (unfold w; rewrite wa_tan; lra).
  destruct (pban_vers_pba ha w) as [h| | |] eqn:E.
  2-4: unfold pban_vers_pba in E; rewrite M1, M2 in E; discriminate E.
  cbn [bind]. pose proof E as E0. unfold pban_vers_pba in E0. rewrite M1, M2 in E0. cbn [andb negb] in E0.
  replace (Z.of_nat (List.length (p_coefs (f_den ha))) - 1 - (Z.of_nat (List.length (p_coefs (f_num ha))) - 1))%Z with (Z.of_nat (List.length (p_coefs (f_den ha))) - Z.of_nat (List.length (p_coefs (f_num ha))))%Z in E0 by lia.
  set (zs := p_coefs (f_num ha)) in *. set (ps := p_coefs (f_den ha)) in *. injection E0 as E0.
  assert (C1 : p_coefs (f_num h) = map (fun r : Cfield => (r * re w)%K) zs) by (rewrite <- E0; reflexivity).
  assert (C2 : p_coefs (f_den h) = map (fun r : Cfield => (r * re w)%K) ps) by (rewrite <- E0; reflexivity).
  assert (C3 : p_roots (f_num h) = true) by (rewrite <- E0; reflexivity). assert (C4 : p_roots (f_den h) = true) by (rewrite <- E0; reflexivity).
  assert (C5 : p_mlt (f_den h) = p_mlt (f_den ha)) by (rewrite <- E0; reflexivity).
  assert (C6 : p_mlt (f_num h) = (p_mlt (f_num ha) * re (powZ w (Z.of_nat (List.length ps) - Z.of_nat (List.length zs))))%K) by (rewrite <- E0; reflexivity).
  assert (ST := proj1 (C64_stable ha h w Hw Hp) E).
  assert (LL : (List.length (p_coefs (f_num h)) <= List.length (p_coefs (f_den h)))%nat) by (rewrite C1, C2, !map_length; exact L).
  assert (NR : forall r, In r (p_coefs (f_num h)) \/ In r (p_coefs (f_den h)) -> r <> re (2 * 1)).
  { intros r [I|I] Er; [|apply ST in I; rewrite Er in I; cbn in I; lra]. rewrite C1 in I. apply in_map_iff in I. destruct I as (q & Eq & I). apply Hr in I. destruct I as [I _]. subst r. apply (f_equal fst) in Er. destruct q as [x y]. cbn in *. nra. }
  assert (exists hz, trf_bilineaire h 1 = Ok hz) as [hz EZ]. { unfold trf_bilineaire, roots_c. rewrite C3, C4. eexists. reflexivity. }
  exists hz. split; [exact EZ|]. split; [|split].
  - apply (C64_bilinear_stable h hz 1); [lra|exact EZ|exact LL|exact ST].
  - intros z Nz Hd. pose proof (lap_lp fc z Hf Nz) as EL. fold w in EL. set (s := (re (2 * 1) * (z - 1) / (z + 1))%K) in *.
    assert (W := re_ne w ltac:(lra)).
    assert (D : p_horner (f_den h) s <> c0).
    { rewrite horner_ok in *. unfold value in *. rewrite C4, C5, C2, rprod_scale by exact W. rewrite M2 in Hd. fold ps in Hd. rewrite EL. intros Q. apply Hd. apply C_mul0 in Q. destruct Q as [Q|Q]; [contradiction|]. apply C_mul0 in Q. destruct Q as [Q|Q]; [exfalso; exact (nz_pow _ _ W Q)|rewrite Q; ring]. }
    destruct (C64_bilinear h 1 z C3 C4 Nz NR D) as (hz' & E1 & E2). rewrite EZ in E1. injection E1 as <-. rewrite E2. fold s.
    destruct (C64_lowpass ha w s M1 M2 ltac:(lra)) as (h' & E3 & E4); [rewrite EL; exact Hd|]. rewrite E in E3. injection E3 as <-. rewrite E4, EL. reflexivity.
  - rewrite (bil_nyquist h hz EZ); [|rewrite C5; exact Hm|exact NR|exact LL]. rewrite C1, C2, !map_length, C5, C6. destruct (Nat.eqb_spec (List.length zs) (List.length ps)) as [EL|]; [|reflexivity].
    rewrite EL. replace (_ - _)%Z with 0%Z by lia. cbn [powZ]. rewrite re_1. f_equal. ring.
Qed.
Lemma lap_hp fc (z : Cfield) : 0 < fc < 1 / 2 -> (z + 1)%K <> (c0 : Cfield) -> (z - 1)%K <> (c0 : Cfield) -> (re (wd_vers_wa (2 * PI * fc) 1) / (re (2 * 1) * (z - 1) / (z + 1)))%K = (1 / laplace fc z)%K.
Proof.
  intros H N N1. pose proof (tan_pos_ fc H) as T. rewrite wa_tan. unfold laplace. rewrite Rmult_1_r, re_mul, re_2. pose proof (re_ne (tan (PI * fc)) ltac:(lra)) as T'. pose proof (re_ne 2 ltac:(lra)) as T2. rewrite re_2 in T2. field. repeat split; assumption.
Qed.
Lemma C_sign (n : nat) : (cpow (copp c1 : Cfield) n * cpow (copp c1) n = c1)%K.
Proof. induction n as [|n IH]; cbn [cpow]; [ring|]. transitivity (cpow (copp c1 : Cfield) n * cpow (copp c1) n)%K; [ring|exact IH]. Qed.
Lemma produit_rprod (l : list Cfield) : produit l = (cpow (copp c1) (List.length l) * rprod l c0)%K.
Proof.
  unfold produit. assert (G : forall (l : list Cfield) (a : Cfield), fold_left (fun x v => (x * v)%K) l a = (a * (cpow (copp c1) (List.length l) * rprod l c0))%K).
  { clear l. induction l as [|r l IH]; intros a; [cbn [fold_left rprod List.length cpow]; ring|]. cbn [fold_left]. rewrite IH. cbn [List.length cpow rprod]. ring. }
  rewrite G. ring.
Qed.
Lemma riia_hp (ha : frat Cfield) fc : good_proto ha -> p_mlt (f_den ha) <> c0 -> 0 < fc < 1 / 2 ->
  let nz := List.length (p_coefs (f_num ha)) in let np := List.length (p_coefs (f_den ha)) in
  exists hz, (let* h := pban_vers_pha ha (wd_vers_wa (2 * PI * fc) 1) in trf_bilineaire h 1) = Ok hz /\
    (p_roots (f_den hz) = true /\ forall p, In p (p_coefs (f_den hz)) -> Cnorm2 p < 1) /\
    (forall z, (z + 1)%K <> (c0 : Cfield) -> (z - 1)%K <> (c0 : Cfield) -> p_horner (f_den ha) (1 / laplace fc z)%K <> c0 ->
       f_horner hz z = (cpow (copp c1) (nz + np) * f_horner ha (1 / laplace fc z))%K) /\
    f_horner hz (copp c1) = (cpow (copp c1) (nz + np) * f_horner ha c0)%K /\
    ((nz < np)%nat -> f_horner hz c1 = c0).
Proof.
  intros (M1 & M2 & L & Hp & Hr) Hm Hf. cbv zeta. pose proof (tan_pos_ fc Hf) as T. set (w := wd_vers_wa (2 * PI * fc) 1). assert (Hw : 0 < w) by (unfold w; rewrite wa_tan; lra).
  destruct (pban_vers_pha ha w) as [h| | |] eqn:E.
  2-4: unfold pban_vers_pha in E; rewrite M1, M2 in E; discriminate E.
  cbn [bind]. pose proof E as E0. unfold pban_vers_pha in E0. rewrite M1, M2 in E0. cbn [andb negb] in E0.
  set (zs := p_coefs (f_num ha)) in *. set (ps := p_coefs (f_den ha)) in *. injection E0 as E0.
  assert (LZ : (List.length zs - List.length ps)%nat = 0%nat) by (apply Nat.sub_0_le; exact L).
  assert (C1 : p_coefs (f_num h) = map (fun r : Cfield => (finv r * re w)%K) zs ++ repeat c0 (List.length ps - List.length zs)) by (rewrite <- E0; reflexivity).
  assert (C2 : p_coefs (f_den h) = map (fun r : Cfield => (finv r * re w)%K) ps).
  { transitivity (map (fun r : Cfield => (finv r * re w)%K) ps ++ repeat c0 (List.length zs - List.length ps)); [rewrite <- E0; reflexivity|]. replace (List.length zs - List.length ps)%nat with 0%nat by (symmetry; exact LZ). apply app_nil_r. }
  assert (C3 : p_roots (f_num h) = true) by (rewrite <- E0; reflexivity). assert (C4 : p_roots (f_den h) = true) by (rewrite <- E0; reflexivity).
  assert (C5 : p_mlt (f_den h) = (p_mlt (f_den ha) * produit ps)%K) by (rewrite <- E0; reflexivity).
  assert (C6 : p_mlt (f_num h) = (p_mlt (f_num ha) * produit zs)%K) by (rewrite <- E0; reflexivity).
  clear E0.
  assert (PZ : forall p, In p ps -> p <> c0). { intros p I Q. apply Hp in I. rewrite Q in I. cbn in I. lra. }
  assert (NP : rprod ps (c0 : Cfield) <> c0). { apply nz_rprod. intros r I Q. apply (PZ r I). transitivity (- (c0 - r))%K; [ring|]. rewrite Q. ring. }
  assert (SN : forall n, cpow (copp c1 : Cfield) n <> c0). { intros n Q. pose proof (C_sign n) as S1. rewrite Q in S1. apply (one_ne Cfield). rewrite <- S1. ring. }
  assert (NPP : produit ps <> c0). { rewrite produit_rprod. apply mul_nz; [apply SN|exact NP]. }
  assert (LL : (List.length (p_coefs (f_num h)) = List.length (p_coefs (f_den h)))%nat).
  { rewrite C1, C2, app_length, !map_length, repeat_length. apply (Nat.add_sub_eq_l _ _ _ eq_refl) || idtac. change (List.length zs + (List.length ps - List.length zs) = List.length ps)%nat. generalize (List.length zs), (List.length ps), L. intros a b Lab. change (car Cfield) with (car Cring) in *. lia. }
  assert (ST := proj2 (C64_stable ha h w Hw Hp) L E).
  assert (NR : forall r, In r (p_coefs (f_num h)) \/ In r (p_coefs (f_den h)) -> r <> re (2 * 1)).
  { intros r [I|I] Er; [|apply ST in I; rewrite Er in I; cbn in I; lra]. rewrite C1 in I. apply in_app_or in I. destruct I as [I|I]; [|apply repeat_spec in I; rewrite I in Er; apply (f_equal fst) in Er; cbn in Er; lra].
    apply in_map_iff in I. destruct I as (q & Eq & I). apply Hr in I. destruct I as [I I']. subst r. apply (f_equal fst) in Er. destruct q as [x y]. cbn in Er, I.
    assert (N : 0 < Cnorm2 (x, y)). { assert (0 <= Cnorm2 (x, y)) by (unfold Cnorm2; cbn; nra). pose proof (Cnorm2_ne (x, y) I'). lra. } assert (Q : x / Cnorm2 (x, y) <= 0) by (unfold Rdiv; pose proof (Rinv_0_lt_compat _ N); nra). nra. }
  assert (exists hz, trf_bilineaire h 1 = Ok hz) as [hz EZ]. { unfold trf_bilineaire, roots_c. rewrite C3, C4. eexists. reflexivity. }
  exists hz. split; [exact EZ|]. split; [|split; [|split]].
  - apply (C64_bilinear_stable h hz 1); [lra|exact EZ|rewrite LL; apply Nat.le_refl|exact ST].
  - intros z Nz Nz1 Hd. pose proof (lap_hp fc z Hf Nz Nz1) as EL. fold w in EL. 
    assert (W := re_ne w ltac:(lra)). assert (R2 := re_ne (2 * 1) ltac:(lra)).
    assert (Ns : (re (2 * 1) * (z - 1) / (z + 1))%K <> (c0 : Cfield)). { apply div_nz; [apply mul_nz; assumption|exact Nz]. }
    set (s := (re (2 * 1) * (z - 1) / (z + 1))%K) in *.
    destruct (C64_highpass ha w s M1 M2 Ns) as (h' & E3 & E4); [intros r [I|I]; [exact (proj2 (Hr r I))|exact (PZ r I)]|rewrite EL; exact Hd|]. rewrite E in E3. injection E3 as <-.
    assert (D : p_horner (f_den h) s <> c0).
    { rewrite horner_ok in *. unfold value in *. rewrite C4, C5, C2. rewrite M2 in Hd. fold ps in Hd. rewrite <- EL in Hd.
      pose proof (rprod_inv (re w) s ps Ns PZ) as RI. intros Q. apply C_mul0 in Q. destruct Q as [Q|Q]; [apply C_mul0 in Q; destruct Q as [Q|Q]; [exact (Hm Q)|exact (NPP Q)]|].
      apply Hd. assert (Z : (cpow s (List.length ps) * rprod ps (re w / s))%K = (c0 : Cfield)) by (rewrite <- RI, Q; ring).
      apply C_mul0 in Z. destruct Z as [Z|Z]; [exfalso; exact (nz_pow _ _ Ns Z)|]. rewrite Z. ring. }
    destruct (C64_bilinear h 1 z C3 C4 Nz NR D) as (hz' & E1 & E2). rewrite EZ in E1. injection E1 as <-. rewrite E2. fold s. rewrite E4, EL. reflexivity.
  - rewrite (bil_nyquist h hz EZ); [|rewrite C5; apply mul_nz; [exact Hm|exact NPP]|exact NR|rewrite LL; apply Nat.le_refl]. rewrite LL, Nat.eqb_refl, C5, C6, !produit_rprod, fhorner_ok. unfold fvalue, value. rewrite M1, M2. fold zs ps.
    rewrite (cpow_add_ Cfield). assert (S2 := C_sign (List.length ps)). set (e2 := cpow (copp c1 : Cfield) (List.length ps)) in *. assert (Ne : e2 <> c0) by apply SN.
    transitivity (cpow (copp c1) (List.length zs) * (c1 / e2) * (p_mlt (f_num ha) * rprod zs c0 / (p_mlt (f_den ha) * rprod ps c0)))%K; [field; repeat split; assumption|].
    replace (c1 / e2)%K with e2; [reflexivity|]. transitivity (e2 * e2 / e2)%K; [field; exact Ne|]. rewrite S2. reflexivity.
  - intros LT. assert (N1 : (c1 + 1)%K <> (c0 : Cfield)). { intros Q. apply (f_equal fst) in Q. cbn in Q. lra. }
    assert (W := re_ne w ltac:(lra)).
    destruct (C64_bilinear h 1 c1 C3 C4 N1 NR) as (hz' & E1 & E2).
    + replace (re (2 * 1) * (c1 - 1) / (c1 + 1))%K with (c0 : Cfield) by (field; exact N1). rewrite horner_ok. unfold value. rewrite C4, C5, C2. apply mul_nz; [apply mul_nz; [exact Hm|exact NPP]|]. apply nz_rprod. intros r I Q.
      apply in_map_iff in I. destruct I as (q & <- & I). apply PZ in I. apply W. transitivity (- q * (c0 - finv q * re w))%K; [field; exact I|]. rewrite Q. ring.
    + rewrite EZ in E1. injection E1 as <-. rewrite E2. replace (re (2 * 1) * (c1 - 1) / (c1 + 1))%K with (c0 : Cfield) by (field; exact N1).
      rewrite fhorner_ok. unfold fvalue, value. rewrite C3, C1, rprod_app, rprod_repeat. replace (List.length ps - List.length zs)%nat with (S (List.length ps - List.length zs - 1)) by (change (car Cfield) with (car Cring) in *; lia). cbn [cpow].
      rewrite (Fdiv_def (fth Cfield)). ring.
Qed.
End CF.
