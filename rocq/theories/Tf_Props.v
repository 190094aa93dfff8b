(** C64: bilinear transform, prewarping, low-pass to low-pass / high-pass transformations (rii.cc). *)
From Coq Require Import Reals Lra Lia.
From Verif Require Import Base BaseLemmas RField DftSys ComplexSys Poly_Model Poly_Spec Poly_Proofs Rii_Model Biq_Spec Biq_Proofs Biq_Props Tf_Proofs.
Local Open Scope R_scope.

Section CF.
Add Field Cf : (fth Cfield).
(** Prewarping: the conversions are inverse of each other, and are what the bilinear transform does to frequencies. *)
Theorem C64_frequencies : forall fe, 0 < fe ->
  (forall w, - (PI * fe) < w < PI * fe -> wa_vers_wd (wd_vers_wa w fe) fe = w) /\
  (forall w, wd_vers_wa (wa_vers_wd w fe) fe = w /\ - (PI * fe) < wa_vers_wd w fe < PI * fe) /\
  (forall f, -1 / 2 < f < 1 / 2 -> fa_vers_fd (fd_vers_fa f) = f) /\ (forall f, fd_vers_fa (fa_vers_fd f) = f) /\
  (forall w, - (PI * fe) < w < PI * fe -> let z := eit (w / fe) in
     (z + 1)%K <> (c0 : Cfield) /\ (re (2 * fe) * (z - 1) / (z + 1))%K = (0, wd_vers_wa w fe)).
Proof.
  intros fe Hf. pose proof PI_RGT_0 as HP.
  assert (W : forall w, - (PI * fe) < w < PI * fe -> - (PI / 2) < w / (2 * fe) < PI / 2).
  { intros w Hw. split; apply (Rmult_lt_reg_r (2 * fe)); try lra; replace (w / (2 * fe) * (2 * fe)) with w by (field; lra); lra. }
  split; [|split; [|split; [|split]]].
  - intros w Hw. unfold wa_vers_wd, wd_vers_wa. replace (2 * fe * tan (w / (2 * fe)) / (2 * fe)) with (tan (w / (2 * fe))) by (field; lra).
    rewrite atan_tan by (apply W; exact Hw). field. lra.
  - intros w. split; [|unfold wa_vers_wd; pose proof (atan_bound (w / (2 * fe))); nra]. unfold wa_vers_wd, wd_vers_wa. replace (2 * fe * atan (w / (2 * fe)) / (2 * fe)) with (atan (w / (2 * fe))) by (field; lra). rewrite tan_atan. field. lra.
  - intros f H. unfold fa_vers_fd, fd_vers_fa. replace (PI * (tan (PI * f) / PI)) with (tan (PI * f)) by (field; lra). rewrite atan_tan by nra. field. lra.
  - intros f. unfold fa_vers_fd, fd_vers_fa. replace (PI * (atan (PI * f) / PI)) with (atan (PI * f)) by (field; lra). rewrite tan_atan. field. lra.
  - intros w Hw z. unfold z. set (v := w / (2 * PI * fe)). assert (Hv : -1 / 2 < v < 1 / 2).
    { unfold v. split; apply (Rmult_lt_reg_r (2 * PI * fe)); try nra; replace (w / (2 * PI * fe) * (2 * PI * fe)) with w by (field; nra); nra. }
    assert (E : w / fe = 2 * PI * v) by (unfold v; field; nra). rewrite E. destruct (laplace_circle (1 / 4) v ltac:(lra) Hv) as [N L]. split; [exact N|].
    unfold laplace in L. replace (PI * (1 / 4)) with (PI / 4) in L by field. rewrite tan_PI4 in L.
    assert (G : forall a b k : Cfield, b <> c0 -> (k * a / b = k * (a / (re 1 * b)))%K) by (intros; rewrite re_1; field; assumption).
    rewrite G by exact N. rewrite L. unfold wd_vers_wa. replace (w / (2 * fe)) with (PI * v) by (unfold v; field; nra). apply C_ext; cbn; field.
Qed.
Print Assumptions C64_frequencies.

(** The bilinear transform: hz(z) = ha(2 fe (z - 1) / (z + 1)). *)
Theorem C64_bilinear : forall (ha : frat Cfield) fe (z : Cfield), p_roots (f_num ha) = true -> p_roots (f_den ha) = true -> (z + 1)%K <> (c0 : Cfield) ->
  (forall r, In r (p_coefs (f_num ha)) \/ In r (p_coefs (f_den ha)) -> r <> re (2 * fe)) ->
  let s := (re (2 * fe) * (z - 1) / (z + 1))%K in p_horner (f_den ha) s <> c0 ->
  exists hz, trf_bilineaire ha fe = Ok hz /\ f_horner hz z = f_horner ha s.
Proof.
  intros ha fe z M1 M2 Hz Hr s Hd. unfold trf_bilineaire, roots_c. rewrite M1, M2. cbn [bind]. eexists. split; [reflexivity|].
  set (zs := p_coefs (f_num ha)) in *. set (ps := p_coefs (f_den ha)) in *. set (k := re (2 * fe)) in *.
  assert (R1 : forall r, In r zs -> (k - r)%K <> (c0 : Cfield)). { intros r I E. apply (Hr r (or_introl I)). transitivity (k - (k - r))%K; [ring|]. rewrite E. ring. }
  assert (R2 : forall r, In r ps -> (k - r)%K <> (c0 : Cfield)). { intros r I E. apply (Hr r (or_intror I)). transitivity (k - (k - r))%K; [ring|]. rewrite E. ring. }
  rewrite !fhorner_ok. rewrite horner_ok in Hd. unfold fvalue, value in *. cbn [f_num f_den]. rewrite M1, M2 in *. fold zs ps in Hd |- *.
  rewrite (fold_mul k zs), (fold_div k ps R2). change (map (fun r : Cfield => ((r + k) / (- r + k))%K)) with (wrp k).
  assert (Nm : p_mlt (f_den ha) <> c0) by (intros E; apply Hd; rewrite E; ring). assert (Nr : rprod ps s <> c0) by (intros E; apply Hd; rewrite E; ring).
  assert (RP : forall m (l : list Cfield), rprod (l ++ repeat (copp c1 : Cfield) m) z = (rprod l z * cpow (z + 1) m)%K).
  { intros m l. rewrite rprod_app, rprod_repeat. f_equal. f_equal. ring. }
  destruct (Nat.ltb_spec (length zs) (length ps)) as [L|L].
  - replace (length ps <? length zs)%nat with false by (symmetry; apply Nat.ltb_ge; lia). replace (length zs <=? length ps)%nat with true by (symmetry; apply Nat.leb_le; lia).
    unfold p_mul, p_from_roots. cbn [p_roots p_coefs p_mlt andb]. rewrite RP. etransitivity; [|apply (wrp_frac k z _ _ zs ps (length ps - length zs) 0); [exact Hz|exact R1|exact R2|lia|exact Nm|exact Nr]].
    cbn [cpow]. f_equal; ring.
  - destruct (Nat.ltb_spec (length ps) (length zs)) as [L'|L'].
    + replace (length zs <=? length ps)%nat with false by (symmetry; apply Nat.leb_gt; lia).
      unfold p_mul, p_from_roots. cbn [p_roots p_coefs p_mlt andb]. rewrite RP. etransitivity; [|apply (wrp_frac k z _ _ zs ps 0 (length zs - length ps)); [exact Hz|exact R1|exact R2|lia|exact Nm|exact Nr]].
      cbn [cpow]. f_equal; ring.
    + cbn [p_roots p_coefs p_mlt]. etransitivity; [|apply (wrp_frac k z _ _ zs ps 0 0); [exact Hz|exact R1|exact R2|lia|exact Nm|exact Nr]].
      cbn [cpow]. f_equal; ring.
Qed.
Print Assumptions C64_bilinear.

Lemma in_mul (p q : list Cfield) r a b : In r (p_coefs (p_mul (mkpoly p true a) (mkpoly q true b))) -> In r p \/ In r q.
Proof. unfold p_mul. cbn [p_roots andb p_coefs]. apply in_app_or. Qed.
(** Stability is preserved: poles in the left half-plane go inside the unit circle (at least as many poles as zeros). *)
Theorem C64_bilinear_stable : forall (ha hz : frat Cfield) fe, 0 < fe -> trf_bilineaire ha fe = Ok hz ->
  (List.length (p_coefs (f_num ha)) <= List.length (p_coefs (f_den ha)))%nat -> (forall p, In p (p_coefs (f_den ha)) -> fst p < 0) ->
  p_roots (f_den hz) = true /\ forall p, In p (p_coefs (f_den hz)) -> Cnorm2 p < 1.
Proof.
  intros ha hz fe Hf E L Hp. unfold trf_bilineaire, roots_c in E. destruct (p_roots (f_num ha)); [|discriminate E]. destruct (p_roots (f_den ha)); [|discriminate E]. cbn [bind] in E.
  assert (EQ : f_den hz = mkpoly (K := Cfield) (map (fun r : Cfield => ((r + re (2 * fe)) / (- r + re (2 * fe)))%K) (p_coefs (f_den ha))) true (p_mlt (f_den ha))).
  { injection E as <-. cbn [f_den]. replace (_ <? _)%nat with false by (symmetry; apply Nat.ltb_ge; exact L). reflexivity. }
  rewrite EQ. cbn [p_roots p_coefs]. split; [reflexivity|]. intros p I. apply in_map_iff in I. destruct I as ([x y] & <- & I). apply Hp in I. cbn [fst] in I.
  assert (D : 0 < Cnorm2 (((2 * fe - x), - y) : C)) by (unfold Cnorm2; cbn [fst snd]; nra).
  replace (cadd ((x, y) : Cfield) (re (2 * fe))) with ((x + 2 * fe, y) : Cfield) by (apply C_ext; cbn; ring). replace (cadd (copp ((x, y) : Cfield)) (re (2 * fe))) with ((2 * fe - x, - y) : Cfield) by (apply C_ext; cbn; ring).
  rewrite Cnorm2_div. 2:{ intros Q. pose proof (f_equal fst Q) as Q1. cbn in Q1. lra. }
  apply (Rmult_lt_reg_r (Cnorm2 (2 * fe - x, - y))); [exact D|]. unfold Rdiv. rewrite Rmult_assoc, Rinv_l, Rmult_1_r, Rmult_1_l by lra. unfold Cnorm2. cbn [fst snd]. nra.
Qed.
Print Assumptions C64_bilinear_stable.
(** Finding: a transfer function given by its coefficients is rejected, although the documentation accepts any rational function. *)
Theorem C64_bilinear_coefficients_refuted : forall (ha : frat Cfield) fe, p_roots (f_num ha) = false \/ p_roots (f_den ha) = false -> trf_bilineaire ha fe = Exc.
Proof. intros ha fe [H|H]; unfold trf_bilineaire, roots_c; rewrite H; [reflexivity|]. destruct (p_roots (f_num ha)); reflexivity. Qed.
Print Assumptions C64_bilinear_coefficients_refuted.

Lemma re_pow x n : re (x ^ n) = cpow (re x) n.
Proof. induction n as [|n IH]; [reflexivity|]. cbn [pow cpow]. rewrite re_mul, IH. reflexivity. Qed.
Lemma powZ_cpow (w : R) a b : w <> 0 -> (re (powZ w (Z.of_nat b - Z.of_nat a)) * cpow (re w) a = cpow (re w) b)%K.
Proof.
  intros Hw. rewrite <- !re_pow, <- re_mul. f_equal. unfold powZ. destruct (Z.of_nat b - Z.of_nat a)%Z eqn:E.
  - replace b with a by lia. ring.
  - rewrite <- pow_add. f_equal. lia.
  - replace a with (Pos.to_nat p + b)%nat by lia. rewrite pow_add. field. apply pow_nonzero. exact Hw.
Qed.
(** Normalised low-pass to low-pass: H(s / wc). *)
Theorem C64_lowpass : forall (ha : frat Cfield) wc (s : Cfield), p_roots (f_num ha) = true -> p_roots (f_den ha) = true -> wc <> 0 -> p_horner (f_den ha) (s / re wc)%K <> c0 ->
  exists h, pban_vers_pba ha wc = Ok h /\ f_horner h s = f_horner ha (s / re wc)%K.
Proof.
  intros ha wc s M1 M2 Hw Hd. unfold pban_vers_pba. rewrite M1, M2. cbn [andb negb]. eexists. split; [reflexivity|].
  rewrite !fhorner_ok. rewrite horner_ok in Hd. unfold fvalue, value in *. cbn [f_num f_den p_roots p_mlt p_coefs]. rewrite M1, M2 in *.
  assert (W := re_ne wc Hw). rewrite !rprod_scale by exact W.
  replace (Z.of_nat (List.length (p_coefs (f_den ha))) - 1 - (Z.of_nat (List.length (p_coefs (f_num ha))) - 1))%Z with (Z.of_nat (List.length (p_coefs (f_den ha))) - Z.of_nat (List.length (p_coefs (f_num ha))))%Z by lia.
  set (zs := p_coefs (f_num ha)) in *. set (ps := p_coefs (f_den ha)) in *.
  pose proof (powZ_cpow wc (List.length zs) (List.length ps) Hw) as P. pose proof (nz_pow (K := Cfield) (re wc) (List.length ps) W) as NP.
  assert (Nm : p_mlt (f_den ha) <> c0) by (intros E; apply Hd; rewrite E; ring). assert (Nr : rprod ps (s / re wc)%K <> c0) by (intros E; apply Hd; rewrite E; ring).
  transitivity ((p_mlt (f_num ha) * (re (powZ wc (Z.of_nat (List.length ps) - Z.of_nat (List.length zs))) * cpow (re wc) (List.length zs)) * rprod zs (s / re wc)) / (p_mlt (f_den ha) * (cpow (re wc) (List.length ps) * rprod ps (s / re wc))))%K.
  - f_equal. ring.
  - rewrite P. field. repeat split; assumption.
Qed.
Print Assumptions C64_lowpass.
(** Normalised low-pass to high-pass: H(wc / s), with the sign (-1)^(number of poles + number of zeros). *)
Theorem C64_highpass : forall (ha : frat Cfield) wc (s : Cfield), p_roots (f_num ha) = true -> p_roots (f_den ha) = true -> s <> c0 ->
  (forall r, In r (p_coefs (f_num ha)) \/ In r (p_coefs (f_den ha)) -> r <> c0) -> p_horner (f_den ha) (re wc / s)%K <> c0 ->
  exists h, pban_vers_pha ha wc = Ok h /\
    f_horner h s = (cpow (copp c1) (List.length (p_coefs (f_num ha)) + List.length (p_coefs (f_den ha))) * f_horner ha (re wc / s))%K.
Proof.
  intros ha wc s M1 M2 Hs Hr Hd. unfold pban_vers_pha. rewrite M1, M2. cbn [andb negb]. eexists. split; [reflexivity|].
  rewrite !fhorner_ok. rewrite horner_ok in Hd. unfold fvalue, value in *. cbn [f_num f_den p_roots p_mlt p_coefs]. rewrite M1, M2 in *.
  set (zs := p_coefs (f_num ha)) in *. set (ps := p_coefs (f_den ha)) in *. rewrite !rprod_app, !rprod_repeat.
  pose proof (rprod_inv (re wc) s zs Hs (fun r I => Hr r (or_introl I))) as E1. pose proof (rprod_inv (re wc) s ps Hs (fun r I => Hr r (or_intror I))) as E2.
  replace (s - c0)%K with s by ring. unfold produit.
  assert (Nm : p_mlt (f_den ha) <> c0) by (intros E; apply Hd; rewrite E; ring). assert (Nr : rprod ps (re wc / s)%K <> c0) by (intros E; apply Hd; rewrite E; ring).
  assert (SG : forall n, (cpow (copp c1 : Cfield) n * cpow (copp c1) n = c1)%K).
  { intros n. induction n as [|n IH]; cbn [cpow]; [ring|]. transitivity (cpow (copp c1 : Cfield) n * cpow (copp c1) n)%K; [ring|exact IH]. }
  pose proof (SG (List.length zs)) as S1. pose proof (SG (List.length ps)) as S2. rewrite (cpow_add_ Cfield).
  assert (EP : (cpow s (List.length zs) * cpow s (List.length ps - List.length zs) = cpow s (List.length ps) * cpow s (List.length zs - List.length ps))%K).
  { rewrite <- !(cpow_add_ Cfield). f_equal. lia. }
  pose proof (nz_pow (K := Cfield) s (List.length ps) Hs) as N1. pose proof (nz_pow (K := Cfield) s (List.length zs - List.length ps) Hs) as N2.
  set (A := rprod (map _ zs) s) in *. set (B := rprod (map _ ps) s) in *. set (PA := fold_left _ zs c1) in *. set (PB := fold_left _ ps c1) in *.
  set (g1 := cpow (copp c1 : Cfield) (List.length zs)) in *. set (g2 := cpow (copp c1 : Cfield) (List.length ps)) in *.
  set (f1 := cpow s (List.length ps - List.length zs)) in *. set (f2 := cpow s (List.length zs - List.length ps)) in *. set (e1 := cpow s (List.length zs)) in *. set (e2 := cpow s (List.length ps)) in *.
  set (X := rprod zs (re wc / s)%K) in *. set (Y := rprod ps (re wc / s)%K) in *. set (mn := p_mlt (f_num ha)) in *. set (md := p_mlt (f_den ha)) in *.
  assert (F1 : (A * PA = g1 * (e1 * X))%K) by (rewrite <- E1; transitivity ((g1 * g1) * (A * PA))%K; [rewrite S1; ring|ring]).
  assert (F2 : (B * PB = g2 * (e2 * Y))%K) by (rewrite <- E2; transitivity ((g2 * g2) * (B * PB))%K; [rewrite S2; ring|ring]).
  assert (Ng : g2 <> c0). { intros E. rewrite E in S2. apply (one_ne Cfield). rewrite <- S2. ring. }
  clearbody A B PA PB g1 g2 f1 f2 e1 e2 X Y mn md.
  transitivity (mn * (A * PA) * f1 / (md * (B * PB) * f2))%K; [f_equal; ring|]. rewrite F1, F2.
  transitivity ((g1 * g2) * (mn * X * (e1 * f1)) / ((g2 * g2) * (md * Y * (e2 * f2))))%K; [field; repeat split; assumption|]. rewrite EP, S2. field. repeat split; assumption.
Qed.
Print Assumptions C64_highpass.
(** Both keep stable systems stable. *)
Theorem C64_stable : forall (ha h : frat Cfield) wc, 0 < wc -> (forall p, In p (p_coefs (f_den ha)) -> fst p < 0) ->
  (pban_vers_pba ha wc = Ok h -> forall p, In p (p_coefs (f_den h)) -> fst p < 0) /\
  ((List.length (p_coefs (f_num ha)) <= List.length (p_coefs (f_den ha)))%nat -> pban_vers_pha ha wc = Ok h -> forall p, In p (p_coefs (f_den h)) -> fst p < 0).
Proof.
  intros ha h wc Hw Hp. split.
  - unfold pban_vers_pba. destruct (p_roots (f_num ha) && p_roots (f_den ha)); [|discriminate]. cbn [negb]. intros E. injection E as <-. cbn [f_den p_coefs]. intros p I.
    apply in_map_iff in I. destruct I as (r & <- & I). apply Hp in I. cbn. nra.
  - intros L. unfold pban_vers_pha. destruct (p_roots (f_num ha) && p_roots (f_den ha)); [|discriminate]. cbn [negb]. intros E. injection E as <-. cbn [f_den p_coefs].
    intros p I. apply in_app_or in I. destruct I as [I|I].
    2:{ match type of I with In _ (repeat _ ?n) => assert (Z : n = 0%nat) by (apply Nat.sub_0_le; exact L); rewrite Z in I; destruct I end. }
    apply in_map_iff in I. destruct I as (r & <- & I). apply Hp in I. destruct r as [x y]. cbn in *.
    assert (N : 0 < Cnorm2 (x, y)) by (unfold Cnorm2; cbn; nra). assert (Q : x / Cnorm2 (x, y) < 0) by (unfold Rdiv; pose proof (Rinv_0_lt_compat _ N); nra). nra.
Qed.
Print Assumptions C64_stable.
(** Finding: the high-pass derived from a first-order low-pass 1/(s+1) is -s/(s+wc): inverted. *)
Theorem C64_highpass_sign_refuted : forall wc (s : Cfield), 0 < wc -> s <> c0 -> (s + re wc)%K <> (c0 : Cfield) ->
  let ha := mkfrat (mkpoly (K := Cfield) [] true c1) (p_from_roots [copp c1 : Cfield]) in
  f_horner ha (re wc / s)%K = (s / (s + re wc))%K /\ exists h, pban_vers_pha ha wc = Ok h /\ f_horner h s = (- (s / (s + re wc)))%K.
Proof.
  intros wc s Hw Hs Hn ha. assert (V : f_horner ha (re wc / s)%K = (s / (s + re wc))%K).
  { rewrite fhorner_ok. unfold fvalue, ha, value. cbn [f_num f_den p_roots p_coefs p_mlt p_from_roots rprod]. field. repeat split; assumption. }
  split; [exact V|]. destruct (C64_highpass ha wc s) as (h & E & H).
  - reflexivity.
  - reflexivity.
  - exact Hs.
  - intros r [I|I] E; [destruct I|]. destruct I as [I|I]; [|destruct I]. rewrite <- I in E. apply (f_equal fst) in E. cbn in E. lra.
  - rewrite horner_ok. unfold ha, value. cbn [f_den p_roots p_coefs p_mlt p_from_roots rprod]. intros E. apply Hn. transitivity (s * (c1 * ((re wc / s - - c1) * c1)))%K; [field; exact Hs|]. rewrite E. ring.
  - exists h. split; [exact E|]. rewrite H, V. cbn [List.length p_coefs f_num f_den ha p_from_roots Nat.add cpow]. ring.
Qed.
Print Assumptions C64_highpass_sign_refuted.
End CF.
