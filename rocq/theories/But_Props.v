(** C65: Butterworth filters (rii.cc butterworth_analogique, design_riia). *)
From Coq Require Import Reals Lra Lia String.
From Verif Require Import Base BaseLemmas RField DftSys ComplexSys Poly_Model Poly_Spec Poly_Proofs Rii_Model Riia_Spec Biq_Spec Biq_Proofs Biq_Props Tf_Proofs Tf_Props Factor_Proofs Riia_Proofs But_Proofs.
Local Open Scope R_scope.
Section CF.
Add Field Cf : (fth Cfield).
Lemma conj_mul (a b : Cfield) : conj (a * b)%K = (conj a * conj b)%K.
Proof. apply C_ext; cbn; ring. Qed.
Lemma conj_inv (a : Cfield) : a <> c0 -> conj (finv a) = finv (conj a).
Proof. intros H. apply C_ext; unfold conj; cbn; unfold Cnorm2; cbn; [f_equal; ring|]. replace (fst a * fst a + - snd a * - snd a) with (fst a * fst a + snd a * snd a) by ring. field. pose proof (Cnorm2_ne a H) as N. exact N. Qed.
Lemma conj_div (a b : Cfield) : b <> c0 -> conj (a / b)%K = (conj a / conj b)%K.
Proof. intros H. rewrite !(Fdiv_def (fth Cfield)), conj_mul, conj_inv by exact H. reflexivity. Qed.
Lemma conj_re x : conj (re x) = re x.
Proof. apply C_ext; cbn; ring. Qed.
Lemma conj_ne (a : Cfield) : a <> c0 -> conj a <> c0.
Proof. intros H E. apply H. apply C_ext; [exact (f_equal fst E)|]. apply (f_equal snd) in E. cbn in E |- *. lra. Qed.
Lemma conj_add (a b : Cfield) : conj (a + b)%K = (conj a + conj b)%K.
Proof. apply C_ext; cbn; ring. Qed.
Lemma conj_sub (a b : Cfield) : conj (a - b)%K = (conj a - conj b)%K.
Proof. apply C_ext; cbn; ring. Qed.
Lemma conj_laplace fc z : 0 < fc < 1 / 2 -> (z + 1)%K <> (c0 : Cfield) -> laplace fc (conj z) = conj (laplace fc z).
Proof.
  intros Hf N. unfold laplace. pose proof (re_ne (tan (PI * fc)) ltac:(pose proof (tan_pos_ fc Hf); lra)) as T'. rewrite conj_div by (apply mul_nz; assumption).
  rewrite conj_mul, conj_add, conj_sub, conj_re. replace (conj c1) with (c1 : Cfield) by (symmetry; apply (conj_re 1)). reflexivity.
Qed.
Lemma gain2_div (a b : Cfield) : b <> c0 -> Cnorm2 (a / b)%K = Cnorm2 a / Cnorm2 b.
Proof. apply Cnorm2_div. Qed.
Lemma Cnorm2_sign n : Cnorm2 (cpow (copp c1 : Cfield) n) = 1.
Proof. induction n as [|n IH]; cbn [cpow]; [unfold Cnorm2; cbn; ring|]. rewrite Cnorm2_mul, IH. unfold Cnorm2. cbn. ring. Qed.

(** digital gains, from the gains of any prototype *)
Lemma digital_lp (ha : frat Cfield) (G : R -> R) fc : good_proto ha -> p_mlt (f_den ha) <> c0 -> 0 < fc < 1 / 2 ->
  (forall w, p_horner (f_den ha) (im w) <> c0 /\ gain2 ha (im w) = G w) ->
  exists hz, (let* h := pban_vers_pba ha (wd_vers_wa (2 * PI * fc) 1) in trf_bilineaire h 1) = Ok hz /\ stable_z hz /\
    (forall v, -1 / 2 < v < 1 / 2 -> gain2 hz (eit (2 * PI * v)) = G (tan (PI * v) / tan (PI * fc))) /\ f_horner hz c1 = f_horner ha c0 /\
    f_horner hz (copp c1) = if Nat.eqb (List.length (p_coefs (f_num ha))) (List.length (p_coefs (f_den ha))) then (p_mlt (f_num ha) / p_mlt (f_den ha))%K else c0.
Proof.
  intros Hg Hm Hf HG. destruct (riia_lp ha fc Hg Hm Hf) as (hz & E & ST & R & N). exists hz. split; [exact E|]. split; [exact ST|]. split; [|split; [|exact N]].
  - intros v Hv. destruct (laplace_circle fc v Hf Hv) as [Nz L]. change ((0, tan (PI * v) / tan (PI * fc)) : C) with (im (tan (PI * v) / tan (PI * fc))) in L.
    unfold gain2. rewrite R; [rewrite L; apply HG|exact Nz|rewrite L; apply HG].
  - assert (Z : laplace fc c1 = c0). { unfold laplace. rewrite (Fdiv_def (fth Cfield)). ring. } rewrite R; [rewrite Z; reflexivity| |].
    + intros Q. apply (f_equal fst) in Q. cbn in Q. lra.
    + rewrite Z. change (c0 : Cfield) with (im 0). apply HG.
Qed.
Lemma digital_hp (ha : frat Cfield) (G : R -> R) fc : good_proto ha -> p_mlt (f_den ha) <> c0 -> 0 < fc < 1 / 2 -> (forall w, G (- w) = G w) ->
  (forall w, p_horner (f_den ha) (im w) <> c0 /\ gain2 ha (im w) = G w) ->
  let nz := List.length (p_coefs (f_num ha)) in let np := List.length (p_coefs (f_den ha)) in
  exists hz, (let* h := pban_vers_pha ha (wd_vers_wa (2 * PI * fc) 1) in trf_bilineaire h 1) = Ok hz /\ stable_z hz /\
    (forall v, -1 / 2 < v < 1 / 2 -> v <> 0 -> gain2 hz (eit (2 * PI * v)) = G (tan (PI * fc) / tan (PI * v))) /\
    f_horner hz (copp c1) = (cpow (copp c1) (nz + np) * f_horner ha c0)%K /\ ((nz < np)%nat -> f_horner hz c1 = c0).
Proof.
  intros Hg Hm Hf Gev HG. cbv zeta. destruct (riia_hp ha fc Hg Hm Hf) as (hz & E & ST & R & N1 & N2). exists hz. split; [exact E|]. split; [exact ST|]. split; [|split; [exact N1|exact N2]].
  intros v Hv Hv0. destruct (laplace_circle fc v Hf Hv) as [Nz L].
  assert (TV : tan (PI * v) <> 0).
  { pose proof PI_RGT_0. intros Q. destruct (Rlt_le_dec v 0) as [V|V]; [assert (tan (- (PI * v)) > 0) by (apply tan_gt_0; nra); rewrite tan_neg in *; lra|assert (tan (PI * v) > 0) by (apply tan_gt_0; nra); lra]. }
  assert (TF := tan_pos_ fc Hf).
  assert (L' : (1 / laplace fc (eit (2 * PI * v)))%K = im (- (tan (PI * fc) / tan (PI * v)))).
  { rewrite L. change (@c1 Cfield) with (re 1). apply C_ext; unfold im; cbn; unfold Cnorm2; cbn; field; repeat split; try lra. all: intros Q; nra. }
  unfold gain2. rewrite R; [rewrite Cnorm2_mul, Cnorm2_sign, L', Rmult_1_l; rewrite <- Gev; apply HG|exact Nz| |rewrite L'; apply HG].
  intros Q. apply TV. assert (Z : laplace fc (eit (2 * PI * v)) = c0) by (unfold laplace; rewrite Q, (Fdiv_def (fth Cfield)); ring). rewrite L in Z. apply (f_equal snd) in Z. cbn in Z.
  replace (tan (PI * v)) with (tan (PI * v) / tan (PI * fc) * tan (PI * fc)) by (field; lra). rewrite Z. ring.
Qed.
(** Prototype: n poles in the left half-plane, maximally flat gain 1/(1 + w^2n), gain 1 at 0, real coefficients. *)
Theorem C65_prototype : forall n, (1 <= n)%nat -> let h := butterworth_analogique n in
  stable_s h /\ List.length (p_coefs (f_den h)) = n /\ p_coefs (f_num h) = [] /\
  (forall w, p_horner (f_den h) (im w) <> c0 /\ gain2 h (im w) = 1 / (1 + w ^ (2 * n))) /\
  f_horner h c0 = c1 /\ (forall s, p_horner (f_den h) s <> c0 -> f_horner h (conj s) = conj (f_horner h s)).
Proof.
  intros n Hn h. pose proof (but_poles n Hn) as EP. fold h in EP.
  assert (V : forall s, p_horner (f_den h) s = rprod (map (but_pole n) (seq 0 n)) s). { intros s. rewrite horner_ok. unfold value. change (p_roots (f_den h)) with true. change (p_mlt (f_den h)) with (c1 : Cfield). rewrite EP. ring. }
  assert (F : forall s, f_horner h s = (1 / p_horner (f_den h) s)%K). { intros s. rewrite fhorner_ok. unfold fvalue. rewrite <- (horner_ok Cfield (f_den h)). unfold value. change (p_roots (f_num h)) with true. change (p_mlt (f_num h)) with (c1 : Cfield). change (p_coefs (f_num h)) with (@nil Cfield). cbn [rprod]. f_equal. ring. }
  assert (P : forall w, 0 < 1 + w ^ (2 * n)). { intros w. rewrite pow_mult. pose proof (pow_le (w ^ 2) n (pow2_ge_0 w)). lra. }
  assert (NZ : forall w, p_horner (f_den h) (im w) <> c0). { intros w E. pose proof (but_norm n w Hn) as N. rewrite <- V, E in N. pose proof (P w) as Pw. assert (N0 : Cnorm2 (c0 : Cfield) = 0) by (unfold Cnorm2; cbn; ring). rewrite N0 in N. rewrite <- N in Pw. exact (Rlt_irrefl 0 Pw). }
  split; [split; [reflexivity|]|split; [|split; [reflexivity|split; [|split]]]].
  - rewrite EP. intros p I. apply in_map_iff in I. destruct I as (i & <- & I). apply in_seq in I. apply but_stable. lia.
  - rewrite EP, map_length, seq_length. reflexivity.
  - intros w. split; [apply NZ|]. unfold gain2. rewrite F, Cnorm2_div by apply NZ. rewrite V, but_norm by exact Hn. f_equal. unfold Cnorm2. cbn. ring.
  - rewrite F, V, but_dc by exact Hn. field. apply (one_ne Cfield).
  - intros s Hs. rewrite !F, conj_div by exact Hs. rewrite !V, (conj_rprod _ s (but_closed n)). f_equal. apply C_ext; cbn; ring.
Qed.
Print Assumptions C65_prototype.
Lemma but_good n : (1 <= n)%nat -> good_proto (butterworth_analogique n).
Proof.
  intros Hn. destruct (C65_prototype n Hn) as ((R & ST) & L & Z & _). split; [reflexivity|]. split; [reflexivity|]. rewrite L, Z. split; [cbn; lia|]. split; [exact ST|]. intros r [].
Qed.
Lemma even_pow w n : (- w) ^ (2 * n) = w ^ (2 * n).
Proof. rewrite !pow_mult. f_equal. ring. Qed.
(** Low-pass filter: stable, squared gain 1/(1 + (tan(pi v)/tan(pi fc))^2n), 1/2 at the cut-off frequency, gain exactly 1 at 0 and 0 at 1/2. *)
Theorem C65_lowpass : forall ellip n fc d1 d2, (1 <= n)%nat -> 0 < fc < 1 / 2 ->
  exists hz, design_riia ellip n PASSE_BAS BUTTERWORTH fc d1 d2 = Ok hz /\ stable_z hz /\
    (forall v, -1 / 2 < v < 1 / 2 -> gain2 hz (eit (2 * PI * v)) = 1 / (1 + (tan (PI * v) / tan (PI * fc)) ^ (2 * n))) /\
    gain2 hz (eit (2 * PI * fc)) = 1 / 2 /\ f_horner hz c1 = c1 /\ f_horner hz (copp c1) = c0.
Proof.
  intros ellip n fc d1 d2 Hn Hf. destruct (C65_prototype n Hn) as (_ & L & Z & G & DC & _).
  destruct (digital_lp (butterworth_analogique n) (fun w => 1 / (1 + w ^ (2 * n))) fc (but_good n Hn) (one_ne Cfield) Hf G) as (hz & E & ST & R & H1 & H2).
  exists hz. split; [exact E|]. split; [exact ST|]. split; [exact R|]. split; [|split].
  - rewrite R by lra. replace (tan (PI * fc) / tan (PI * fc)) with 1 by (field; pose proof (tan_pos_ fc Hf); lra). rewrite pow1. field.
  - rewrite H1. exact DC.
  - rewrite H2. rewrite L, Z. destruct n; [lia|]. reflexivity.
Qed.
Print Assumptions C65_lowpass.
(** The gain decreases strictly with the frequency. *)
Theorem C65_monotone : forall ellip n fc d1 d2 hz, (1 <= n)%nat -> 0 < fc < 1 / 2 -> design_riia ellip n PASSE_BAS BUTTERWORTH fc d1 d2 = Ok hz ->
  forall v v', 0 <= v < v' -> v' < 1 / 2 -> gain2 hz (eit (2 * PI * v')) < gain2 hz (eit (2 * PI * v)).
Proof.
  intros ellip n fc d1 d2 hz Hn Hf E v v' Hv Hv'. destruct (C65_lowpass ellip n fc d1 d2 Hn Hf) as (hz' & E' & _ & R & _). rewrite E in E'. injection E' as <-.
  rewrite !R by lra. pose proof PI_RGT_0. pose proof (tan_pos_ fc Hf) as TF.
  assert (T0 : 0 <= tan (PI * v)). { destruct (Req_dec v 0) as [-> |]; [rewrite Rmult_0_r, tan_0; lra|]. left. apply tan_gt_0; nra. }
  assert (T1 : tan (PI * v) < tan (PI * v')) by (apply tan_increasing; nra).
  set (a := tan (PI * v) / tan (PI * fc)). set (b := tan (PI * v') / tan (PI * fc)).
  assert (AB : 0 <= a < b). { unfold a, b, Rdiv. pose proof (Rinv_0_lt_compat _ TF). split; [nra|]. apply Rmult_lt_compat_r; assumption. }
  assert (PW : a ^ (2 * n) < b ^ (2 * n)).
  { assert (Q : forall m, (1 <= m)%nat -> a ^ m < b ^ m). { intros m. induction m as [|m IH]; [lia|]. intros _. destruct m as [|m]; [cbn; lra|]. specialize (IH ltac:(lia)). cbn [pow] in *. assert (0 <= a * a ^ m) by (pose proof (pow_le a m (proj1 AB)); nra). nra. } apply Q. lia. }
  assert (0 <= a ^ (2 * n)) by (apply pow_le; lra). unfold Rdiv. rewrite !Rmult_1_l. apply Rinv_lt_contravar; nra.
Qed.
Print Assumptions C65_monotone.
(** High-pass filter; finding: the gain at 1/2 is (-1)^n: the output is inverted when n is odd. *)
Theorem C65_highpass : forall ellip n fc d1 d2, (1 <= n)%nat -> 0 < fc < 1 / 2 ->
  exists hz, design_riia ellip n PASSE_HAUT BUTTERWORTH fc d1 d2 = Ok hz /\ stable_z hz /\
    (forall v, -1 / 2 < v < 1 / 2 -> v <> 0 -> gain2 hz (eit (2 * PI * v)) = 1 / (1 + (tan (PI * fc) / tan (PI * v)) ^ (2 * n))) /\
    gain2 hz (eit (2 * PI * fc)) = 1 / 2 /\ f_horner hz c1 = c0 /\ f_horner hz (copp c1) = re ((-1) ^ n).
Proof.
  intros ellip n fc d1 d2 Hn Hf. destruct (C65_prototype n Hn) as (_ & L & Z & G & DC & _).
  destruct (digital_hp (butterworth_analogique n) (fun w => 1 / (1 + w ^ (2 * n))) fc (but_good n Hn) (one_ne Cfield) Hf) as (hz & E & ST & R & H1 & H2); [intros w; rewrite even_pow; reflexivity|exact G|].
  exists hz. split; [exact E|]. split; [exact ST|]. split; [exact R|]. split; [|split].
  - rewrite R by lra. replace (tan (PI * fc) / tan (PI * fc)) with 1 by (field; pose proof (tan_pos_ fc Hf); lra). rewrite pow1. field.
  - apply H2. rewrite L, Z. cbn. lia.
  - rewrite H1, DC, L, Z. cbn [List.length Nat.add]. rewrite re_pow. replace (re (-1)) with (copp c1 : Cfield) by (apply C_ext; cbn; ring). ring.
Qed.
Print Assumptions C65_highpass.
Theorem C65_highpass_sign_refuted : forall ellip n fc d1 d2 hz, 0 < fc < 1 / 2 -> design_riia ellip (2 * n + 1) PASSE_HAUT BUTTERWORTH fc d1 d2 = Ok hz -> f_horner hz (copp c1) = re (-1).
Proof.
  intros ellip n fc d1 d2 hz Hf E. destruct (C65_highpass ellip (2 * n + 1) fc d1 d2 ltac:(lia) Hf) as (hz' & E' & _ & _ & _ & _ & H). rewrite E in E'. injection E' as <-. rewrite H. f_equal. rewrite pow_add, pow_mult. replace ((-1) ^ 2) with 1 by ring. rewrite pow1. ring.
Qed.
Print Assumptions C65_highpass_sign_refuted.
End CF.
(** Names; finding: band-pass and band-stop filters are never designed, the band-pass name pb meaning low-pass. *)
Theorem C65_types_refuted : forall ellip n proto fc d1 d2,
  (design_riia ellip n PASSE_BANDE proto fc d1 d2 = Exc /\ design_riia ellip n COUPE_BANDE proto fc d1 d2 = Exc) /\
  (forall p, design_riia_s ellip n "bp" p fc d1 d2 = Exc /\ design_riia_s ellip n "sb" p fc d1 d2 = Exc \/ parse_proto p = Exc) /\
  design_riia_s ellip n "pb" "butt" fc d1 d2 = design_riia ellip n PASSE_BAS BUTTERWORTH fc d1 d2.
Proof.
  intros. split; [split; reflexivity|]. split; [|reflexivity]. intros p. unfold design_riia_s. cbn [parse_tf String.eqb Ascii.eqb Bool.eqb orb bind]. destruct (parse_proto p) as [q| | |] eqn:E; cbn [bind].
  - left. split; reflexivity.
  - right. reflexivity.
  - exfalso. unfold parse_proto in E. repeat match type of E with context [if ?b then _ else _] => destruct b end; discriminate E.
  - exfalso. unfold parse_proto in E. repeat match type of E with context [if ?b then _ else _] => destruct b end; discriminate E.
Qed.
Print Assumptions C65_types_refuted.
(** Unknown prototypes and types are refused. *)
Theorem C65_unknown : forall ellip n t p fc d1 d2, ~ In t ["lp"; "pb"; "hp"; "ph"; "bp"; "sb"]%string \/ (substring 0 1 p <> "b" /\ p <> "cheb1" /\ p <> "cheb2" /\ substring 0 5 p <> "ellip")%string ->
  design_riia_s ellip n t p fc d1 d2 = Exc.
Proof.
  intros ellip n t p fc d1 d2 [H|H]; unfold design_riia_s.
  - unfold parse_tf. repeat match goal with |- context [String.eqb t ?n] => replace (String.eqb t n) with false by (symmetry; apply String.eqb_neq; intros ->; apply H; cbn; tauto) end. reflexivity.
  - destruct H as (H1 & H2 & H3 & H4). apply String.eqb_neq in H1, H2, H3, H4. unfold parse_proto. rewrite H1, H2, H3, H4. unfold parse_tf. repeat match goal with |- context [if ?b then _ else _] => destruct b end; reflexivity.
Qed.
Print Assumptions C65_unknown.
(** The hypotheses can be met: second order at a quarter of the sampling rate, gain^2 = 1/(1 + tan^4). *)
Example C65_case : exists hz, design_riia_s (fun _ _ _ => butterworth_analogique 1) 2 "lp" "butt" (1 / 4) 0 0 = Ok hz /\ gain2 hz (eit (2 * PI * (1 / 4))) = 1 / 2.
Proof.
  destruct (C65_lowpass (fun _ _ _ => butterworth_analogique 1) 2 (1 / 4) 0 0 ltac:(lia) ltac:(lra)) as (hz & E & _ & _ & H & _). exists hz. split; [exact E|exact H].
Qed.
