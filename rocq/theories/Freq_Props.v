(** FIR design by frequency sampling. *)
From Coq Require Import Reals Lra Lia ZArith.
From Verif Require Import Base BaseLemmas RField DftSys ComplexSys Fourier_Model Vec_Model Vec_Proofs Win_Spec Win_Proofs Sig_Proofs Design_Proofs2 Rif_Model Rif_Spec Rif_Proofs Gauss_Proofs OField ROField Interp_Model Interp_Spec Interp_Props Hil_Model Freq_Spec Freq_Proofs Freq_Proofs2.
Local Open Scope R_scope.

Lemma lin_grid M : (1 <= M)%nat -> linspace (K := Rfield) 0 (1 / 2 * (1 - 1 / INR M)) M = grid M.
Proof.
  intros HM. assert (P : 1 <= INR M) by (apply (le_INR 1); exact HM). assert (L : List.length (linspace (K := Rfield) 0 (1 / 2 * (1 - 1 / INR M)) M) = M) by apply (linspace_spec (K := Rfield)).
  apply (list_ext 0); [etransitivity; [exact L|]; unfold grid; rewrite map_length, seq_length; reflexivity|]. intros i Hi. assert (Hi' : (i < M)%nat) by (rewrite <- L; exact Hi). unfold grid. rewrite (nth_map_seq (fun k => INR k / (2 * INR M))) by exact Hi'.
  destruct (Nat.eq_dec M 1) as [-> |N].
  - destruct (linspace_spec (K := Rfield) 0 (1 / 2 * (1 - 1 / INR 1)) 1) as (_ & _ & E). rewrite E by reflexivity. destruct i; [|lia]. cbn [nth INR]. match goal with |- @eq _ ?a ?b => change (@eq R a b) end. lra.
  - rewrite lin_val by lia. assert (2 <= INR M) by (apply (le_INR 2); lia). match goal with |- @eq _ ?a ?b => change (@eq R a b) end. field. lra.
Qed.
Lemma grid_length M : List.length (grid M) = M. Proof. unfold grid. rewrite map_length, seq_length. reflexivity. Qed.
Lemma grid_nth M i : (i < M)%nat -> nth i (grid M) 0 = INR i / (2 * INR M).
Proof. intros H. unfold grid. apply (nth_map_seq (fun k => INR k / (2 * INR M))). exact H. Qed.
Lemma grid_lt M i j : (i < j < M)%nat -> nth i (grid M) 0 < nth j (grid M) 0.
Proof. intros H. rewrite !grid_nth by lia. assert (0 < INR M) by (apply lt_0_INR; lia). apply Rmult_lt_compat_r; [apply Rinv_0_lt_compat; lra|apply lt_INR; lia]. Qed.
Lemma freq_tail Nc q F : Nc = (2 * q + 1)%nat -> (1 <= q)%nat -> (2 * q + 1 <= 2 ^ 29)%nat -> List.length F = (q + 1)%nat -> forall h,
  (let Hd := map (fun v => (v, 0)) F ++ repeat (0, 0) (Nc - (q + 1)) in let* Hs := csym (F := Complex) Hd in let* hi := ifft (F := Complex) (0, 0) Hs in let hc := fftshift hi in if negb (imag_small hc) then Exc else Ok (vdiv (map fst hc) (sqrt (INR Nc)))) = h ->
  exists g, h = Ok g /\ List.length g = Nc /\ Win_Spec.symmetric g /\ forall l, (l <= q)%nat -> response g (2 * PI * INR l / INR Nc) = nth l F 0.
Proof.
  intros -> Hq Hb LF h Eh. destruct (freq_core q F Hq Hb LF) as (Hs & hi & E1 & E2 & E3 & R). cbv zeta in Eh. rewrite E1 in Eh. cbn [bind] in Eh. rewrite E2 in Eh. cbn [bind] in Eh. rewrite E3 in Eh. cbn [negb] in Eh. exists (vdiv (map fst (fftshift hi)) (sqrt (INR (2 * q + 1)))). split; [symmetry; exact Eh|]. exact R.
Qed.
(** ** C62: the filter has the response of the template.  M points of the template, 2 M - 1 coefficients: real, symmetric, and the zero-phase response at the
    documented frequencies l / (2 M - 1) is exactly the template. *)
Theorem C62_response : forall (d : list R) Nc, let M := List.length d in (2 <= M)%nat -> (2 * M - 1 <= 2 ^ 29)%nat -> Nc = 0%nat \/ Nc = (2 * M - 1)%nat ->
  exists h, design_rif_freq Nc d = Ok h /\ List.length h = (2 * M - 1)%nat /\ Win_Spec.symmetric h /\
  forall l, (l < M)%nat -> response h (2 * PI * INR l / INR (2 * M - 1)) = nth l d 0.
Proof.
  intros d Nc M HM Hb HN. unfold design_rif_freq. fold M. assert (EN : (if Nat.eqb Nc 0 then (2 * M - 1)%nat else Nc) = (2 * M - 1)%nat) by (destruct HN as [-> | ->]; [reflexivity|destruct (Nat.eqb_spec (2 * M - 1) 0); lia]). rewrite EN, Nat.eqb_refl. cbn [bind]. rewrite Nat.eqb_refl. cbn [negb].
  destruct (freq_tail (2 * M - 1) (M - 1) d ltac:(lia) ltac:(lia) ltac:(lia) ltac:(fold M; lia) _ eq_refl) as (g & E & L & Sy & R). replace (2 * M - 1 - (M - 1 + 1))%nat with (2 * M - 1 - M)%nat in E by lia. exists g. split; [exact E|]. split; [exact L|]. split; [exact Sy|]. intros l Hl. apply R. lia.
Qed.
Print Assumptions C62_response.
(** design_rif_freq_freqs returns these frequencies. *)
Theorem C62_freqs : forall m l, (l < m)%nat -> List.length (design_rif_freq_freqs (2 * m - 1)) = m /\ nth l (design_rif_freq_freqs (2 * m - 1)) 0 = INR l / INR (2 * m - 1).
Proof.
  intros m l Hl. unfold design_rif_freq_freqs. replace ((2 * m - 1 + 1) / 2)%nat with m by (apply (Nat.div_unique _ 2 m 0); lia). split; [apply (linspace_spec (K := Rfield))|].
  assert (P : 0 < INR (2 * m - 1)) by (apply lt_0_INR; lia). destruct (Nat.eq_dec m 1) as [-> |N].
  - replace l with 0%nat by lia. destruct (linspace_spec (K := Rfield) 0 ((INR 1 - 1) / INR (2 * 1 - 1)) 1) as (_ & _ & E). rewrite E by reflexivity. cbn. match goal with |- @eq _ ?a ?b => change (@eq R a b) end. lra.
  - rewrite lin_val by lia. assert (2 <= INR m) by (apply (le_INR 2); lia). match goal with |- @eq _ ?a ?b => change (@eq R a b) end. field. split; lra.
Qed.
Print Assumptions C62_freqs.
(** Other numbers of coefficients (at least 2; an even number is rounded up): the template, placed at the frequencies k / (2 M), is interpolated linearly at the
    frequencies l / (2 M'), where M' = (Nc' + 1) / 2, and the filter has this response at the frequencies l / (2 M' - 1). *)
Theorem C62_interpolated : forall (d : list R) Nc, let M := List.length d in (1 <= M)%nat -> (2 <= Nc < 2 ^ 29)%nat -> Nc <> (2 * M - 1)%nat ->
  let M' := (Nc / 2 + 1)%nat in
  exists h, design_rif_freq Nc d = Ok h /\ List.length h = (2 * M' - 1)%nat /\ Win_Spec.symmetric h /\
  forall l, (l < M')%nat -> piecewise (F := Rofield) (grid M) d (segment (F := Rofield) (grid M) d) (INR l / (2 * INR M')) (response h (2 * PI * INR l / INR (2 * M' - 1))).
Proof.
  intros d Nc M HM HN Hne M'. unfold design_rif_freq. fold M. destruct (Nat.eqb_spec Nc 0); [lia|]. destruct (Nat.eqb_spec Nc (2 * M - 1)); [contradiction|]. set (Nc' := if Nat.even Nc then (Nc + 1)%nat else Nc).
  assert (E1 : Nc' = (2 * M' - 1)%nat).
  { unfold Nc', M'. destruct (Win_Proofs.parity Nc) as (p & [-> | ->]).
    - rewrite <- Nat.negb_odd, even_2m. cbn [negb]. replace (2 * p / 2)%nat with p by (apply (Nat.div_unique _ 2 p 0); lia). lia.
    - rewrite <- Nat.negb_odd, odd_2m. cbn [negb]. replace ((2 * p + 1) / 2)%nat with p by (apply (Nat.div_unique _ 2 p 1); lia). lia. }
  assert (HM' : (2 <= M')%nat) by (unfold M'; pose proof (Nat.div_le_mono 2 Nc 2 ltac:(lia) ltac:(lia)) as X; change (2 / 2)%nat with 1%nat in X; lia).
  assert (E2 : ((Nc' + 1) / 2)%nat = M') by (symmetry; apply (Nat.div_unique _ 2 M' 0); lia). rewrite E2, !lin_grid by lia.
  destruct (C22_linear Rofield (grid M) d (grid M')) as (F & EF & LF & VF).
  - intros i j Hij. apply rltb_iff. apply grid_lt. pose proof (grid_length M) as G. split; [lia|]. eapply Nat.lt_le_trans; [apply (proj2 Hij)|]. apply Nat.eq_le_incl. exact G.
  - pose proof (grid_length M) as G. eapply Nat.lt_le_trans; [|apply Nat.eq_le_incl; symmetry; exact G]. lia.
  - symmetry. apply grid_length.
  - intros i j Hij. apply rltb_false. left. apply grid_lt. pose proof (grid_length M') as G. split; [lia|]. eapply Nat.lt_le_trans; [apply (proj2 Hij)|]. apply Nat.eq_le_incl. exact G.
  - rewrite EF. cbn [bind]. destruct (Nat.eqb_spec Nc' (2 * M' - 1)); [|contradiction]. cbn [negb]. assert (Hb : (2 * (M' - 1) + 1 <= 2 ^ 29)%nat).
    { assert (M' - 1 = Nc / 2)%nat by (unfold M'; lia). pose proof (Nat.mul_div_le Nc 2 ltac:(lia)). lia. }
    assert (LF' : List.length F = (M' - 1 + 1)%nat) by (etransitivity; [exact LF|]; rewrite (grid_length M' : List.length (grid M' : list Rofield) = M'); lia).
    destruct (freq_tail Nc' (M' - 1) F ltac:(lia) ltac:(lia) Hb LF' _ eq_refl) as (g & E & L & Sy & R). replace (M' - 1 + 1)%nat with M' in E by lia.
    exists g. split; [exact E|]. split; [rewrite L; exact E1|]. split; [exact Sy|]. intros l Hl. rewrite <- E1, R by lia. specialize (VF l ltac:(rewrite (grid_length M' : List.length (grid M' : list Rofield) = M'); exact Hl)). rewrite <- grid_nth by exact Hl. exact VF.
Qed.
Print Assumptions C62_interpolated.
(** A single coefficient is refused: the forced symmetry writes beyond the vector. *)
Theorem C62_single_throws : forall (d : list R), (1 <= List.length d)%nat -> design_rif_freq 1 d = Exc /\ (List.length d = 1%nat -> design_rif_freq 0 d = Exc).
Proof.
  intros d Hd. assert (C : forall F : list R, List.length F = 1%nat -> csym (F := Complex) (map (fun v => (v, 0)) F ++ repeat (0, 0) 0) = Exc) by (intros [|a [|b F]] H; try discriminate; reflexivity).
  split.
  - unfold design_rif_freq. change (1 =? 0)%nat with false. cbv iota zeta. destruct (Nat.eqb_spec 1 (2 * List.length d - 1)) as [E|N].
    + replace (List.length d) with 1%nat by lia. cbn [bind Nat.eqb Nat.mul Nat.add Nat.sub negb]. rewrite (C d) by lia. reflexivity.
    + cbn [Nat.even]. change ((1 + 1) / 2)%nat with 1%nat. rewrite !lin_grid by lia. destruct (C22_linear Rofield (grid (List.length d)) d (grid 1)) as (F & EF & LF & VF).
      * intros i j Hij. apply rltb_iff. apply grid_lt. pose proof (grid_length (List.length d)) as G. split; [lia|]. eapply Nat.lt_le_trans; [apply (proj2 Hij)|]. apply Nat.eq_le_incl. exact G.
      * eapply Nat.lt_le_trans; [|apply Nat.eq_le_incl; symmetry; exact (grid_length (List.length d))]. lia.
      * symmetry. apply grid_length.
      * intros i j Hij. cbn in Hij. lia.
      * rewrite EF. cbn [bind Nat.mul Nat.add Nat.sub Nat.eqb negb]. pose proof (C F LF) as CF. rewrite CF. reflexivity.
  - intros E. unfold design_rif_freq. rewrite E. cbn [Nat.eqb Nat.mul Nat.add Nat.sub negb bind]. rewrite (C d E). reflexivity.
Qed.
Print Assumptions C62_single_throws.
(** Finding: the two grids differ.  The template 0, 1/3 taken from the response f at the documented frequencies 0, 1/3 gives, with 5 coefficients, the response 2/9
    at the frequency 1/5. *)
Theorem C62_grid_refuted : design_rif_freq_freqs 3 = [0; 1 / 3] /\ exists h, design_rif_freq 5 [0; 1 / 3] = Ok h /\ response h (2 * PI * (1 / 5)) = 2 / 9.
Proof.
  split.
  - destruct (C62_freqs 2 0 ltac:(lia)) as [L V0]. destruct (C62_freqs 2 1 ltac:(lia)) as [_ V1]. change (2 * 2 - 1)%nat with 3%nat in *. apply (list_ext 0); [exact L|]. intros i Hi. rewrite L in Hi. destruct i as [|[|i]]; [rewrite V0; cbn; lra|rewrite V1; cbn; lra|lia].
  - destruct (C62_interpolated [0; 1 / 3] 5) as (h & E & L & _ & R); [cbn; lia|split; [lia|apply (Nat.lt_le_trans _ (2 ^ 3)); [cbn; lia|apply Nat.pow_le_mono_r; lia]]|cbn; lia|]. exists h. split; [exact E|]. specialize (R 1%nat ltac:(cbn; lia)). change (5 / 2 + 1)%nat with 3%nat in R. change (2 * 3 - 1)%nat with 5%nat in R. cbn [List.length] in R.
    replace (2 * PI * (1 / 5)) with (2 * PI * INR 1 / INR 5) by (cbn [INR]; field). destruct R as (_ & _ & R). specialize (R 0%nat). cbn [Nat.add] in R. rewrite R.
    + unfold segment, samp. change (nth 0 [0; 1 / 3] 0 + (INR 1 / (2 * INR 3) - nth 0 (grid 2) 0) * ((nth 1 [0; 1 / 3] 0 - nth 0 [0; 1 / 3] 0) / (nth 1 (grid 2) 0 - nth 0 (grid 2) 0)) = 2 / 9). rewrite !grid_nth by lia. cbn [nth INR]. field.
    + change (0 + 1 < List.length (grid 2))%nat. rewrite grid_length. lia.
    + apply rltb_iff. change (nth 0 (grid 2) 0 < INR 1 / (2 * INR 3)). rewrite grid_nth by lia. cbn [INR]. lra.
    + apply rltb_false. change (INR 1 / (2 * INR 3) <= nth 1 (grid 2) 0). rewrite grid_nth by lia. cbn [INR]. lra.
Qed.
Print Assumptions C62_grid_refuted.
Example C62_example : exists h, design_rif_freq 0 [1; 1 / 2; 0] = Ok h /\ List.length h = 5%nat /\ response h (2 * PI * INR 1 / INR 5) = 1 / 2.
Proof.
  destruct (C62_response [1; 1 / 2; 0] 0) as (h & E & L & _ & R); [cbn; lia|apply (Nat.le_trans _ (2 ^ 3)); [cbn; lia|apply Nat.pow_le_mono_r; lia]|left; reflexivity|]. exists h. split; [exact E|]. split; [exact L|]. apply (R 1%nat). cbn. lia.
Qed.
