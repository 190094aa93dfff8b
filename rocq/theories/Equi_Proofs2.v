From Coq Require Import List Arith ZArith Reals Lia Lra Field.
From Verif Require Import Base BaseLemmas DftSys ComplexSys RField Filters_Model Filters_Proofs Fourier_Model Fourier_Proofs Fourier_Proofs2 Fourier_Spec Freq_Proofs2
  Chn_Spec Chn_Proofs Vec_Model Vec_Proofs Fdt_Model Fdt_Spec Fdt_Proofs Fdt_Proofs2 Fdt_Proofs3 Fdt_Proofs4 Equi_Model Equi_Spec Equi_Proofs.
Import ListNotations.
Local Open Scope R_scope.

Definition padded (h : list R) (dim : nat) : list C := map (fun v => (v, 0) : C) h ++ repeat ((0, 0) : C) (dim - length h).
Lemma padded_length h dim : (length h <= dim)%nat -> length (padded h dim) = dim.
Proof. intros H. unfold padded. rewrite app_length, map_length, repeat_length. lia. Qed.
Lemma padded_nth h dim j : smp (padded h dim) j = (nth j h 0, 0).
Proof.
  unfold smp, padded. destruct (Nat.lt_ge_cases j (length h)) as [A|A].
  - rewrite app_nth1 by (rewrite map_length; exact A). apply (Fourier_Proofs.map_nth0 (fun v => (v, 0) : C)). exact A.
  - rewrite app_nth2 by (rewrite map_length; exact A). rewrite nth_repeat. rewrite (nth_overflow h) by exact A. reflexivity.
Qed.
Lemma total_pad (h : list R) dim (g : nat -> R) : (length h <= dim)%nat -> total dim (fun j => nth j h 0 * g j) = total (length h) (fun j => nth j h 0 * g j).
Proof.
  intros H. replace dim with (length h + (dim - length h))%nat by lia. rewrite total_split. rewrite (total_ext (dim - length h) _ (fun _ => 0)); [rewrite total_const; ring|].
  intros k _. rewrite nth_overflow by lia. ring.
Qed.
Lemma dft_response h dim k : (0 < dim)%nat -> (length h <= dim)%nat ->
  Cmul (dftZ Complex 1 (padded h dim) (Z.of_nat k)) (sqrt (INR dim), 0) = response h (INR k / INR dim).
Proof.
  intros Hd Hh. assert (P : 0 < INR dim) by (apply lt_0_INR; exact Hd). pose proof (sqrt_lt_R0 _ P) as Ps.
  unfold dftZ. change (@length (car (dfd Complex)) (padded h dim)) with (length (padded h dim)). rewrite padded_length by exact Hh. change (rt (d := Complex) dim) with ((sqrt (INR dim), 0) : C).
  set (S := sum (K := Complex) dim _).
  assert (S1 : fst S = total dim (fun j => nth j h 0 * cos (2 * PI * (INR k / INR dim) * INR j))).
  { unfold S. rewrite fst_sum. apply total_ext. intros j _. rewrite wz_complex by exact Hd.
    replace (2 * PI * IZR (1 * Z.of_nat j * Z.of_nat k) / INR dim) with (2 * PI * (INR k / INR dim) * INR j) by (rewrite !mult_IZR, <- !INR_IZR_INZ; field; lra).
    change (samp (K := Complex) (padded h dim) j) with (smp (padded h dim) j). rewrite padded_nth. cbn. ring. }
  assert (S2 : snd S = - total dim (fun j => nth j h 0 * sin (2 * PI * (INR k / INR dim) * INR j))).
  { unfold S. rewrite snd_sum, <- total_opp. apply total_ext. intros j _. rewrite wz_complex by exact Hd.
    replace (2 * PI * IZR (1 * Z.of_nat j * Z.of_nat k) / INR dim) with (2 * PI * (INR k / INR dim) * INR j) by (rewrite !mult_IZR, <- !INR_IZR_INZ; field; lra).
    change (samp (K := Complex) (padded h dim) j) with (smp (padded h dim) j). rewrite padded_nth. cbn. ring. }
  rewrite total_pad in S1, S2 by exact Hh. unfold response. rewrite <- S1, <- S2. clearbody S. destruct S as [u v].
  change (Cmul (Cdiv (u, v) (sqrt (INR dim), 0)) (sqrt (INR dim), 0) = (u, v)).
  set (r := sqrt (INR dim)) in *. clearbody r. unfold Cdiv, Cinv, Cmul, Cnorm2. cbn [fst snd]. f_equal; field; lra.
Qed.
Lemma grid_w L : (0 < L)%nat -> map (fun v => v * PI / INR L) (linspace (K := Rfield) 0 (INR L - 1) L) = map (fun i => INR i * PI / INR L) (seq 0 L).
Proof.
  intros HL. destruct (linspace_spec (K := Rfield) 0 (INR L - 1) L) as (A & B & C0). set (l := linspace (K := Rfield) 0 (INR L - 1) L) in *.
  assert (A' : @length R l = L) by exact A.
  apply (list_ext 0); [rewrite !map_length, seq_length; exact A'|]. intros i Hi. rewrite map_length, A' in Hi.
  rewrite (Fourier_Proofs.map_nth0 (fun v => v * PI / INR L) l i 0) by (rewrite A'; exact Hi).
  rewrite (Fourier_Proofs.map_nth0 (fun i => INR i * PI / INR L) (seq 0 L) i 0%nat) by (rewrite seq_length; exact Hi). rewrite seq_nth, Nat.add_0_l by exact Hi. f_equal. f_equal.
  destruct (Nat.eq_dec L 1) as [->|H1].
  - rewrite C0 by reflexivity. replace i with 0%nat by lia. reflexivity.
  - etransitivity; [exact (B i Hi ltac:(lia))|]. cbn. rewrite !cnat_R. rewrite minus_INR by lia. change (INR 1) with 1. assert (1 < INR L) by (change 1 with (INR 1); apply lt_INR; lia). field. lra.
Qed.
(** Values before the removal of the imaginary part. *)
Definition fft_amp (h : list R) (L : nat) (sym : bool) (i : nat) : C :=
  let v := Cmul (response h (INR i / (2 * INR L))) (cos (INR ((length h - 1) / 2) * (INR i * PI / INR L)), sin (INR ((length h - 1) / 2) * (INR i * PI / INR L))) in
  if sym then v else Cmul v (0, - 1).
Lemma rifamp_ok junk h L sym : (0 < L)%nat -> (length h <= 2 * L <= 2 ^ 29)%nat ->
  rifamp junk h L sym = Ok (map (fun i => INR i / (2 * INR L)) (seq 0 L), map (fun i => fst (fft_amp h L sym i)) (seq 0 L)).
Proof.
  intros HL Hh. unfold rifamp. cbv zeta. rewrite Nat.max_l by lia. fold (padded h (2 * L)).
  assert (LP : length (padded h (2 * L)) = (2 * L)%nat) by (apply padded_length; lia).
  rewrite (fft_ok Complex) by (change (0 < length (padded h (2 * L)) <= 2 ^ 29)%nat; rewrite LP; lia). cbn [bind].
  replace (2 * L / 2)%nat with L by (rewrite Nat.mul_comm, Nat.div_mul; lia).
  set (X := (DFT (F := Complex) 1 (padded h (2 * L)) : list C)). assert (LX : length X = (2 * L)%nat) by (unfold X; transitivity (length (padded h (2 * L))); [exact (DFT_length Complex 1 (padded h (2 * L)))|exact LP]).
  assert (E1 : seg X 0 L = Ok (map (fun i => dftZ Complex 1 (padded h (2 * L)) (Z.of_nat i) : C) (seq 0 L))).
  { unfold seg. rewrite LX. destruct (Nat.leb_spec (0 + L) (2 * L)); [|lia]. f_equal. cbn [skipn]. apply (list_ext ((0, 0) : C)); [rewrite firstn_length, map_length, seq_length; lia|].
    intros i Hi. rewrite firstn_length in Hi. rewrite nth_firstn' by lia. rewrite (Fourier_Proofs.map_nth0 (fun i => dftZ Complex 1 (padded h (2 * L)) (Z.of_nat i) : C) (seq 0 L) i 0%nat) by (rewrite seq_length; lia). rewrite seq_nth, Nat.add_0_l by lia.
    apply (samp_DFT Complex 1 _ i (Z.of_nat i) 0); [change (i < length (padded h (2 * L)))%nat; rewrite LP; lia|lia]. }
  match goal with |- bind ?o ?k = _ => etransitivity; [exact (f_equal (fun u => bind u k) E1)|] end. cbn [bind]. clear E1. rewrite grid_w by exact HL. rewrite map_map.
  rewrite (map_ext_in (fun i => Cmul (dftZ Complex 1 (padded h (2 * L)) (Z.of_nat i)) (sqrt (INR (2 * L)), 0)) (fun i => response h (INR i / (2 * INR L)))).
  2:{ intros i _. rewrite dft_response by lia. f_equal. rewrite mult_INR. f_equal. }
  assert (CB : forall (f : nat -> C) (g : nat -> R) (l : list nat), combine (map f l) (map g l) = map (fun i => (f i, g i)) l) by (clear; intros f g l; induction l as [|a l IH]; [reflexivity|cbn [map combine]; rewrite IH; reflexivity]).
  rewrite CB, map_map. cbn [fst snd].
  assert (E2 : (if sym then map (fun i => Cmul (response h (INR i / (2 * INR L))) (cos (INR ((length h - 1) / 2) * (INR i * PI / INR L)), sin (INR ((length h - 1) / 2) * (INR i * PI / INR L)))) (seq 0 L)
     else map (fun z => Cmul z (0, - 1)) (map (fun i => Cmul (response h (INR i / (2 * INR L))) (cos (INR ((length h - 1) / 2) * (INR i * PI / INR L)), sin (INR ((length h - 1) / 2) * (INR i * PI / INR L)))) (seq 0 L))) = map (fft_amp h L sym) (seq 0 L)).
  { unfold fft_amp. destruct sym; [reflexivity|]. rewrite map_map. reflexivity. }
  rewrite E2. rewrite map_length, seq_length, Nat.eqb_refl. cbn [negb]. rewrite linspace_grid, map_map. reflexivity.
Qed.
Lemma fft_amp_odd h L i (sym : bool) : (0 < L)%nat -> Nat.odd (length h) = true -> (if sym then symmetric h else antisymmetric h) ->
  fst (fft_amp h L sym i) = if sym then amp h (INR i / (2 * INR L)) else amps h (2 * PI * (INR i / (2 * INR L))).
Proof.
  intros HL O Hs. assert (P : 0 < INR L) by (apply lt_0_INR; exact HL). unfold fft_amp.
  assert (EM : INR ((length h - 1) / 2) = middle h).
  { apply Nat.odd_spec in O. destruct O as [q E]. unfold middle. rewrite E. replace ((2 * q + 1 - 1) / 2)%nat with q by (replace (2 * q + 1 - 1)%nat with (q * 2)%nat by lia; rewrite Nat.div_mul; lia).
    rewrite plus_INR, mult_INR. change (INR 1) with 1. replace (INR 2) with 2 by (cbn; ring). field. }
  rewrite EM. set (t := middle h * (INR i * PI / INR L)). rewrite response_ok. replace (2 * PI * (INR i / (2 * INR L)) * middle h) with t by (unfold t; field; lra).
  pose proof (sin2_cos2 t) as SC. unfold Rsqr in SC. unfold delay_phase. set (w := 2 * PI * (INR i / (2 * INR L))). destruct sym.
  - rewrite (sym_zero h w Hs). rewrite amp_ampc. fold w. unfold Cmul. cbn [fst snd]. transitivity (ampc h w * (sin t * sin t + cos t * cos t)); [ring|]. rewrite SC. ring.
  - rewrite (anti_zero h w Hs). unfold Cmul. cbn [fst snd]. transitivity (amps h w * (sin t * sin t + cos t * cos t)); [ring|]. rewrite SC. ring.
Qed.
Lemma fft_amp_even h L i : (0 < L)%nat -> (0 < length h)%nat -> Nat.even (length h) = true -> symmetric h ->
  fst (fft_amp h L true i) = amp h (INR i / (2 * INR L)) * cos (PI * (INR i / (2 * INR L))).
Proof.
  intros HL HN O Hs. assert (P : 0 < INR L) by (apply lt_0_INR; exact HL). unfold fft_amp.
  assert (EM : INR ((length h - 1) / 2) = middle h - 1 / 2).
  { apply Nat.even_spec in O. destruct O as [q E]. unfold middle. rewrite E. replace ((2 * q - 1) / 2)%nat with (q - 1)%nat by (replace (2 * q - 1)%nat with ((q - 1) * 2 + 1)%nat by lia; rewrite Nat.div_add_l by lia; cbn; lia).
    rewrite minus_INR by lia. rewrite mult_INR. change (INR 1) with 1. replace (INR 2) with 2 by (cbn; ring). field. }
  rewrite EM. rewrite response_ok. set (w := 2 * PI * (INR i / (2 * INR L))). rewrite (sym_zero h w Hs), amp_ampc. fold w. unfold delay_phase, Cmul. cbn [fst snd].
  replace ((middle h - 1 / 2) * (INR i * PI / INR L)) with (w * middle h - w / 2) by (unfold w; field; lra).
  replace (PI * (INR i / (2 * INR L))) with (w * middle h - (w * middle h - w / 2)) by (unfold w; field; lra).
  generalize (w * middle h - w / 2). intros s. rewrite cos_minus. ring.
Qed.
Lemma rifamp_long junk h L sym : (2 * L + 2 <= length h <= 2 ^ 29)%nat -> rifamp junk h L sym = Exc.
Proof.
  intros Hh. unfold rifamp. cbv zeta. rewrite Nat.max_r by lia. rewrite Nat.sub_diag. cbn [repeat]. rewrite app_nil_r. set (N := length h) in *.
  assert (LP : length (map (fun v => (v, 0) : C) h) = N) by apply map_length.
  rewrite (fft_ok Complex) by (split; [apply Nat.lt_le_trans with (1 := Nat.lt_0_succ 0); apply Nat.le_trans with N; [lia|apply Nat.eq_le_incl; symmetry; exact LP]|apply Nat.le_trans with N; [apply Nat.eq_le_incl; exact LP|apply Hh]]). cbn [bind].
  set (X := (DFT (F := Complex) 1 (map (fun v => (v, 0) : C) h) : list C)). assert (LX : length X = N) by (unfold X; transitivity (length (map (fun v => (v, 0) : C) h)); [exact (DFT_length Complex 1 (map (fun v => (v, 0) : C) h))|exact LP]).
  assert (HN : (N / 2 <= N)%nat) by (apply Nat.div_le_upper_bound; lia). assert (HL : (L + 1 <= N / 2)%nat) by (apply Nat.div_le_lower_bound; lia).
  assert (E1 : seg X 0 (N / 2) = Ok (firstn (N / 2) X)) by (unfold seg; rewrite LX; destruct (Nat.leb_spec (0 + N / 2) N); [reflexivity|lia]).
  match goal with |- bind ?o ?k = _ => etransitivity; [exact (f_equal (fun u => bind u k) E1)|] end. cbn [bind]. clear E1.
  match goal with |- (if negb (length ?v =? L)%nat then _ else _) = _ => assert (LV : length v = (N / 2)%nat) end.
  { assert (LW : length (map (fun v => v * PI / INR (N / 2)) (linspace (K := Rfield) 0 (INR (N / 2) - 1) (N / 2))) = (N / 2)%nat) by (rewrite map_length; apply (linspace_spec (K := Rfield))).
    destruct sym; rewrite ?map_length, combine_length, ?map_length, firstn_length, LX; rewrite map_length in LW; rewrite LW; lia. }
  rewrite LV. destruct (Nat.eqb_spec (N / 2) L); [lia|]. reflexivity.
Qed.
