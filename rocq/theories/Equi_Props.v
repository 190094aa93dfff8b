(** C86: amplitude of linear-phase filters and equiripple design. *)
From Coq Require Import List Arith ZArith Reals Lia Lra.
From Verif Require Import Base BaseLemmas ComplexSys RField Fourier_Proofs Chn_Spec Chn_Proofs Vec_Model Polyphase_Model Fdt_Model Fdt_Proofs4 Equi_Model Equi_Spec Equi_Proofs Equi_Proofs2 Equi_Proofs3 Equi_Proofs4 Equi_Proofs5.
Import ListNotations.
Local Open Scope R_scope.

(** rifamp2 of symmetric taps is the real amplitude of the frequency response at each requested frequency. *)
Theorem C86_amplitude : forall h fr, (0 < length h)%nat -> symmetric h ->
  exists A, rifamp2 h fr = Ok A /\ length A = length fr /\ forall i, (i < length fr)%nat -> has_amplitude h (nth i fr 0) (nth i A 0).
Proof.
  intros h fr Hn Hs. exists (map (amp h) fr). split.
  - unfold rifamp2. rewrite riftype_sym by assumption. cbn [bind]. apply mapr_ok. intros f _. rewrite amp_ampc. replace (2 * PI * f) with (f * 2 * PI) by ring. apply impl_sym. exact Hs.
  - split; [apply map_length|]. intros i Hi. rewrite (Fourier_Proofs.map_nth0 (amp h) fr i 0) by exact Hi. apply response_sym. exact Hs.
Qed.
Print Assumptions C86_amplitude.

(** The same for antisymmetric taps whose first tap is not zero, the response being i times a real amplitude. *)
Theorem C86_amplitude_anti : forall h fr, (0 < length h)%nat -> antisymmetric h -> nth 0 h 0 <> 0 ->
  exists A, rifamp2 h fr = Ok A /\ length A = length fr /\ forall i, (i < length fr)%nat -> has_amplitude_i h (nth i fr 0) (nth i A 0).
Proof.
  intros h fr Hn Hs H0. exists (map (fun f => amps h (f * 2 * PI)) fr). split.
  - unfold rifamp2. rewrite riftype_anti by assumption. cbn [bind]. apply mapr_ok. intros f _. apply impl_anti. exact Hs.
  - split; [apply map_length|]. intros i Hi. rewrite (Fourier_Proofs.map_nth0 (fun f => amps h (f * 2 * PI)) fr i 0) by exact Hi. replace (nth i fr 0 * 2 * PI) with (2 * PI * nth i fr 0) by ring. apply response_anti. exact Hs.
Qed.
Print Assumptions C86_amplitude_anti.

(** Finding: the type is read on the first and last taps only: antisymmetric taps that begin with a
    zero are taken for symmetric ones. *)
Theorem C86_type_refuted : exists h, antisymmetric h /\ rifamp2 h [0] = Ok [2] /\ response h 0 = (0, 0).
Proof.
  exists [0; 1; 0; -1; 0]. split; [|split].
  - intros k Hk. cbn [length] in Hk. do 5 (destruct k as [|k]; [cbn; ring|]). lia.
  - assert (ET : riftype [0; 1; 0; -1; 0] = Ok 1%nat) by (unfold riftype; cbn [length]; change (vgetZ [0; 1; 0; -1; 0] (Z.of_nat 5 - 1)) with (Ok 0); cbn [vget nth_error bind]; destruct (Req_EM_T 0 0) as [_|N]; [reflexivity|lra]).
    unfold rifamp2. rewrite ET. cbn [bind mapr]. unfold rifamp_impl. cbn [length]. change (5 / 2)%nat with 2%nat. cbn [seq fold_left nth Nat.eqb orb vget nth_error bind].
    replace (0 * 2 * PI) with 0 by ring. rewrite !Rmult_0_l, cos_0. f_equal. f_equal. ring.
  - unfold response. cbn [length total nth]. replace (2 * PI * 0) with 0 by ring. rewrite !Rmult_0_l, !cos_0, !sin_0. f_equal; ring.
Qed.
Print Assumptions C86_type_refuted.

(** rifampn: the amplitude on the regular grid i / (2 L), 0 <= i < L, symmetric taps. *)
Theorem C86_rifampn : forall h L, (0 < length h)%nat -> (0 < L)%nat -> symmetric h ->
  exists A, rifampn h L = Ok (map (fun i => INR i / (2 * INR L)) (seq 0 L), A) /\ length A = L /\ forall i, (i < L)%nat -> has_amplitude h (INR i / (2 * INR L)) (nth i A 0).
Proof.
  intros h L Hn HL Hs. assert (P : 0 < INR L) by (apply lt_0_INR; exact HL). exists (map (fun i => amp h (INR i / (2 * INR L))) (seq 0 L)). split.
  - unfold rifampn. rewrite riftype_sym by assumption. cbn [bind]. rewrite (mapr_ok _ (fun i => amp h (INR i / (2 * INR L)))).
    + cbn [bind]. rewrite linspace_grid. reflexivity.
    + intros i _. rewrite amp_ampc. replace (2 * PI * (INR i / (2 * INR L))) with (INR i * PI / INR L) by (field; lra). apply impl_sym. exact Hs.
  - split; [rewrite map_length; apply seq_length|]. intros i Hi. rewrite (Fourier_Proofs.map_nth0 _ (seq 0 L) i 0%nat) by (rewrite seq_length; exact Hi). rewrite seq_nth, Nat.add_0_l by exact Hi. apply response_sym. exact Hs.
Qed.
Print Assumptions C86_rifampn.

(** rifamp (computed with the FFT) gives the same, for an odd number of taps not above 2 L, symmetric or antisymmetric. *)
Theorem C86_rifamp : forall junk h L, (0 < L)%nat -> (length h <= 2 * L <= 2 ^ 29)%nat -> Nat.odd (length h) = true -> symmetric h ->
  exists A, rifamp junk h L true = Ok (map (fun i => INR i / (2 * INR L)) (seq 0 L), A) /\ length A = L /\ forall i, (i < L)%nat -> has_amplitude h (INR i / (2 * INR L)) (nth i A 0).
Proof.
  intros junk h L HL HN Ho Hs. eexists. split; [apply rifamp_ok; assumption|]. split; [rewrite map_length; apply seq_length|].
  intros i Hi. rewrite (Fourier_Proofs.map_nth0 _ (seq 0 L) i 0%nat) by (rewrite seq_length; exact Hi). rewrite seq_nth, Nat.add_0_l by exact Hi. rewrite (fft_amp_odd h L i true HL Ho Hs). apply response_sym. exact Hs.
Qed.
Print Assumptions C86_rifamp.
Theorem C86_rifamp_anti : forall junk h L, (0 < L)%nat -> (length h <= 2 * L <= 2 ^ 29)%nat -> Nat.odd (length h) = true -> antisymmetric h ->
  exists A, rifamp junk h L false = Ok (map (fun i => INR i / (2 * INR L)) (seq 0 L), A) /\ length A = L /\ forall i, (i < L)%nat -> has_amplitude_i h (INR i / (2 * INR L)) (nth i A 0).
Proof.
  intros junk h L HL HN Ho Hs. eexists. split; [apply rifamp_ok; assumption|]. split; [rewrite map_length; apply seq_length|].
  intros i Hi. rewrite (Fourier_Proofs.map_nth0 _ (seq 0 L) i 0%nat) by (rewrite seq_length; exact Hi). rewrite seq_nth, Nat.add_0_l by exact Hi. rewrite (fft_amp_odd h L i false HL Ho Hs). apply response_anti. exact Hs.
Qed.
Print Assumptions C86_rifamp_anti.

(** Finding: for an even number of taps the phase removed is that of (N - 2) / 2 samples instead of
    (N - 1) / 2: the values are the amplitude times cos (pi f). *)
Theorem C86_rifamp_even_refuted : forall junk h L, (0 < L)%nat -> (0 < length h)%nat -> (length h <= 2 * L <= 2 ^ 29)%nat -> Nat.even (length h) = true -> symmetric h ->
  exists A, rifamp junk h L true = Ok (map (fun i => INR i / (2 * INR L)) (seq 0 L), map (fun i => A i * cos (PI * (INR i / (2 * INR L)))) (seq 0 L)) /\
    forall i, (i < L)%nat -> has_amplitude h (INR i / (2 * INR L)) (A i).
Proof.
  intros junk h L HL H0 HN He Hs. exists (fun i => amp h (INR i / (2 * INR L))). split.
  - rewrite rifamp_ok by assumption. f_equal. f_equal. apply map_ext_in. intros i _. apply fft_amp_even; assumption.
  - intros i _. apply response_sym. exact Hs.
Qed.
Print Assumptions C86_rifamp_even_refuted.

(** Finding: more than 2 L + 1 taps: rejected instead of being evaluated on L points. *)
Theorem C86_rifamp_long_refuted : forall junk h L sym, (2 * L + 2 <= length h <= 2 ^ 29)%nat -> rifamp junk h L sym = Exc.
Proof. exact rifamp_long. Qed.
Print Assumptions C86_rifamp_long_refuted.

(** Equiripple design: nc symmetric taps, whose amplitude is, for some strictly positive weights p, the best
    (weighted least squares) approximation of the target on the grid among all symmetric filters of nc taps. *)
Theorem C86_design : forall lsq nc D W h, least_squares lsq -> (0 < length D)%nat -> design_rif_eq lsq nc D W = Ok h ->
  length h = nc /\ symmetric h /\ exists p, length p = length D /\ (forall i, (i < length D)%nat -> 0 < nth i p 0) /\
  forall h', length h' = nc -> symmetric h' ->
    total (length D) (fun i => nth i p 0 ^ 2 * (amp h (INR i / (2 * INR (length D))) - nth i D 0) ^ 2) <=
    total (length D) (fun i => nth i p 0 ^ 2 * (amp h' (INR i / (2 * INR (length D))) - nth i D 0) ^ 2).
Proof.
  intros lsq nc D W h Hl HD E. destruct (design_ok lsq nc D W h Hl HD E) as (HW & L & S & p & Lp & Pp & M). split; [exact L|]. split; [exact S|]. exists p. split; [exact Lp|]. split; [|exact M]. intros i Hi. apply Pp. lia.
Qed.
Print Assumptions C86_design.

(** No symmetric filter of nc taps has a weighted error everywhere below the smallest weighted error of the
    design: when the iterations have equalised the errors the design is the best in the minimax sense. *)
Theorem C86_minimax : forall lsq nc D W h c, least_squares lsq -> (0 < length D)%nat -> design_rif_eq lsq nc D W = Ok h ->
  (forall i, (i < length D)%nat -> 0 <= nth i W 0) ->
  (forall i, (i < length D)%nat -> c <= nth i W 0 * Rabs (amp h (INR i / (2 * INR (length D))) - nth i D 0)) ->
  forall h', length h' = nc -> symmetric h' ->
  exists i, (i < length D)%nat /\ c <= nth i W 0 * Rabs (amp h' (INR i / (2 * INR (length D))) - nth i D 0).
Proof.
  intros lsq nc D W h c Hl HD E HW Hc h' Lh' Sh'. destruct (design_ok lsq nc D W h Hl HD E) as (_ & _ & _ & p & Lp & Pp & M).
  exact (minimax (length D) (fun i => nth i p 0) (fun i => nth i W 0) (fun i => amp h (INR i / (2 * INR (length D))) - nth i D 0) (fun i => amp h' (INR i / (2 * INR (length D))) - nth i D 0) c HD
    (fun i Hi => Pp i ltac:(lia)) HW (M h' Lh' Sh') Hc).
Qed.
Print Assumptions C86_minimax.

(** Target and weights of different sizes are rejected. *)
Theorem C86_sizes : forall lsq nc D W, length W <> length D -> design_rif_eq lsq nc D W = Exc.
Proof. intros lsq nc D W H. unfold design_rif_eq. destruct (Nat.eqb_spec (length W) (length D)); [contradiction|reflexivity]. Qed.
Print Assumptions C86_sizes.

(** Finding: a target that some symmetric filter of nc taps attains exactly gives a division by zero (no
    largest error), in exact arithmetic: for instance the constant 1 for an odd number of taps. *)
Theorem C86_exact_refuted : forall lsq nc D W h', least_squares lsq -> (0 < length D)%nat -> length W = length D -> length h' = nc -> symmetric h' ->
  (forall i, (i < length D)%nat -> amp h' (INR i / (2 * INR (length D))) = nth i D 0) -> design_rif_eq lsq nc D W = UB.
Proof. exact exact_ub. Qed.
Print Assumptions C86_exact_refuted.

(** Design from a list of bands: on the grid of 16 nc frequencies the target is the level of the band, linear
    between two bands, 1 outside; the weight is that of the band plus 1e-10, 1e-10 outside.  The limits of a band are
    the nearest points of the grid (at most the last one). *)
Theorem C86_target : forall nc spec g, (0 < nc)%nat -> Forall2 (fun s => on_grid (16 * nc) (b_fb s) (b_fh s) (b_att s) (b_w s)) spec g -> ordered (16 * nc) 0 g ->
  forall lsq, design_rif_eq_spec lsq nc spec = design_rif_eq lsq nc (map (level_at g) (seq 0 (16 * nc))) (map (weight_at g) (seq 0 (16 * nc))).
Proof. intros nc spec g Hn HF Ho lsq. unfold design_rif_eq_spec. rewrite (target_ok nc spec g Hn HF Ho). reflexivity. Qed.
Print Assumptions C86_target.

(** Finding: a band after the first one whose lower limit rounds to the Nyquist frequency is rejected (the
    limit of the transition is not brought back to the last point, although that of the band is). *)
Theorem C86_nyquist_band_refuted : forall lsq nc s1 s2 rest lo hi a w, (0 < nc)%nat -> on_grid (16 * nc) (b_fb s1) (b_fh s1) (b_att s1) (b_w s1) (lo, hi, a, w) -> (lo <= hi)%nat ->
  0 <= b_fb s2 -> nearest (2 * b_fb s2 * INR (16 * nc)) (16 * nc) -> design_rif_eq_spec lsq nc (s1 :: s2 :: rest) = Exc.
Proof. intros lsq nc s1 s2 rest lo hi a w Hn HP Hl H2 HN. unfold design_rif_eq_spec. rewrite (nyquist_exc nc s1 s2 rest lo hi a w Hn HP Hl H2 HN). reflexivity. Qed.
Print Assumptions C86_nyquist_band_refuted.

(** Half-band design, odd n >= 3: n symmetric taps, centre 1/2, amplitudes at f and 1/2 - f of sum 1.  The amplitude
    error at f is half that at 2 f of a prototype g designed for the target 1, with weight 1 below 2 fc (and before the last two points)
    and 0 above. *)
Theorem C86_halfband : forall lsq n fc h, least_squares lsq -> (3 <= n)%nat -> Nat.odd n = true -> design_demi_bande lsq n fc = Ok h ->
  length h = n /\ symmetric h /\ nth (n / 2) h 0 = 1 / 2 /\ (forall f, amp h f + amp h (1 / 2 - f) = 1) /\
  exists m L g, (m = 2 * ((n + 1) / 4) /\ L = 16 * (m - 1))%nat /\
    design_rif_eq lsq m (repeat 1 L) (map (fun i => if Rlt_dec (INR i / (2 * INR L)) (2 * fc) then (if (i + 2 <? L)%nat then 1 else 0) else 0) (seq 0 L)) = Ok g /\
    forall f, amp h f - 1 = (amp g (2 * f) - 1) / 2.
Proof.
  intros lsq n fc h Hl Hn Ho E. destruct (quarter n Hn Ho) as [q Hq]. rewrite (demi_bande_eq lsq n fc q Hq) in E. cbv zeta in E. set (L := (16 * (2 * q + 1))%nat) in *.
  destruct (design_rif_eq lsq (2 * q + 2) (repeat 1 L) (pass_weights L fc)) as [g| | |] eqn:EG; try discriminate. cbn [bind] in E.
  assert (HL : (0 < length (repeat 1%R L))%nat) by (rewrite repeat_length; unfold L; lia).
  destruct (design_ok lsq _ _ _ g Hl HL EG) as (_ & Lg & Sg & _).
  destruct (hb_good g n q Hq Lg Sg) as (h0 & E0 & L0 & S0 & C0 & A0). pose proof (eq_trans (eq_sym E) E0) as EH. injection EH as EH. subst h0.
  split; [exact L0|]. split; [exact S0|]. split; [exact C0|]. split.
  - intros f. rewrite !A0. replace (2 * (1 / 2 - f)) with (1 - 2 * f) by field. rewrite (amp_nyquist g q) by exact Lg. field.
  - exists (2 * q + 2)%nat, L, g. split.
    + assert (Q : ((n + 1) / 4 = q + 1)%nat) by (symmetry; destruct Hq as [-> | ->]; [apply (Nat.div_unique _ 4 _ 0); lia|apply (Nat.div_unique _ 4 _ 2); lia]). rewrite Q. unfold L. lia.
    + split; [exact EG|]. intros f. rewrite A0. field.
Qed.
Print Assumptions C86_halfband.
Theorem C86_halfband_even : forall lsq n fc, Nat.even n = true -> design_demi_bande lsq n fc = Exc.
Proof. intros lsq n fc H. unfold design_demi_bande. rewrite H. reflexivity. Qed.
Print Assumptions C86_halfband_even.

(** ** The hypotheses can be met *)
Example C86_ex_solver : exists lsq, least_squares lsq.
Proof. exists ls_solver. exact ls_solver_ok. Qed.
Example C86_ex_design : forall lsq, least_squares lsq -> design_rif_eq lsq 1 [1; 0] [1; 1] = Ok [1 / 2].
Proof.
  intros lsq Hl. assert (EM : eq_matrix 1 2 = [[1]; [1]]) by reflexivity.
  destruct (Hl [[1]; [1]] [1; 0] 1%nat ltac:(cbn; lia) eq_refl ltac:(repeat constructor)) as [L M].
  destruct (lsq [[1]; [1]] [1; 0]) as [|x [|y l]] eqn:EX; try discriminate. specialize (M [1 / 2] eq_refl). unfold sq_error, residual in M. cbn [length total nth] in M.
  assert (X2 : (x - 1 / 2) * (x - 1 / 2) <= 0) by lra. assert (X : x - 1 / 2 = 0) by nra. apply Rminus_diag_uniq in X. subst x.
  assert (EL : lsi lsq [[1]; [1]] [1; 0] [1; 1] = Ok [1 / 2]).
  { unfold lsi. cbn [length Nat.eqb negb]. rewrite EX. change 100%nat with (S 99). generalize 99%nat. intros fuel. cbn [lsi_loop]. cbv zeta.
    unfold matvec, zipr, dot, vmax, vmin. cbn [map combine fold_right fold_left fst snd].
    replace (1 * (1 / 2) + 0 - 1) with (- (1 / 2)) by field. replace (1 * (1 / 2) + 0 - 0) with (1 / 2) by field. rewrite Rabs_Ropp, (Rabs_pos_eq (1 / 2)) by lra. rewrite Rmax_left, Rmin_left by lra.
    destruct (Req_EM_T (1 / 2 * 1) 0); [lra|]. replace ((1 / 2 * 1 - 1 / 2 * 1) / (1 / 2 * 1)) with 0 by field. destruct (Rlt_dec 0 (1 / 100000)); [reflexivity|lra]. }
  unfold design_rif_eq. cbn [length Nat.eqb negb]. rewrite EM, EL. reflexivity.
Qed.
Example C86_ex_symmetric : symmetric [1; 2; 1] /\ antisymmetric [1; 0; -1] /\ nth 0 [1; 0; -1] 0 <> 0.
Proof.
  split; [|split].
  - intros k Hk. cbn [length] in Hk. do 3 (destruct k as [|k]; [reflexivity|]). lia.
  - intros k Hk. cbn [length] in Hk. do 3 (destruct k as [|k]; [cbn; ring|]). lia.
  - cbn. lra.
Qed.
(** Two bands: 0 to 1/8 at level 1, 1/4 to 1/2 at level 0, with one tap: points 0..4 and 8..15 of 16. *)
Example C86_ex_bands : Forall2 (fun s => on_grid (16 * 1) (b_fb s) (b_fh s) (b_att s) (b_w s)) [{| b_fb := 0; b_fh := 1 / 8; b_att := 1; b_w := 1 |}; {| b_fb := 1 / 4; b_fh := 1 / 2; b_att := 0; b_w := 2 |}] [(0%nat, 4%nat, 1, 1); (8%nat, 15%nat, 0, 2)] /\
  ordered (16 * 1) 0 [(0%nat, 4%nat, 1, 1); (8%nat, 15%nat, 0, 2)].
Proof.
  split; [|cbn; repeat split; lia]. assert (I16 : INR (16 * 1) = 16) by (cbn; lra).
  constructor; [|constructor; [|constructor]]; unfold on_grid, nearest; rewrite I16; cbn [b_fb b_fh b_att b_w].
  - split; [lra|]. split; [cbn; lra|]. split; [exists 4%nat; split; [lra|split; [cbn; lra|reflexivity]]|split; reflexivity].
  - split; [lra|]. split; [cbn; lra|]. split; [exists 16%nat; split; [lra|split; [cbn; lra|reflexivity]]|split; reflexivity].
Qed.
