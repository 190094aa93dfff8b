(** Property C55: adaptive equaliser. *)
From Coq Require Import Reals Lra Lia.
From Verif Require Import Base BaseLemmas Demod_Model Demod_Spec Demod_Proofs Demod_Props Egal_Model Egal_Spec Egal_Proofs.
Open Scope R_scope.

(** A configuration with at least one forward tap (and one backward tap for DFE),
    oversampling K >= 1. *)
Definition valid (c : ecfg) : Prop := (0 < e_N1 c)%nat /\ (0 < e_K c)%nat /\ (e_dfe c = true -> (0 < e_N2 c)%nat).

(** The output does not depend on how the stream is cut into blocks, and there is one
    output for every K inputs. *)
Theorem C55_blocks c s blocks : run (egal_step c) s blocks = egal_step c s (concat blocks).
Proof. unfold egal_step. apply run_flat_st. Qed.
Print Assumptions C55_blocks.
Theorem C55_count c blocks s y : valid c -> run (egal_step c) (egal_init c) blocks = Ok (s, y) -> length y = (length (concat blocks) / e_K c)%nat.
Proof. intros V E. rewrite C55_blocks in E. apply (count c _ s y V E). Qed.
Print Assumptions C55_count.

(** Without distortion (the sample taken every K samples is a symbol of the
    constellation), the decision-directed equaliser gives back the symbols, for every
    structure, step size and length, with unchanged coefficients. *)
Theorem C55_transparent c x : valid c -> library_wave (e_w c) -> e_cma c = false ->
  (forall z, In z (every_kth (e_K c) (0, 0) x) -> exists i, lis_symbole (e_w c) 0 i = Ok z) ->
  exists s y, egal_step c (egal_init c) x = Ok (s, y) /\ map fst y = every_kth (e_K c) (0, 0) x /\ s_h s = s_h (egal_init c) /\ (e_dfe c = true -> s_g s = s_g (egal_init c)).
Proof.
  intros V LW CM H. destruct (lw_ok _ LW) as (OK & DI & _ & _ & _).
  destruct (run_quiet c x V) as (s & y & E & Ey & I).
  - apply Forall_forall. intros z Hz. destruct (H z Hz) as (i & Hi). unfold lis_symbole in Hi. destruct (Nat.ltb_spec i (w_M (e_w c))) as [Li|Li]; [|discriminate Hi]. injection Hi as Hi. subst z.
    split; [|intros C; congruence]. intros _. exists i, (w_pt (e_w c) 0 i). split.
    + apply decides_half; auto; [apply half_self; auto|]. unfold sqdist. pose proof huge_pos. replace _ with 0 by ring. lra.
    + unfold lis_symbole. destruct (Nat.ltb_spec i (w_M (e_w c))); [|lia]. split; reflexivity.
  - exists s, y. split; [exact E|]. split; [exact Ey|]. destruct I as (Ih & Ig & _). split; [exact Ih|]. intros D. rewrite (Ig D). cbn. now rewrite D.
Qed.
Print Assumptions C55_transparent.
(** The same for the constant-modulus criterion, for samples of modulus 1. *)
Theorem C55_transparent_cma c x : valid c -> library_wave (e_w c) -> e_cma c = true ->
  (forall z, In z (every_kth (e_K c) (0, 0) x) -> mod2 z = 1 /\ exists j, (j < w_M (e_w c))%nat /\ sqdist z (w_pt (e_w c) 0 j) < huge) ->
  exists s y, egal_step c (egal_init c) x = Ok (s, y) /\ map fst y = every_kth (e_K c) (0, 0) x /\ s_h s = s_h (egal_init c) /\ (e_dfe c = true -> s_g s = s_g (egal_init c)).
Proof.
  intros V LW CM H. destruct (run_quiet c x V) as (s & y & E & Ey & I).
  - apply Forall_forall. intros z Hz. destruct (H z Hz) as (M & N). split; [|intros _ _; exact M].
    intros _. destruct (C42_nearest _ 0 z LW N) as (r & Er & Cr & _). exists r, (w_pt (e_w c) 0 r). split; [exact Er|]. split; [|intros C; congruence].
    unfold lis_symbole. destruct (Nat.ltb_spec r (w_M (e_w c))); [reflexivity|lia].
  - exists s, y. split; [exact E|]. split; [exact Ey|]. destruct I as (Ih & Ig & _). split; [exact Ih|]. intros D. rewrite (Ig D). cbn. now rewrite D.
Qed.
Print Assumptions C55_transparent_cma.
(** With a null step size the equaliser is a decimator, whatever the input. *)
Theorem C55_null_step c x : valid c -> library_wave (e_w c) -> e_al c = 0 ->
  (forall z, In z (every_kth (e_K c) (0, 0) x) -> exists j, (j < w_M (e_w c))%nat /\ sqdist z (w_pt (e_w c) 0 j) < huge) ->
  exists s y, egal_step c (egal_init c) x = Ok (s, y) /\ map fst y = every_kth (e_K c) (0, 0) x /\ s_h s = s_h (egal_init c).
Proof.
  intros V LW A H. destruct (run_quiet c x V) as (s & y & E & Ey & I).
  - apply Forall_forall. intros z Hz. destruct (C42_nearest _ 0 z LW (H z Hz)) as (r & Er & Cr & _). split; [|intros _ N; contradiction].
    intros _. exists r, (w_pt (e_w c) 0 r). split; [exact Er|]. split; [|intros _ N; contradiction].
    unfold lis_symbole. destruct (Nat.ltb_spec r (w_M (e_w c))); [reflexivity|lia].
  - exists s, y. split; [exact E|]. split; [exact Ey|]. destruct I as (Ih & _). exact Ih.
Qed.
Print Assumptions C55_null_step.

(** Finding: with the constant-modulus criterion the backward filter of the DFE
    structure never adapts: it stays null for ever, and the equaliser is the FFE one. *)
Theorem C55_cma_dfe_is_ffe w K al N1 N2 x s y : (0 < N1)%nat -> (0 < K)%nat -> (0 < N2)%nat ->
  let dfe := {| e_w := w; e_K := K; e_al := al; e_N1 := N1; e_N2 := N2; e_dfe := true; e_cma := true |} in
  let ffe := {| e_w := w; e_K := K; e_al := al; e_N1 := N1; e_N2 := N2; e_dfe := false; e_cma := true |} in
  egal_step dfe (egal_init dfe) x = Ok (s, y) ->
  s_g s = repeat 0 N2 /\ exists s', egal_step ffe (egal_init ffe) x = Ok (s', y) /\ s_h s' = s_h s.
Proof.
  intros H1 H2 H3 dfe ffe. assert (V : cfg_ok dfe) by (repeat split; auto).
  assert (G : forall s y, egal_step dfe (egal_init dfe) x = Ok (s, y) -> s_g s = repeat 0 N2 /\ exists s', egal_step ffe (egal_init ffe) x = Ok (s', y) /\ s_h s' = s_h s /\ s_wnd s' = s_wnd s /\ s_cnt s' = s_cnt s).
  { clear s y. induction x as [|a x IH] using rev_ind; intros s y E.
    - injection E as <- <-. split; [reflexivity|]. eexists. split; [reflexivity|]. repeat split.
    - unfold egal_step in *. rewrite flat_st_snoc in E. destruct (flat_st (egal_one dfe) (egal_init dfe) x) as [[s1 y1]| | |] eqn:E1; cbn [bind] in E; try discriminate E.
      pose proof (count dfe x s1 y1 V E1) as (_ & _ & SO). destruct (IH s1 y1 eq_refl) as (Gz & s1' & E1' & Eh & Ew & Ec).
      destruct (egal_one dfe s1 a) as [[s2 y2]| | |] eqn:E2; cbn [bind] in E; try discriminate E. injection E as <- <-.
      rewrite flat_st_snoc, E1'. cbn [bind]. unfold egal_one in *. cbn [dfe ffe e_K e_N1 e_N2 e_dfe e_cma e_al e_w negb orb] in *. cbv zeta in *. rewrite Eh, Ew, Ec.
      destruct (andb _ _).
      + injection E2 as <- <-. split; [exact Gz|]. eexists. split; [cbn [bind]; reflexivity|]. repeat split.
      + assert (R0 : wsum (s_g s1) (s_deci s1) = (0, 0)) by (rewrite Gz; apply wsum_zeros). rewrite R0 in E2.
        assert (CP : forall z : R * R, cplus z (0, 0) = z) by (intros [p q]; unfold cplus; cbn; f_equal; ring). rewrite CP in E2.
        match type of E2 with bind ?X _ = _ => destruct X as [dec| | |] end; try discriminate E2. cbn [bind] in E2. injection E2 as <- <-.
        split.
        * cbn [s_g]. rewrite adapt_0; [exact Gz|now right|]. destruct SO as (_ & _ & SO). destruct (SO eq_refl). lia.
        * cbn [bind]. eexists. split; [reflexivity|]. repeat split. }
  intros E. destruct (G s y E) as (Gz & s' & E' & Eh & _). split; [exact Gz|]. exists s'. split; assumption.
Qed.
Print Assumptions C55_cma_dfe_is_ffe.

(** Decision-directed adaptation goes downhill: after any history, the new
    coefficients do not increase the squared error between the decision and the output
    for the current window, as soon as the step size is at most 2 over the energy of
    the window (and of the past decisions, for DFE). *)
Lemma wsum_app a b (w v : list (R * R)) : length a = length w -> wsum (a ++ b) (w ++ v) = cplus (wsum a w) (wsum b v).
Proof.
  unfold wsum. revert w. induction a as [|x a IH]; intros [|z w] L; try discriminate L.
  - cbn [app combine fold_right]. destruct (fold_right _ _ _). unfold cplus. cbn. f_equal; ring.
  - injection L as L. cbn [app combine fold_right]. rewrite (IH w L). unfold cplus. cbn [fst snd]. f_equal; ring.
Qed.
Lemma energy_app w v : energy (w ++ v) = energy w + energy v.
Proof. unfold energy. induction w as [|a w IH]; cbn [app fold_right]; [ring|]. rewrite IH. ring. Qed.
Lemma adapt_app a z h g (w v : list (R * R)) : length h = length w -> adapt a z (h ++ g) (w ++ v) = adapt a z h w ++ adapt a z g v.
Proof.
  unfold adapt. revert w. induction h as [|x h IH]; intros [|y w] L; try discriminate L; [reflexivity|]. injection L as L. cbn [app combine map]. now rewrite (IH w L).
Qed.
Lemma descent al h (w : list (R * R)) d : 0 <= al -> al * energy w <= 2 -> length h = length w ->
  mod2 (cminus d (wsum (adapt al (cminus d (wsum h w)) h w) w)) <= mod2 (cminus d (wsum h w)).
Proof.
  intros A E L. rewrite wsum_adapt by exact L. set (S := wsum h w). set (e := cminus d S). pose proof (rdot_wsum e w) as RD.
  assert (LR : length (rdot e w) = length w) by (unfold rdot; apply map_length). pose proof (cauchy (rdot e w) w LR) as CS. pose proof (sumsq_pos (rdot e w)) as SP.
  set (T := wsum (rdot e w) w) in *. set (Q := sumsq (rdot e w)) in *. set (EN := energy w) in *. pose proof (energy_pos w) as EP. fold EN in EP.
  assert (X : mod2 (cminus d (cplus S (al * fst T, al * snd T))) = mod2 e - 2 * al * (fst e * fst T + snd e * snd T) + al * al * mod2 T).
  { unfold e, cminus, cplus, mod2. cbn [fst snd]. ring. }
  rewrite X, RD. assert (al * al * mod2 T <= al * al * (Q * EN)) by (apply Rmult_le_compat_l; [nra|exact CS]).
  assert (al * Q * (al * EN) <= al * Q * 2) by (apply Rmult_le_compat_l; [nra|exact E]). lra.
Qed.
Theorem C55_descent c x0 s y0 x s' out e : valid c -> e_cma c = false -> 0 <= e_al c ->
  egal_step c (egal_init c) x0 = Ok (s, y0) -> egal_step c s [x] = Ok (s', [(out, e)]) ->
  let win := s_wnd s' in let past := if e_dfe c then s_deci s else [] in
  let filt h g := if e_dfe c then cplus (wsum h win) (wsum g past) else wsum h win in
  out = filt (s_h s) (s_g s) /\
  exists i d, symbole_plus_proche (e_w c) 0 out = Ok i /\ lis_symbole (e_w c) 0 i = Ok d /\ e = sqrt (mod2 (cminus d out)) /\
    (e_al c * (energy win + energy past) <= 2 -> mod2 (cminus d (filt (s_h s') (s_g s'))) <= mod2 (cminus d out)).
Proof.
  intros V CM A E0 E. pose proof (count c x0 s y0 V E0) as (_ & _ & SO).
  unfold egal_step in E. cbn [flat_st] in E. destruct (egal_one c s x) as [[s1 y1]| | |] eqn:E1; cbn [bind] in E; try discriminate E. rewrite app_nil_r in E. injection E as -> ->.
  pose proof (one_ok c s x s' _ V SO E1) as SO'. unfold egal_one in E1. cbv zeta in E1. rewrite CM in E1. cbn [negb orb] in E1. destruct (andb _ _) in E1; [discriminate E1|].
  set (win := shift_in (s_wnd s) x) in *.
  match type of E1 with bind (bind ?X _) _ = _ => destruct X as [i| | |] eqn:EI end; cbn [bind] in E1; try discriminate E1.
  match type of E1 with bind ?X _ = _ => destruct X as [d| | |] eqn:ED end; cbn [bind] in E1; try discriminate E1.
  injection E1 as Es Eo Ee. rewrite <- Es. cbn [s_wnd s_h s_g].
  assert (LH : length (s_h s) = length win) by (destruct SO as (L1 & L2 & _), V as (V1 & _); unfold win; rewrite shift_length; lia).
  destruct (e_dfe c) eqn:DF.
  - assert (LG : length (s_g s) = length (s_deci s)) by (destruct SO as (_ & _ & G); destruct (G DF); lia).
    split; [symmetry; exact Eo|]. exists i, d. rewrite <- Eo. split; [exact EI|]. split; [exact ED|]. split; [rewrite <- Ee; unfold mod2, cminus, cplus; cbn [fst snd]; f_equal; ring|].
    intros HE. rewrite <- energy_app in HE. pose proof (descent (e_al c) (s_h s ++ s_g s) (win ++ s_deci s) d A HE) as D. rewrite !app_length in D. specialize (D ltac:(lia)).
    rewrite wsum_app in D by exact LH. rewrite adapt_app in D by exact LH. rewrite wsum_app in D by (rewrite adapt_length by exact LH; exact LH). exact D.
  - split; [symmetry; exact Eo|]. exists i, d. rewrite <- Eo. split; [exact EI|]. split; [exact ED|]. split; [rewrite <- Ee; unfold mod2, cminus, cplus; cbn [fst snd]; f_equal; ring|].
    intros HE. apply descent; [exact A| |exact LH]. cbn in HE. rewrite Rplus_0_r in HE. exact HE.
Qed.
Print Assumptions C55_descent.

(** Non-vacuity: a BPSK equaliser with three taps and two samples per symbol. *)
Definition ex_cfg (dfe cma : bool) (al : R) : ecfg := {| e_w := wave_psk 2; e_K := 2; e_al := al; e_N1 := 3; e_N2 := 2; e_dfe := dfe; e_cma := cma |}.
Example C55_ex dfe cma al : valid (ex_cfg dfe cma al) /\ library_wave (wave_psk 2) /\
  every_kth 2 (0, 0) [(0.5, 0); (1, 0); (0, 0.25); (-1, 0); (3, 3)] = [(1, 0); (-1, 0)] /\
  lis_symbole (wave_psk 2) 0 1 = Ok (1, 0) /\ lis_symbole (wave_psk 2) 0 0 = Ok (-1, 0) /\ mod2 (-1, 0) = 1.
Proof.
  split; [repeat split; cbn; lia|]. split; [constructor; cbn; lia|]. split; [reflexivity|]. split; [reflexivity|]. split; [reflexivity|]. unfold mod2. cbn. ring.
Qed.
