(** Proofs about spread spectrum. *)
From Coq Require Import Reals Lra Lia ZArith.
From Verif Require Import Base BaseLemmas RField ComplexSys Filters_Model Filters_Spec Filters_Proofs Filters_Proofs2 Polyphase_Model Zfe_Proofs Sig_Model Sig_Spec Sig_Proofs
  Ra_Model Ra_Spec Ra_Proofs Ra_Proofs2 Ra_Props Spread_Model Spread_Spec.

Section DSSS.
  Variables (K : cring) (chips : list K).
  Hypothesis Hc : chips <> [].
  Definition spread_from (i : nat) (x : list K) : list K := map (fun j => (samp x j * samp chips ((i + j) mod length chips))%K) (seq 0 (length x)).
  Lemma spread_from_app i x y : spread_from i (x ++ y) = spread_from i x ++ spread_from (i + length x) y.
  Proof.
    unfold spread_from. rewrite app_length, seq_app, map_app. f_equal.
    - apply map_ext_in. intros j Hj. apply in_seq in Hj. unfold samp. rewrite app_nth1 by lia. reflexivity.
    - cbn [Nat.add]. rewrite (seq_add (length x)), map_map. apply map_ext. intros j. unfold samp. rewrite app_nth2 by lia.
      replace (length x + j - length x)%nat with j by lia. rewrite Nat.add_assoc. reflexivity.
  Qed.
  Lemma chips_len : (0 < length chips)%nat.
  Proof. destruct chips; [congruence|cbn; lia]. Qed.
  Lemma ds_mul_ok y : forall i, ds_mul chips i y = Ok ((i + length y)%nat, spread_from i y).
  Proof.
    pose proof chips_len as Hn. induction y as [|a t IH]; intros i; cbn [ds_mul length].
    - rewrite Nat.add_0_r. reflexivity.
    - rewrite imod_ok by exact Hn. cbn [bind]. rewrite hget by (apply Nat.mod_upper_bound; lia). cbn [bind]. rewrite IH. cbn [bind]. f_equal. f_equal; [lia|].
      unfold spread_from. cbn [length seq map]. rewrite Nat.add_0_r. f_equal. rewrite <- seq_shift, map_map. apply map_ext. intros j. do 3 f_equal. lia.
  Qed.
  Lemma ds_realizes_from blocks : forall i, run (ds_mul chips) i blocks = Ok ((i + length (concat blocks))%nat, spread_from i (concat blocks)).
  Proof.
    induction blocks as [|b bs IH]; intros i; cbn [run concat length].
    - rewrite Nat.add_0_r. reflexivity.
    - rewrite ds_mul_ok. cbn [bind]. rewrite IH. cbn [bind]. rewrite spread_from_app, app_length, Nat.add_assoc. reflexivity.
  Qed.
  Lemma spread_from_0 x : spread_from 0 x = spread chips x.
  Proof. reflexivity. Qed.
  Lemma ds_realizes : realizes (ds_mul chips) 0%nat (spread chips).
  Proof. intros blocks. eexists. rewrite ds_realizes_from, spread_from_0. reflexivity. Qed.
  Variables (half : K) (itp : list K -> R -> res K) (osf : nat).
  Hypothesis Ho : (0 < osf)%nat.
  Lemma run_guard blocks : Forall (fun b => (length b mod osf)%nat = 0%nat) blocks -> forall ra i,
    run (dsss_step half itp) (mkdsss ra chips osf i) blocks =
    let* (p, y) := run (comp (raa_step half itp) (ds_mul chips)) (ra, i) blocks in Ok (mkdsss (fst p) chips osf (snd p), y).
  Proof.
    intros F. induction F as [|b bs Hb F IH]; intros ra i; [reflexivity|]. cbn [run]. unfold dsss_step at 1, comp at 1. cbn [ds_osf ds_ra ds_chips ds_index fst snd].
    rewrite imod_ok by exact Ho. cbn [bind]. rewrite Hb. cbn [Nat.eqb negb]. destruct (raa_step half itp ra b) as [[ra' u]| | |]; cbn [bind]; try reflexivity.
    rewrite ds_mul_ok. cbn [bind]. rewrite IH. destruct (run (comp (raa_step half itp) (ds_mul chips)) (ra', (i + length u)%nat) bs) as [[[p1 p2] y]| | |]; reflexivity.
  Qed.
  Lemma dsss_realizes ra F : realizes (raa_step half itp) ra F -> forall blocks, Forall (fun b => (length b mod osf)%nat = 0%nat) blocks ->
    exists s, run (dsss_step half itp) (mkdsss ra chips osf 0) blocks = Ok (s, spread chips (F (concat blocks))).
  Proof.
    intros R blocks Hb. rewrite (run_guard blocks Hb). destruct (realizes_comp _ _ _ _ _ _ R ds_realizes blocks) as (s & E). rewrite E. eexists. reflexivity.
  Qed.
End DSSS.
Lemma spread_length (K : cring) (c x : list K) : length (spread c x) = length x.
Proof. unfold spread. rewrite map_length, seq_length. reflexivity. Qed.
Lemma spread_samp (K : cring) (c x : list K) j : (j < length x)%nat -> samp (spread c x) j = (samp x j * samp c (j mod length c))%K.
Proof. intros H. unfold samp at 1, spread. rewrite nth_map_seq by exact H. reflexivity. Qed.
Lemma spread_twice (K : cring) (c x : list K) : c <> [] -> (forall i, (i < length c)%nat -> (samp c i * samp c i = 1)%K) -> spread c (spread c x) = x.
Proof.
  intros Hc H1. apply (list_ext (c0 : K)); [rewrite !spread_length; reflexivity|]. intros j Hj. rewrite !spread_length in Hj. change (samp (spread c (spread c x)) j = samp x j).
  rewrite spread_samp by (rewrite spread_length; exact Hj). rewrite spread_samp by exact Hj. rewrite <- (Rmul_assoc (cth K)), H1; [|apply Nat.mod_upper_bound; destruct c; [congruence|cbn; lia]].
  rewrite (Rmul_comm (cth K)). apply (Rmul_1_l (cth K)).
Qed.
(** integer ratios: number of outputs *)
Lemma int_ratio_count (K : cring) (half : K) coefs nfen itp f k fuel nd nu g : coefs <> [] -> (0 < nfen)%nat -> (1 <= k)%nat -> (2 * INR k <= 10 ^ 6)%R ->
  (forall w phi, length w = nfen -> (0 <= phi < 1)%R -> itp w phi = Ok (f w phi)) ->
  raa_conf fuel (INR k) = Ok (nd, nu, g) -> (/ 2 <= g < 2)%R -> (INR k * 2 ^ nd = g * 2 ^ nu)%R -> (nd = 0 \/ nu = 0)%nat ->
  exists s0 F, raa_init (K := K) coefs fuel (INR k) nfen = Ok s0 /\ realizes (raa_step half itp) s0 F /\ (forall x, length (F x) = (k * length x)%nat) /\ (k = 1%nat -> forall x, F x = x).
Proof.
  intros Hc HK Hk Hk6 Hi EC Bg Eg D. destruct (Nat.eq_dec k 1) as [->|N1].
  - destruct (C50_identity K half coefs nfen itp [] fuel) as (s0 & s & E0 & _). exists s0, (fun x => x). split; [exact E0|]. split; [|split; [intros; lia|reflexivity]].
    intros blocks. destruct (C50_identity K half coefs nfen itp blocks fuel) as (s0' & s' & E0' & E'). change (INR 1) with 1%R in *. replace s0' with s0 in E' by congruence. exists s'. exact E'.
  - assert (Hk2 : (2 <= INR k)%R) by (apply (le_INR 2); lia). assert (nd0 : nd = 0%nat).
    { destruct D as [D|D]; [exact D|]. subst nu. destruct nd as [|nd]; [reflexivity|]. exfalso. cbn [pow] in Eg. assert (1 <= 2 ^ nd)%R by (apply pow_R1_Rle; lra). nra. }
    subst nd. cbn [pow] in Eg. rewrite Rmult_1_r in Eg.
    destruct (raa_run K half coefs nfen itp f Hc HK Hi fuel (INR k) 0 nu g ltac:(lra) EC ltac:(lra)) as (s0 & E0 & R0). eexists s0, _. split; [exact E0|]. split; [exact R0|]. split; [|intros; lia].
    intros x. cbv beta. assert (P : INR (2 ^ nu) = (2 ^ nu)%R) by (rewrite pow_INR; reflexivity). assert (P0 : (0 < 2 ^ nu)%R) by (apply pow_lt; lra). destruct (Rlt_dec (Rabs (g - 1)) (/ 10 ^ 6)) as [G|G].
    + rewrite pre_length. cbn [Nat.pow]. rewrite Nat.div_1_r. assert (Ek : k = (2 ^ nu)%nat); [|rewrite <- Ek; lia].
      apply Rabs_def2 in G. assert (B : (Rabs (INR k - INR (2 ^ nu)) < 1)%R).
      { rewrite P, Eg. replace (g * 2 ^ nu - 2 ^ nu)%R with ((g - 1) * 2 ^ nu)%R by ring. rewrite Rabs_mult, (Rabs_right (2 ^ nu)) by lra. assert (2 ^ nu <= 2 * INR k)%R by nra. assert (Rabs (g - 1) < / 10 ^ 6)%R by (apply Rabs_def1; lra).
        pose proof (Rabs_pos (g - 1)). apply Rle_lt_trans with (Rabs (g - 1) * 10 ^ 6)%R; [apply Rmult_le_compat_l; lra|]. lra. }
      apply Rabs_def2 in B. destruct (Nat.lt_trichotomy k (2 ^ nu)) as [T|[T|T]]; [|exact T|]; exfalso; apply le_INR in T; rewrite S_INR in T; lra.
    + unfold gall. rewrite map_length, seq_length, pre_length. cbn [Nat.pow]. rewrite Nat.div_1_r. unfold cnt. rewrite mult_INR, P. replace (g * (INR (length x) * 2 ^ nu))%R with (INR (k * length x)) by (rewrite mult_INR, Eg; ring).
      rewrite INR_IZR_INZ. assert (CI : forall z, ceilZ (IZR z) = z).
      { intros z. unfold ceilZ. rewrite <- opp_IZR. rewrite (int_part_eq (IZR (- z)) (- z)) by lra. lia. }
      rewrite CI. lia.
Qed.
Section FHSS.
  Variables (D nf : nat) (u : list C).
  Hypothesis HD : (0 < D)%nat.
  Definition ol0 : list osc := map (fun i => ohc_new (INR i / INR nf)%R) (seq 0 nf).
  Definition hop_val (s j : nat) : C :=
    if (j <? s * D)%nat then Cmul (nth j u (0, 0)%R) (let t := (2 * PI * (INR (j / D * D) / INR nf) * INR (j mod D))%R in (cos t, sin t)) else nth j u (0, 0)%R.
  Definition fh_inv (s : nat) (st : list osc * list C) : Prop :=
    (forall i, (s * D <= i)%nat -> nth_error (fst st) i = nth_error ol0 i) /\ length (snd st) = length u /\ forall j, (j < length u)%nat -> nth j (snd st) (0, 0)%R = hop_val s j.
  Lemma ol0_some i : (i < nf)%nat -> nth_error ol0 i = Some (ohc_new (INR i / INR nf)%R).
  Proof. intros H. unfold ol0. rewrite nth_error_map, (nth_error_nth' _ 0%nat) by (rewrite seq_length; exact H). rewrite seq_nth by exact H. reflexivity. Qed.
  Lemma ol0_none i : (nf <= i)%nat -> nth_error ol0 i = None.
  Proof. intros H. apply nth_error_None. unfold ol0. rewrite map_length, seq_length. exact H. Qed.
  Lemma fh_step s st : fh_inv s st -> (S s * D <= length u)%nat -> (s * D < nf)%nat -> exists st', fh_body D s st = Ok st' /\ fh_inv (S s) st'.
  Proof.
    intros (A & L & V) Hq Hn. unfold fh_body. rewrite A by lia. rewrite ol0_some by exact Hn. unfold ohc_new, ohc_conf. rewrite unit_0.
    change (cos (2 * PI * (INR (s * D) / INR nf)), sin (2 * PI * (INR (s * D) / INR nf)))%R with (unit_at (2 * PI * (INR (s * D) / INR nf))).
    rewrite ohc_step_ok. eexists. split; [reflexivity|]. set (w := tone 0 (INR (s * D) / INR nf) D). assert (Lw : length w = D) by (unfold w, tone; rewrite map_length, seq_length; reflexivity). split; [|split].
    - cbn [fst]. intros i Hi. rewrite nth_error_upd. destruct (Nat.eqb_spec (s * D) i) as [G|G]; [exfalso; nia|]. cbn [andb]. apply A. lia.
    - cbn [snd]. unfold mul_seg. rewrite map_length, seq_length. exact L.
    - cbn [snd]. intros j Hj. unfold mul_seg. rewrite nth_map_seq by (rewrite L; exact Hj). assert (Lw' : @length C w = D) by exact Lw. rewrite Lw', V by exact Hj. unfold hop_val.
      destruct (Nat.leb_spec (s * D) j) as [G1|G1]; destruct (Nat.ltb_spec j (s * D + D)) as [G2|G2]; destruct (Nat.ltb_spec j (s * D)) as [G3|G3]; destruct (Nat.ltb_spec j (S s * D)) as [G4|G4]; try lia; cbn [andb]; try reflexivity.
      f_equal. unfold w, tone. rewrite nth_map_seq by lia. assert (Eq : (j / D)%nat = s) by (symmetry; apply (Nat.div_unique j D s (j - s * D)); lia).
      assert (Em : (j mod D)%nat = (j - s * D)%nat) by (rewrite Nat.mod_eq, Eq by lia; lia). rewrite Eq, Em. unfold unit_at. cbv zeta. f_equal; f_equal; ring.
  Qed.
  Lemma fh_init_inv : fh_inv 0 (ol0, u).
  Proof. split; [reflexivity|]. split; [reflexivity|]. intros j Hj. reflexivity. Qed.
  Lemma fh_loop q : (q * D <= length u)%nat -> (forall s, (s < q)%nat -> (s * D < nf)%nat) -> exists st, loop q (fh_body D) (ol0, u) = Ok st /\ fh_inv q st.
  Proof. intros Hq Hn. apply (loop_inv fh_inv); [|exact fh_init_inv]. intros s st Hs I. apply fh_step; [exact I|nia|apply Hn; exact Hs]. Qed.
  Lemma loop_UB {S} (body : nat -> S -> res S) c d s : loop c body s = UB -> loop (c + d) body s = UB.
  Proof. intros H. induction d as [|d IH]; [rewrite Nat.add_0_r; exact H|]. rewrite Nat.add_succ_r, loop_S, IH. reflexivity. Qed.
  Lemma fh_ub s : (nf <= s * D)%nat -> (S s * D <= length u)%nat -> forall q, (s < q)%nat -> loop q (fh_body D) (ol0, u) = UB.
  Proof.
    intros Hs Hl q Hq. assert (M : exists t, (t <= s)%nat /\ (nf <= t * D)%nat /\ forall r, (r < t)%nat -> (r * D < nf)%nat).
    { clear Hq Hl. induction s as [|s IH]; [exists 0%nat; repeat split; lia|]. destruct (Nat.le_gt_cases nf (s * D)) as [G|G].
      - destruct (IH G) as (t & ? & ? & ?). exists t. repeat split; auto; lia.
      - exists (S s). repeat split; [lia|lia|]. intros r Hr. nia. }
    destruct M as (t & Ht & Hn & Hlt). destruct (fh_loop t ltac:(nia) Hlt) as (st & E & A & _). replace q with (S t + (q - S t))%nat by lia. apply loop_UB. rewrite loop_S, E. cbn [bind].
    unfold fh_body. rewrite A by lia. rewrite ol0_none by exact Hn. reflexivity.
  Qed.
End FHSS.
(** ** Transposition *)
Definition mix_step (o : osc) (x : list C) : res (osc * list C) :=
  let (o', w) := ohc_step o (length x) in Ok (o', map (fun p => Cmul (fst p) (snd p)) (combine x w)).
Definition shifted_from (t f : R) (x : list C) : list C := map (fun k => Cmul (nth k x (0, 0)%R) (unit_at (t + 2 * PI * f * INR k))) (seq 0 (length x)).
Lemma shifted_from_app t f x y : shifted_from t f (x ++ y) = shifted_from t f x ++ shifted_from (t + 2 * PI * f * INR (length x)) f y.
Proof.
  unfold shifted_from. rewrite app_length, seq_app, map_app. f_equal.
  - apply map_ext_in. intros j Hj. apply in_seq in Hj. rewrite app_nth1 by lia. reflexivity.
  - cbn [Nat.add]. rewrite (seq_add (length x)), map_map. apply map_ext. intros j. rewrite app_nth2 by lia.
    replace (length x + j - length x)%nat with j by lia. f_equal. f_equal. rewrite plus_INR. ring.
Qed.
Lemma mix_tone t f x : map (fun p => Cmul (fst p) (snd p)) (combine x (tone t f (length x))) = shifted_from t f x.
Proof.
  revert t. induction x as [|a x IH]; intros t; [reflexivity|]. cbn [length].
  change (S (length x)) with (1 + length x)%nat. rewrite tone_app. change (tone t f 1) with [unit_at (t + 2 * PI * f * 0)%R]. cbn [app combine map fst snd].
  change (a :: x) with ([a] ++ x). rewrite shifted_from_app. unfold shifted_from at 1. cbn [length seq map nth app]. f_equal. rewrite IH. reflexivity.
Qed.
Lemma mix_step_ok t f x : mix_step (unit_at t, unit_at (2 * PI * f)) x = Ok ((unit_at (t + 2 * PI * f * INR (length x)), unit_at (2 * PI * f)), shifted_from t f x).
Proof. unfold mix_step. rewrite ohc_step_ok, mix_tone. reflexivity. Qed.
Lemma shifted_from_0 f x : shifted_from 0 f x = shifted f x.
Proof. unfold shifted_from, shifted. apply map_ext. intros k. f_equal. unfold unit_at. rewrite Rplus_0_l. reflexivity. Qed.
Lemma mix_run f blocks : forall t, run mix_step (unit_at t, unit_at (2 * PI * f)) blocks = Ok ((unit_at (t + 2 * PI * f * INR (length (concat blocks))), unit_at (2 * PI * f)), shifted_from t f (concat blocks)).
Proof.
  induction blocks as [|b bs IH]; intros t; cbn [run concat].
  - cbn [length INR]. do 3 f_equal. f_equal. ring.
  - rewrite mix_step_ok. cbn [bind]. rewrite IH. cbn [bind]. rewrite shifted_from_app, app_length, plus_INR. do 3 f_equal. f_equal. ring.
Qed.
Lemma mix_realizes f : realizes mix_step (ohc_new f) (shifted f).
Proof. intros blocks. eexists. unfold ohc_new, ohc_conf. rewrite unit_0. change (cos (2 * PI * f), sin (2 * PI * f))%R with (unit_at (2 * PI * f)). rewrite mix_run, shifted_from_0. reflexivity. Qed.
Lemma mix_embed (x : list R) w : map (fun p => Cmul (fst p, 0%R) (snd p)) (combine x w) = map (fun p => Cmul (fst p) (snd p)) (combine (map (fun a => (a, 0%R)) x) w).
Proof. revert w. induction x as [|a x IH]; intros [|b w]; cbn [map combine]; try reflexivity. rewrite IH. reflexivity. Qed.
Lemma fir_realizes (K : cring) (h : list K) : h <> [] -> realizes fir_step (fir_init h) (fun x => map (conv h x) (seq 0 (length x))).
Proof.
  intros H blocks. destruct (fir_run K h blocks H) as (s & y & E & L & V). exists s. rewrite E. do 2 f_equal. apply (list_ext (c0 : K)); [rewrite map_length, seq_length; exact L|].
  intros n Hn. rewrite nth_map_seq by (rewrite <- L; exact Hn). apply V. exact Hn.
Qed.
