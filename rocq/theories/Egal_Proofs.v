(** Proofs for C55. *)
From Coq Require Import Reals Lra Lia.
From Verif Require Import Base BaseLemmas Demod_Model Demod_Spec Demod_Proofs Egal_Model Egal_Spec.
Open Scope R_scope.

Lemma wsum_zeros n (w : list C) : wsum (repeat 0 n) w = (0, 0).
Proof.
  unfold wsum. revert w. induction n as [|n IH]; intros w; [reflexivity|]. destruct w as [|z w]; [reflexivity|]. cbn [repeat combine fold_right].
  rewrite IH. unfold cplus. cbn [fst snd]. f_equal; ring.
Qed.
Lemma wsum_id n (w : list C) x : length w = n -> wsum (repeat 0 n ++ [1]) (w ++ [x]) = x.
Proof.
  intros <-. unfold wsum. induction w as [|z w IH]; cbn [repeat length app combine fold_right].
  - destruct x. unfold cplus. cbn [fst snd]. f_equal; ring.
  - rewrite IH. destruct x. unfold cplus. cbn [fst snd]. f_equal; ring.
Qed.
Lemma adapt_0 (a : R) z (h : list R) (w : list C) : (a = 0 \/ z = (0, 0)) -> length h = length w -> adapt a z h w = h.
Proof.
  intros H. unfold adapt. revert w. induction h as [|x h IH]; intros [|y w] L; try discriminate L; [reflexivity|]. cbn [combine map]. injection L as L. rewrite IH by exact L.
  f_equal. cbn [fst snd]. destruct H as [->| ->]; cbn [fst snd]; ring.
Qed.
Lemma adapt_length a z (h : list R) (w : list C) : length h = length w -> length (adapt a z h w) = length h.
Proof. intros L. unfold adapt. rewrite map_length, combine_length. lia. Qed.
Lemma shift_length (w : list C) x : (0 < length w)%nat -> length (shift_in w x) = length w.
Proof. intros H. unfold shift_in. rewrite app_length, skipn_length. cbn. lia. Qed.

(** well-formed configuration and state *)
Definition cfg_ok (c : ecfg) : Prop := (0 < e_N1 c)%nat /\ (0 < e_K c)%nat /\ (e_dfe c = true -> (0 < e_N2 c)%nat).
Definition st_ok (c : ecfg) (s : est) : Prop :=
  length (s_h s) = e_N1 c /\ length (s_wnd s) = e_N1 c /\ (e_dfe c = true -> length (s_g s) = e_N2 c /\ length (s_deci s) = e_N2 c).
Lemma init_ok c : cfg_ok c -> st_ok c (egal_init c).
Proof.
  intros (H1 & H2 & H3). unfold st_ok, egal_init. cbn. rewrite app_length, !repeat_length. cbn. split; [lia|]. split; [reflexivity|].
  intros ->. rewrite !repeat_length. split; reflexivity.
Qed.
Lemma one_ok c s x s' y : cfg_ok c -> st_ok c s -> egal_one c s x = Ok (s', y) -> st_ok c s'.
Proof.
  intros (H1 & H2 & H3) (L1 & L2 & L3) E. unfold egal_one in E. cbv zeta in E.
  assert (LW : length (shift_in (s_wnd s) x) = e_N1 c) by (rewrite shift_length; lia).
  destruct (andb _ _) in E.
  { injection E as <- _. repeat split; cbn; try assumption; apply L3; assumption. }
  match type of E with bind ?X _ = _ => destruct X as [dec| | |] end; try discriminate E. cbn [bind] in E.
  destruct (e_cma c); injection E as <- _; (split; [cbn [s_h]; rewrite adapt_length by lia; lia|split; [exact LW|]]); intros D; destruct (L3 D) as [A B]; specialize (H3 D); cbn [s_g s_deci]; rewrite D;
    (split; [rewrite adapt_length by lia; lia|rewrite shift_length by lia; lia]).
Qed.

(** ** A channel without distortion *)
Definition quiet (c : ecfg) (z : C) : Prop :=
  ((e_cma c = false \/ e_dfe c = true) -> exists i p, symbole_plus_proche (e_w c) 0 z = Ok i /\ lis_symbole (e_w c) 0 i = Ok p /\ (e_cma c = false -> e_al c <> 0 -> p = z)) /\
  (e_cma c = true -> e_al c <> 0 -> mod2 z = 1).
Definition inv (c : ecfg) (p : nat) (s : est) : Prop :=
  s_h s = repeat 0 (e_N1 c - 1) ++ [1] /\ (e_dfe c = true -> s_g s = repeat 0 (e_N2 c)) /\ st_ok c s /\ s_cnt s = (if (1 <? e_K c)%nat then p mod e_K c else 0)%nat.
Lemma one_quiet c p s x : cfg_ok c -> inv c p s -> ((S p) mod e_K c = 0%nat -> quiet c x) ->
  exists s' y, egal_one c s x = Ok (s', y) /\ map fst y = (if (S p) mod e_K c =? 0 then [x] else [])%nat /\ inv c (S p) s'.
Proof.
  intros OK (Ih & Ig & Iok & Ic) Q. pose proof OK as (H1 & H2 & H3).
  assert (PM : ((1 <? e_K c)%nat = true -> (s_cnt s + 1) mod e_K c = S p mod e_K c)%nat).
  { intros E. rewrite Ic, E. rewrite Nat.add_mod_idemp_l by lia. f_equal. lia. }
  set (cnt := (if (1 <? e_K c)%nat then ((s_cnt s + 1) mod (e_K c))%nat else s_cnt s)).
  assert (CN : cnt = (if (1 <? e_K c)%nat then S p mod e_K c else 0)%nat).
  { unfold cnt. destruct (1 <? e_K c)%nat eqn:E; [apply PM; reflexivity|exact Ic]. }
  assert (SK : andb (1 <? e_K c)%nat (negb (cnt =? 0)%nat) = negb (S p mod e_K c =? 0)%nat).
  { rewrite CN. destruct (Nat.ltb_spec 1 (e_K c)); [reflexivity|]. assert (e_K c = 1%nat) as -> by lia. rewrite Nat.mod_1_r. reflexivity. }
  assert (WO : wsum (s_h s) (shift_in (s_wnd s) x) = x).
  { rewrite Ih. unfold shift_in. apply wsum_id. rewrite skipn_length. destruct Iok as (_ & -> & _). lia. }
  assert (RE : (if e_dfe c then wsum (s_g s) (s_deci s) else (0, 0)) = (0, 0)).
  { destruct (e_dfe c); [rewrite (Ig eq_refl); apply wsum_zeros|reflexivity]. }
  assert (SO : (if e_dfe c then cplus (wsum (s_h s) (shift_in (s_wnd s) x)) (if e_dfe c then wsum (s_g s) (s_deci s) else (0, 0)) else wsum (s_h s) (shift_in (s_wnd s) x)) = x).
  { rewrite RE, WO. destruct (e_dfe c); [|reflexivity]. destruct x. unfold cplus. cbn. f_equal; ring. }
  assert (LH : length (s_h s) = length (shift_in (s_wnd s) x)) by (destruct Iok as (A & B & _); rewrite shift_length; lia).
  assert (LG : e_dfe c = true -> length (s_g s) = length (s_deci s)) by (intros D; destruct Iok as (_ & _ & G); destruct (G D); lia).
  assert (EX : exists s' y, egal_one c s x = Ok (s', y) /\ map fst y = (if (S p) mod e_K c =? 0 then [x] else [])%nat /\
     s_h s' = s_h s /\ (e_dfe c = true -> s_g s' = s_g s) /\ s_cnt s' = cnt).
  { unfold egal_one. cbv zeta. fold cnt. rewrite SK. destruct (Nat.eqb_spec (S p mod e_K c) 0) as [Z|Z]; cbn [negb].
    2: { eexists _, _. split; [reflexivity|]. split; [reflexivity|]. split; [reflexivity|]. split; [intros; reflexivity|reflexivity]. }
    destruct (Q Z) as [Q1 Q2]. rewrite SO.
    destruct (e_cma c) eqn:CM.
    - specialize (Q2 eq_refl). assert (E0 : e_al c * (1 - (fst x * fst x + snd x * snd x)) = 0).
      { destruct (Req_dec (e_al c) 0) as [->|N]; [ring|]. specialize (Q2 N). unfold mod2 in Q2. nra. }
      cbn [negb orb]. destruct (e_dfe c) eqn:D.
      + destruct (Q1 (or_intror eq_refl)) as (i & q & Ei & Eq & _). rewrite Ei. cbn [bind]. rewrite Eq. cbn [bind]. eexists _, _. split; [reflexivity|]. split; [reflexivity|].
        cbn [s_h s_g s_cnt]. rewrite !adapt_0; auto.
      + cbn [bind]. eexists _, _. split; [reflexivity|]. split; [reflexivity|]. cbn [s_h s_g s_cnt]. rewrite !adapt_0; auto.
    - destruct (Q1 (or_introl eq_refl)) as (i & q & Ei & Eq & Hq). cbn [negb orb]. rewrite Ei. cbn [bind]. rewrite Eq. cbn [bind]. eexists _, _. split; [reflexivity|]. split; [reflexivity|].
      assert (E0 : e_al c = 0 \/ cminus q x = (0, 0)).
      { destruct (Req_dec (e_al c) 0) as [E|N]; [now left|right]. rewrite (Hq eq_refl N). unfold cminus. f_equal; ring. }
      cbn [s_h s_g s_cnt]. rewrite adapt_0 by assumption. split; [reflexivity|]. split; [|reflexivity]. intros D. rewrite D. apply adapt_0; auto. }
  destruct EX as (s' & y & E & Ey & Eh & Eg & Ec). exists s', y. split; [exact E|]. split; [exact Ey|].
  split; [congruence|]. split; [intros D; rewrite (Eg D); apply Ig, D|]. split; [eapply one_ok; eassumption|]. rewrite Ec. exact CN.
Qed.

Lemma every_kth_snoc {A} k (d : A) x a : (0 < k)%nat ->
  every_kth k d (x ++ [a]) = every_kth k d x ++ (if (S (length x)) mod k =? 0 then [a] else [])%nat.
Proof.
  intros Hk. unfold every_kth. rewrite app_length. cbn [length]. rewrite Nat.add_1_r.
  assert (LE : forall q, (q <= length x / k)%nat -> map (fun j => nth (j * k + (k - 1)) (x ++ [a]) d) (seq 0 q) = map (fun j => nth (j * k + (k - 1)) x d) (seq 0 q)).
  { intros q Hq. apply map_ext_in. intros j Hj. apply in_seq in Hj. apply app_nth1. pose proof (Nat.mul_div_le (length x) k ltac:(lia)). nia. }
  destruct (Nat.eqb_spec (S (length x) mod k) 0) as [Z|Z].
  - pose proof (Nat.div_mod (S (length x)) k ltac:(lia)) as D. rewrite Z in D. set (q := (S (length x) / k)%nat) in *.
    assert (q <> 0%nat) by (intros ->; lia). destruct q as [|q']; [lia|].
    assert (Q : (length x / k = q')%nat) by (symmetry; apply Nat.div_unique with (k - 1)%nat; nia). rewrite Q.
    rewrite seq_S, map_app, LE by lia. f_equal. cbn [map Nat.add]. f_equal.
    rewrite app_nth2 by nia. replace (q' * k + (k - 1) - length x)%nat with 0%nat by nia. reflexivity.
  - assert (Q : (S (length x) / k = length x / k)%nat).
    { pose proof (Nat.div_mod (S (length x)) k ltac:(lia)) as D. pose proof (Nat.mod_upper_bound (S (length x)) k ltac:(lia)) as B.
      apply Nat.div_unique with (S (length x) mod k - 1)%nat; lia. }
    rewrite Q, LE by lia. now rewrite app_nil_r.
Qed.

Lemma flat_st_snoc {St A B} (f : St -> A -> res (St * list B)) s l a :
  flat_st f s (l ++ [a]) = (let* (s1, y1) := flat_st f s l in let* (s2, y2) := f s1 a in Ok (s2, y1 ++ y2)).
Proof.
  rewrite flat_st_app. destruct (flat_st f s l) as [[s1 y1]| | |]; cbn [bind]; try reflexivity. cbn [flat_st].
  destruct (f s1 a) as [[s2 y2]| | |]; cbn [bind]; try reflexivity. now rewrite app_nil_r.
Qed.
Lemma run_quiet c x : cfg_ok c -> Forall (quiet c) (every_kth (e_K c) (0, 0) x) ->
  exists s y, egal_step c (egal_init c) x = Ok (s, y) /\ map fst y = every_kth (e_K c) (0, 0) x /\ inv c (length x) s.
Proof.
  intros OK. induction x as [|a x IH] using rev_ind; intros Q.
  - exists (egal_init c), []. split; [reflexivity|]. destruct OK as (O1 & O2 & O3). split; [unfold every_kth; cbn; rewrite Nat.div_0_l by lia; reflexivity|].
    split; [reflexivity|]. split; [intros D; cbn; now rewrite D|]. split; [apply init_ok; split; auto|]. cbn [s_cnt egal_init length]. rewrite Nat.mod_0_l by lia. destruct (1 <? e_K c)%nat; reflexivity.
  - pose proof OK as (O1 & O2 & O3). rewrite every_kth_snoc in * by exact O2. apply Forall_app in Q. destruct Q as [Q1 Q2]. destruct (IH Q1) as (s & y & E & Ey & I).
    destruct (one_quiet c (length x) s a OK I) as (s' & y' & E' & Ey' & I').
    + intros Z. rewrite Z in Q2. cbn [Nat.eqb] in Q2. inversion Q2. assumption.
    + exists s', (y ++ y'). unfold egal_step in *. rewrite flat_st_snoc, E. cbn [bind]. rewrite E'. cbn [bind]. split; [reflexivity|].
      rewrite map_app, Ey, Ey'. split; [reflexivity|]. rewrite app_length. cbn [length]. rewrite Nat.add_1_r. exact I'.
Qed.

(** ** Number of outputs *)
Lemma count c x s y : cfg_ok c -> egal_step c (egal_init c) x = Ok (s, y) -> length y = (length x / e_K c)%nat /\ s_cnt s = (if (1 <? e_K c)%nat then length x mod e_K c else 0)%nat /\ st_ok c s.
Proof.
  intros OK. pose proof OK as (O1 & O2 & O3). revert s y. induction x as [|a x IH] using rev_ind; intros s y E.
  - injection E as <- <-. cbn [length s_cnt egal_init]. rewrite Nat.div_0_l, Nat.mod_0_l by lia. split; [reflexivity|]. split; [destruct (1 <? e_K c)%nat; reflexivity|apply init_ok, OK].
  - unfold egal_step in *. rewrite flat_st_snoc in E. destruct (flat_st (egal_one c) (egal_init c) x) as [[s1 y1]| | |] eqn:E1; cbn [bind] in E; try discriminate E.
    destruct (IH s1 y1 eq_refl) as (Ly & Cn & SO). destruct (egal_one c s1 a) as [[s2 y2]| | |] eqn:E2; cbn [bind] in E; try discriminate E. injection E as <- <-.
    assert (SO2 : st_ok c s2) by (eapply one_ok; eassumption).
    rewrite !app_length. cbn [length]. rewrite Nat.add_1_r.
    assert (T : length y2 = (if S (length x) mod e_K c =? 0 then 1 else 0)%nat /\ s_cnt s2 = (if (1 <? e_K c)%nat then S (length x) mod e_K c else 0)%nat).
    { unfold egal_one in E2. cbv zeta in E2.
      set (cnt := (if (1 <? e_K c)%nat then ((s_cnt s1 + 1) mod (e_K c))%nat else s_cnt s1)) in E2.
      assert (CN : cnt = (if (1 <? e_K c)%nat then S (length x) mod e_K c else 0)%nat).
      { unfold cnt. rewrite Cn. destruct (1 <? e_K c)%nat; [|reflexivity]. rewrite Nat.add_mod_idemp_l by lia. f_equal. lia. }
      assert (SK : andb (1 <? e_K c)%nat (negb (cnt =? 0)%nat) = negb (S (length x) mod e_K c =? 0)%nat).
      { rewrite CN. destruct (Nat.ltb_spec 1 (e_K c)); [reflexivity|]. assert (e_K c = 1%nat) as -> by lia. rewrite Nat.mod_1_r. reflexivity. }
      rewrite SK in E2. destruct (Nat.eqb_spec (S (length x) mod e_K c) 0) as [Z|Z]; cbn [negb] in E2.
      - match type of E2 with bind ?X _ = _ => destruct X as [dec| | |] end; try discriminate E2. cbn [bind] in E2.
        destruct (e_cma c); injection E2 as <- <-; (split; [reflexivity|cbn [s_cnt]; rewrite CN; rewrite Z; reflexivity]).
      - injection E2 as <- <-. split; [reflexivity|cbn [s_cnt]; exact CN]. }
    destruct T as [T1 T2]. split; [|split; [exact T2|exact SO2]]. rewrite Ly, T1.
    destruct (Nat.eqb_spec (S (length x) mod e_K c) 0) as [Z|Z].
    + pose proof (Nat.div_mod (S (length x)) (e_K c) ltac:(lia)) as D. rewrite Z in D. set (q := (S (length x) / e_K c)%nat) in *. destruct q as [|q']; [lia|].
      assert (Q : (length x / e_K c = q')%nat) by (symmetry; apply Nat.div_unique with (e_K c - 1)%nat; nia). lia.
    + pose proof (Nat.div_mod (S (length x)) (e_K c) ltac:(lia)) as D. pose proof (Nat.mod_upper_bound (S (length x)) (e_K c) ltac:(lia)) as B.
      assert (length x / e_K c = S (length x) / e_K c)%nat; [|lia]. symmetry. apply Nat.div_unique with (S (length x) mod e_K c - 1)%nat; lia.
Qed.

(** ** Cauchy-Schwarz for real weights and complex samples *)
Definition rdot (z : C) (w : list C) : list R := map (fun p => fst p * fst z + snd p * snd z) w.
Definition sumsq (l : list R) : R := fold_right (fun a acc => a * a + acc) 0 l.
Lemma sumsq_pos l : 0 <= sumsq l.
Proof. induction l as [|a l IH]; cbn; [lra|]. pose proof (Rle_0_sqr a) as H. unfold Rsqr in H. unfold sumsq in IH. lra. Qed.
Lemma energy_pos w : 0 <= energy w.
Proof. induction w as [|a l IH]; [cbn; lra|]. change (0 <= mod2 a + energy l). assert (0 <= mod2 a) by (unfold mod2; pose proof (pow2_ge_0 (fst a)); pose proof (pow2_ge_0 (snd a)); lra). lra. Qed.
Lemma cs_step A B q r s N : 0 <= A -> 0 <= B -> 0 <= q -> s * s <= N * q -> N <= A * B -> 2 * r * s <= A * q + r * r * B.
Proof.
  intros HA HB Hq Hs HN. assert (s * s <= A * B * q) by nra.
  assert (X : 0 <= A * q + r * r * B) by (assert (0 <= r * r) by nra; nra).
  assert ((2 * r * s) * (2 * r * s) <= (A * q + r * r * B) * (A * q + r * r * B)).
  { assert (0 <= r * r) by nra. assert (Y : r * r * (s * s) <= r * r * (A * B * q)) by (apply Rmult_le_compat_l; assumption).
    pose proof (Rle_0_sqr (A * q - r * r * B)) as Z. unfold Rsqr in Z. replace (r * r * (A * B * q)) with ((A * q) * (r * r * B)) in Y by ring. set (p := A * q) in *. set (t := r * r * B) in *.
    replace (2 * r * s * (2 * r * s)) with (4 * (r * r * (s * s))) by ring. nra. }
  destruct (Rle_dec (2 * r * s) (A * q + r * r * B)) as [Y|Y]; [exact Y|]. nra.
Qed.
Lemma cauchy r (w : list C) : length r = length w -> mod2 (wsum r w) <= sumsq r * energy w.
Proof.
  revert w. induction r as [|x r IH]; intros [|z w] L; try discriminate L; [unfold mod2; cbn; lra|]. injection L as L. specialize (IH w L).
  unfold wsum in *. cbn [combine fold_right]. set (S := fold_right _ _ _) in *. destruct S as [a b]. destruct z as [u v]. unfold cplus, mod2 in *. cbn [fst snd] in *.
  cbn [sumsq fold_right energy]. fold (sumsq r) (energy w). unfold mod2. cbn [fst snd].
  assert (H0 : 0 <= u ^ 2 + v ^ 2) by (pose proof (pow2_ge_0 u); pose proof (pow2_ge_0 v); lra).
  assert (H1 : (a * u + b * v) * (a * u + b * v) <= (a ^ 2 + b ^ 2) * (u ^ 2 + v ^ 2)) by (pose proof (pow2_ge_0 (a * v - b * u)); lra).
  pose proof (cs_step (sumsq r) (energy w) (u ^ 2 + v ^ 2) x (a * u + b * v) (a ^ 2 + b ^ 2) (sumsq_pos r) (energy_pos w) H0 H1 IH) as H2.
  set (A := sumsq r) in *. set (E := energy w) in *. lra.
Qed.
Lemma wsum_adapt a z h (w : list C) : length h = length w -> wsum (adapt a z h w) w = cplus (wsum h w) (a * fst (wsum (rdot z w) w), a * snd (wsum (rdot z w) w)).
Proof.
  unfold wsum, adapt. revert w. induction h as [|x h IH]; intros [|y w] L; try discriminate L; [unfold cplus; cbn; f_equal; ring|]. injection L as L. cbn [combine map fold_right rdot].
  rewrite (IH w L). unfold rdot. unfold cplus. cbn [fst snd]. f_equal; ring.
Qed.
Lemma rdot_wsum z (w : list C) : fst z * fst (wsum (rdot z w) w) + snd z * snd (wsum (rdot z w) w) = sumsq (rdot z w).
Proof.
  unfold wsum. induction w as [|y w IH]; [cbn; ring|]. cbn [rdot map combine fold_right sumsq]. fold (rdot z w). fold (sumsq (rdot z w)). rewrite <- IH.
  unfold cplus. cbn [fst snd]. ring.
Qed.
