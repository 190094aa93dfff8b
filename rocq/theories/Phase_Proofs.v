(** Proofs about modulo and phase unwrapping (C40). *)
From Coq Require Import Reals Lra Lia.
From Verif Require Import Base BaseLemmas Phase_Model Phase_Spec.
Open Scope R_scope.

Lemma rfloor_bounds x : rfloor x <= x < rfloor x + 1.
Proof. unfold rfloor. destruct (base_Int_part x). lra. Qed.
Lemma rfloor_int x : exists k, rfloor x = IZR k.
Proof. eexists; reflexivity. Qed.
Lemma rtrunc_int x : exists k, rtrunc x = IZR k.
Proof.
  unfold rtrunc. destruct (Rle_dec 0 x); [apply rfloor_int|]. destruct (rfloor_int (- x)) as [k ->]. exists (- k)%Z. now rewrite opp_IZR.
Qed.
Lemma rtrunc_bounds x : Rabs (x - rtrunc x) < 1 /\ (0 <= x -> 0 <= x - rtrunc x) /\ (x <= 0 -> x - rtrunc x <= 0).
Proof.
  unfold rtrunc. destruct (Rle_dec 0 x) as [H|H].
  - pose proof (rfloor_bounds x). repeat split; [apply Rabs_def1; lra|lra|]. intros. assert (x = 0) by lra. subst x.
    assert (0 <= rfloor 0); [|lra]. unfold rfloor in *. apply IZR_le. assert (-1 < Int_part 0)%Z; [apply lt_IZR; lra|lia].
  - pose proof (rfloor_bounds (- x)). repeat split; [apply Rabs_def1; lra|lra|lra].
Qed.

Lemma modulo_spec x m : 0 < m -> 0 <= modulo x m < m /\ congruent m x (modulo x m).
Proof.
  intros Hm. unfold modulo. destruct (Req_EM_T m 0); [lra|]. pose proof (rfloor_bounds (x / m)) as [H1 H2].
  assert (E : x = m * (x / m)) by (field; lra).
  assert (B : 0 <= x - m * rfloor (x / m) < m).
  { split.
    - assert (m * rfloor (x / m) <= m * (x / m)) by (apply Rmult_le_compat_l; lra). lra.
    - assert (m * (x / m) < m * (rfloor (x / m) + 1)) by (apply Rmult_lt_compat_l; lra). lra. }
  destruct (Req_EM_T (x - m * rfloor (x / m)) m); [lra|]. split; [exact B|]. destruct (rfloor_int (x / m)) as [k Hk]. rewrite Hk. exists k. ring.
Qed.
Lemma modulo_neg x m : m < 0 -> m < modulo x m <= 0 /\ congruent m x (modulo x m).
Proof.
  intros Hm. unfold modulo. destruct (Req_EM_T m 0); [lra|]. pose proof (rfloor_bounds (x / m)) as [H1 H2].
  assert (E : x = m * (x / m)) by (field; lra).
  assert (B : m < x - m * rfloor (x / m) <= 0).
  { split.
    - assert (m * (rfloor (x / m) + 1) < m * (x / m)); [|lra]. apply Ropp_lt_cancel. rewrite !Ropp_mult_distr_l. apply Rmult_lt_compat_l; lra.
    - assert (m * (x / m) <= m * rfloor (x / m)); [|lra]. apply Ropp_le_cancel. rewrite !Ropp_mult_distr_l. apply Rmult_le_compat_l; lra. }
  destruct (Req_EM_T (x - m * rfloor (x / m)) m); [lra|]. split; [exact B|]. destruct (rfloor_int (x / m)) as [k Hk]. rewrite Hk. exists k. ring.
Qed.
Lemma congruent_unique m r r' : 0 < m -> 0 <= r < m -> 0 <= r' < m -> congruent m r r' -> r = r'.
Proof.
  intros Hm H1 H2 [k Hk]. assert (k = 0%Z); [|subst k; lra].
  assert (-1 < IZR k < 1).
  { split; apply (Rmult_lt_reg_r m); lra. }
  assert (-1 < k < 1)%Z; [|lia]. split; apply lt_IZR; lra.
Qed.

Lemma fmod_spec x r : 0 < r -> Rabs (fmod x r) < r /\ congruent r x (fmod x r).
Proof.
  intros Hr. unfold fmod. destruct (rtrunc_bounds (x / r)) as [B _]. split.
  - replace (x - r * rtrunc (x / r)) with (r * (x / r - rtrunc (x / r))) by (field; lra).
    rewrite Rabs_mult, (Rabs_pos_eq r) by lra. apply Rlt_le_trans with (r * 1); [apply Rmult_lt_compat_l; assumption|lra].
  - destruct (rtrunc_int (x / r)) as [k ->]. exists k. ring.
Qed.

Lemma congruent_refl m x : congruent m x x.
Proof. exists 0%Z. lra. Qed.
Lemma congruent_sym m x y : congruent m x y -> congruent m y x.
Proof. intros [k H]. exists (- k)%Z. rewrite opp_IZR. lra. Qed.
Lemma congruent_trans m x y z : congruent m x y -> congruent m y z -> congruent m x z.
Proof. intros [k H] [l H']. exists (k + l)%Z. rewrite plus_IZR. lra. Qed.

Lemma step_congruent r p x : 0 < r -> congruent r x (deplie_step r p x).
Proof.
  intros Hr. unfold deplie_step. destruct (fmod_spec (x - p) r Hr) as [_ [k Hk]]. set (d := fmod (x - p) r) in *.
  destruct (Rlt_dec (r / 2) d); [destruct (Rlt_dec (d - r) (- PI))|destruct (Rlt_dec d (- PI))].
  - exists k. lra.
  - exists (k + 1)%Z. rewrite plus_IZR. lra.
  - exists (k - 1)%Z. rewrite minus_IZR. lra.
  - exists k. lra.
Qed.
Lemma step_jump p x : Rabs (deplie_step (2 * PI) p x - p) <= PI.
Proof.
  pose proof PI_RGT_0. unfold deplie_step. destruct (fmod_spec (x - p) (2 * PI) ltac:(lra)) as [B _]. set (d := fmod (x - p) (2 * PI)) in *.
  apply Rabs_def2 in B. apply Rabs_le. 
  destruct (Rlt_dec (2 * PI / 2) d); [destruct (Rlt_dec (d - 2 * PI) (- PI))|destruct (Rlt_dec d (- PI))]; lra.
Qed.

Lemma deplie_from_length r x : forall p, length (deplie_from r p x) = length x.
Proof. induction x as [|a t IH]; intros p; cbn [deplie_from length]; [reflexivity|]. now rewrite IH. Qed.
Lemma deplie_from_congruent r x : 0 < r -> forall p, Forall2 (congruent r) x (deplie_from r p x).
Proof. intros Hr. induction x as [|a t IH]; intros p; cbn [deplie_from]; constructor; [apply step_congruent; exact Hr|apply IH]. Qed.
Lemma deplie_from_jumps x : forall p, jumps_within PI (p :: deplie_from (2 * PI) p x).
Proof.
  induction x as [|a t IH]; intros p; cbn [deplie_from]; [exact I|]. split; [apply step_jump|apply IH].
Qed.
Lemma small_congruent m x y : 0 < m -> congruent m x y -> Rabs (x - y) < m -> x = y.
Proof.
  intros Hm [k Hk] H. apply Rabs_def2 in H. rewrite Hk in H.
  assert (-1 < IZR k < 1) by (split; apply (Rmult_lt_reg_r m); lra).
  assert (k = 0)%Z; [|subst k; lra]. assert (-1 < k < 1)%Z; [|lia]. split; apply lt_IZR; lra.
Qed.
(** unwrapping a wrapped slow phase *)
Lemma deplie_from_slow phi : forall c f0 x, slow PI (f0 :: phi) -> Forall2 (congruent (2 * PI)) x phi -> congruent (2 * PI) c 0 ->
  deplie_from (2 * PI) (f0 + c) x = map (fun f => f + c) phi.
Proof.
  pose proof PI_RGT_0 as Hpi. induction phi as [|f t IH]; intros c f0 x Hs Hx Hc; inversion Hx; subst; cbn [deplie_from map]; [reflexivity|].
  assert (E : deplie_step (2 * PI) (f0 + c) x0 = f + c).
  { apply (small_congruent (2 * PI)); [lra| |].
    - apply congruent_trans with x0; [apply congruent_sym, step_congruent; lra|].
      apply congruent_trans with f; [assumption|]. destruct Hc as [k Hk]. exists (- k)%Z. rewrite opp_IZR. lra.
    - pose proof (step_jump (f0 + c) x0) as J. destruct Hs as [Hs _].
      replace (deplie_step (2 * PI) (f0 + c) x0 - (f + c)) with ((deplie_step (2 * PI) (f0 + c) x0 - (f0 + c)) + (f0 - f)) by ring.
      eapply Rle_lt_trans; [apply Rabs_triang|]. rewrite (Rabs_minus_sym f0 f). lra. }
  rewrite E. f_equal. apply IH; [apply Hs|assumption|exact Hc].
Qed.
(** other ranges *)
Lemma rtrunc_small x : Rabs x < 1 -> rtrunc x = 0.
Proof.
  intros H. apply Rabs_def2 in H. unfold rtrunc. destruct (Rle_dec 0 x).
  - pose proof (rfloor_bounds x). unfold rfloor in *. assert (Int_part x = 0)%Z as ->; [|reflexivity].
    assert (-1 < Int_part x < 1)%Z; [|lia]. split; apply lt_IZR; lra.
  - pose proof (rfloor_bounds (- x)). unfold rfloor in *. assert (Int_part (- x) = 0)%Z as ->; [|simpl; lra].
    assert (-1 < Int_part (- x) < 1)%Z; [|lia]. split; apply lt_IZR; lra.
Qed.
Lemma fmod_small x r : 0 < r -> Rabs x < r -> fmod x r = x.
Proof.
  intros Hr H. unfold fmod. rewrite rtrunc_small; [ring|]. unfold Rdiv. rewrite Rabs_mult, Rabs_inv, (Rabs_pos_eq r) by lra.
  apply (Rmult_lt_reg_r r); [exact Hr|]. rewrite Rmult_assoc, Rinv_l, Rmult_1_r, Rmult_1_l by lra. exact H.
Qed.
Lemma other_range r : 0 < r -> r <> 2 * PI -> exists a, Rabs (deplie_step r 0 a) > r / 2.
Proof.
  intros Hr Hn. pose proof PI_RGT_0 as Hpi. destruct (Rlt_dec r (2 * PI)) as [H|H].
  - set (c := (r / 2 + Rmin r PI) / 2). pose proof (Rmin_l r PI). pose proof (Rmin_r r PI).
    assert (r / 2 < Rmin r PI) by (apply Rmin_glb_lt; lra). assert (Hc : r / 2 < c < Rmin r PI) by (unfold c; lra).
    exists (- c). unfold deplie_step. rewrite fmod_small; [|lra|apply Rabs_def1; lra].
    destruct (Rlt_dec (r / 2) (- c - 0)); [lra|]. destruct (Rlt_dec (- c - 0) (- PI)); [lra|].
    rewrite Rabs_left; lra.
  - assert (2 * PI < r) by lra. set (c := (PI + r / 2) / 2). assert (Hc : PI < c < r / 2) by (unfold c; lra).
    exists (- c). unfold deplie_step. rewrite fmod_small; [|lra|apply Rabs_def1; lra].
    destruct (Rlt_dec (r / 2) (- c - 0)); [lra|]. destruct (Rlt_dec (- c - 0) (- PI)); [|lra].
    rewrite Rabs_right; lra.
Qed.
