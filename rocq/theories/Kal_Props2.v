(** C81, continued: each observation can only help; argument checks; degenerate gain. *)
From Coq Require Import List Arith Lia Bool Reals Lra FunctionalExtensionality.
From Verif Require Import Base BaseLemmas Kal_Model Kal_Alg Kal_Spec Kal_Proofs Kal_Proofs2 Kal_Proofs3 Kal_Proofs4
  Kal_Proofs5 Kal_Props.
Import ListNotations.
Local Open Scope R_scope.

(** Variance of the combination sum v_i x_i of the states after a step: at most the variance predicted without the
    observation (A P A^T + Q).  With Q = 0 and A = I the uncertainty never grows. *)
Theorem C81_observation_helps :
  forall inv m s y u v,
  inverts inv -> wf_lin m -> (0 < no m)%nat -> pos_semi (ns m) (mQ m) -> pos_def (no m) (mR m) ->
  dims (ns m) 1 (etat s) -> dims (ns m) (ns m) (cov s) -> pos_semi (ns m) (cov s) ->
  dims (no m) 1 y -> dims (ni m) 1 u ->
  exists s' x, kal_step inv m s (y, u) = Ok (s', x) /\
    quad (ns m) (cov s') v
    <= quad (ns m) (cov s) (fun j => sg (ns m) (fun i => el (mA m) i j * v i)) + quad (ns m) (mQ m) v.
Proof.
  intros inv m s y u v Hi Hwf Hno HQ HR Dx Dp PP Dy Du. destruct s as [x p]. cbn [etat cov] in *.
  destruct (dims_eq _ _ _ Dx) as [Ex Sx], (dims_eq _ _ _ Dp) as [Ep Sp], (dims_eq _ _ _ Dy) as [Ey Sy],
    (dims_eq _ _ _ Du) as [Eu Su].
  pose proof (pos_semi_psd _ _ PP) as Pp.
  destruct (kal_step_eq inv Hi m (el p) (el x) (el y) (el u) Hwf Hno HQ HR Sp Pp Sx Sy Su) as [E _].
  rewrite Ex, Ep, Ey, Eu. cbn [el]. eexists; eexists; split; [exact E|]. cbn [cov].
  change (qf (ns m) (Pnext inv m (el p)) v
    <= qf (ns m) (el p) (fun j => sg (ns m) (fun i => el (mA m) i j * v i)) + qf (ns m) (el (mQ m)) v).
  rewrite <- qf_cong, <- qf_ma.
  apply (post_le inv Hi); try assumption.
  - apply (dims_eq _ _ _ (wf_A _ Hwf)).
  - apply (dims_eq _ _ _ (wf_C _ Hwf)).
  - apply (dims_eq _ _ _ (wf_Q _ Hwf)).
  - apply (dims_eq _ _ _ (wf_R _ Hwf)).
  - apply pos_semi_psd, HQ.
  - apply pos_def_pd; [apply (wf_R _ Hwf)|exact HR].
Qed.
Print Assumptions C81_observation_helps.

(** Initial values: defaults when absent, error when they do not have the dimensions of the model. *)
Theorem C81_initial :
  forall m x0 p0,
  kal_init m x0 p0 =
    (if (rows x0 =? 0)%nat || (rows x0 =? ns m)%nat then
       if (rows p0 =? 0)%nat || ((rows p0 =? ns m)%nat && (cols p0 =? ns m)%nat) then
         Ok (Kst (if (rows x0 =? 0)%nat then colv (ns m) (fun _ => 0) else x0)
                 (if (rows p0 =? 0)%nat then mk (ns m) (ns m) (fun i j => if (i =? j)%nat then 1 else 0) else p0))
       else Exc
     else Exc).
Proof.
  intros m x0 p0. unfold kal_init. destruct (rows x0 =? 0)%nat eqn:X, (rows p0 =? 0)%nat eqn:P; cbn [orb].
  - cbn [rows cols mzeros meye mk]. rewrite !Nat.eqb_refl. reflexivity.
  - cbn [rows cols mzeros mk]. rewrite Nat.eqb_refl. cbn [negb].
    destruct ((rows p0 =? ns m)%nat && (cols p0 =? ns m)%nat); reflexivity.
  - cbn [rows cols meye mk]. rewrite !Nat.eqb_refl. destruct (rows x0 =? ns m)%nat; reflexivity.
  - destruct (rows x0 =? ns m)%nat; cbn [negb]; [|reflexivity].
    destruct ((rows p0 =? ns m)%nat && (cols p0 =? ns m)%nat); reflexivity.
Qed.
Print Assumptions C81_initial.

(** Inputs whose dimensions do not match are rejected by the filter and by the simulator; a model whose matrices do
    not match is rejected when it is built. *)
Theorem C81_rejects :
  (forall nst nin step s y u,
     rows u <> nin \/ ((0 < nin)%nat /\ cols u <> cols y) -> filt_steps nst nin step s y u = Exc) /\
  (forall m n cur x0 vin V W,
     ((0 < rows x0)%nat /\ rows x0 <> ns m) \/ ((0 < rows vin)%nat /\ (rows vin <> ni m \/ cols vin <> n)) ->
     sim_steps m n cur x0 vin V W = Exc) /\
  (forall a c b d, rows a <> cols a \/ cols c <> cols a -> ssm_lineaire a c b d = Exc).
Proof.
  split; [|split].
  - intros nst nin step s y u H. unfold filt_steps.
    destruct (rows u =? nin)%nat eqn:E; [|reflexivity]. apply Nat.eqb_eq in E. cbn [negb].
    destruct H as [H|[H1 H2]]; [contradiction|].
    apply Nat.eqb_neq in H2. apply Nat.ltb_lt in H1. rewrite H1, H2. reflexivity.
  - intros m n cur x0 vin V W H. unfold sim_steps, sim_init, sim_input.
    destruct ((0 <? rows x0)%nat && negb (rows x0 =? ns m)%nat) eqn:E; [reflexivity|]. cbn [bind].
    destruct H as [[H1 H2]|[H1 H2]].
    + apply Nat.ltb_lt in H1. apply Nat.eqb_neq in H2. rewrite H1, H2 in E. discriminate.
    + apply Nat.ltb_lt in H1. rewrite H1.
      destruct H2 as [H2|H2]; apply Nat.eqb_neq in H2; rewrite H2, ?orb_true_r; reflexivity.
  - intros a c b d H. unfold ssm_lineaire.
    destruct (cols a =? rows a)%nat eqn:E; [|reflexivity]. apply Nat.eqb_eq in E. cbn [negb].
    destruct H as [H|H]; [congruence|].
    replace (cols a =? cols c)%nat with false by (symmetry; apply Nat.eqb_neq; congruence). reflexivity.
Qed.
Print Assumptions C81_rejects.

(** Without process noise the steady-state gain is null, whatever the other matrices. *)
Theorem C81_ssg_null :
  forall inv m tol k, (forall i j, (i < rows (mQ m))%nat -> (j < cols (mQ m))%nat -> el (mQ m) i j = 0) ->
  kalman_ssg inv m tol k = Ok (mk (ns m) (no m) (fun _ _ => 0)).
Proof.
  intros inv m tol k H. unfold kalman_ssg.
  replace (est_nul (mQ m)) with true; [reflexivity|]. symmetry. unfold est_nul.
  apply forallb_forall. intros i Hi. apply forallb_forall. intros j Hj. apply in_seq in Hi, Hj.
  rewrite H by lia. destruct (Req_EM_T 0 0); [reflexivity|congruence].
Qed.
Print Assumptions C81_ssg_null.

(** Perfect knowledge of the state and no noise at all: the gain is the inverse of C, so that the estimate is the state
    which explains the observation. *)
Theorem C81_perfect_observation :
  forall inv n c N, inverts inv -> inverse_of n (el c) N -> dims n n c ->
  forall q r, dims n n q -> dims n n r ->
  (forall i j, (i < n)%nat -> (j < n)%nat -> el q i j = 0) -> (forall i j, (i < n)%nat -> (j < n)%nat -> el r i j = 0) ->
  exists k, kal_gain inv c r q = Ok k /\ dims n n k /\ forall i j, (i < n)%nat -> (j < n)%nat -> el k i j = N i j.
Proof.
  intros inv n c N Hi HN (Rc & Cc & Sc) q r (Rq & Cq & _) (Rr & Cr & _) Zq Zr. unfold kal_gain.
  assert (Z : forall a, rows a = n -> cols a = n -> (forall i j, (i < n)%nat -> (j < n)%nat -> el a i j = 0) -> est_nul a = true).
  { intros a R C H. unfold est_nul. rewrite R, C.
    apply forallb_forall. intros i Hii. apply forallb_forall. intros j Hj. apply in_seq in Hii, Hj.
    rewrite H by lia. destruct (Req_EM_T 0 0); [reflexivity|congruence]. }
  rewrite (Z q), (Z r) by assumption. cbn [andb]. unfold minv. rewrite Rc, Cc, Nat.eqb_refl.
  eexists. split; [reflexivity|]. split; [repeat split; apply cut_supp|].
  intros i j Hii Hj. cbn [el mk]. rewrite cut_in by assumption. apply Hi; assumption.
Qed.
Print Assumptions C81_perfect_observation.

(** ** Non-vacuity: one step of the random walk from covariance 1: 2/3 <= 2. *)
Example C81_observation_helps_nonvacuous :
  forall inv, inverts inv -> exists s' x,
    kal_step inv walk (Kst (colv 1 (fun _ => 0)) (meye 1)) (colv 1 (fun _ => 3), mzeros 0 1) = Ok (s', x) /\
    quad 1 (cov s') (fun _ => 1) <= 2.
Proof.
  intros inv Hi.
  assert (PS : pos_semi 1 (meye 1)).
  { split.
    - intros i j. exact (f_equal (fun f : mx => f i j) (eq_sym (mt_m1 1))).
    - intros v. cbn. nra. }
  assert (PD : pos_def 1 (meye 1)).
  { split; [apply PS|]. intros v (i & Hii & Hv). assert (i = 0%nat) by lia; subst i. cbn.
    assert (0 < v 0%nat * v 0%nat) by nra. lra. }
  destruct (C81_observation_helps inv walk (Kst (colv 1 (fun _ => 0)) (meye 1)) (colv 1 (fun _ => 3)) (mzeros 0 1)
    (fun _ => 1) Hi walk_wf) as (s' & x & E & L); cbn; try lia; try assumption;
    try (repeat split; apply cut_supp).
  exists s', x. split; [exact E|]. cbn in L. lra.
Qed.
