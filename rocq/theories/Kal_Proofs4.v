(** Exact tracking, whole-sequence processing, extended filter, Riccati iteration, simulator. *)
From Coq Require Import List Arith Lia Bool Reals Lra FunctionalExtensionality.
From Verif Require Import Base BaseLemmas Kal_Model Kal_Alg Kal_Spec Kal_Proofs Kal_Proofs2 Kal_Proofs3.
Import ListNotations.
Local Open Scope R_scope.

(** ** Run without any hypothesis on the noises *)
Section Det.
Variable inv : nat -> mx -> mx.
Hypothesis Hinv : inverts inv.
Context {Om : Type}.
Variables (m : lin) (y : nat -> Om -> nat -> R) (u : nat -> nat -> R) (x0 p0 : mat).
Hypothesis Hwf : wf_lin m.
Hypothesis Hno : (0 < no m)%nat.
Hypothesis HQ : pos_semi (ns m) (mQ m).
Hypothesis HR : pos_def (no m) (mR m).
Hypothesis Hx0 : dims (ns m) 1 x0.
Hypothesis Hp0 : dims (ns m) (ns m) p0.
Hypothesis PP0 : pos_semi (ns m) p0.

Lemma Ps_ok t : supp (ns m) (ns m) (Ps inv m p0 t) /\ psd (ns m) (Ps inv m p0 t).
Proof.
  assert (EP : Ps inv m p0 t = Pseq inv m (el p0) t) by (induction t as [|t IH]; cbn; [|rewrite IH]; reflexivity).
  rewrite EP. apply (Pseq_ok inv Hinv m Hwf HQ HR); [apply (dims_eq _ _ _ Hp0)|apply pos_semi_psd, PP0].
Qed.

Lemma run_det t o : map_st (kal_step inv m) (Kst x0 p0) (feed m y u t o)
  = Ok (Kst (Mat (ns m) 1 (xh inv m y u x0 p0 t o)) (Mat (ns m) (ns m) (Ps inv m p0 t)),
        map (fun s => Mat (ns m) 1 (xh inv m y u x0 p0 s o)) (seq 1 t))
  /\ supp (ns m) 1 (xh inv m y u x0 p0 t o).
Proof.
  induction t as [|t [IH Sx]].
  - cbn. destruct (dims_eq _ _ _ Hx0) as [Ex S0], (dims_eq _ _ _ Hp0) as [Ep _].
    rewrite <- Ex, <- Ep. split; [reflexivity|exact S0].
  - destruct (Ps_ok t) as [SP PP].
    destruct (kal_step_eq inv Hinv m (Ps inv m p0 t) (xh inv m y u x0 p0 t o) (cl (no m) (y (S t) o))
      (cl (ni m) (u (S t))) Hwf Hno HQ HR SP PP Sx (cl_supp _ _) (cl_supp _ _)) as [Es Sx'].
    split; [|exact Sx'].
    unfold feed. rewrite seq_S, !map_app. rewrite map_st_app. fold (feed m y u t o). rewrite IH. cbn [bind map].
    cbn [map_st].
    change (colv (no m) (y (1 + t)%nat o)) with (Mat (no m) 1 (cl (no m) (y (S t) o))).
    change (colv (ni m) (u (1 + t)%nat)) with (Mat (ni m) 1 (cl (ni m) (u (S t)))).
    rewrite Es. cbn [bind]. reflexivity.
Qed.

(** Without noise and from the exact initial state, the estimates are the states. *)
Lemma tracking (x : nat -> Om -> nat -> R) :
  follows m x y u (fun _ _ _ => 0) (fun _ _ _ => 0) ->
  (forall o i, (i < ns m)%nat -> el x0 i 0%nat = x 0%nat o i) ->
  forall t o, xh inv m y u x0 p0 t o = cl (ns m) (x t o).
Proof.
  intros Hf H0 t o.
  assert (Z : e inv m x y u x0 p0 t o = m0).
  { induction t as [|t IH].
    - apply (supp_ext (ns m) 1); [|apply m0_supp|].
      + apply ms_supp; [apply cl_supp|apply (dims_eq _ _ _ Hx0)].
      + intros i j Hi Hj. assert (j = 0%nat) by lia; subst j. unfold e, ms, X, m0. cbn [xh].
        rewrite cl_in, (H0 o) by exact Hi. ring.
    - rewrite (e_rec inv m x y u (fun _ _ _ => 0) (fun _ _ _ => 0) x0 p0 Hwf Hno Hf t o).
      2:{ rewrite IH; apply m0_supp. }
      assert (Z0 : forall r, cl r (fun _ => 0) = m0).
      { intros r; apply (supp_ext r 1); [apply cl_supp|apply m0_supp|].
        intros i j Hi Hj; unfold cl; rewrite cut_in by assumption; reflexivity. }
      unfold pe, V, W. rewrite IH, !Z0, mm_0, ma_0, !mm_0. apply ms_0. }
  apply (f_equal (fun a => ms (cl (ns m) (x t o)) a)) in Z. unfold e, X in Z.
  assert (Q1 : ms (cl (ns m) (x t o)) (ms (cl (ns m) (x t o)) (xh inv m y u x0 p0 t o)) = xh inv m y u x0 p0 t o)
    by (apply mx_ext; intros; unfold ms; ring).
  rewrite Q1 in Z. rewrite Z. apply mx_ext; intros; unfold ms, m0; ring.
Qed.
End Det.

(** ** Whole sequences *)
Lemma hcat_col r l j i : (i < r)%nat -> (j < length l)%nat -> el (hcat r l) i j = el (nth j l mempty) i 0%nat.
Proof. intros Hi Hj; unfold hcat, mk; cbn [el]; rewrite cut_in by assumption; reflexivity. Qed.

Lemma mcol_ext a b j : rows a = rows b -> (forall i, (i < rows a)%nat -> el a i j = el b i j) -> mcol a j = mcol b j.
Proof. intros R H; unfold mcol; rewrite <- R; apply mk_ext; intros; apply H; assumption. Qed.

(** ** Extended filter *)
Lemma ekf_identity inv m s y u : mB m = mempty -> mD m = mempty -> mC m = meye (ns m) ->
  dims (ns m) (ns m) (mA m) -> dims (ns m) (ns m) (mQ m) -> dims (ns m) (ns m) (mR m) ->
  dims (ns m) 1 (etat s) -> dims (ns m) (ns m) (cov s) ->
  ekf_step inv (nlin_of m) s (y, u) = kal_step inv m s (y, u).
Proof.
  intros EB ED EC DA DQ DR Dx DP. unfold ekf_step, kal_step, nlin_of. cbn [nf ng nJf nJg nQ nR ns'].
  destruct (dims_eq _ _ _ DA) as [EA SA]. destruct (dims_eq _ _ _ DQ) as [EQ SQ].
  destruct (dims_eq _ _ _ DR) as [ER SR]. destruct (dims_eq _ _ _ Dx) as [Ex Sx]. destruct (dims_eq _ _ _ DP) as [EP SP].
  rewrite EB, ED. cbn [rows mempty mk Nat.ltb Nat.leb].
  set (n := ns m) in *.
  rewrite EA, Ex, EP, EQ. rewrite mprod_eq by sp. cbn [bind]. rewrite EC, meye_eq. rewrite mprod_eq by sp. cbn [bind].
  rewrite mtr_eq by sp. rewrite mprod_eq by sp. cbn [bind]. rewrite mprod_eq by sp. cbn [bind].
  rewrite madd_eq by sp. cbn [bind].
  set (pm := ma _ _).
  assert (Spm : supp n n pm) by (unfold pm; sp).
  assert (G : ekf_gain inv (Mat n n (m1 n)) (mR m) (Mat n n pm) = kal_gain inv (Mat n n (m1 n)) (mR m) (Mat n n pm)).
  { unfold ekf_gain, kal_gain. rewrite mtr_eq by sp. rewrite mt_m1.
    destruct (est_nul (Mat n n pm) && est_nul (mR m)); [reflexivity|].
    rewrite mprod_eq by sp. cbn [bind]. rewrite (mm_1_r n n) by sp.
    rewrite ER. rewrite madd_eq by sp. cbn [bind]. rewrite mprod_eq by sp. cbn [bind].
    rewrite mprod_eq by sp. cbn [bind]. rewrite !(mm_1_l n n) by sp. rewrite madd_eq by sp. reflexivity. }
  rewrite G. reflexivity.
Qed.

(** With different numbers of states and observations the extended filter cannot make a step. *)
Lemma ekf_dims inv m s y u xm yth :
  ns' m <> no' m -> dims (ns' m) (ns' m) (nJf m (etat s)) -> nf m (etat s) = Ok xm -> ng m xm = Ok yth ->
  dims (no' m) (ns' m) (nJg m xm) -> dims (ns' m) (ns' m) (nQ m) -> dims (no' m) (no' m) (nR m) ->
  dims (ns' m) (ns' m) (cov s) ->
  ekf_step inv m s (y, u) = Exc \/ ekf_step inv m s (y, u) = UB.
Proof.
  intros N DA Ef Eg DC DQ DR DP. unfold ekf_step.
  destruct (dims_eq _ _ _ DA) as [EA SA]. destruct (dims_eq _ _ _ DQ) as [EQ SQ].
  destruct (dims_eq _ _ _ DR) as [ER SR]. destruct (dims_eq _ _ _ DC) as [EC SC]. destruct (dims_eq _ _ _ DP) as [EP SP].
  cbv zeta. rewrite Ef. cbn [bind]. rewrite Eg. cbn [bind].
  rewrite EA, EP, EQ. rewrite mtr_eq by sp. rewrite mprod_eq by sp. cbn [bind]. rewrite mprod_eq by sp. cbn [bind].
  rewrite madd_eq by sp. cbn [bind].
  set (pm := ma _ _). assert (Spm : supp (ns' m) (ns' m) pm) by (unfold pm; sp).
  unfold ekf_gain. rewrite EC, mtr_eq by sp.
  destruct (_ && _).
  - right. unfold minv. cbn [rows cols]. apply Nat.eqb_neq in N. rewrite N. reflexivity.
  - left. rewrite mprod_eq by sp. cbn [bind]. rewrite ER. unfold madd, mbin, same_dims. cbn [rows cols].
    apply Nat.eqb_neq in N. rewrite N. reflexivity.
Qed.

(** ** A model without covariance matrices *)
Lemma no_cov inv m x P y u : mB m = mempty -> mD m = mempty -> mQ m = mempty -> (0 < ns m)%nat ->
  dims (ns m) (ns m) (mA m) -> dims (no m) (ns m) (mC m) -> dims (ns m) 1 x -> dims (ns m) (ns m) P ->
  kal_step inv m (Kst x P) (y, u) = Exc.
Proof.
  intros EB ED EQ Hn DA DC Dx DP. unfold kal_step. cbn [etat cov].
  destruct (dims_eq _ _ _ DA) as [EA SA]. destruct (dims_eq _ _ _ DC) as [EC SC].
  destruct (dims_eq _ _ _ Dx) as [Ex Sx]. destruct (dims_eq _ _ _ DP) as [EP SP].
  rewrite EB, ED, EQ. cbn [rows mempty mk Nat.ltb Nat.leb].
  rewrite EA, EC, Ex, EP. rewrite mprod_eq by sp. cbn [bind]. rewrite mprod_eq by sp. cbn [bind].
  rewrite mtr_eq by sp. rewrite mprod_eq by sp. cbn [bind]. rewrite mprod_eq by sp. cbn [bind].
  unfold madd, mbin, same_dims. cbn [rows cols mempty mk]. destruct (ns m); [lia|reflexivity].
Qed.

(** ** Riccati iteration, scalar case *)
Definition ricc (a c q r P : R) : R := a * P * a - a * P * c * / (r + c * P * c) * c * P * a + q.

Lemma dare_iter_s inv a c q r P : inverts inv -> r + c * P * c <> 0 ->
  dare_iter inv (s11 a) (s11 c) (s11 q) (s11 r) (s11 P) = Ok (s11 (ricc a c q r P)).
Proof.
  intros H N. unfold dare_iter, mmul_elt, madd, msub. rewrite !s11_tr.
  repeat (rewrite s11_bin; cbn [bind]).
  rewrite s11_inv by assumption; cbn [bind].
  repeat (rewrite s11_bin; cbn [bind]). reflexivity.
Qed.

Lemma ricc_simpl a c q r P : r + c * P * c <> 0 -> ricc a c q r P = a * a * (r * P) * / (r + c * P * c) + q.
Proof. intros N; unfold ricc. field. exact N. Qed.

Lemma ricc_pos a c q r P : 0 <= q -> 0 < r -> 0 <= P -> 0 <= ricc a c q r P.
Proof.
  intros Hq Hr HP. assert (N : 0 < r + c * P * c) by nra. rewrite ricc_simpl by lra.
  assert (0 < / (r + c * P * c)) by (apply Rinv_0_lt_compat, N).
  assert (0 <= a * a * (r * P)) by (apply Rmult_le_pos; [nra|apply Rmult_le_pos; lra]). nra.
Qed.

Lemma ricc_lip a c q r P1 P2 : 0 < r -> 0 <= P1 -> 0 <= P2 ->
  Rabs (ricc a c q r P1 - ricc a c q r P2) <= a * a * Rabs (P1 - P2).
Proof.
  intros Hr H1 H2. assert (N1 : r <= r + c * P1 * c) by nra. assert (N2 : r <= r + c * P2 * c) by nra.
  rewrite !ricc_simpl by lra.
  replace (a * a * (r * P1) * / (r + c * P1 * c) + q - (a * a * (r * P2) * / (r + c * P2 * c) + q))
    with (a * a * (P1 - P2) * ((r * / (r + c * P1 * c)) * (r * / (r + c * P2 * c)))) by (field; lra).
  rewrite Rabs_mult. rewrite Rabs_mult. rewrite (Rabs_right (a * a)) by nra.
  assert (B1 : 0 <= r * / (r + c * P1 * c) <= 1).
  { split; [left; apply Rmult_lt_0_compat; [lra|apply Rinv_0_lt_compat; lra]|].
    apply (Rmult_le_reg_r (r + c * P1 * c)); [lra|]. rewrite Rmult_assoc, Rinv_l by lra. lra. }
  assert (B2 : 0 <= r * / (r + c * P2 * c) <= 1).
  { split; [left; apply Rmult_lt_0_compat; [lra|apply Rinv_0_lt_compat; lra]|].
    apply (Rmult_le_reg_r (r + c * P2 * c)); [lra|]. rewrite Rmult_assoc, Rinv_l by lra. lra. }
  set (b1 := r * / (r + c * P1 * c)) in *. set (b2 := r * / (r + c * P2 * c)) in *.
  rewrite (Rabs_right (b1 * b2)) by nra.
  assert (0 <= Rabs (P1 - P2)) by apply Rabs_pos.
  assert (0 <= a * a * Rabs (P1 - P2)) by (apply Rmult_le_pos; [nra|assumption]).
  assert (b1 * b2 <= 1) by nra. nra.
Qed.

Lemma maxdiff_s a b : maxdiff (s11 a) (s11 b) = Rabs (a - b).
Proof. cbn. apply Rmax_left. apply Rabs_pos. Qed.

Lemma dare_loop_s inv a c q r tol : inverts inv -> 0 <= q -> 0 < r -> forall k P d, 0 <= P ->
  exists P' d', dare_loop inv (s11 a) (s11 c) (s11 q) (s11 r) tol k (s11 P) d = Ok (s11 P', d') /\ 0 <= P' /\
    ((k = 0%nat /\ P' = P /\ d' = d) \/ exists P1, 0 <= P1 /\ P' = ricc a c q r P1 /\ d' = Rabs (P' - P1)).
Proof.
  intros Hi Hq Hr; induction k as [|k IH]; intros P d HP.
  - exists P, d. split; [reflexivity|]. split; [exact HP|left; auto].
  - cbn [dare_loop]. assert (N : 0 < r + c * P * c) by nra.
    rewrite dare_iter_s by (assumption || lra). cbn [bind]. unfold msub. rewrite s11_bin. cbn [bind].
    rewrite maxdiff_s. set (P2 := ricc a c q r P).
    assert (H2 : 0 <= P2) by (apply ricc_pos; assumption).
    destruct (Rlt_dec (Rabs (P2 - P)) tol) as [L|L].
    + exists P2, (Rabs (P2 - P)). split; [reflexivity|]. split; [exact H2|]. right; exists P; auto.
    + destruct (IH P2 (Rabs (P2 - P)) H2) as (P' & d' & E & HP' & C).
      exists P', d'. split; [exact E|]. split; [exact HP'|]. right.
      destruct C as [(_ & -> & ->)|C]; [exists P; auto|exact C].
Qed.

Lemma dare_s inv a c q r tol k : inverts inv -> 0 <= q -> 0 < r -> (0 < k)%nat ->
  exists P d, dare inv (s11 a) (s11 c) (s11 q) (s11 r) tol k = Ok (s11 P, d) /\ 0 <= P /\
    Rabs (P - ricc a c q r P) <= a * a * d.
Proof.
  intros Hi Hq Hr Hk. unfold dare. rewrite s11_inv by (assumption || lra). cbn [bind].
  destruct (dare_loop_s inv a c q r tol Hi Hq Hr k q 0 Hq) as (P & d & E & HP & C).
  exists P, d. split; [exact E|]. split; [exact HP|].
  destruct C as [(K & _)|(P1 & H1 & E1 & Ed)]; [lia|].
  rewrite Ed. rewrite E1 at 1. rewrite (Rabs_minus_sym P P1). apply ricc_lip; assumption.
Qed.

Lemma ssg_s inv a c q r tol k : inverts inv -> 0 < q -> 0 < r -> c <> 0 -> (0 < k)%nat ->
  exists P d, dare inv (s11 a) (s11 c) (s11 q) (s11 r) tol k = Ok (s11 P, d) /\
    kalman_ssg inv (scal a c q r) tol k = Ok (s11 (P * / (c * (r + c * (P * c))))).
Proof.
  intros Hi Hq Hr Hc Hk. destruct (dare_s inv a c q r tol k Hi (Rlt_le _ _ Hq) Hr Hk) as (P & d & E & HP & _).
  exists P, d; split; [exact E|]. unfold kalman_ssg. cbn [mA mC mQ mR scal].
  rewrite s11_nul. destruct (Req_EM_T q 0) as [Z|_]; [lra|]. rewrite !s11_tr, E. cbn [bind].
  rewrite s11_prod; cbn [bind]. rewrite s11_prod; cbn [bind]. unfold madd; rewrite s11_bin; cbn [bind].
  rewrite s11_prod; cbn [bind]. assert (0 < r + c * (P * c)) by nra.
  rewrite s11_inv; [|exact Hi|apply Rmult_integral_contrapositive_currified; lra]. cbn [bind]. apply s11_prod.
Qed.

Definition had (a b : mx) : mx := fun i j => a i j * b i j.
Lemma elt_ok r c a b : supp r c a -> mmul_elt (Mat r c a) (Mat r c b) = Ok (Mat r c (had a b)) /\ supp r c (had a b).
Proof.
  intros Ha. assert (S : supp r c (had a b)) by (intros i j H; unfold had; rewrite Ha by exact H; ring).
  split; [|exact S]. unfold mmul_elt, mbin. rewrite same_refl. cbn [rows cols el].
  change (fun i j => a i j * b i j) with (had a b). rewrite mk_id by exact S. reflexivity.
Qed.

Lemma ssg_dims inv m tol k : ns m <> no m -> (0 < k)%nat ->
  dims (ns m) (ns m) (mA m) -> dims (no m) (ns m) (mC m) -> dims (ns m) (ns m) (mQ m) -> dims (no m) (no m) (mR m) ->
  est_nul (mQ m) = false -> kalman_ssg inv m tol k = Exc.
Proof.
  intros N Hk DA DC DQ DR Z. unfold kalman_ssg. rewrite Z.
  destruct (dims_eq _ _ _ DA) as [EA SA]. destruct (dims_eq _ _ _ DC) as [EC SC].
  destruct (dims_eq _ _ _ DQ) as [EQ SQ]. destruct (dims_eq _ _ _ DR) as [ER SR].
  unfold dare. rewrite ER. unfold minv at 1. cbn [rows cols]. rewrite Nat.eqb_refl. cbn [bind].
  destruct k as [|k]; [lia|]. cbn [dare_loop]. unfold dare_iter. rewrite EA, EC, EQ.
  rewrite !mtr_eq by sp. cbv zeta.
  rewrite !mt_mt.
  destruct (elt_ok (ns m) (ns m) (el (mA m)) (el (mQ m)) SA) as [E1 S1]. rewrite E1. cbn [bind].
  destruct (elt_ok (ns m) (ns m) _ (mt (el (mA m))) S1) as [E2 S2]. rewrite E2. cbn [bind].
  unfold mmul_elt at 1. unfold mbin at 1. unfold same_dims. cbn [rows cols].
  rewrite Nat.eqb_refl. apply Nat.eqb_neq in N. rewrite N. reflexivity.
Qed.
