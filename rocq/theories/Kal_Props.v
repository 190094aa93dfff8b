(** C81: state-space models and Kalman filtering. *)
From Coq Require Import List Arith Lia Bool Reals Lra FunctionalExtensionality.
From Verif Require Import Base BaseLemmas Kal_Model Kal_Alg Kal_Spec Kal_Proofs Kal_Proofs2 Kal_Proofs3 Kal_Proofs4
  Kal_Proofs5.
Import ListNotations.
Local Open Scope R_scope.

Lemma init_ok m x0 p0 : (0 < ns m)%nat -> dims (ns m) 1 x0 -> dims (ns m) (ns m) p0 ->
  kal_init m x0 p0 = Ok (Kst x0 p0).
Proof.
  intros H (R1 & _) (R2 & C2 & _). unfold kal_init. rewrite R1, R2.
  replace (ns m =? 0)%nat with false by (symmetry; apply Nat.eqb_neq; lia).
  rewrite R1, R2, C2, !Nat.eqb_refl. reflexivity.
Qed.

Lemma colv_eq n (f : mx) : supp n 1 f -> Mat n 1 f = colv n (fun i => f i 0%nat).
Proof.
  intros S. unfold colv, mk. f_equal. apply (supp_ext n 1); [exact S|apply cut_supp|].
  intros i j Hi Hj. assert (j = 0%nat) by lia; subst j. rewrite cut_in by assumption. reflexivity.
Qed.

(** The Kalman filter is the best affine estimator: the matrix it maintains is the covariance matrix of its error,
    which is centred, and no affine function of the observations has a smaller mean square error. *)
Theorem C81_optimal :
  forall (inv : nat -> (nat -> nat -> R) -> nat -> nat -> R) (Om : Type) (E : (Om -> R) -> R)
    (m : lin) (x y : nat -> Om -> nat -> R) (u : nat -> nat -> R) (v w : nat -> Om -> nat -> R)
    (x0 p0 : mat) (T : nat),
  inverts inv -> expectation E -> wf_lin m -> (0 < ns m)%nat -> (0 < no m)%nat -> pos_def (no m) (mR m) ->
  dims (ns m) 1 x0 -> dims (ns m) (ns m) p0 ->
  follows m x y u v w -> noises E T m x v w x0 p0 ->
  exists (est : nat -> Om -> nat -> R) (P : nat -> mat),
    (forall t o, (t <= T)%nat -> kal_run inv m x0 p0 (feed m y u t o)
       = Ok (Kst (colv (ns m) (est t o)) (P t), map (fun s => colv (ns m) (est s o)) (seq 1 t))) /\
    (forall t i, (t <= T)%nat -> (i < ns m)%nat -> E (fun o => x t o i - est t o i) = 0) /\
    (forall t i j, (t <= T)%nat -> (i < ns m)%nat -> (j < ns m)%nat ->
       E (fun o => (x t o i - est t o i) * (x t o j - est t o j)) = el (P t) i j) /\
    (forall t i, (t <= T)%nat -> (i < ns m)%nat ->
       exists c a, forall o, est t o i = affine (no m) y t c a o) /\
    (forall t i c a, (t <= T)%nat -> (i < ns m)%nat ->
       E (fun o => (x t o i - est t o i) * (x t o i - est t o i))
       <= E (fun o => (x t o i - affine (no m) y t c a o) * (x t o i - affine (no m) y t c a o))).
Proof.
  intros inv Om E m x y u v w x0 p0 T Hi HE Hwf Hns Hno HR Hx Hp Hf Hn.
  exists (fun t o i => xh inv m y u x0 p0 t o i 0%nat), (fun t => Mat (ns m) (ns m) (Ps inv m p0 t)).
  assert (G : forall t, (t <= T)%nat -> good inv E m x y u v w x0 p0 T t).
  { intros t Ht. exact (all_good inv Hi E HE m x y u v w x0 p0 T Hwf Hno HR Hx Hp Hf Hn t Ht). }
  assert (Cov : forall t i j, (t <= T)%nat -> (i < ns m)%nat -> (j < ns m)%nat ->
     E (fun o => (x t o i - xh inv m y u x0 p0 t o i 0%nat) * (x t o j - xh inv m y u x0 p0 t o j 0%nat))
     = Ps inv m p0 t i j).
  { intros t i j Ht Hi' Hj. rewrite <- (g_cov _ _ _ _ _ _ _ _ _ _ _ _ (G t Ht)). unfold cv. apply E_ext. intros o.
    rewrite !err_val by assumption. reflexivity. }
  repeat split.
  - intros t o Ht. unfold kal_run. rewrite init_ok by assumption. cbn [bind].
    rewrite (run_ok inv Hi E HE m x y u v w x0 p0 T Hwf Hno HR Hx Hp Hf Hn t o Ht).
    f_equal. f_equal.
    + f_equal. apply colv_eq. apply (g_x _ _ _ _ _ _ _ _ _ _ _ _ (G t Ht)).
    + apply map_ext_in. intros s Hs. apply in_seq in Hs. apply colv_eq.
      apply (g_x _ _ _ _ _ _ _ _ _ _ _ _ (G s ltac:(lia))).
  - intros t i Ht Hi'.
    assert (Z := g_e _ _ _ _ _ _ _ _ _ _ _ _ (G t Ht) (fun _ => 1) (aff_c _ _ _ _)).
    apply (f_equal (fun f : mx => f i 0%nat)) in Z. unfold mom, m0 in Z. rewrite <- Z.
    apply E_ext. intros o. rewrite err_val by exact Hi'. ring.
  - exact Cov.
  - intros t i Ht Hi'. apply affine_aff. apply (g_aff _ _ _ _ _ _ _ _ _ _ _ _ (G t Ht)).
  - intros t i c a Ht Hi'. rewrite Cov by assumption.
    rewrite (best inv Hi E HE m x y u v w x0 p0 T Hwf Hno HR Hx Hp Hf Hn t i (affine (no m) y t c a) Ht Hi'
               (aff_affine m y Hno t c a)).
    assert (0 <= E (fun o => (xh inv m y u x0 p0 t o i 0%nat - affine (no m) y t c a o)
                             * (xh inv m y u x0 p0 t o i 0%nat - affine (no m) y t c a o))).
    { apply (E_pos E HE). intros o. apply Rle_0_sqr. }
    lra.
Qed.
Print Assumptions C81_optimal.

(** Every observation sequence is accepted; the covariance matrix does not depend on the observations and stays
    symmetric and positive. *)
Theorem C81_total :
  forall (inv : nat -> (nat -> nat -> R) -> nat -> nat -> R) (m : lin) (x0 p0 : mat),
  inverts inv -> wf_lin m -> (0 < ns m)%nat -> (0 < no m)%nat ->
  pos_semi (ns m) (mQ m) -> pos_def (no m) (mR m) ->
  dims (ns m) 1 x0 -> dims (ns m) (ns m) p0 -> pos_semi (ns m) p0 ->
  exists P : nat -> mat,
    (forall t, dims (ns m) (ns m) (P t) /\ pos_semi (ns m) (P t)) /\
    forall l, Forall (fun yu => dims (no m) 1 (fst yu) /\ dims (ni m) 1 (snd yu)) l ->
      exists x outs, kal_run inv m x0 p0 l = Ok (Kst x (P (length l)), outs) /\
        length outs = length l /\ Forall (dims (ns m) 1) outs.
Proof.
  intros inv m x0 p0 Hi Hwf Hns Hno HQ HR Hx Hp PP.
  exists (fun t => Mat (ns m) (ns m) (Pseq inv m (el p0) t)). split.
  - intros t. destruct (Pseq_ok inv Hi m Hwf HQ HR (el p0) t) as [S P];
      [apply (dims_eq _ _ _ Hp)|apply pos_semi_psd, PP|].
    split; [repeat split; exact S|apply psd_pos_semi; exact P].
  - intros l F. unfold kal_run. rewrite init_ok by assumption. cbn [bind].
    destruct (dims_eq _ _ _ Hx) as [Ex Sx], (dims_eq _ _ _ Hp) as [Ep Sp].
    destruct (total_run inv Hi m Hwf Hno HQ HR l (el x0) (el p0) Sx Sp (pos_semi_psd _ _ PP) F) as (x' & outs & R & L & D).
    rewrite Ex, Ep, R. exists (Mat (ns m) 1 x'), outs. auto.
Qed.
Print Assumptions C81_total.

(** Without noise and from the true initial state, the estimates are exactly the states. *)
Theorem C81_tracking :
  forall (inv : nat -> (nat -> nat -> R) -> nat -> nat -> R) (m : lin) (x y : nat -> unit -> nat -> R)
    (u : nat -> nat -> R) (p0 : mat),
  inverts inv -> wf_lin m -> (0 < ns m)%nat -> (0 < no m)%nat ->
  pos_semi (ns m) (mQ m) -> pos_def (no m) (mR m) -> dims (ns m) (ns m) p0 -> pos_semi (ns m) p0 ->
  follows m x y u (fun _ _ _ => 0) (fun _ _ _ => 0) ->
  forall T, exists P,
    kal_run inv m (colv (ns m) (x 0%nat tt)) p0 (feed m y u T tt)
    = Ok (Kst (colv (ns m) (x T tt)) P, map (fun t => colv (ns m) (x t tt)) (seq 1 T)).
Proof.
  intros inv m x y u p0 Hi Hwf Hns Hno HQ HR Hp PP Hf T.
  set (x0 := colv (ns m) (x 0%nat tt)).
  assert (Dx : dims (ns m) 1 x0) by (repeat split; apply cut_supp).
  exists (Mat (ns m) (ns m) (Ps inv m p0 T)). unfold kal_run. rewrite init_ok by assumption. cbn [bind].
  destruct (run_det inv Hi m y u x0 p0 Hwf Hno HQ HR Dx Hp PP T tt) as [R _]. rewrite R.
  assert (Tr : forall t, xh inv m y u x0 p0 t tt = cl (ns m) (x t tt)).
  { intros t. apply (tracking inv m y u x0 p0 Hwf Hno Dx x Hf).
    intros [] i Hi'. unfold x0, colv, mk. cbn [el]. rewrite cut_in by (assumption || lia). reflexivity. }
  rewrite Tr. f_equal. f_equal. apply map_ext. intros t. rewrite Tr. reflexivity.
Qed.
Print Assumptions C81_tracking.

(** Model of a constant: with the default initial state 0 and covariance 1, the estimate after n observations is
    their sum divided by n + R, and the variance R / (n + R). *)
Theorem C81_constant :
  forall (inv : nat -> (nat -> nat -> R) -> nat -> nat -> R) (r : R) (ys : list R),
  inverts inv -> 0 < r ->
  exists outs, kal_run inv (modele_constante r) mempty mempty (map (fun y => (colv 1 (fun _ => y), mempty)) ys)
    = Ok (Kst (colv 1 (fun _ => sg (length ys) (fun i => nth i ys 0) / (r + INR (length ys))))
              (mk 1 1 (fun _ _ => r / (r + INR (length ys)))), outs).
Proof.
  intros inv r ys Hi Hr. rewrite modele_constante_eq. unfold kal_run.
  assert (I : kal_init (scal 1 1 0 r) mempty mempty = Ok (Kst (s11 0) (s11 1))).
  { unfold kal_init. cbn [mempty mk rows Nat.eqb scal ns mzeros meye cols andb negb].
    do 2 f_equal. apply s11_eye. }
  rewrite I. cbn [bind].
  eexists. etransitivity; [exact (const_run inv r 1 0 ys mempty Hi Hr ltac:(lra))|].
  f_equal. f_equal. f_equal.
  - unfold s11, colv. apply mk_ext; intros. f_equal; ring.
  - unfold s11. apply mk_ext; intros. f_equal; ring.
Qed.
Print Assumptions C81_constant.

(** Whole sequence in one call: the first column of the result is the current state, the following ones are the
    results of the successive steps on the observations of index 1, 2, ... *)
Theorem C81_steps :
  forall nst nin (step : kst -> mat * mat -> res (kst * mat)) s y u s' l,
  rows u = nin -> (nin = 0%nat \/ cols u = cols y) -> (0 < cols y)%nat ->
  map_st step s (map (fun i => (mcol y i, if (0 <? nin)%nat then mcol u i else mempty)) (seq 1 (cols y - 1)))
    = Ok (s', l) -> length l = (cols y - 1)%nat ->
  exists r, filt_steps nst nin step s y u = Ok (s', r) /\ dims nst (cols y) r /\
    (forall i, (i < nst)%nat -> el r i 0%nat = el (etat s) i 0%nat) /\
    (forall i j, (i < nst)%nat -> (0 < j < cols y)%nat -> el r i j = el (nth (j - 1) l mempty) i 0%nat).
Proof.
  intros nst nin step s y u s' l Hu Hc Hy E L. unfold filt_steps. rewrite Hu, Nat.eqb_refl. cbn [negb].
  replace ((0 <? nin)%nat && negb (cols u =? cols y)%nat) with false.
  2:{ destruct Hc as [Hz|Hz]; rewrite Hz; [reflexivity|rewrite Nat.eqb_refl, andb_false_r; reflexivity]. }
  replace (cols y =? 0)%nat with false by (symmetry; apply Nat.eqb_neq; lia).
  rewrite E. cbn [bind]. eexists; split; [reflexivity|].
  assert (LL : length (etat s :: l) = cols y) by (cbn; lia).
  split; [|split].
  - unfold hcat. rewrite LL. repeat split. apply cut_supp.
  - intros i Hi. rewrite hcat_col by (assumption || rewrite LL; lia). reflexivity.
  - intros i j Hi Hj. rewrite hcat_col by (assumption || rewrite LL; lia).
    destruct j as [|j]; [lia|]. cbn [nth]. rewrite Nat.sub_succ, Nat.sub_0_r. reflexivity.
Qed.
Print Assumptions C81_steps.

(** Finding: the first observation is never used, whatever the filter. *)
Theorem C81_first_observation_refuted :
  forall nst nin (step : kst -> mat * mat -> res (kst * mat)) s y y' u,
  rows y = rows y' -> cols y = cols y' ->
  (forall i j, (i < rows y)%nat -> (1 <= j < cols y)%nat -> el y i j = el y' i j) ->
  filt_steps nst nin step s y u = filt_steps nst nin step s y' u.
Proof.
  intros nst nin step s y y' u R C H. unfold filt_steps. rewrite <- C.
  assert (M : map (fun i => (mcol y i, if (0 <? nin)%nat then mcol u i else mempty)) (seq 1 (cols y - 1))
    = map (fun i => (mcol y' i, if (0 <? nin)%nat then mcol u i else mempty)) (seq 1 (cols y - 1))).
  { apply map_ext_in. intros j Hj. apply in_seq in Hj. f_equal. apply mcol_ext; [exact R|].
    intros i Hi. apply H; [exact Hi|lia]. }
  rewrite M. reflexivity.
Qed.
Print Assumptions C81_first_observation_refuted.

(** Finding: a model built by ssm_lineaire has no covariance matrices, and the filter rejects every observation. *)
Theorem C81_ssm_lineaire_refuted :
  forall inv a c m x0 p0 y u, ssm_lineaire a c mempty mempty = Ok m ->
  (0 < rows a)%nat -> dims (rows a) (rows a) a -> dims (rows c) (rows a) c ->
  dims (rows a) 1 x0 -> dims (rows a) (rows a) p0 ->
  kal_run inv m x0 p0 [(y, u)] = Exc.
Proof.
  intros inv a c m x0 p0 y u E Hn DA DC Dx Dp. unfold ssm_lineaire in E.
  destruct DA as (Ra & Ca & Sa). destruct DC as (Rc & Cc & Sc). rewrite Ca, Cc, !Nat.eqb_refl in E. cbn in E.
  inversion E; subst m; clear E. unfold kal_run. rewrite init_ok by assumption. cbn [bind map_st].
  rewrite (no_cov inv); try reflexivity; try assumption; cbn; repeat split; assumption.
Qed.
Print Assumptions C81_ssm_lineaire_refuted.

(** Extended filter on a linear model: same result as the Kalman filter when the state itself is observed. *)
Theorem C81_ekf_identity :
  forall inv m s y u, mB m = mempty -> mD m = mempty -> mC m = meye (ns m) ->
  dims (ns m) (ns m) (mA m) -> dims (ns m) (ns m) (mQ m) -> dims (ns m) (ns m) (mR m) ->
  dims (ns m) 1 (etat s) -> dims (ns m) (ns m) (cov s) ->
  ekf_step inv (nlin_of m) s (y, u) = kal_step inv m s (y, u).
Proof. exact ekf_identity. Qed.
Print Assumptions C81_ekf_identity.

(** Finding: with C = 2 (scalar model, A = 1, Q = 0, R = 1) the extended filter returns 5/3 where the Kalman filter
    returns 2. *)
Theorem C81_ekf_refuted :
  forall inv, inverts inv ->
  let m := Lin 1 1 0 (mk 1 1 (fun _ _ => 1)) mempty (mk 1 1 (fun _ _ => 2)) mempty
               (mk 1 1 (fun _ _ => 0)) (mk 1 1 (fun _ _ => 1)) in
  (exists s, kal_step inv m (ekf_init (nlin_of m)) (colv 1 (fun _ => 5), mempty) = Ok (s, colv 1 (fun _ => 2))) /\
  (exists s, ekf_step inv (nlin_of m) (ekf_init (nlin_of m)) (colv 1 (fun _ => 5), mempty)
             = Ok (s, colv 1 (fun _ => 5 / 3))).
Proof.
  intros inv Hi m.
  assert (I : ekf_init (nlin_of m) = Kst (s11 0) (s11 1)).
  { unfold ekf_init. f_equal. apply s11_eye. }
  rewrite I. change m with (scal 1 2 0 1). change (colv 1 (fun _ => 5)) with (s11 5).
  split.
  - eexists. rewrite scal_step; [|exact Hi|lra|lra]. f_equal. f_equal.
    unfold s11, colv; apply mk_ext; intros; field.
  - unfold ekf_step, nlin_of. cbn [nf ng nJf nJg nQ nR ns' etat cov mA mC mQ mR scal ns].
    rewrite s11_prod. cbn [bind]. rewrite s11_prod. cbn [bind]. rewrite s11_tr, s11_prod. cbn [bind].
    rewrite s11_prod. cbn [bind]. unfold madd, msub. rewrite s11_bin. cbn [bind].
    unfold ekf_gain. rewrite !s11_nul, s11_tr.
    destruct (Req_EM_T (1 * (1 * 1) + 0) 0) as [Z|_]; [exfalso; lra|]. cbn [andb].
    rewrite s11_prod. cbn [bind]. unfold madd; rewrite s11_bin. cbn [bind]. rewrite s11_prod. cbn [bind].
    rewrite s11_inv by (assumption || lra). cbn [bind]. rewrite s11_prod. cbn [bind].
    rewrite s11_bin. cbn [bind]. rewrite s11_prod. cbn [bind]. rewrite s11_bin. cbn [bind].
    rewrite s11_prod. cbn [bind]. rewrite s11_eye, s11_bin. cbn [bind]. rewrite s11_prod. cbn [bind].
    eexists. f_equal. f_equal. unfold s11, colv; apply mk_ext; intros; field.
Qed.
Print Assumptions C81_ekf_refuted.

(** Finding: the extended filter fails on every model whose numbers of states and of observations differ. *)
Theorem C81_ekf_dims_refuted :
  forall inv m s y u xm yth,
  ns' m <> no' m -> dims (ns' m) (ns' m) (nJf m (etat s)) -> nf m (etat s) = Ok xm -> ng m xm = Ok yth ->
  dims (no' m) (ns' m) (nJg m xm) -> dims (ns' m) (ns' m) (nQ m) -> dims (no' m) (no' m) (nR m) ->
  dims (ns' m) (ns' m) (cov s) ->
  ekf_step inv m s (y, u) = Exc \/ ekf_step inv m s (y, u) = UB.
Proof. exact ekf_dims. Qed.
Print Assumptions C81_ekf_dims_refuted.

(** Scalar Riccati equation: the value returned satisfies the documented equation up to a^2 times the error
    returned with it. *)
Theorem C81_dare_scalar :
  forall inv a c q r tol k, inverts inv -> 0 <= q -> 0 < r -> (0 < k)%nat ->
  exists P d, dare inv (mk 1 1 (fun _ _ => a)) (mk 1 1 (fun _ _ => c)) (mk 1 1 (fun _ _ => q))
                   (mk 1 1 (fun _ _ => r)) tol k = Ok (mk 1 1 (fun _ _ => P), d) /\ 0 <= P /\
    Rabs (P - (a * P * a - (a * P * c) * / (r + c * P * c) * (c * P * a) + q)) <= a * a * d.
Proof.
  intros inv a c q r tol k Hi Hq Hr Hk. destruct (dare_s inv a c q r tol k Hi Hq Hr Hk) as (P & d & E & HP & B).
  exists P, d. split; [exact E|]. split; [exact HP|].
  replace (a * P * a - a * P * c * / (r + c * P * c) * (c * P * a) + q) with (ricc a c q r P)
    by (unfold ricc; ring). exact B.
Qed.
Print Assumptions C81_dare_scalar.

(** Finding: in dimension 2 the products of the iteration are element-wise; for A = [1 1; 0 1] and C = Q = R = I the
    value returned is never a solution of the documented equation, whatever the tolerance and the number of iterations. *)
Definition jordan : mat := mk 2 2 (fun i j => if (i <=? j)%nat then 1 else 0).

Definition riccati_rhs (a c q p n : mx) : mx :=
  ma (ms (mm 2 (mt a) (mm 2 p a)) (mm 2 (mt a) (mm 2 p (mm 2 c (mm 2 n (mm 2 (mt c) (mm 2 p a))))))) q.

Lemma off_bin op a b c i j : mbin op a b = Ok c -> rows c = rows a /\ cols c = cols a /\
  ((i < rows a)%nat -> (j < cols a)%nat -> el c i j = op (el a i j) (el b i j)).
Proof.
  unfold mbin. destruct (same_dims a b); [|discriminate]. intros E; inversion E; subst c; clear E.
  split; [reflexivity|]. split; [reflexivity|]. intros Hi Hj. cbn [mk el]. rewrite cut_in by assumption. reflexivity.
Qed.

Lemma jordan_iter inv p : dims 2 2 p -> el p 0%nat 1%nat = 0 -> el p 1%nat 0%nat = 0 ->
  exists p2, dare_iter inv jordan (meye 2) (meye 2) (meye 2) p = Ok p2 /\ dims 2 2 p2 /\
    el p2 0%nat 1%nat = 0 /\ el p2 1%nat 0%nat = 0.
Proof.
  intros (R & C & S) Z1 Z2. unfold dare_iter.
  assert (B : forall op a b, rows a = 2%nat -> cols a = 2%nat -> rows b = 2%nat -> cols b = 2%nat ->
    mbin op a b = Ok (mk 2 2 (fun i j => op (el a i j) (el b i j)))).
  { intros op a b H1 H2 H3 H4. unfold mbin, same_dims. rewrite H1, H2, H3, H4. reflexivity. }
  unfold mmul_elt, madd, msub.
  repeat (rewrite B by (first [exact R|exact C|reflexivity]); cbn [bind]).
  unfold minv. cbn [rows cols mk Nat.eqb bind].
  repeat (rewrite B by (first [exact R|exact C|reflexivity]); cbn [bind]).
  eexists. split; [reflexivity|]. split; [repeat split; apply cut_supp|]. split; cbn; rewrite ?Z1, ?Z2; ring.
Qed.

Lemma jordan_loop inv tol k : forall p d, dims 2 2 p -> el p 0%nat 1%nat = 0 -> el p 1%nat 0%nat = 0 ->
  exists p2 d2, dare_loop inv jordan (meye 2) (meye 2) (meye 2) tol k p d = Ok (p2, d2) /\ dims 2 2 p2 /\
    el p2 0%nat 1%nat = 0 /\ el p2 1%nat 0%nat = 0.
Proof.
  induction k as [|k IH]; intros p d D Z1 Z2; [exists p, d; auto|].
  cbn [dare_loop]. destruct (jordan_iter inv p D Z1 Z2) as (p2 & E & D2 & Y1 & Y2). rewrite E. cbn [bind].
  assert (X : exists q, msub p2 p = Ok q).
  { unfold msub, mbin, same_dims. destruct D as (R & C & _), D2 as (R2 & C2 & _). rewrite R, C, R2, C2.
    eexists; reflexivity. }
  destruct X as [q Eq]. rewrite Eq. cbn [bind].
  destruct (Rlt_dec _ _); [exists p2; eexists; split; [reflexivity|auto]|apply IH; assumption].
Qed.

Theorem C81_dare_matrix_refuted :
  forall inv tol k, exists P d,
    dare inv jordan (meye 2) (meye 2) (meye 2) tol k = Ok (P, d) /\
    forall N, inverse_of 2 (ma (el (meye 2)) (mm 2 (mt (el (meye 2))) (mm 2 (el P) (el (meye 2))))) N ->
      exists i j, (i < 2)%nat /\ (j < 2)%nat /\
        riccati_rhs (el jordan) (el (meye 2)) (el (meye 2)) (el P) N i j <> el P i j.
Proof.
  intros inv tol k.
  destruct (jordan_loop inv tol k (meye 2) 0) as (P & d & E & D & Z1 & Z2);
    [repeat split; apply cut_supp|reflexivity|reflexivity|].
  exists P, d. split; [unfold dare, minv; cbn [rows cols meye mk Nat.eqb bind]; exact E|].
  intros N [HN _].
  assert (H00 := HN 0%nat 0%nat ltac:(lia) ltac:(lia)). assert (H01 := HN 0%nat 1%nat ltac:(lia) ltac:(lia)).
  unfold ma, mm, mt, meye, mk, cut in H00, H01. cbn [sg el] in H00, H01. cbn in H00, H01. rewrite Z1 in H00, H01.
  set (a := el P 0%nat 0%nat) in *. set (b := el P 1%nat 1%nat) in *.
  set (n0 := N 0%nat 0%nat) in *. set (n1 := N 0%nat 1%nat) in *.
  assert (A0 : (1 + a) * n0 = 1) by lra. assert (A1 : (1 + a) * n1 = 0) by lra.
  assert (N1 : n1 = 0).
  { destruct (Rmult_integral _ _ A1) as [Y|Y]; [rewrite Y in A0; lra|exact Y]. }
  destruct (Req_EM_T a 0) as [Ea|Ea].
  - exists 0%nat, 0%nat. split; [lia|]. split; [lia|].
    unfold riccati_rhs, ma, ms, mm, mt, jordan, meye, mk, cut. cbn [sg el]. cbn. rewrite Z1, Z2. fold a b n0 n1.
    rewrite N1, Ea. intros Y. ring_simplify in Y. lra.
  - exists 0%nat, 1%nat. split; [lia|]. split; [lia|].
    unfold riccati_rhs, ma, ms, mm, mt, jordan, meye, mk, cut. cbn [sg el]. cbn. rewrite Z1, Z2. fold a b n0 n1.
    rewrite N1. intros Y. ring_simplify in Y.
    assert (Q : a * n0 = 0). { assert (a * ((1 + a) * n0) = a) by (rewrite A0; ring). nra. }
    destruct (Rmult_integral _ _ Q) as [Y2|Y2]; [contradiction|]. rewrite Y2 in A0; lra.
Qed.
Print Assumptions C81_dare_matrix_refuted.

(** Steady-state gain of a scalar model: right when C = 1 or C = -1 (P c / (r + c^2 P), P being the solution found
    for the Riccati equation). *)
Theorem C81_ssg_scalar :
  forall inv a c q r tol k, inverts inv -> 0 < q -> 0 < r -> c * c = 1 -> (0 < k)%nat ->
  exists P d,
    dare inv (mk 1 1 (fun _ _ => a)) (mk 1 1 (fun _ _ => c)) (mk 1 1 (fun _ _ => q))
         (mk 1 1 (fun _ _ => r)) tol k = Ok (mk 1 1 (fun _ _ => P), d) /\
    kalman_ssg inv (Lin 1 1 0 (mk 1 1 (fun _ _ => a)) mempty (mk 1 1 (fun _ _ => c)) mempty
                        (mk 1 1 (fun _ _ => q)) (mk 1 1 (fun _ _ => r))) tol k
    = Ok (mk 1 1 (fun _ _ => P * c / (r + c * P * c))).
Proof.
  intros inv a c q r tol k Hi Hq Hr Hc Hk.
  assert (Nc : c <> 0) by (intros ->; lra).
  destruct (dare_s inv a c q r tol k Hi (Rlt_le _ _ Hq) Hr Hk) as (P0 & d0 & E0 & HP0 & _).
  destruct (ssg_s inv a c q r tol k Hi Hq Hr Nc Hk) as (P & d & E & K).
  rewrite E in E0. assert (EP : P = P0).
  { assert (X : s11 P = s11 P0) by congruence. apply (f_equal (fun z => el z 0%nat 0%nat)) in X. exact X. }
  exists P, d. split; [exact E|]. etransitivity; [exact K|]. f_equal. apply mk_ext; intros.
  assert (0 < r + c * P * c) by (subst P; nra).
  assert (Ic : / c = c). { apply (Rmult_eq_reg_l c); [|exact Nc]. rewrite Rinv_r by exact Nc. lra. }
  replace (c * (P * c)) with (c * P * c) by ring. rewrite Rinv_mult, Ic. unfold Rdiv. ring.
Qed.
Print Assumptions C81_ssg_scalar.

(** Finding: with C = 2 (A = 0, Q = R = 1) the steady-state gain of the filter is 2/5 and the function returns 1/10. *)
Theorem C81_ssg_refuted :
  forall inv tol k, inverts inv -> 0 < tol -> (0 < k)%nat ->
  let m := Lin 1 1 0 (mk 1 1 (fun _ _ => 0)) mempty (mk 1 1 (fun _ _ => 2)) mempty
               (mk 1 1 (fun _ _ => 1)) (mk 1 1 (fun _ _ => 1)) in
  kalman_ssg inv m tol k = Ok (mk 1 1 (fun _ _ => 1 / 10)) /\
  forall x P y, exists P', kal_step inv m (Kst (colv 1 (fun _ => x)) (mk 1 1 (fun _ _ => P))) (colv 1 (fun _ => y), mempty)
    = Ok (Kst (colv 1 (fun _ => 2 / 5 * y)) P', colv 1 (fun _ => 2 / 5 * y)).
Proof.
  intros inv tol k Hi Ht Hk m. change m with (scal 0 2 1 1). split.
  - destruct (ssg_s inv 0 2 1 1 tol k Hi Rlt_0_1 Rlt_0_1 ltac:(lra) Hk) as (P & d & E & K).
    destruct (dare_loop_s inv 0 2 1 1 tol Hi (Rlt_le _ _ Rlt_0_1) Rlt_0_1 k 1 0 (Rlt_le _ _ Rlt_0_1))
      as (P' & d' & E' & HP & C).
    unfold dare in E. rewrite s11_inv in E by (assumption || lra). cbn [bind] in E. rewrite E' in E.
    assert (EP : P = P').
    { assert (X : s11 P = s11 P') by congruence. apply (f_equal (fun z => el z 0%nat 0%nat)) in X. exact X. }
    assert (V : P' = 1).
    { destruct C as [(Z & _)|(P1 & _ & -> & _)]; [lia|]. unfold ricc. ring. }
    rewrite K, EP, V. f_equal. apply mk_ext; intros. field.
  - intros x P y. change (colv 1 (fun _ => x)) with (s11 x). change (colv 1 (fun _ => y)) with (s11 y).
    change (mk 1 1 (fun _ _ => P)) with (s11 P). eexists. rewrite scal_step; [|exact Hi|lra|lra].
    f_equal. assert (X : s11 (0 * x + (0 * (P * 0) + 1) * 2 * / (2 * ((0 * (P * 0) + 1) * 2) + 1) * (y - 2 * (0 * x)))
      = colv 1 (fun _ => 2 / 5 * y)).
    { unfold s11, colv; apply mk_ext; intros. replace (0 * (P * 0) + 1) with 1 by ring. field. }
    rewrite X. reflexivity.
Qed.
Print Assumptions C81_ssg_refuted.

(** Finding: the steady-state gain cannot be computed when the numbers of states and of observations differ. *)
Theorem C81_ssg_dims_refuted :
  forall inv m tol k, ns m <> no m -> (0 < k)%nat ->
  dims (ns m) (ns m) (mA m) -> dims (no m) (ns m) (mC m) -> dims (ns m) (ns m) (mQ m) -> dims (no m) (no m) (mR m) ->
  est_nul (mQ m) = false -> kalman_ssg inv m tol k = Exc.
Proof. exact ssg_dims. Qed.
Print Assumptions C81_ssg_dims_refuted.

(** Simulation of a linear model: the documented recursion, except that the first observation has no noise. *)
Theorem C81_simulation :
  forall m N cur x0 vin V W, wf_lin m -> (0 < N)%nat -> (0 < ns m)%nat -> dims (ns m) 1 x0 -> dims (ni m) N vin ->
  exists X Y, sim_steps m N cur x0 vin V W = Ok (x0, (X, Y)) /\ dims (ns m) N X /\ dims (no m) N Y /\
    (forall i, (i < ns m)%nat -> el X i 0%nat = el x0 i 0%nat) /\
    (forall i, (i < no m)%nat -> el Y i 0%nat
       = sg (ns m) (fun k => el (mC m) i k * el X k 0%nat) + sg (ni m) (fun k => el (mD m) i k * el vin k 0%nat)) /\
    (forall t i, (S t < N)%nat -> (i < ns m)%nat -> el X i (S t)
       = sg (ns m) (fun k => el (mA m) i k * el X k t) + sg (ni m) (fun k => el (mB m) i k * el vin k (S t)) + V (S t) i) /\
    (forall t i, (S t < N)%nat -> (i < no m)%nat -> el Y i (S t)
       = sg (ns m) (fun k => el (mC m) i k * el X k (S t)) + sg (ni m) (fun k => el (mD m) i k * el vin k (S t))
         + W (S t) i).
Proof.
  intros m N cur x0 vin V W Hwf HN Hns Dx Dv. rewrite (sim_all m N cur x0 vin V W Hwf HN Dx Hns Dv).
  eexists; eexists; split; [reflexivity|].
  assert (CX : forall i t, (i < ns m)%nat -> (t < N)%nat ->
    el (hcat (ns m) (map (fun t => Mat (ns m) 1 (xt m vin V (el x0) t)) (seq 0 N))) i t = xt m vin V (el x0) t i 0%nat).
  { intros i t Hi Ht. rewrite hcat_col by (assumption || rewrite map_length, seq_length; exact Ht).
    erewrite nth_indep by (rewrite map_length, seq_length; exact Ht).
    rewrite (map_nth (fun t => Mat (ns m) 1 (xt m vin V (el x0) t)) (seq 0 N) 0%nat), seq_nth by exact Ht. reflexivity. }
  assert (LY : length (Mat (no m) 1 (y0t m vin (el x0))
       :: map (fun t => Mat (no m) 1 (yt m vin V W (el x0) t)) (seq 1 (N - 1))) = N)
    by (cbn [length]; rewrite map_length, seq_length; lia).
  repeat split.
  - unfold hcat; cbn [cols mk]. rewrite map_length, seq_length. reflexivity.
  - unfold hcat. rewrite map_length, seq_length. apply cut_supp.
  - unfold hcat; cbn [cols mk]. exact LY.
  - unfold hcat. rewrite LY. apply cut_supp.
  - intros i Hi. rewrite CX by (assumption || lia). reflexivity.
  - intros i Hi. rewrite hcat_col by (assumption || rewrite LY; lia). cbn [nth el]. unfold y0t, ma, mm. f_equal.
    + apply sg_ext; intros k Hk. rewrite CX by (assumption || lia). reflexivity.
    + apply sg_ext; intros k Hk. unfold uc. rewrite cl_in by exact Hk. reflexivity.
  - intros t i Ht Hi. rewrite CX by (assumption || lia). cbn [xt]. unfold ma, mm. rewrite cl_in by exact Hi.
    rewrite (sg_ext (ns m) (fun k => el (mA m) i k * el _ k t) (fun k => el (mA m) i k * xt m vin V (el x0) t k 0%nat))
      by (intros k Hk; rewrite CX by (assumption || lia); reflexivity).
    rewrite (sg_ext (ni m) (fun k => el (mB m) i k * el vin k (S t)) (fun k => el (mB m) i k * uc m vin (S t) k 0%nat))
      by (intros k Hk; unfold uc; rewrite cl_in by exact Hk; reflexivity).
    ring.
  - intros t i Ht Hi. rewrite hcat_col by (assumption || rewrite LY; lia). cbn [nth].
    erewrite nth_indep by (rewrite map_length, seq_length; lia).
    rewrite (map_nth (fun t => Mat (no m) 1 (yt m vin V W (el x0) t)) (seq 1 (N - 1)) 0%nat), seq_nth by lia.
    cbn [el]. change (1 + t)%nat with (S t). unfold yt, ma, mm. rewrite cl_in by exact Hi.
    rewrite (sg_ext (ns m) (fun k => el (mC m) i k * el _ k (S t))
      (fun k => el (mC m) i k * xt m vin V (el x0) (S t) k 0%nat))
      by (intros k Hk; rewrite CX by (assumption || lia); reflexivity).
    rewrite (sg_ext (ni m) (fun k => el (mD m) i k * el vin k (S t)) (fun k => el (mD m) i k * uc m vin (S t) k 0%nat))
      by (intros k Hk; unfold uc; rewrite cl_in by exact Hk; reflexivity).
    ring.
Qed.
Print Assumptions C81_simulation.

(** Finding: the simulation of a linear model does not advance the state of the model: a second call without initial
    state starts again from the initial state of the first call instead of continuing. *)
Theorem C81_simulation_restart_refuted :
  forall m N N' cur x0 vin vin' V W V' W', wf_lin m -> (0 < N)%nat -> (0 < ns m)%nat ->
  dims (ns m) 1 x0 -> dims (ni m) N vin ->
  exists cur' r, sim_steps m N cur x0 vin V W = Ok (cur', r) /\
    sim_steps m N' cur' mempty vin' V' W' = sim_steps m N' cur x0 vin' V' W'.
Proof.
  intros m N N' cur x0 vin vin' V W V' W' Hwf HN Hns Dx Dv. rewrite (sim_all m N cur x0 vin V W Hwf HN Dx Hns Dv).
  eexists; eexists; split; [reflexivity|]. unfold sim_steps.
  assert (I : sim_init m x0 mempty = sim_init m cur x0).
  { unfold sim_init. destruct Dx as (R & _). rewrite R, Nat.eqb_refl.
    replace (0 <? ns m)%nat with true by (symmetry; apply Nat.ltb_lt; exact Hns). reflexivity. }
  rewrite I. reflexivity.
Qed.
Print Assumptions C81_simulation_restart_refuted.

(** ** Non-vacuity *)
(** There is an inversion routine. *)
Lemma inverse_unique n a b b' i j : inverse_of n a b -> inverse_of n a b' -> (i < n)%nat -> (j < n)%nat -> b i j = b' i j.
Proof.
  intros [_ H] [H' _] Hi Hj.
  set (A := cut n n a). set (B := cut n n b). set (B' := cut n n b').
  assert (E1 : mm n B A = m1 n).
  { apply (supp_ext n n); [apply mm_supp; apply cut_supp|apply m1_supp|]. intros k l Hk Hl. unfold mm, m1.
    rewrite cut_in by assumption. rewrite <- (H k l Hk Hl). apply sg_ext; intros q Hq. unfold A, B.
    rewrite !cut_in by assumption. reflexivity. }
  assert (E2 : mm n A B' = m1 n).
  { apply (supp_ext n n); [apply mm_supp; apply cut_supp|apply m1_supp|]. intros k l Hk Hl. unfold mm, m1.
    rewrite cut_in by assumption. rewrite <- (H' k l Hk Hl). apply sg_ext; intros q Hq. unfold A, B'.
    rewrite !cut_in by assumption. reflexivity. }
  assert (E : B = B').
  { rewrite <- (mm_1_r n n B) by apply cut_supp. rewrite <- E2, <- mm_assoc, E1. apply (mm_1_l n n). apply cut_supp. }
  apply (f_equal (fun f : mx => f i j)) in E. unfold B, B' in E. rewrite !cut_in in E by assumption. exact E.
Qed.

Lemma inv_sig n a i j : {z : R | forall b, inverse_of n a b -> (i < n)%nat -> (j < n)%nat -> z = b i j}.
Proof.
  destruct (ClassicalDedekindReals.sig_not_dec (exists b, inverse_of n a b /\ (i < n)%nat /\ (j < n)%nat)) as [D|D].
  - assert (D' : exists b, inverse_of n a b /\ (i < n)%nat /\ (j < n)%nat) by (apply Classical_Prop.NNPP; exact D).
    destruct (completeness (fun z => exists b, inverse_of n a b /\ z = b i j)) as [z Hz].
    + destruct D' as (b & Hb & Hi & Hj). exists (b i j). intros z (b' & Hb' & ->).
      right. apply (inverse_unique n a b' b); assumption.
    + destruct D' as (b & Hb & _). exists (b i j), b. auto.
    + exists z. intros b Hb Hi Hj. destruct Hz as [U L]. apply Rle_antisym.
      * apply L. intros z' (b' & Hb' & ->). right. apply (inverse_unique n a b' b); assumption.
      * apply U. exists b. auto.
  - exists 0. intros b Hb Hi Hj. exfalso. apply D. exists b. auto.
Qed.

Example C81_inversion_nonvacuous : exists inv, inverts inv.
Proof.
  exists (fun n a i j => proj1_sig (inv_sig n a i j)). intros n a b Hb i j Hi Hj.
  exact (proj2_sig (inv_sig n a i j) b Hb Hi Hj).
Qed.

(** A scalar random walk over two instants with independent signs. *)
Definition sg2 (b : bool) : R := if b then 1 else -1.
Definition Om5 : Type := (bool * bool * bool * bool * bool)%type.
Definition avg (f : bool -> R) : R := (f true + f false) / 2.
Definition E5 (f : Om5 -> R) : R :=
  avg (fun a => avg (fun b => avg (fun c => avg (fun d => avg (fun e => f (a, b, c, d, e)))))).

Definition walk : lin := marche_aleatoire 1 mempty mempty.
Definition ex_e (o : Om5) : R := let '(a, _, _, _, _) := o in sg2 a.
Definition ex_v (t : nat) (o : Om5) (i : nat) : R :=
  let '(_, b, c, _, _) := o in match t with 1%nat => sg2 b | 2%nat => sg2 c | _ => 0 end.
Definition ex_w (t : nat) (o : Om5) (i : nat) : R :=
  let '(_, _, _, d, e) := o in match t with 1%nat => sg2 d | 2%nat => sg2 e | _ => 0 end.
Fixpoint ex_x (t : nat) (o : Om5) (i : nat) : R :=
  match t with O => 3 + ex_e o | S t' => ex_x t' o i + ex_v t o i end.
Definition ex_y (t : nat) (o : Om5) (i : nat) : R := ex_x t o i + ex_w t o i.

Lemma E5_expectation : expectation E5.
Proof.
  split; intros; unfold E5, avg; try lra.
  repeat match goal with |- context [?f (?a, ?b, ?c, ?d, ?e)] =>
    let x := fresh "x" in assert (0 <= f (a, b, c, d, e)) by auto; set (x := f (a, b, c, d, e)) in * end. lra.
Qed.

Lemma walk_wf : wf_lin walk.
Proof. split; try (repeat split; apply cut_supp). all: right; repeat split; apply cut_supp. Qed.

Example C81_optimal_nonvacuous :
  wf_lin walk /\ (0 < ns walk)%nat /\ (0 < no walk)%nat /\ pos_def (no walk) (mR walk) /\
  expectation E5 /\ follows walk ex_x ex_y (fun _ _ => 0) ex_v ex_w /\
  noises E5 2 walk ex_x ex_v ex_w (colv 1 (fun _ => 3)) (mk 1 1 (fun _ _ => 1)).
Proof.
  split; [apply walk_wf|]. split; [cbn; lia|]. split; [cbn; lia|]. split.
  { split.
    - intros i j. change (el (meye 1) i j = el (meye 1) j i). exact (f_equal (fun f : mx => f i j) (eq_sym (mt_m1 1))).
    - intros v (i & Hi & Hv). cbn in Hi. assert (i = 0%nat) by lia; subst i. cbn.
      assert (0 < v 0%nat * v 0%nat) by nra. lra. }
  split; [apply E5_expectation|]. split.
  { split; intros t o i Hi; cbn in Hi; assert (i = 0%nat) by lia; subst i; cbn; unfold ex_y; cbn; ring. }
  assert (D2 : forall t, (t < 2)%nat -> t = 0%nat \/ t = 1%nat) by (intros; lia).
  assert (D1 : forall i, (i < 1)%nat -> i = 0%nat) by (intros; lia).
  split; cbn [ns no walk marche_aleatoire]; intros;
    repeat match goal with
    | H : (?t < 2)%nat |- _ => apply D2 in H; destruct H; subst t
    | H : (?t < 1)%nat |- _ => apply D1 in H; subst t
    end; try congruence; unfold E5, avg; cbn; try lra.
Qed.
