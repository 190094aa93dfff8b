(** The covariance matrix of the filter is the covariance of its error, and the estimate is the best affine one. *)
From Coq Require Import List Arith Lia Bool Reals Lra FunctionalExtensionality.
From Verif Require Import Base BaseLemmas Kal_Model Kal_Alg Kal_Spec Kal_Proofs.
Import ListNotations.
Local Open Scope R_scope.

Section Stochastic.
Variable inv : nat -> mx -> mx.
Hypothesis Hinv : inverts inv.
Context {Om : Type}.
Variable E : (Om -> R) -> R.
Hypothesis HE : expectation E.

Lemma E_ext f g : (forall o, f o = g o) -> E f = E g.
Proof. intros H; f_equal; extensionality o; apply H. Qed.
Lemma E_0 : E (fun _ => 0) = 0.
Proof.
  assert (H := E_scal E HE 0 (fun _ => 1)). rewrite (E_one E HE) in H.
  rewrite (E_ext _ (fun _ => 0)) in H by (intros; ring). lra.
Qed.
Lemma E_const c : E (fun _ => c) = c.
Proof.
  assert (H := E_scal E HE c (fun _ => 1)). rewrite (E_one E HE) in H.
  rewrite (E_ext _ (fun _ => c)) in H by (intros; ring). lra.
Qed.
Lemma E_sub f g : E (fun o => f o - g o) = E f - E g.
Proof.
  rewrite (E_ext _ (fun o => f o + (-1) * g o)) by (intros; ring).
  rewrite (E_add E HE), (E_scal E HE); ring.
Qed.
Lemma E_sg n (f : nat -> Om -> R) : E (fun o => sg n (fun k => f k o)) = sg n (fun k => E (f k)).
Proof.
  induction n as [|n IH]; cbn; [apply E_0|].
  rewrite (E_add E HE (fun o => sg n (fun k => f k o)) (f n)), IH. reflexivity.
Qed.

(** Product moments of a random column vector with a random variable. *)
Definition mom (a : Om -> mx) (z : Om -> R) : mx := fun i j => E (fun o => a o i j * z o).

Lemma mom_mm n M a z : mom (fun o => mm n M (a o)) z = mm n M (mom a z).
Proof.
  apply mx_ext; intros i j; unfold mom, mm.
  rewrite (E_ext _ (fun o => sg n (fun k => M i k * (a o k j * z o))))
    by (intros; rewrite <- sg_mul_r; apply sg_ext; intros; ring).
  rewrite E_sg. apply sg_ext; intros k _. apply (E_scal E HE).
Qed.
Lemma mom_ma a b z : mom (fun o => ma (a o) (b o)) z = ma (mom a z) (mom b z).
Proof.
  apply mx_ext; intros i j; unfold mom, ma. rewrite <- (E_add E HE). apply E_ext; intros; ring.
Qed.
Lemma mom_ms a b z : mom (fun o => ms (a o) (b o)) z = ms (mom a z) (mom b z).
Proof.
  apply mx_ext; intros i j; unfold mom, ms. rewrite <- E_sub. apply E_ext; intros; ring.
Qed.
Lemma mm_0 n M : mm n M m0 = m0.
Proof. apply mx_ext; intros; apply sg_zero; intros; unfold m0; ring. Qed.
Lemma ma_0 : ma m0 m0 = m0.
Proof. apply mx_ext; intros; unfold ma, m0; ring. Qed.
Lemma ms_0 : ms m0 m0 = m0.
Proof. apply mx_ext; intros; unfold ms, m0; ring. Qed.

(** Covariance of two random columns. *)
Definition cv (a b : Om -> mx) : mx := fun i j => E (fun o => a o i 0%nat * b o j 0%nat).

Lemma cv_mm n M a b : cv (fun o => mm n M (a o)) b = mm n M (cv a b).
Proof.
  apply mx_ext; intros i j. exact (f_equal (fun f : mx => f i 0%nat) (mom_mm n M a (fun o => b o j 0%nat))).
Qed.
Lemma cv_ma a a' b : cv (fun o => ma (a o) (a' o)) b = ma (cv a b) (cv a' b).
Proof.
  apply mx_ext; intros i j. exact (f_equal (fun f : mx => f i 0%nat) (mom_ma a a' (fun o => b o j 0%nat))).
Qed.
Lemma cv_ms a a' b : cv (fun o => ms (a o) (a' o)) b = ms (cv a b) (cv a' b).
Proof.
  apply mx_ext; intros i j. exact (f_equal (fun f : mx => f i 0%nat) (mom_ms a a' (fun o => b o j 0%nat))).
Qed.
Lemma cv_t a b : cv a b = mt (cv b a).
Proof. apply mx_ext; intros; unfold cv, mt; apply E_ext; intros; ring. Qed.
Lemma cv_mm_r n M a b : cv a (fun o => mm n M (b o)) = mm n (cv a b) (mt M).
Proof. rewrite cv_t, cv_mm, mt_mm, <- cv_t; reflexivity. Qed.
Lemma cv_ma_r a b b' : cv a (fun o => ma (b o) (b' o)) = ma (cv a b) (cv a b').
Proof. rewrite cv_t, cv_ma, mt_ma, <- !cv_t; reflexivity. Qed.
Lemma cv_ms_r a b b' : cv a (fun o => ms (b o) (b' o)) = ms (cv a b) (cv a b').
Proof. rewrite cv_t, cv_ms, mt_ms, <- !cv_t; reflexivity. Qed.

Variables (m : lin) (x y : nat -> Om -> nat -> R) (u : nat -> nat -> R) (v w : nat -> Om -> nat -> R).
Variables (x0 p0 : mat) (T : nat).
Hypothesis Hwf : wf_lin m.
Hypothesis Hno : (0 < no m)%nat.
Hypothesis HR : pos_def (no m) (mR m).
Hypothesis Hx0 : dims (ns m) 1 x0.
Hypothesis Hp0 : dims (ns m) (ns m) p0.
Hypothesis Hf : follows m x y u v w.
Hypothesis Hn : noises E T m x v w x0 p0.

Notation n := (ns m).
Notation p := (no m).

Definition cl (r : nat) (f : nat -> R) : mx := cut r 1 (fun i _ => f i).
Lemma cl_supp r f : supp r 1 (cl r f).
Proof. apply cut_supp. Qed.
Lemma cl_in r f i : (i < r)%nat -> cl r f i 0%nat = f i.
Proof using. intros Hi; unfold cl; rewrite cut_in by (exact Hi || apply Nat.lt_0_succ); reflexivity. Qed.

(** The filter, outcome by outcome. *)
Fixpoint Ps (t : nat) : mx := match t with O => el p0 | S t' => Pnext inv m (Ps t') end.
Fixpoint xh (t : nat) (o : Om) : mx :=
  match t with
  | O => el x0
  | S t' => xnext inv m (Ps t') (xh t' o) (cl p (y (S t') o)) (cl (ni m) (u (S t')))
  end.

Definition V (t : nat) (o : Om) : mx := cl n (v t o).
Definition W (t : nat) (o : Om) : mx := cl p (w t o).
Definition X (t : nat) (o : Om) : mx := cl n (x t o).
Definition e (t : nat) (o : Om) : mx := ms (X t o) (xh t o).

Lemma SA : supp n n (el (mA m)). Proof. apply (dims_eq _ _ _ (wf_A _ Hwf)). Qed.
Lemma SC : supp p n (el (mC m)). Proof. apply (dims_eq _ _ _ (wf_C _ Hwf)). Qed.
Lemma SQ : supp n n (el (mQ m)). Proof. apply (dims_eq _ _ _ (wf_Q _ Hwf)). Qed.
Lemma SR : supp p p (el (mR m)). Proof. apply (dims_eq _ _ _ (wf_R _ Hwf)). Qed.
Lemma SB : supp n (ni m) (el (mB m)).
Proof.
  destruct (wf_B _ Hwf) as [(_ & _ & H)|(_ & _ & H)]; [exact H|]. intros i j _; apply H; lia.
Qed.
Lemma SD : supp p (ni m) (el (mD m)).
Proof.
  destruct (wf_D _ Hwf) as [(_ & _ & H)|(_ & _ & H)]; [exact H|]. intros i j _; apply H; lia.
Qed.

(** Covariances given by an expectation are positive. *)
Lemma cv_qf r (a : Om -> mx) z : 0 <= qf r (cv a a) z.
Proof.
  unfold qf, cv.
  assert (X0 : sg r (fun i => sg r (fun j => z i * E (fun o => a o i 0%nat * a o j 0%nat) * z j))
    = E (fun o => (sg r (fun i => z i * a o i 0%nat)) * (sg r (fun j => z j * a o j 0%nat)))).
  { rewrite (E_ext _ (fun o => sg r (fun i => sg r (fun j => (z i * z j) * (a o i 0%nat * a o j 0%nat))))).
    2:{ intros o. rewrite <- sg_mul_r. apply sg_ext; intros i _. rewrite <- sg_mul_l. apply sg_ext; intros; ring. }
    rewrite E_sg. apply sg_ext; intros i _. rewrite E_sg. apply sg_ext; intros j _.
    rewrite (E_scal E HE). ring. }
  rewrite X0. apply (E_pos E HE). intros o. apply Rle_0_sqr.
Qed.
Lemma cv_psd r (a : Om -> mx) : psd r (cv a a).
Proof. split; [symmetry; apply cv_t|apply cv_qf]. Qed.

Lemma cl_supp_cv r s (f g : Om -> nat -> R) : supp r s (cv (fun o => cl r (f o)) (fun o => cl s (g o))).
Proof.
  intros i j H; unfold cv. rewrite (E_ext _ (fun _ => 0)); [apply E_0|].
  intros o; unfold cl. destruct H; [rewrite (cut_out _ _ _ i)|rewrite (cut_out _ _ _ j)]; try lia; ring.
Qed.

Lemma cvVV t : (t < T)%nat -> cv (V (S t)) (V (S t)) = el (mQ m).
Proof.
  intros Ht.   apply (supp_ext n n); [apply cl_supp_cv|apply SQ|]. intros i j Hi Hj. unfold cv, V.
  rewrite <- (n_vv _ _ _ _ _ _ _ _ Hn t i j Ht Hi Hj). apply E_ext; intros; rewrite !cl_in by assumption; reflexivity.
Qed.
Lemma cvWW t : (t < T)%nat -> cv (W (S t)) (W (S t)) = el (mR m).
Proof.
  intros Ht.   apply (supp_ext p p); [apply cl_supp_cv|apply SR|]. intros i j Hi Hj. unfold cv, W.
  rewrite <- (n_ww _ _ _ _ _ _ _ _ Hn t i j Ht Hi Hj). apply E_ext; intros; rewrite !cl_in by assumption; reflexivity.
Qed.
Lemma cvVV' s t : (s < T)%nat -> (t < T)%nat -> s <> t -> cv (V (S s)) (V (S t)) = m0.
Proof.
  intros Hs Ht N. apply (supp_ext n n); [apply cl_supp_cv|apply m0_supp|]. intros i j Hi Hj. unfold cv, V, m0.
  rewrite <- (n_vv' _ _ _ _ _ _ _ _ Hn s t i j Hs Ht N Hi Hj). apply E_ext; intros; rewrite !cl_in by assumption; reflexivity.
Qed.
Lemma cvWW' s t : (s < T)%nat -> (t < T)%nat -> s <> t -> cv (W (S s)) (W (S t)) = m0.
Proof.
  intros Hs Ht N. apply (supp_ext p p); [apply cl_supp_cv|apply m0_supp|]. intros i j Hi Hj. unfold cv, W, m0.
  rewrite <- (n_ww' _ _ _ _ _ _ _ _ Hn s t i j Hs Ht N Hi Hj). apply E_ext; intros; rewrite !cl_in by assumption; reflexivity.
Qed.
Lemma cvVW s t : (s < T)%nat -> (t < T)%nat -> cv (V (S s)) (W (S t)) = m0.
Proof.
  intros Hs Ht.   apply (supp_ext n p); [apply cl_supp_cv|apply m0_supp|]. intros i j Hi Hj. unfold cv, V, W, m0.
  rewrite <- (n_vw _ _ _ _ _ _ _ _ Hn s t i j Hs Ht Hi Hj). apply E_ext; intros; rewrite !cl_in by assumption; reflexivity.
Qed.
Lemma mt_0 : mt m0 = m0. Proof. reflexivity. Qed.
Lemma cvWV s t : (s < T)%nat -> (t < T)%nat -> cv (W (S s)) (V (S t)) = m0.
Proof. intros; rewrite cv_t, cvVW, mt_0 by assumption; reflexivity. Qed.

Lemma PQ : (0 < T)%nat -> pos_semi n (mQ m).
Proof. intros HT. apply psd_pos_semi. rewrite <- (cvVV 0) by exact HT. apply cv_psd. Qed.
Lemma PR' : pd p (el (mR m)).
Proof. apply pos_def_pd; [apply (wf_R _ Hwf)|exact HR]. Qed.

Lemma e0_cl o : e 0 o = cl n (fun i => x 0%nat o i - el x0 i 0%nat).
Proof.
  destruct (dims_eq _ _ _ Hx0) as [_ S0].
  apply (supp_ext n 1); [apply ms_supp; [apply cl_supp|exact S0]|apply cl_supp|].
  intros i j Hi Hj. assert (j = 0%nat) by lia; subst j.
  unfold e, ms, X; cbn [xh]. rewrite !cl_in by exact Hi. reflexivity.
Qed.
Lemma e0_fun : e 0 = fun o => cl n (fun i => x 0%nat o i - el x0 i 0%nat).
Proof. extensionality o; apply e0_cl. Qed.

Lemma cve0 : cv (e 0) (e 0) = el p0.
Proof.
  rewrite e0_fun. destruct (dims_eq _ _ _ Hp0) as [_ S0].
  apply (supp_ext n n); [apply cl_supp_cv|exact S0|]. intros i j Hi Hj. unfold cv.
  rewrite <- (n_p0 _ _ _ _ _ _ _ _ Hn i j Hi Hj). apply E_ext; intros; rewrite !cl_in by assumption; reflexivity.
Qed.
Lemma cve0V t : (t < T)%nat -> cv (e 0) (V (S t)) = m0.
Proof.
  intros Ht.   rewrite e0_fun. apply (supp_ext n n); [apply cl_supp_cv|apply m0_supp|]. intros i j Hi Hj. unfold cv, V, m0.
  rewrite <- (n_ev _ _ _ _ _ _ _ _ Hn t i j Ht Hi Hj). apply E_ext; intros; rewrite !cl_in by assumption; reflexivity.
Qed.
Lemma cve0W t : (t < T)%nat -> cv (e 0) (W (S t)) = m0.
Proof.
  intros Ht.   rewrite e0_fun. apply (supp_ext n p); [apply cl_supp_cv|apply m0_supp|]. intros i j Hi Hj. unfold cv, W, m0.
  rewrite <- (n_ew _ _ _ _ _ _ _ _ Hn t i j Ht Hi Hj). apply E_ext; intros; rewrite !cl_in by assumption; reflexivity.
Qed.

(** ** The error recursion *)
Definition pe (t : nat) (o : Om) : mx := ma (mm n (el (mA m)) (e t o)) (V (S t) o).
Definition Kt (t : nat) : mx := Kgain inv m (Ps t).
Definition Lt (t : nat) : mx := ikc n p (el (mC m)) (Kt t).
Definition U (t : nat) : mx := cl (ni m) (u t).

Lemma X_rec t o : X (S t) o = ma (ma (mm n (el (mA m)) (X t o)) (mm (ni m) (el (mB m)) (U (S t)))) (V (S t) o).
Proof.
  apply (supp_ext n 1); [apply cl_supp| |].
  - apply ma_supp; [apply ma_supp|apply cl_supp]; apply mm_supp; try apply cl_supp; [apply SA|apply SB].
  - intros i j Hi Hj. assert (j = 0%nat) by lia; subst j. unfold ma, mm, X, V, U.
    rewrite !cl_in by exact Hi. rewrite (f_state _ _ _ _ _ _ Hf t o i Hi).
    f_equal; f_equal; apply sg_ext; intros k Hk; rewrite cl_in by exact Hk; reflexivity.
Qed.
Lemma Y_rec t o : cl p (y (S t) o)
  = ma (ma (mm n (el (mC m)) (X (S t) o)) (mm (ni m) (el (mD m)) (U (S t)))) (W (S t) o).
Proof.
  apply (supp_ext p 1); [apply cl_supp| |].
  - apply ma_supp; [apply ma_supp|apply cl_supp]; apply mm_supp; try apply cl_supp; [apply SC|apply SD].
  - intros i j Hi Hj. assert (j = 0%nat) by lia; subst j. unfold ma, mm, X, W, U.
    rewrite !cl_in by exact Hi. rewrite (f_obs _ _ _ _ _ _ Hf t o i Hi).
    f_equal; f_equal; apply sg_ext; intros k Hk; rewrite cl_in by exact Hk; reflexivity.
Qed.

(** Innovation: observation minus predicted observation. *)
Lemma innovation t o : ms (cl p (y (S t) o)) (ypred m (xh t o) (U (S t)))
  = ma (mm n (el (mC m)) (pe t o)) (W (S t) o).
Proof.
  rewrite Y_rec, X_rec. unfold ypred, xpred, pe, e. rewrite !mm_ma_r, !mm_ms_r.
  apply mx_ext; intros; unfold ma, ms; ring.
Qed.

Lemma pe_supp t o : supp n 1 (e t o) -> supp n 1 (pe t o).
Proof. intros; apply ma_supp; [apply mm_supp; [apply SA|assumption]|apply cl_supp]. Qed.

Lemma e_rec t o : supp n 1 (e t o) ->
  e (S t) o = ms (mm n (Lt t) (pe t o)) (mm p (Kt t) (W (S t) o)).
Proof.
  intros Se.
  unfold e at 1. cbn [xh]. unfold xnext. fold (U (S t)). rewrite innovation, mm_ma_r.
  unfold Lt, ikc. rewrite mm_ms_l, (mm_1_l n 1) by (apply pe_supp; exact Se).
  rewrite mm_assoc, X_rec. fold (Kt t).
  assert (F : ma (ma (mm n (el (mA m)) (X t o)) (mm (ni m) (el (mB m)) (U (S t)))) (V (S t) o)
     = ma (xpred m (xh t o) (U (S t))) (pe t o)).
  { unfold xpred, pe, e. rewrite mm_ms_r. apply mx_ext; intros; unfold ma, ms; ring. }
  rewrite F. apply mx_ext; intros; unfold ma, ms; ring.
Qed.

(** ** Affine functions of the past observations *)
Inductive aff (t : nat) : (Om -> R) -> Prop :=
| aff_c c : aff t (fun _ => c)
| aff_y s j : (s < t)%nat -> (j < p)%nat -> aff t (fun o => y (S s) o j)
| aff_add f g : aff t f -> aff t g -> aff t (fun o => f o + g o)
| aff_scal a f : aff t f -> aff t (fun o => a * f o).

Lemma aff_eq t f g : aff t f -> (forall o, f o = g o) -> aff t g.
Proof. intros H Heq. replace g with f; [exact H|]. extensionality o; apply Heq. Qed.
Lemma aff_sg t k (f : nat -> Om -> R) : (forall i, (i < k)%nat -> aff t (f i)) -> aff t (fun o => sg k (fun i => f i o)).
Proof.
  induction k as [|k IH]; intros H; cbn; [apply aff_c|].
  apply (aff_add t (fun o => sg k (fun i => f i o)) (f k)); [apply IH; intros; apply H; lia|apply H; lia].
Qed.
Lemma aff_sub t f g : aff t f -> aff t g -> aff t (fun o => f o - g o).
Proof.
  intros Hf' Hg. apply (aff_eq t (fun o => f o + (-1) * g o)); [|intros; ring].
  apply (aff_add t f (fun o => (-1) * g o)); [exact Hf'|apply (aff_scal t (-1) g Hg)].
Qed.
Lemma aff_up t f : aff t f -> aff (S t) f.
Proof. induction 1; [apply aff_c|apply aff_y; lia|apply aff_add; assumption|apply aff_scal; assumption]. Qed.

Definition affv (t : nat) (a : Om -> mx) : Prop := forall i j, aff t (fun o => a o i j).
Lemma affv_mm t k M a : affv t a -> affv t (fun o => mm k M (a o)).
Proof.
  intros H i j. unfold mm. apply (aff_sg t k (fun l o => M i l * a o l j)).
  intros l _. apply (aff_scal t (M i l) (fun o => a o l j)), H.
Qed.
Lemma affv_ma t a b : affv t a -> affv t b -> affv t (fun o => ma (a o) (b o)).
Proof. intros Ha Hb i j. apply (aff_add t (fun o => a o i j) (fun o => b o i j)); auto. Qed.
Lemma affv_ms t a b : affv t a -> affv t b -> affv t (fun o => ms (a o) (b o)).
Proof. intros Ha Hb i j. apply (aff_sub t (fun o => a o i j) (fun o => b o i j)); auto. Qed.
Lemma affv_c t M : affv t (fun _ => M).
Proof. intros i j; apply aff_c. Qed.

(** ** The invariant *)
Record good (t : nat) : Prop := {
  g_P : supp n n (Ps t);
  g_x : forall o, supp n 1 (xh t o);
  g_cov : cv (e t) (e t) = Ps t;
  g_v : forall s, (t <= s < T)%nat -> cv (e t) (V (S s)) = m0;
  g_w : forall s, (t <= s < T)%nat -> cv (e t) (W (S s)) = m0;
  g_aff : affv t (xh t);
  g_e : forall z, aff t z -> mom (e t) z = m0;
  g_vz : forall z s, (t <= s < T)%nat -> aff t z -> mom (V (S s)) z = m0;
  g_wz : forall z s, (t <= s < T)%nat -> aff t z -> mom (W (S s)) z = m0 }.

Lemma e_supp t o : good t -> supp n 1 (e t o).
Proof. intros G; apply ms_supp; [apply cl_supp|apply (g_x t G)]. Qed.

Lemma mom_c a c : mom a (fun _ => c) = fun i j => c * mom a (fun _ => 1) i j.
Proof.
  apply mx_ext; intros i j; unfold mom. rewrite <- (E_scal E HE). apply E_ext; intros; ring.
Qed.
Lemma mom_add a f g : mom a (fun o => f o + g o) = ma (mom a f) (mom a g).
Proof.
  apply mx_ext; intros i j; unfold mom, ma. rewrite <- (E_add E HE). apply E_ext; intros; ring.
Qed.
Lemma mom_scal a c f : mom a (fun o => c * f o) = fun i j => c * mom a f i j.
Proof.
  apply mx_ext; intros i j; unfold mom. rewrite <- (E_scal E HE). apply E_ext; intros; ring.
Qed.

Lemma mom_cl1 r (f : Om -> nat -> R) : (forall i, (i < r)%nat -> E (fun o => f o i) = 0) ->
  mom (fun o => cl r (f o)) (fun _ => 1) = m0.
Proof.
  intros H. apply (supp_ext r 1); [|apply m0_supp|].
  - intros i j Hij. unfold mom. rewrite (E_ext _ (fun _ => 0)); [apply E_0|].
    intros o; rewrite (cl_supp r (f o) i j Hij); ring.
  - intros i j Hi Hj. assert (j = 0%nat) by lia; subst j. unfold mom, m0. rewrite <- (H i Hi).
    apply E_ext; intros; rewrite cl_in by exact Hi; ring.
Qed.

Lemma mom_V1 t : (t < T)%nat -> mom (V (S t)) (fun _ => 1) = m0.
Proof. intros Ht; apply mom_cl1. intros; apply (n_v _ _ _ _ _ _ _ _ Hn); assumption. Qed.
Lemma mom_W1 t : (t < T)%nat -> mom (W (S t)) (fun _ => 1) = m0.
Proof. intros Ht; apply mom_cl1. intros; apply (n_w _ _ _ _ _ _ _ _ Hn); assumption. Qed.
Lemma mom_e1 : mom (e 0) (fun _ => 1) = m0.
Proof.
  rewrite e0_fun. apply (mom_cl1 n (fun o i => x 0%nat o i - el x0 i 0%nat)). apply (n_e0 _ _ _ _ _ _ _ _ Hn).
Qed.

(** A zero moment with the constant 1 and with each new observation gives zero moments with every affine function. *)
Lemma mom_aff t a : mom a (fun _ => 1) = m0 -> (forall s j, (s < t)%nat -> (j < p)%nat -> mom a (fun o => y (S s) o j) = m0) ->
  forall z, aff t z -> mom a z = m0.
Proof.
  intros H1 Hy z Hz. induction Hz as [c|s j Hs Hj|f g _ IHf _ IHg|c f _ IH].
  - rewrite mom_c, H1. apply mx_ext; intros; unfold m0; ring.
  - apply Hy; assumption.
  - rewrite mom_add, IHf, IHg. apply ma_0.
  - rewrite mom_scal, IH. apply mx_ext; intros; unfold m0; ring.
Qed.

Lemma good_0 : good 0.
Proof.
  split.
  - cbn. apply (dims_eq _ _ _ Hp0).
  - intros o; cbn. apply (dims_eq _ _ _ Hx0).
  - apply cve0.
  - intros; apply cve0V; lia.
  - intros; apply cve0W; lia.
  - intros i j; cbn. apply aff_c.
  - apply mom_aff; [apply mom_e1|intros; lia].
  - intros z s Hs; revert z. apply mom_aff; [apply mom_V1; lia|intros; lia].
  - intros z s Hs; revert z. apply mom_aff; [apply mom_W1; lia|intros; lia].
Qed.

Lemma cv_0_mom a b : (forall j, mom a (fun o => b o j 0%nat) = m0) -> cv a b = m0.
Proof.
  intros H. apply mx_ext; intros i j. exact (f_equal (fun f : mx => f i 0%nat) (H j)).
Qed.
Lemma mom_cv_0 (a b : Om -> mx) j : (forall o, supp n 1 (a o)) \/ (forall o, supp p 1 (a o)) ->
  (forall i, cv a b i j = 0) -> mom a (fun o => b o j 0%nat) = m0.
Proof.
  intros Sa H. apply mx_ext; intros i k. destruct k as [|k]; [exact (H i)|].
  unfold mom, m0. rewrite (E_ext _ (fun _ => 0)); [apply E_0|].
  intros o. destruct Sa as [Sa|Sa]; rewrite Sa by lia; ring.
Qed.

(** The observation of the instant t + 1 is an affine function of the previous ones plus the innovation. *)
Definition nu (t : nat) (o : Om) : mx := ma (mm n (el (mC m)) (pe t o)) (W (S t) o).

Lemma y_split t j : (j < p)%nat -> (fun o => y (S t) o j)
  = fun o => nu t o j 0%nat + ypred m (xh t o) (U (S t)) j 0%nat.
Proof.
  intros Hj. extensionality o. assert (I := innovation t o).
  apply (f_equal (fun f : mx => f j 0%nat)) in I. unfold ms in I. rewrite cl_in in I by exact Hj.
  fold (nu t o) in I. lra.
Qed.

Lemma affv_ypred t : affv t (xh t) -> affv t (fun o => ypred m (xh t o) (U (S t))).
Proof.
  intros H. unfold ypred, xpred. apply affv_ma; [|apply affv_c].
  apply affv_mm, affv_ma; [apply affv_mm, H|apply affv_c].
Qed.

Lemma cvpe t : good t -> (t < T)%nat -> cv (pe t) (pe t) = Ppred m (Ps t).
Proof.
  intros G HtT. unfold pe. rewrite cv_ma. rewrite !cv_ma_r. rewrite cvVV by exact HtT.
  rewrite cv_mm. rewrite (cv_mm_r n _ (e t) (e t)).
  rewrite (g_cov t G).
  rewrite (cv_mm n _ (e t) (V (S t))), (g_v t G t) by lia.
  rewrite (cv_t (V (S t)) (fun o => mm n (el (mA m)) (e t o))), (cv_mm n _ (e t) (V (S t))), (g_v t G t) by lia.
  rewrite mm_0. apply mx_ext; intros; unfold Ppred, pred, ma, m0, mt; ring.
Qed.
Lemma cvpeW t s : good t -> (t <= s < T)%nat -> cv (pe t) (W (S s)) = m0.
Proof.
  intros G Hs. unfold pe. rewrite cv_ma, cv_mm, (g_w t G s Hs), mm_0, cvVW by lia. apply ma_0.
Qed.
Lemma cvpeV t s : good t -> (t < s < T)%nat -> cv (pe t) (V (S s)) = m0.
Proof.
  intros G Hs. unfold pe. rewrite cv_ma, cv_mm, (g_v t G s) by lia. rewrite mm_0, cvVV' by lia. apply ma_0.
Qed.
Lemma mom_pe t z : good t -> (t < T)%nat -> aff t z -> mom (pe t) z = m0.
Proof.
  intros G HtT Hz. unfold pe. rewrite mom_ma, mom_mm, (g_e t G z Hz), (g_vz t G z t) by (lia || exact Hz).
  rewrite mm_0; apply ma_0.
Qed.
Lemma e_S_fun t : good t -> e (S t) = fun o => ms (mm n (Lt t) (pe t o)) (mm p (Kt t) (W (S t) o)).
Proof. intros G. extensionality o. apply e_rec. apply e_supp, G. Qed.

Lemma good_psd t : good t -> psd n (Ps t).
Proof. intros G. rewrite <- (g_cov t G). apply cv_psd. Qed.

Lemma mom_e_past t z : good t -> (t < T)%nat -> aff t z -> mom (e (S t)) z = m0.
Proof.
  intros G HtT Hz. rewrite (e_S_fun t G), mom_ms, !mom_mm, (mom_pe t z G HtT Hz), (g_wz t G z t) by (lia || exact Hz).
  rewrite !mm_0; apply ms_0.
Qed.

Lemma cv_e_nu t : good t -> (t < T)%nat -> cv (e (S t)) (nu t) = m0.
Proof.
  intros G HtT. rewrite (e_S_fun t G). unfold nu.
  rewrite cv_ms, !cv_mm, !cv_ma_r, !cv_mm_r.
  rewrite (cvpe t G HtT), (cvpeW t t G) by lia.
  rewrite (cv_t (W (S t)) (pe t)), (cvpeW t t G) by lia. rewrite cvWW by exact HtT.
  assert (Z : ma (mm n (Ppred m (Ps t)) (mt (el (mC m)))) m0 = mm n (Ppred m (Ps t)) (mt (el (mC m))))
    by (apply mx_ext; intros; unfold ma, m0; ring).
  rewrite Z.
  assert (Y : mm n (Lt t) (mm n (Ppred m (Ps t)) (mt (el (mC m)))) = mm p (Kt t) (el (mR m))).
  { apply (ikc_pc inv Hinv); [apply SC|apply SR|apply PR'| |].
    - apply pred_supp; [apply SA|apply SQ|apply (g_P t G)].
    - apply pred_psd; [apply pos_semi_psd, PQ; lia|apply good_psd, G]. }
  rewrite Y. rewrite mt_0.
  assert (Z0 : mm n m0 (mt (el (mC m))) = m0) by (apply mx_ext; intros; apply sg_zero; intros; unfold m0; ring).
  rewrite Z0. apply mx_ext; intros; unfold ms, ma, m0, mm. rewrite <- sg_sub. apply sg_zero; intros; ring.
Qed.

Lemma good_S t : good t -> (t < T)%nat -> good (S t).
Proof.
  intros G HtT.
  assert (HT0 : (0 < T)%nat) by lia. assert (SP := g_P t G). assert (Pp := good_psd t G).
  assert (Sm : supp n n (Ppred m (Ps t))) by (apply pred_supp; [apply SA|apply SQ|exact SP]).
  assert (Pm : psd n (Ppred m (Ps t))) by (apply pred_psd; [apply pos_semi_psd, PQ; lia|exact Pp]).
  assert (Sx : forall o, supp n 1 (xh (S t) o)).
  { intros o. cbn [xh].
    apply (kal_step_eq inv Hinv m (Ps t) (xh t o) _ _ Hwf Hno (PQ HT0) HR SP Pp (g_x t G o) (cl_supp _ _) (cl_supp _ _)). }
  assert (Se : forall o, supp n 1 (e (S t) o)) by (intros o; apply ms_supp; [apply cl_supp|apply Sx]).
  assert (Ge : forall z, aff (S t) z -> mom (e (S t)) z = m0).
  { apply mom_aff; [apply mom_e_past; [exact G|exact HtT|apply aff_c]|].
    intros s j Hs Hj. destruct (Nat.eq_dec s t) as [->|N].
    - rewrite (y_split t j Hj), mom_add.
      rewrite (mom_e_past t (fun o => ypred m (xh t o) (U (S t)) j 0%nat) G HtT) by (apply affv_ypred, (g_aff t G)).
      rewrite (mom_cv_0 (e (S t)) (nu t) j); [apply ma_0|left; exact Se|].
      intros i; rewrite (cv_e_nu t G HtT); reflexivity.
    - apply mom_e_past; [exact G|exact HtT|]. apply aff_y; lia. }
  split.
  - cbn. apply post_supp; [apply SA|apply SC|apply SQ|exact SP].
  - exact Sx.
  - rewrite (e_S_fun t G). rewrite cv_ms, !cv_mm, !cv_ms_r, !cv_mm_r.
    rewrite (cvpe t G HtT), (cvpeW t t G) by lia.
    rewrite (cv_t (W (S t)) (pe t)), (cvpeW t t G) by lia. rewrite cvWW, mt_0 by exact HtT.
    cbn [Ps]. unfold Pnext, post.
    change (gain inv n p (el (mC m)) (el (mR m)) (pred n (el (mA m)) (el (mQ m)) (Ps t))) with (Kt t).
    change (ikc n p (el (mC m)) (Kt t)) with (Lt t).
    change (pred n (el (mA m)) (el (mQ m)) (Ps t)) with (Ppred m (Ps t)).
    assert (J : mm n (Lt t) (Ppred m (Ps t)) = ma (mm n (Lt t) (mm n (Ppred m (Ps t)) (mt (Lt t))))
       (mm p (Kt t) (mm p (el (mR m)) (mt (Kt t))))).
    { apply (joseph inv Hinv); [apply SC|apply SR|apply PR'|exact Sm|exact Pm]. }
    rewrite J.
    assert (Z1 : mm p m0 (mt (Kt t)) = m0) by (apply mx_ext; intros; apply sg_zero; intros; unfold m0; ring).
    assert (Z2 : mm n m0 (mt (Lt t)) = m0) by (apply mx_ext; intros; apply sg_zero; intros; unfold m0; ring).
    rewrite Z1, Z2.
    rewrite !mm_ms_r, !mm_0. apply mx_ext; intros; unfold ma, ms, m0; ring.
  - intros s Hs. rewrite (e_S_fun t G), cv_ms, !cv_mm, (cvpeV t s G), cvWV by lia. rewrite !mm_0; apply ms_0.
  - intros s Hs. rewrite (e_S_fun t G), cv_ms, !cv_mm, (cvpeW t s G), cvWW' by lia. rewrite !mm_0; apply ms_0.
  - cbn [xh]. unfold xnext.
    assert (Ax : affv (S t) (xh t)) by (intros i j; apply aff_up, (g_aff t G)).
    apply affv_ma.
    + apply affv_ma; [apply affv_mm, Ax|apply affv_c].
    + apply affv_mm, affv_ms.
      * intros i j. unfold cl, cut.
        destruct ((i <? p)%nat && (j <? 1)%nat) eqn:B; [|apply aff_c].
        apply aff_y; [lia|]. apply andb_true_iff in B; destruct B as [B _]; apply Nat.ltb_lt in B; exact B.
      * assert (Z := affv_ypred t (g_aff t G)). intros i j; apply aff_up, Z.
  - exact Ge.
  - intros z s Hs; revert z. apply mom_aff; [apply mom_V1; lia|].
    intros r j Hr Hj. destruct (Nat.eq_dec r t) as [->|N].
    + rewrite (y_split t j Hj), mom_add.
      rewrite (g_vz t G (fun o => ypred m (xh t o) (U (S t)) j 0%nat) s) by (lia || apply affv_ypred, (g_aff t G)).
      rewrite (mom_cv_0 (V (S s)) (nu t) j); [apply ma_0|left; intros; apply cl_supp|].
      intros i. unfold nu. rewrite cv_ma_r, cv_mm_r.
      rewrite (cv_t (V (S s)) (pe t)), (cvpeV t s G) by lia. rewrite cvVW, mt_0 by lia.
      unfold ma, m0, mm. rewrite sg_zero; [ring|intros; ring].
    + apply (g_vz t G _ s); [lia|]. apply aff_y; lia.
  - intros z s Hs; revert z. apply mom_aff; [apply mom_W1; lia|].
    intros r j Hr Hj. destruct (Nat.eq_dec r t) as [->|N].
    + rewrite (y_split t j Hj), mom_add.
      rewrite (g_wz t G (fun o => ypred m (xh t o) (U (S t)) j 0%nat) s) by (lia || apply affv_ypred, (g_aff t G)).
      rewrite (mom_cv_0 (W (S s)) (nu t) j); [apply ma_0|right; intros; apply cl_supp|].
      intros i. unfold nu. rewrite cv_ma_r, cv_mm_r.
      rewrite (cv_t (W (S s)) (pe t)), (cvpeW t s G) by lia. rewrite cvWW' by lia. rewrite mt_0.
      unfold ma, m0, mm. rewrite sg_zero; [ring|intros; ring].
    + apply (g_wz t G _ s); [lia|]. apply aff_y; lia.
Qed.

Lemma all_good t : (t <= T)%nat -> good t.
Proof.
  induction t as [|t IH]; intros Ht; [apply good_0|apply good_S; [apply IH; lia|lia]].
Qed.

(** ** Run of the filter *)
Lemma run_ok t o : (t <= T)%nat -> map_st (kal_step inv m) (Kst x0 p0) (feed m y u t o)
  = Ok (Kst (Mat n 1 (xh t o)) (Mat n n (Ps t)), map (fun s => Mat n 1 (xh s o)) (seq 1 t)).
Proof.
  induction t as [|t IH]; intros Ht.
  - cbn. destruct (dims_eq _ _ _ Hx0) as [Ex _], (dims_eq _ _ _ Hp0) as [Ep _]. rewrite <- Ex, <- Ep. reflexivity.
  - unfold feed. rewrite seq_S, !map_app. rewrite map_st_app. fold (feed m y u t o). rewrite IH by lia. cbn [bind map].
    assert (G := all_good t ltac:(lia)). assert (HT0 : (0 < T)%nat) by lia. cbn [map_st].
    change (colv p (y (1 + t)%nat o)) with (Mat p 1 (cl p (y (S t) o))).
    change (colv (ni m) (u (1 + t)%nat)) with (Mat (ni m) 1 (cl (ni m) (u (S t)))).
    destruct (kal_step_eq inv Hinv m (Ps t) (xh t o) (cl p (y (S t) o)) (cl (ni m) (u (S t))) Hwf Hno (PQ HT0) HR
                (g_P t G) (good_psd t G) (g_x t G o) (cl_supp _ _) (cl_supp _ _)) as [Es _].
    rewrite Es. cbn [bind]. reflexivity.
Qed.

(** ** Optimality *)
Lemma aff_affine t c a : aff t (affine p y t c a).
Proof.
  unfold affine. apply (aff_add t (fun _ => c)); [apply aff_c|].
  apply (aff_sg t t (fun s o => sg p (fun j => a s j * y (S s) o j))). intros s Hs.
  apply (aff_sg t p (fun j o => a s j * y (S s) o j)). intros j Hj.
  apply (aff_scal t (a s j) (fun o => y (S s) o j)). apply aff_y; assumption.
Qed.

Lemma affine_aff t z : aff t z -> exists c a, forall o, z o = affine p y t c a o.
Proof.
  induction 1 as [c|s j Hs Hj|f g _ (c1 & a1 & H1) _ (c2 & a2 & H2)|b f _ (c1 & a1 & H1)].
  - exists c, (fun _ _ => 0). intros o; unfold affine. rewrite sg_zero; [ring|].
    intros; apply sg_zero; intros; ring.
  - exists 0, (fun s' j' => (if (s =? s')%nat then 1 else 0) * (if (j =? j')%nat then 1 else 0)).
    intros o; unfold affine.
    rewrite (sg_ext t _ (fun s' => (if (s =? s')%nat then 1 else 0)
        * sg p (fun j' => (if (j =? j')%nat then 1 else 0) * y (S s') o j'))).
    2:{ intros k _. rewrite <- sg_mul_l. apply sg_ext; intros; ring. }
    rewrite (sg_delta t s (fun s' => sg p (fun j' => (if (j =? j')%nat then 1 else 0) * y (S s') o j')) Hs).
    rewrite (sg_delta p j (fun j' => y (S s) o j') Hj). ring.
  - exists (c1 + c2), (fun s j => a1 s j + a2 s j). intros o. rewrite H1, H2. unfold affine.
    rewrite (sg_ext t (fun s => sg p (fun j => (a1 s j + a2 s j) * y (S s) o j))
      (fun s => sg p (fun j => a1 s j * y (S s) o j) + sg p (fun j => a2 s j * y (S s) o j))).
    2:{ intros k _. rewrite <- sg_add. apply sg_ext; intros; ring. }
    rewrite sg_add. ring.
  - exists (b * c1), (fun s j => b * a1 s j). intros o. rewrite H1. unfold affine.
    rewrite Rmult_plus_distr_l, <- sg_mul_l. f_equal. apply sg_ext; intros k _.
    rewrite <- sg_mul_l. apply sg_ext; intros; ring.
Qed.

Lemma err_val t o i : (i < n)%nat -> e t o i 0%nat = x t o i - xh t o i 0%nat.
Proof. intros Hi. unfold e, ms, X. rewrite cl_in by exact Hi. reflexivity. Qed.

Lemma best t i z : (t <= T)%nat -> (i < n)%nat -> aff t z ->
  E (fun o => (x t o i - z o) * (x t o i - z o))
  = Ps t i i + E (fun o => (xh t o i 0%nat - z o) * (xh t o i 0%nat - z o)).
Proof.
  intros Ht Hi Hz. assert (G := all_good t Ht).
  rewrite (E_ext _ (fun o => (e t o i 0%nat * e t o i 0%nat + 2 * (e t o i 0%nat * (xh t o i 0%nat - z o)))
      + (xh t o i 0%nat - z o) * (xh t o i 0%nat - z o))).
  2:{ intros o; rewrite err_val by exact Hi; ring. }
  rewrite (E_add E HE), (E_add E HE (fun o => e t o i 0%nat * e t o i 0%nat)), (E_scal E HE).
  assert (H1 : E (fun o => e t o i 0%nat * (xh t o i 0%nat - z o)) = 0).
  { assert (A : aff t (fun o => xh t o i 0%nat - z o)) by (apply aff_sub; [apply (g_aff t G)|exact Hz]).
    exact (f_equal (fun f : mx => f i 0%nat) (g_e t G _ A)). }
  rewrite H1.
  assert (H2 : E (fun o => e t o i 0%nat * e t o i 0%nat) = Ps t i i)
    by exact (f_equal (fun f : mx => f i i) (g_cov t G)).
  rewrite H2. ring.
Qed.
End Stochastic.
