(** Deterministic facts: totality, exact tracking, scalar models, extended filter, Riccati iteration, simulator. *)
From Coq Require Import List Arith Lia Bool Reals Lra FunctionalExtensionality.
From Verif Require Import Base BaseLemmas Kal_Model Kal_Alg Kal_Spec Kal_Proofs Kal_Proofs2.
Import ListNotations.
Local Open Scope R_scope.

(** ** Scalars *)
Definition s11 (a : R) : mat := mk 1 1 (fun _ _ => a).

Lemma mk_ext r c f g : (forall i j, (i < r)%nat -> (j < c)%nat -> f i j = g i j) -> mk r c f = mk r c g.
Proof.
  intros H; unfold mk. f_equal. apply (supp_ext r c); try apply cut_supp.
  intros i j Hi Hj; rewrite !cut_in by assumption; apply H; assumption.
Qed.
Lemma s11_el a : el (s11 a) 0%nat 0%nat = a.
Proof. reflexivity. Qed.
Lemma s11_prod a b : mprod (s11 a) (s11 b) = Ok (s11 (a * b)).
Proof.
  unfold mprod, s11; cbn [rows cols mk el Nat.eqb]. f_equal. apply mk_ext; intros i j Hi Hj.
  assert (i = 0%nat) by lia; assert (j = 0%nat) by lia; subst. cbn. lra.
Qed.
Lemma s11_bin op a b : mbin op (s11 a) (s11 b) = Ok (s11 (op a b)).
Proof.
  unfold mbin, s11, same_dims; cbn [rows cols mk el Nat.eqb andb]. f_equal. apply mk_ext; intros i j Hi Hj.
  assert (i = 0%nat) by lia; assert (j = 0%nat) by lia; subst. reflexivity.
Qed.
Lemma s11_tr a : mtr (s11 a) = s11 a.
Proof.
  unfold mtr, s11; cbn [rows cols mk el]. apply mk_ext; intros i j Hi Hj.
  assert (i = 0%nat) by lia; assert (j = 0%nat) by lia; subst. reflexivity.
Qed.
Lemma s11_eye : meye 1 = s11 1.
Proof.
  apply mk_ext; intros i j Hi Hj.
  assert (i = 0%nat) by lia; assert (j = 0%nat) by lia; subst. reflexivity.
Qed.
Lemma s11_nul a : est_nul (s11 a) = if Req_EM_T a 0 then true else false.
Proof. cbn. destruct (Req_EM_T a 0); reflexivity. Qed.
Lemma s11_inv inv a : inverts inv -> a <> 0 -> minv inv (s11 a) = Ok (s11 (/ a)).
Proof.
  intros H Ha. unfold minv, s11; cbn [rows cols mk el Nat.eqb]. f_equal. apply mk_ext; intros i j Hi Hj.
  assert (i = 0%nat) by lia; assert (j = 0%nat) by lia; subst.
  rewrite (H 1%nat _ (fun _ _ => / a)); [reflexivity| |lia|lia].
  split; intros i j Hi' Hj'; assert (i = 0%nat) by lia; assert (j = 0%nat) by lia; subst; cbn; field; exact Ha.
Qed.

(** Scalar linear model. *)
Definition scal (a c q r : R) : lin := Lin 1 1 0 (s11 a) mempty (s11 c) mempty (s11 q) (s11 r).

Lemma scal_gain inv c r pm : inverts inv -> pm <> 0 \/ r <> 0 -> c * (pm * c) + r <> 0 ->
  kal_gain inv (s11 c) (s11 r) (s11 pm) = Ok (s11 (pm * c * / (c * (pm * c) + r))).
Proof.
  intros H N S. unfold kal_gain. rewrite !s11_nul, s11_tr.
  replace ((if Req_EM_T pm 0 then true else false) && (if Req_EM_T r 0 then true else false)) with false.
  2:{ destruct (Req_EM_T pm 0), (Req_EM_T r 0); try reflexivity. tauto. }
  rewrite s11_prod. cbn [bind]. rewrite s11_prod. cbn [bind]. unfold madd; rewrite s11_bin. cbn [bind].
  rewrite s11_inv by assumption. cbn [bind]. apply s11_prod.
Qed.

Lemma scal_step inv a c q r x P y u : inverts inv ->
  let pm := a * (P * a) + q in
  pm <> 0 \/ r <> 0 -> c * (pm * c) + r <> 0 ->
  let k := pm * c * / (c * (pm * c) + r) in
  kal_step inv (scal a c q r) (Kst (s11 x) (s11 P)) (s11 y, u)
  = Ok (Kst (s11 (a * x + k * (y - c * (a * x)))) (s11 ((1 - k * c) * pm)), s11 (a * x + k * (y - c * (a * x)))).
Proof.
  intros H pm N S k. unfold kal_step. cbn [etat cov mA mB mC mD mQ mR scal ns].
  rewrite s11_prod. cbn [bind mempty mk rows Nat.ltb Nat.leb]. rewrite s11_prod. cbn [bind].
  rewrite s11_tr, s11_prod. cbn [bind]. rewrite s11_prod. cbn [bind]. unfold madd, msub. rewrite s11_bin. cbn [bind].
  fold pm. rewrite scal_gain by assumption. fold k. cbn [bind].
  rewrite s11_bin. cbn [bind]. rewrite s11_prod. cbn [bind]. rewrite s11_bin. cbn [bind].
  rewrite s11_prod. cbn [bind]. rewrite s11_eye, s11_bin. cbn [bind]. rewrite s11_prod. reflexivity.
Qed.

Lemma modele_constante_eq r : modele_constante r = scal 1 1 0 r.
Proof.
  unfold modele_constante, marche_aleatoire, scal. cbn [rows mzeros mk Nat.eqb].
  rewrite s11_eye. f_equal. apply mk_ext; intros; ring.
Qed.

(** Constant model: the estimate is the weighted mean of the initial value and of the observations. *)
Lemma const_run inv r q x ys u : inverts inv -> 0 < r -> 0 <= q ->
  map_st (kal_step inv (scal 1 1 0 r)) (Kst (s11 x) (s11 q)) (map (fun y => (s11 y, u)) ys)
  = Ok (Kst (s11 ((r * x + q * sg (length ys) (fun i => nth i ys 0)) / (r + INR (length ys) * q)))
            (s11 (q * r / (r + INR (length ys) * q))),
        map (fun t => s11 ((r * x + q * sg t (fun i => nth i ys 0)) / (r + INR t * q))) (seq 1 (length ys))).
Proof.
  intros H Hr Hq. induction ys as [|y ys IH] using rev_ind.
  - cbn. repeat f_equal; field; lra.
  - assert (P : 0 < r + INR (length ys) * q).
    { assert (0 <= INR (length ys)) by apply pos_INR. nra. }
    assert (P1 : 0 < r + INR (S (length ys)) * q) by (rewrite S_INR; nra).
    rewrite map_app, map_st_app, IH. cbn [bind map map_st].
    set (n := length ys) in *.
    set (X := (r * x + q * sg n (fun i => nth i ys 0)) / (r + INR n * q)).
    set (Q := q * r / (r + INR n * q)).
    assert (HQ : 0 <= Q).
    { unfold Q, Rdiv. apply Rmult_le_pos; [nra|]. left; apply Rinv_0_lt_compat, P. }
    rewrite (scal_step inv 1 1 0 r X Q y u H); [|right; lra|lra]. cbn [bind].
    rewrite app_length. cbn [length]. fold n. replace (n + 1)%nat with (S n) by lia.
    rewrite seq_S, map_app. cbn [map].
    assert (E : sg (S n) (fun i => nth i (ys ++ [y]) 0) = sg n (fun i => nth i ys 0) + y).
    { cbn [sg]. rewrite app_nth2 by lia. replace (n - length ys)%nat with 0%nat by (unfold n; lia). cbn [nth].
      f_equal. apply sg_ext; intros; rewrite app_nth1 by (unfold n in *; lia); reflexivity. }
    assert (DQ : r + Q = r * (r + INR (S n) * q) / (r + INR n * q)).
    { unfold Q. rewrite S_INR. field. lra. }
    assert (DP : r + Q <> 0) by lra.
    assert (K : (1 * (Q * 1) + 0) * 1 * / (1 * ((1 * (Q * 1) + 0) * 1) + r) = q / (r + INR (S n) * q)).
    { replace (1 * ((1 * (Q * 1) + 0) * 1) + r) with (r + Q) by ring. rewrite DQ. unfold Q. field. lra. }
    rewrite K. change (1 + n)%nat with (S n). rewrite E.
    assert (EX : 1 * X + q / (r + INR (S n) * q) * (y - 1 * (1 * X))
      = (r * x + q * (sg n (fun i => nth i ys 0) + y)) / (r + INR (S n) * q)).
    { unfold X. rewrite S_INR in *. generalize (sg n (fun i => nth i ys 0)); intros s. field. lra. }
    rewrite EX.
    assert (EP : (1 - q / (r + INR (S n) * q) * 1) * (1 * (Q * 1) + 0) = q * r / (r + INR (S n) * q)).
    { unfold Q. rewrite S_INR in *. field. lra. }
    rewrite EP. do 2 f_equal. f_equal. apply map_ext_in. intros t Ht. apply in_seq in Ht.
    do 4 f_equal. apply sg_ext; intros i Hi. rewrite app_nth1 by (unfold n in *; lia). reflexivity.
Qed.

(** ** Totality of the filter *)
Section Total.
Variable inv : nat -> mx -> mx.
Hypothesis Hinv : inverts inv.
Variable m : lin.
Hypothesis Hwf : wf_lin m.
Hypothesis Hno : (0 < no m)%nat.
Hypothesis HQ : pos_semi (ns m) (mQ m).
Hypothesis HR : pos_def (no m) (mR m).

Fixpoint Pseq (P : mx) (t : nat) : mx := match t with O => P | S t' => Pnext inv m (Pseq P t') end.

Lemma Pseq_ok P t : supp (ns m) (ns m) P -> psd (ns m) P ->
  supp (ns m) (ns m) (Pseq P t) /\ psd (ns m) (Pseq P t).
Proof.
  intros S H; induction t as [|t [IS IH]]; [split; assumption|]. cbn [Pseq]. split.
  - apply post_supp; [apply (dims_eq _ _ _ (wf_A _ Hwf))|apply (dims_eq _ _ _ (wf_C _ Hwf))|
      apply (dims_eq _ _ _ (wf_Q _ Hwf))|exact IS].
  - apply (post_psd inv Hinv); [apply (dims_eq _ _ _ (wf_A _ Hwf))|apply (dims_eq _ _ _ (wf_C _ Hwf))|
      apply (dims_eq _ _ _ (wf_Q _ Hwf))|apply (dims_eq _ _ _ (wf_R _ Hwf))|apply pos_semi_psd, HQ|
      apply pos_def_pd; [apply (wf_R _ Hwf)|exact HR]|exact IS|exact IH].
Qed.

Lemma total_run ys : forall x P, supp (ns m) 1 x -> supp (ns m) (ns m) P -> psd (ns m) P ->
  Forall (fun yu => dims (no m) 1 (fst yu) /\ dims (ni m) 1 (snd yu)) ys ->
  exists x' outs, map_st (kal_step inv m) (Kst (Mat (ns m) 1 x) (Mat (ns m) (ns m) P)) ys
    = Ok (Kst (Mat (ns m) 1 x') (Mat (ns m) (ns m) (Pseq P (length ys))), outs)
    /\ length outs = length ys /\ Forall (dims (ns m) 1) outs.
Proof.
  induction ys as [|[y u] ys IH]; intros x P Sx SP PP F.
  - exists x, []. repeat split; constructor.
  - inversion F as [|? ? [Dy Du] F']; subst. cbn [fst snd] in *.
    destruct (dims_eq _ _ _ Dy) as [Ey Sy], (dims_eq _ _ _ Du) as [Eu Su].
    destruct (kal_step_eq inv Hinv m P x (el y) (el u) Hwf Hno HQ HR SP PP Sx Sy Su) as [Es Sx'].
    destruct (Pseq_ok P 1 SP PP) as [SP' PP'].
    destruct (IH (xnext inv m P x (el y) (el u)) (Pnext inv m P) Sx' SP' PP' F') as (x' & outs & R & L & D).
    exists x', (Mat (ns m) 1 (xnext inv m P x (el y) (el u)) :: outs).
    assert (EP : forall t, Pseq (Pnext inv m P) t = Pseq P (S t)).
    { clear; induction t as [|t IHt]; [reflexivity|]. cbn [Pseq] in *. rewrite IHt. reflexivity. }
    split; [|split].
    + cbn [map_st]. rewrite Ey, Eu, Es. cbn [bind]. rewrite R. cbn [bind length]. rewrite EP. reflexivity.
    + cbn; rewrite L; reflexivity.
    + constructor; [repeat split; exact Sx'|exact D].
Qed.
End Total.
