(** The Kalman step: totality, closed form, gain equation, Joseph form. *)
From Coq Require Import List Arith Lia Bool Reals Lra FunctionalExtensionality.
From Verif Require Import Base BaseLemmas Kal_Model Kal_Alg Kal_Spec.
Import ListNotations.
Local Open Scope R_scope.

Lemma dims_eq r c a : dims r c a -> a = Mat r c (el a) /\ supp r c (el a).
Proof. destruct a as [r' c' f]; intros (H1 & H2 & H3); cbn in *; subst; split; [reflexivity|exact H3]. Qed.

Lemma mk_id r c f : supp r c f -> mk r c f = Mat r c f.
Proof. intros H; unfold mk; rewrite cut_id by exact H; reflexivity. Qed.

Lemma mtr_eq r c a : supp r c a -> mtr (Mat r c a) = Mat c r (mt a).
Proof. intros H; unfold mtr; cbn; apply mk_id, mt_supp, H. Qed.

Lemma mprod_eq r n c a b : supp r n a -> supp n c b -> mprod (Mat r n a) (Mat n c b) = Ok (Mat r c (mm n a b)).
Proof.
  intros Ha Hb; unfold mprod; cbn [rows cols el]; rewrite Nat.eqb_refl.
  change (fun i j => sg n (fun k => a i k * b k j)) with (mm n a b).
  rewrite mk_id; [reflexivity|]. apply mm_supp; assumption.
Qed.

Lemma same_refl r c a b : same_dims (Mat r c a) (Mat r c b) = true.
Proof. unfold same_dims; cbn; rewrite !Nat.eqb_refl; reflexivity. Qed.

Lemma madd_eq r c a b : supp r c a -> supp r c b -> madd (Mat r c a) (Mat r c b) = Ok (Mat r c (ma a b)).
Proof.
  intros Ha Hb; unfold madd, mbin; rewrite same_refl; cbn [rows cols el].
  change (fun i j => a i j + b i j) with (ma a b). rewrite mk_id; [reflexivity|]. apply ma_supp; assumption.
Qed.

Lemma maddc_eq r c a b : supp r c a -> supp r c b -> maddc (Mat r c a) (Mat r c b) = Ok (Mat r c (ma a b)).
Proof.
  intros Ha Hb; unfold maddc; rewrite same_refl; cbn [rows cols el].
  change (fun i j => a i j + b i j) with (ma a b). rewrite mk_id; [reflexivity|]. apply ma_supp; assumption.
Qed.

Lemma msub_eq r c a b : supp r c a -> supp r c b -> msub (Mat r c a) (Mat r c b) = Ok (Mat r c (ms a b)).
Proof.
  intros Ha Hb; unfold msub, mbin; rewrite same_refl; cbn [rows cols el].
  change (fun i j => a i j - b i j) with (ms a b). rewrite mk_id; [reflexivity|]. apply ms_supp; assumption.
Qed.

Lemma meye_eq n : meye n = Mat n n (m1 n).
Proof. reflexivity. Qed.

Ltac sp :=
  first [ assumption | apply m1_supp | apply cut_supp
        | match goal with
          | |- supp _ _ (mt _) => apply mt_supp; sp
          | |- supp _ _ (mm _ _ _) => apply mm_supp; sp
          | |- supp _ _ (ma _ _) => apply ma_supp; sp
          | |- supp _ _ (ms _ _) => apply ms_supp; sp
          end ].

Lemma est_nul_true a : est_nul a = true ->
  forall i j, (i < rows a)%nat -> (j < cols a)%nat -> el a i j = 0.
Proof.
  unfold est_nul; intros H i j Hi Hj. rewrite forallb_forall in H.
  specialize (H i); rewrite in_seq in H. specialize (H ltac:(lia)). rewrite forallb_forall in H.
  specialize (H j); rewrite in_seq in H. specialize (H ltac:(lia)).
  destruct (Req_EM_T (el a i j) 0); [assumption|discriminate].
Qed.

Lemma pd_not_null n a : (0 < n)%nat -> pd n a -> est_nul (Mat n n a) = false.
Proof.
  intros Hn [_ H]. destruct (est_nul (Mat n n a)) eqn:Z; [|reflexivity].
  exfalso. pose proof (est_nul_true _ Z) as Y; cbn in Y.
  specialize (H (fun _ => 1)). assert (0 < qf n a (fun _ => 1)).
  { apply H; exists 0%nat; split; [exact Hn|lra]. }
  assert (qf n a (fun _ => 1) = 0).
  { apply sg_zero; intros i Hi; apply sg_zero; intros j Hj; rewrite Y by assumption; ring. }
  lra.
Qed.

Section Step.
Variable inv : nat -> mx -> mx.
Hypothesis Hinv : inverts inv.

(** ** The quantities of one step *)
Section Q1.
Variables (n p : nat) (A C Q Rr : mx).
Definition pred (P : mx) : mx := ma (mm n A (mm n P (mt A))) Q.
Definition innov (Pm : mx) : mx := ma (mm n C (mm n Pm (mt C))) Rr.
Definition gain (Pm : mx) : mx := mm p (mm n Pm (mt C)) (cut p p (inv p (innov Pm))).
Definition ikc (K : mx) : mx := ms (m1 n) (mm p K C).
Definition post (P : mx) : mx := mm n (ikc (gain (pred P))) (pred P).

Hypothesis SA : supp n n A.
Hypothesis SC : supp p n C.
Hypothesis SQ : supp n n Q.
Hypothesis SR : supp p p Rr.
Hypothesis PQ : psd n Q.
Hypothesis PR : pd p Rr.

Lemma pred_supp P : supp n n P -> supp n n (pred P).
Proof using SA SQ.
  intros; apply ma_supp; [|exact SQ]. apply mm_supp; [exact SA|]. apply mm_supp; [assumption|apply mt_supp, SA].
Qed.
Lemma pred_psd P : psd n P -> psd n (pred P).
Proof using PQ. intros; apply psd_ma; [apply psd_cong; assumption|exact PQ]. Qed.
Lemma innov_supp Pm : supp n n Pm -> supp p p (innov Pm).
Proof using SC SR.
  intros; apply ma_supp; [|exact SR]. apply mm_supp; [exact SC|]. apply mm_supp; [assumption|apply mt_supp, SC].
Qed.
Lemma innov_pd Pm : psd n Pm -> pd p (innov Pm).
Proof using PR. intros; apply pd_ma; [apply psd_cong; assumption|exact PR]. Qed.
Lemma gain_supp Pm : supp n n Pm -> supp n p (gain Pm).
Proof using SC.
  intros; apply mm_supp; [|apply cut_supp]. apply mm_supp; [assumption|apply mt_supp, SC].
Qed.
Lemma ikc_supp K : supp n p K -> supp n n (ikc K).
Proof using SC. intros; apply ms_supp; [apply m1_supp|apply mm_supp; [assumption|exact SC]]. Qed.
Lemma post_supp P : supp n n P -> supp n n (post P).
Proof using SA SC SQ.
  intros; apply mm_supp; [apply ikc_supp, gain_supp, pred_supp; assumption|apply pred_supp; assumption].
Qed.

(** Gain equation: K S = P C^T. *)
Lemma gain_eq Pm : supp n n Pm -> psd n Pm -> mm p (gain Pm) (innov Pm) = mm n Pm (mt C).
Proof using Hinv SC SR PR.
  intros S P; unfold gain. rewrite mm_assoc, inverts_right; [|exact Hinv| |].
  - apply (mm_1_r n). apply mm_supp; [exact S|apply mt_supp, SC].
  - apply pd_inverse, innov_pd, P.
  - apply innov_supp, S.
Qed.

(** (I - KC) P C^T = K R. *)
Lemma ikc_pc Pm : supp n n Pm -> psd n Pm -> mm n (ikc (gain Pm)) (mm n Pm (mt C)) = mm p (gain Pm) Rr.
Proof using Hinv SC SR PR.
  intros S P. unfold ikc. rewrite mm_ms_l, (mm_1_l n p) by (apply mm_supp; [exact S|apply mt_supp, SC]).
  rewrite mm_assoc.
  assert (X := gain_eq Pm S P). unfold innov at 1 in X. rewrite mm_ma_r in X.
  rewrite <- X at 1. apply mx_ext; intros; unfold ms, ma; ring.
Qed.

(** Joseph form of the covariance after the observation. *)
Lemma joseph Pm : supp n n Pm -> psd n Pm ->
  mm n (ikc (gain Pm)) Pm
  = ma (mm n (ikc (gain Pm)) (mm n Pm (mt (ikc (gain Pm)))))
       (mm p (gain Pm) (mm p Rr (mt (gain Pm)))).
Proof using Hinv SC SR PR.
  intros S P.
  set (K := gain Pm). set (L := ikc K).
  assert (X : mm n Pm (mt L) = ms Pm (mm n Pm (mm p (mt C) (mt K)))).
  { unfold L, ikc. rewrite mt_ms, mt_m1, mm_ms_r, (mm_1_r n n) by exact S. rewrite mt_mm; reflexivity. }
  rewrite X, mm_ms_r.
  rewrite <- (mm_assoc p n Pm (mt C) (mt K)).
  rewrite <- (mm_assoc p n L (mm n Pm (mt C)) (mt K)).
  assert (Y : mm n L (mm n Pm (mt C)) = mm p K Rr) by (apply ikc_pc; assumption).
  rewrite Y, mm_assoc. apply mx_ext; intros; unfold ma, ms; ring.
Qed.

Lemma post_psd P : supp n n P -> psd n P -> psd n (post P).
Proof using Hinv SA SC SQ SR PQ PR.
  intros S H. unfold post. rewrite joseph by (try apply pred_supp; try apply pred_psd; assumption).
  apply psd_ma; apply psd_cong; [apply pred_psd; assumption|apply pd_psd; exact PR].
Qed.

(** One observation never increases the variance of any combination of the states. *)
Lemma post_le P v : supp n n P -> psd n P -> qf n (post P) v <= qf n (pred P) v.
Proof using Hinv SA SC SQ SR PQ PR.
  intros S H.
  assert (Sp := pred_supp P S). assert (Hp := pred_psd P H). set (Pm := pred P) in *.
  assert (E : post P = ms Pm (mm p (gain Pm) (mm p (innov Pm) (mt (gain Pm))))).
  { unfold post, ikc. fold Pm. rewrite mm_ms_l, (mm_1_l n n) by exact Sp. f_equal.
    rewrite mm_assoc. f_equal.
    assert (X : mm n Pm (mt C) = mm p (gain Pm) (innov Pm)) by (symmetry; apply gain_eq; assumption).
    apply (f_equal mt) in X. rewrite !mt_mm, mt_mt in X.
    destruct Hp as [Sy _]. rewrite Sy in X. rewrite X.
    destruct (innov_pd Pm) as [Si _]; [split; [exact Sy|]|rewrite Si; reflexivity].
    destruct (pred_psd P H) as [_ Z]; exact Z. }
  rewrite E.
  assert (F : forall a b, qf n (ms a b) v = qf n a v - qf n b v).
  { intros a b; unfold qf, ms; rewrite <- sg_sub; apply sg_ext; intros i _.
    rewrite <- sg_sub; apply sg_ext; intros; ring. }
  rewrite F. assert (G := psd_cong n p (gain Pm) (innov Pm)).
  destruct G as [_ G]; [apply pd_psd, innov_pd; exact Hp|]. specialize (G v); lra.
Qed.
End Q1.

(** ** The step of the model *)
Definition mB' (m : lin) : mx := el (mB m).

Definition xpred (m : lin) (x u : mx) : mx := ma (mm (ns m) (el (mA m)) x) (mm (ni m) (el (mB m)) u).
Definition ypred (m : lin) (x u : mx) : mx :=
  ma (mm (ns m) (el (mC m)) (xpred m x u)) (mm (ni m) (el (mD m)) u).
Definition Ppred (m : lin) (P : mx) : mx := pred (ns m) (el (mA m)) (el (mQ m)) P.
Definition Kgain (m : lin) (P : mx) : mx := gain (ns m) (no m) (el (mC m)) (el (mR m)) (Ppred m P).
Definition Pnext (m : lin) (P : mx) : mx :=
  post (ns m) (no m) (el (mA m)) (el (mC m)) (el (mQ m)) (el (mR m)) P.
Definition xnext (m : lin) (P x y u : mx) : mx :=
  ma (xpred m x u) (mm (no m) (Kgain m P) (ms y (ypred m x u))).

Lemma pos_def_pd n a : dims n n a -> pos_def n a -> pd n (el a).
Proof.
  intros D [S H]; split; [|exact H]. apply mx_ext; intros i j; unfold mt; apply S.
Qed.
Lemma pos_semi_psd n a : pos_semi n a -> psd n (el a).
Proof. intros [S H]; split; [|exact H]. apply mx_ext; intros i j; unfold mt; apply S. Qed.
Lemma psd_pos_semi n a : psd n (el a) -> pos_semi n a.
Proof.
  intros [S H]; split; [|exact H]. intros i j. change (el a i j = mt (el a) i j). rewrite S; reflexivity.
Qed.

Lemma input_term (m : lin) r (b : mat) (z u : mx) :
  dims r (ni m) b \/ dims 0 0 b -> supp r 1 z -> supp (ni m) 1 u ->
  (if (0 <? rows b)%nat then let* bu := mprod b (Mat (ni m) 1 u) in maddc (Mat r 1 z) bu else Ok (Mat r 1 z))
  = Ok (Mat r 1 (ma z (mm (ni m) (el b) u)))
  /\ supp r 1 (ma z (mm (ni m) (el b) u)).
Proof.
  intros Hb Hz Hu.
  assert (Sb : supp r (ni m) (el b)).
  { destruct Hb as [(_ & _ & H)|(_ & _ & H)]; [exact H|]. intros i j _; apply H; lia. }
  assert (Sx : supp r 1 (ma z (mm (ni m) (el b) u))).
  { apply ma_supp; [exact Hz|]. apply mm_supp; assumption. }
  split; [|exact Sx].
  destruct (0 <? rows b)%nat eqn:Z.
  - destruct Hb as [Hb|Hb].
    + destruct (dims_eq _ _ _ Hb) as [Eb _]. rewrite Eb at 1. rewrite mprod_eq by assumption. cbn [bind].
      apply maddc_eq; [exact Hz|apply mm_supp; assumption].
    + destruct Hb as (H & _); rewrite H in Z; discriminate.
  - assert (X : ma z (mm (ni m) (el b) u) = z); [|rewrite X; reflexivity].
    apply (supp_ext r 1); [exact Sx|exact Hz|]. intros i j Hi _.
    unfold ma, mm. rewrite sg_zero; [lra|]. intros k Hk.
    destruct Hb as [(H & _)|(_ & _ & H)].
    + rewrite H in Z; apply Nat.ltb_ge in Z; lia.
    + rewrite H by lia; ring.
Qed.

Lemma kal_step_eq m P x y u : wf_lin m -> (0 < no m)%nat ->
  pos_semi (ns m) (mQ m) -> pos_def (no m) (mR m) ->
  supp (ns m) (ns m) P -> psd (ns m) P -> supp (ns m) 1 x -> supp (no m) 1 y -> supp (ni m) 1 u ->
  kal_step inv m (Kst (Mat (ns m) 1 x) (Mat (ns m) (ns m) P)) (Mat (no m) 1 y, Mat (ni m) 1 u)
  = Ok (Kst (Mat (ns m) 1 (xnext m P x y u)) (Mat (ns m) (ns m) (Pnext m P)), Mat (ns m) 1 (xnext m P x y u))
  /\ supp (ns m) 1 (xnext m P x y u).
Proof using Hinv.
  intros [WA WC WB WD WQ WR] Hno PQ PR SP PP Sx Sy Su.
  destruct (dims_eq _ _ _ WA) as [EA SA]. destruct (dims_eq _ _ _ WC) as [EC SC].
  destruct (dims_eq _ _ _ WQ) as [EQ SQ]. destruct (dims_eq _ _ _ WR) as [ER SR].
  pose proof (pos_def_pd _ _ WR PR) as PR'. pose proof (pos_semi_psd _ _ PQ) as PQ'.
  set (n := ns m) in *. set (p := no m) in *.
  assert (Sm : supp n n (Ppred m P)) by (apply pred_supp; assumption).
  assert (SK : supp n p (Kgain m P)) by (apply gain_supp; assumption).
  assert (Sax : supp n 1 (mm n (el (mA m)) x)) by (apply mm_supp; assumption).
  destruct (input_term m n (mB m) _ u WB Sax Su) as [EB Sxm]. fold (xpred m x u) in Sxm.
  assert (Scx : supp p 1 (mm n (el (mC m)) (xpred m x u))) by (apply mm_supp; assumption).
  destruct (input_term m p (mD m) _ u WD Scx Su) as [ED Sym]. fold (ypred m x u) in Sym.
  assert (Sd : supp p 1 (ms y (ypred m x u))) by (apply ms_supp; assumption).
  assert (Skd : supp n 1 (mm p (Kgain m P) (ms y (ypred m x u)))) by (apply mm_supp; assumption).
  split; [|apply ma_supp; assumption].
  unfold kal_step. cbn [etat cov].
  rewrite EA at 1. rewrite mprod_eq by sp. cbn [bind].
  etransitivity; [apply (f_equal (fun o => bind o _)); exact EB|]. cbn [bind]. change (ma (mm n (el (mA m)) x) (mm (ni m) (el (mB m)) u)) with (xpred m x u).
  rewrite EC at 1. rewrite mprod_eq by sp. cbn [bind].
  etransitivity; [apply (f_equal (fun o => bind o _)); exact ED|]. cbn [bind]. change (ma (mm n (el (mC m)) (xpred m x u)) (mm (ni m) (el (mD m)) u)) with (ypred m x u).
  rewrite EA at 1. rewrite mtr_eq by assumption.
  rewrite mprod_eq by sp. cbn [bind].
  rewrite EA at 1. rewrite mprod_eq by sp. cbn [bind].
  rewrite EQ at 1. rewrite madd_eq
    by sp. cbn [bind].
  change (ma (mm n (el (mA m)) (mm n P (mt (el (mA m))))) (el (mQ m))) with (Ppred m P).
  assert (G : kal_gain inv (mC m) (mR m) (Mat n n (Ppred m P)) = Ok (Mat n p (Kgain m P))).
  { unfold kal_gain. rewrite ER. rewrite (pd_not_null p) by assumption. rewrite andb_false_r.
    rewrite EC. rewrite mtr_eq by assumption.
    rewrite mprod_eq by sp. cbn [bind].
    rewrite mprod_eq by sp. cbn [bind].
    rewrite madd_eq by sp. cbn [bind].
    unfold minv. cbn [rows cols el]. rewrite Nat.eqb_refl. cbn [bind]. unfold mk.
    rewrite mprod_eq; [reflexivity| |apply cut_supp].
    sp. }
  rewrite G. cbn [bind].
  rewrite msub_eq by sp. cbn [bind].
  rewrite mprod_eq by sp. cbn [bind].
  rewrite madd_eq by sp. cbn [bind].
  rewrite EC at 1. rewrite mprod_eq by sp. cbn [bind].
  rewrite meye_eq. fold n. rewrite msub_eq; [|apply m1_supp|apply mm_supp; assumption]. cbn [bind].
  rewrite mprod_eq; [reflexivity| |exact Sm].
  apply ms_supp; [apply m1_supp|apply mm_supp; assumption].
Qed.
End Step.
