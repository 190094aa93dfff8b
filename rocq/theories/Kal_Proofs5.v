(** The simulator of linear models. *)
From Coq Require Import List Arith Lia Bool Reals Lra FunctionalExtensionality.
From Verif Require Import Base BaseLemmas Kal_Model Kal_Alg Kal_Spec Kal_Proofs Kal_Proofs2 Kal_Proofs3 Kal_Proofs4.
Import ListNotations.
Local Open Scope R_scope.

Section Sim.
Variables (m : lin) (N : nat) (vin : mat) (V W : nat -> nat -> R) (x0 : mx).
Hypothesis Hwf : wf_lin m.
Hypothesis Hvin : dims (ni m) N vin.
Hypothesis S0 : supp (ns m) 1 x0.

Definition uc (i : nat) : mx := cl (ni m) (fun k => el vin k i).

Fixpoint xt (t : nat) : mx :=
  match t with
  | O => x0
  | S t' => ma (ma (mm (ns m) (el (mA m)) (xt t')) (cl (ns m) (V (S t')))) (mm (ni m) (el (mB m)) (uc (S t')))
  end.
Definition y0t : mx := ma (mm (ns m) (el (mC m)) x0) (mm (ni m) (el (mD m)) (uc 0)).
Definition yt (t : nat) : mx :=
  ma (ma (mm (ns m) (el (mC m)) (xt t)) (cl (no m) (W t))) (mm (ni m) (el (mD m)) (uc t)).

Lemma mcol_uc i : mcol vin i = Mat (ni m) 1 (uc i).
Proof. unfold mcol. destruct Hvin as (-> & _). reflexivity. Qed.

Lemma xt_supp t : supp (ns m) 1 (xt t).
Proof.
  assert (H1 : supp (ns m) (ns m) (el (mA m))) by apply (dims_eq _ _ _ (wf_A _ Hwf)). assert (H2 : supp (ns m) (ni m) (el (mB m))).
  { destruct (wf_B _ Hwf) as [(_ & _ & H)|(_ & _ & H)]; [exact H|]. intros i j _; apply H; lia. }
  induction t as [|t IH]; [exact S0|]. cbn [xt].
  apply ma_supp; [apply ma_supp; [apply mm_supp; assumption|apply cl_supp]|apply mm_supp; [exact H2|apply cl_supp]].
Qed.

(** A term of inputs, added when there are inputs and the matrix is not empty. *)
Lemma sim_term r (b : mat) (z : mx) i : dims r (ni m) b \/ dims 0 0 b -> supp r 1 z ->
  (if (0 <? ni m)%nat && negb (est_vide b)
   then let* bu := mprod b (mcol vin i) in maddc (Mat r 1 z) bu else Ok (Mat r 1 z))
  = Ok (Mat r 1 (ma z (mm (ni m) (el b) (uc i)))) /\ supp r 1 (ma z (mm (ni m) (el b) (uc i))).
Proof.
  intros Hb Hz. rewrite mcol_uc.
  assert (Sb : supp r (ni m) (el b)).
  { destruct Hb as [(_ & _ & H)|(_ & _ & H)]; [exact H|]. intros k j _; apply H; lia. }
  assert (Sx : supp r 1 (ma z (mm (ni m) (el b) (uc i)))).
  { apply ma_supp; [exact Hz|]. apply mm_supp; [exact Sb|apply cl_supp]. }
  split; [|exact Sx].
  assert (Hzero : (ni m = 0%nat \/ est_vide b = true) -> ma z (mm (ni m) (el b) (uc i)) = z).
  { intros C. apply (supp_ext r 1); [exact Sx|exact Hz|]. intros k j Hk _.
    unfold ma, mm. rewrite sg_zero; [ring|]. intros l Hl. destruct C as [C|C]; [lia|].
    unfold est_vide in C. apply Nat.eqb_eq in C.
    destruct Hb as [(R & C' & _)|(_ & _ & H)]; [rewrite R, C' in C; nia|]. rewrite H by lia; ring. }
  destruct (0 <? ni m)%nat eqn:Z1; cbn [andb].
  2:{ rewrite Hzero; [reflexivity|]. left. apply Nat.ltb_ge in Z1; lia. }
  destruct (est_vide b) eqn:Z2; cbn [negb].
  { rewrite Hzero; [reflexivity|]. right; reflexivity. }
  destruct Hb as [Hb|(R & C & _)].
  - destruct (dims_eq _ _ _ Hb) as [Eb _]. rewrite Eb at 1.
    rewrite mprod_eq; [|exact Sb|apply cl_supp]. cbn [bind].
    apply maddc_eq; [exact Hz|apply mm_supp; [exact Sb|apply cl_supp]].
  - unfold est_vide in Z2; rewrite R in Z2; discriminate.
Qed.

Lemma noise_ok q r f : dims r r q -> noise q r f = Ok (Mat r 1 (cl r f)).
Proof. intros (R & C & _). unfold noise. rewrite C, Nat.eqb_refl, R. reflexivity. Qed.

Lemma sim_step_ok t : sim_step m vin V W (Mat (ns m) 1 (xt t)) (S t)
  = Ok (Mat (ns m) 1 (xt (S t)), (Mat (ns m) 1 (xt (S t)), Mat (no m) 1 (yt (S t)))).
Proof.
  pose proof (SA m Hwf) as HA. pose proof (SC m Hwf) as HC. pose proof (xt_supp t) as Sx.
  pose proof (xt_supp (S t)) as Sx'.
  destruct (dims_eq _ _ _ (wf_A _ Hwf)) as [EA _]. destruct (dims_eq _ _ _ (wf_C _ Hwf)) as [EC _].
  unfold sim_step. rewrite (noise_ok _ _ _ (wf_Q _ Hwf)). cbn [bind].
  rewrite EA at 1. rewrite mprod_eq by sp. cbn [bind].
  rewrite madd_eq; [|sp|apply cl_supp]. cbn [bind].
  destruct (sim_term (ns m) (mB m) (ma (mm (ns m) (el (mA m)) (xt t)) (cl (ns m) (V (S t)))) (S t) (wf_B _ Hwf))
    as [E1 _]; [apply ma_supp; [sp|apply cl_supp]|].
  etransitivity; [apply (f_equal (fun o => bind o _)); exact E1|]. cbn [bind].
  change (ma (ma (mm (ns m) (el (mA m)) (xt t)) (cl (ns m) (V (S t)))) (mm (ni m) (el (mB m)) (uc (S t))))
    with (xt (S t)).
  rewrite (noise_ok _ _ _ (wf_R _ Hwf)). cbn [bind].
  rewrite EC at 1. rewrite mprod_eq by sp. cbn [bind]. rewrite madd_eq; [|sp|apply cl_supp]. cbn [bind].
  unfold sim_obs.
  destruct (sim_term (no m) (mD m) (ma (mm (ns m) (el (mC m)) (xt (S t))) (cl (no m) (W (S t)))) (S t) (wf_D _ Hwf))
    as [E2 _]; [apply ma_supp; [sp|apply cl_supp]|].
  etransitivity; [apply (f_equal (fun o => bind o _)); exact E2|]. reflexivity.
Qed.

Lemma sim_run k : map_st (sim_step m vin V W) (Mat (ns m) 1 x0) (seq 1 k)
  = Ok (Mat (ns m) 1 (xt k), map (fun t => (Mat (ns m) 1 (xt t), Mat (no m) 1 (yt t))) (seq 1 k)).
Proof.
  induction k as [|k IH]; [reflexivity|].
  rewrite seq_S, map_app, map_st_app, IH. cbn [bind map map_st]. change (1 + k)%nat with (S k).
  rewrite sim_step_ok. reflexivity.
Qed.
End Sim.

(** The whole simulation. *)
Lemma sim_all m N cur x0 vin V W : wf_lin m -> (0 < N)%nat -> dims (ns m) 1 x0 -> (0 < ns m)%nat ->
  dims (ni m) N vin ->
  sim_steps m N cur x0 vin V W
  = Ok (x0, (hcat (ns m) (map (fun t => Mat (ns m) 1 (xt m vin V (el x0) t)) (seq 0 N)),
             hcat (no m) (Mat (no m) 1 (y0t m vin (el x0))
                          :: map (fun t => Mat (no m) 1 (yt m vin V W (el x0) t)) (seq 1 (N - 1))))).
Proof.
  intros Hwf HN Dx Hns Dv. destruct (dims_eq _ _ _ Dx) as [Ex Sx].
  assert (Rx : rows x0 = ns m) by apply Dx.
  unfold sim_steps, sim_init. rewrite Rx, Nat.eqb_refl. cbn [negb]. rewrite andb_false_r.
  replace (0 <? ns m)%nat with true by (symmetry; apply Nat.ltb_lt; exact Hns). cbn [bind].
  rewrite Rx. replace (ns m =? 0)%nat with false by (symmetry; apply Nat.eqb_neq; lia). 
  assert (I : exists u, sim_input m N vin = Ok u /\ dims (ni m) N u /\ el u = el vin).
  { unfold sim_input. destruct Dv as (R & C & S). destruct (0 <? rows vin)%nat eqn:Z.
    - exists vin. rewrite R, C, !Nat.eqb_refl. cbn. repeat split; auto.
    - exists (mzeros (ni m) N). split; [reflexivity|]. split; [repeat split; apply cut_supp|].
      apply Nat.ltb_ge in Z. rewrite R in Z.
      apply mx_ext; intros i j. rewrite (S i j) by lia. cbn. unfold cut. destruct (_ && _); reflexivity. }
  destruct I as (u & -> & Du & Eu). cbn [bind].
  replace (N =? 0)%nat with false by (symmetry; apply Nat.eqb_neq; lia).
  destruct (dims_eq _ _ _ (wf_C _ Hwf)) as [EC HC].
  rewrite EC at 1. rewrite Ex at 1. rewrite mprod_eq by sp. cbn [bind].
  unfold sim_obs at 1.
  destruct (sim_term m N u V W Du (no m) (mD m) (mm (ns m) (el (mC m)) (el x0)) 0 (wf_D _ Hwf)) as [E2 _]; [sp|].
  etransitivity; [apply (f_equal (fun o => bind o _)); exact E2|]. cbn [bind].
  rewrite Ex at 1. rewrite (sim_run m N u V W (el x0) Hwf Du Sx). cbn [bind].
  assert (Eux : forall i, uc m u i = uc m vin i) by (intros; unfold uc; rewrite Eu; reflexivity).
  assert (Ext : forall t, xt m u V (el x0) t = xt m vin V (el x0) t).
  { induction t as [|t IH]; [reflexivity|]. cbn [xt]. rewrite IH, Eux. reflexivity. }
  do 3 f_equal.
  - destruct N as [|N']; [lia|]. cbn [seq map Nat.sub]. rewrite Nat.sub_0_r. f_equal. f_equal.
    + cbn [xt]. exact Ex.
    + rewrite map_map. apply map_ext; intros t. cbn [fst]. rewrite Ext. reflexivity.
  - f_equal. f_equal.
    + unfold y0t. rewrite Eux. reflexivity.
    + rewrite map_map. apply map_ext; intros t. cbn [snd]. unfold yt. rewrite Eux, Ext. reflexivity.
Qed.
