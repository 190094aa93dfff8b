(** Ordered fields (exact stand-in for the comparisons and arithmetic on float
    in table interpolation), with the rationals as instance. *)
From Coq Require Import QArith Qcanon. Close Scope Q_scope.
From Verif Require Import Base Fields.

Record ofield := {
  ofl :> cfield;
  oltb : ofl -> ofl -> bool;
  o_irrefl : forall x, oltb x x = false;
  o_trans : forall x y z, oltb x y = true -> oltb y z = true -> oltb x z = true;
  o_tri : forall x y, oltb x y = false -> oltb y x = false -> x = y;
  o_add : forall x y z, oltb x y = true -> oltb (cadd x z) (cadd y z) = true;
  o_mul : forall x y, oltb c0 x = true -> oltb c0 y = true -> oltb c0 (cmul x y) = true
}.
Arguments oltb {_}.
Definition oleb {F : ofield} (x y : F) : bool := negb (oltb y x).
Definition olt {F : ofield} (x y : F) : Prop := oltb x y = true.
Definition ole {F : ofield} (x y : F) : Prop := oltb y x = false.

Definition qcltb (x y : Qc) : bool := if Qlt_le_dec (this x) (this y) then true else false.
Lemma qcltb_iff x y : qcltb x y = true <-> (this x < this y)%Q.
Proof. unfold qcltb. destruct (Qlt_le_dec (this x) (this y)) as [H|H]; split; intros; try easy. apply Qle_not_lt in H. easy. Qed.
Definition Qcofield : ofield.
Proof.
  refine {| ofl := Qcfield; oltb := (qcltb : Qcfield -> Qcfield -> bool) |}.
  - intros x. destruct (qcltb x x) eqn:E; [|reflexivity]. apply qcltb_iff in E. destruct (Qlt_irrefl _ E).
  - intros x y z H1 H2. apply qcltb_iff in H1, H2. apply qcltb_iff. eapply Qlt_trans; eassumption.
  - intros x y H1 H2. apply Qc_is_canon. apply Qle_antisym.
    + apply Qnot_lt_le. intros C. apply qcltb_iff in C. congruence.
    + apply Qnot_lt_le. intros C. apply qcltb_iff in C. congruence.
  - intros x y z H. apply qcltb_iff in H. apply qcltb_iff. cbn [cadd Qcring Qcfield fring]. unfold Qcplus.
    cbn [this Q2Qc]. rewrite !Qred_correct. apply Qplus_lt_le_compat; [exact H|apply Qle_refl].
  - intros x y H1 H2. apply qcltb_iff in H1, H2. apply qcltb_iff. cbn [cmul Qcring Qcfield fring c0]. unfold Qcmult.
    cbn [this Q2Qc] in *. rewrite !Qred_correct. change (0 < this x)%Q in H1. change (0 < this y)%Q in H2. change (this (Q2Qc 0)) with 0%Q.
    rewrite <- (Qmult_0_l (this y)). apply Qmult_lt_compat_r; assumption.
Defined.

Section O.
Context (F : ofield).
Add Ring Fr : (cth F).
Add Field Ff : (fth F).
Local Open Scope cring_scope.
Implicit Types x y z : F.

Lemma olt_irrefl x : ~ olt x x.
Proof. unfold olt. rewrite o_irrefl. discriminate. Qed.
Lemma olt_trans x y z : olt x y -> olt y z -> olt x z.
Proof. apply o_trans. Qed.
Lemma olt_ne x y : olt x y -> x <> y.
Proof. intros H ->. apply (olt_irrefl _ H). Qed.
Lemma ole_olt x y : olt x y -> ole x y.
Proof. intros H. unfold ole. destruct (oltb y x) eqn:E; [|reflexivity]. destruct (olt_irrefl x). eapply olt_trans; eassumption. Qed.
Lemma ole_refl x : ole x x.
Proof. apply o_irrefl. Qed.
Lemma olt_le_trans x y z : olt x y -> ole y z -> olt x z.
Proof.
  unfold olt, ole. intros H1 H2. destruct (oltb y z) eqn:E; [eapply o_trans; eassumption|].
  rewrite <- (o_tri F y z E H2). exact H1.
Qed.
Lemma ole_lt_trans x y z : ole x y -> olt y z -> olt x z.
Proof.
  unfold olt, ole. intros H1 H2. destruct (oltb x y) eqn:E; [eapply o_trans; eassumption|].
  rewrite (o_tri F x y E H1). exact H2.
Qed.
Lemma ole_trans x y z : ole x y -> ole y z -> ole x z.
Proof.
  intros H1 H2. unfold ole. destruct (oltb z x) eqn:E; [|reflexivity]. exfalso. apply (olt_irrefl z). eapply olt_le_trans; [|exact H2]. 
  eapply olt_le_trans; eassumption.
Qed.
Lemma olt_nle x y : olt x y -> ~ ole y x.
Proof. unfold olt, ole. congruence. Qed.
Lemma olt_sub x y : olt x y <-> olt 0 (y - x).
Proof.
  unfold olt. split; intros H.
  - apply (o_add F _ _ (- x)) in H. replace (x + - x) with (0 : F) in H by ring. replace (y + - x) with (y - x) in H by ring. exact H.
  - apply (o_add F _ _ x) in H. replace (0 + x) with x in H by ring. replace (y - x + x) with y in H by ring. exact H.
Qed.
Lemma opos_add x y : olt 0 x -> olt 0 y -> olt 0 (x + y).
Proof.
  intros H1 H2. eapply olt_trans; [exact H1|]. apply olt_sub. replace (x + y - x) with y by ring. exact H2.
Qed.
Lemma o1_pos : olt (0 : F) 1.
Proof.
  unfold olt. destruct (oltb (0 : F) 1) eqn:E; [reflexivity|]. destruct (oltb (1 : F) 0) eqn:E'.
  - exfalso. assert (N : olt (0 : F) (copp c1)).
    { apply olt_sub in E'. replace (0 - 1) with (copp c1 : F) in E' by ring. exact E'. }
    pose proof (o_mul F _ _ N N) as M. replace (copp c1 * copp c1) with (1 : F) in M by ring. congruence.
  - exfalso. apply (F_1_neq_0 (fth F)). symmetry. apply (o_tri F _ _ E E').
Qed.
Lemma ocnat_pos n : olt (0 : F) (cnat (S n)).
Proof.
  induction n as [|n IH]; [replace (cnat 1) with (1 : F) by (cbn [cnat]; ring); apply o1_pos|].
  cbn [cnat] in *. apply opos_add; [exact IH|apply o1_pos].
Qed.
Lemma opos_ne x : olt 0 x -> x <> 0.
Proof. intros H ->. apply (olt_irrefl _ H). Qed.
Lemma odiv_pos x y : olt 0 x -> olt 0 y -> olt 0 (x / y).
Proof.
  intros Hx Hy. pose proof (opos_ne _ Hy) as Ny. destruct (oltb 0 (x / y)) eqn:E; [exact E|]. exfalso.
  destruct (oltb (x / y) 0) eqn:E'.
  - apply olt_sub in E'. pose proof (o_mul F _ _ E' Hy) as M.
    replace ((0 - x / y) * y) with (0 - x) in M by (field; exact Ny). 
    apply (olt_irrefl (0 : F)). eapply olt_trans; [exact Hx|]. apply olt_sub. exact M.
  - pose proof (o_tri F _ _ E E') as Z. assert (x = 0) as ->.
    { replace x with (x / y * y) by (field; exact Ny). rewrite <- Z. ring. }
    apply (olt_irrefl _ Hx).
Qed.
End O.
