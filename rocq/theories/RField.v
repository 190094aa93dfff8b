(** The real numbers as field and ordered field of samples (standard library axioms of Reals). *)
From Coq Require Import Reals Lra.
From Verif Require Import Base OField.
Local Open Scope R_scope.
Definition Rring : cring :=
  {| car := R; c0 := 0; c1 := 1; cadd := Rplus; cmul := Rmult; csub := Rminus; copp := Ropp; cth := RTheory |}.
Definition Rfield : cfield :=
  {| fring := Rring; fdiv := (Rdiv : Rring -> Rring -> Rring); finv := (Rinv : Rring -> Rring); fth := Rfield |}.
Definition rltb (x y : R) : bool := if Rlt_dec x y then true else false.
Lemma rltb_iff x y : rltb x y = true <-> x < y.
Proof. unfold rltb. destruct (Rlt_dec x y); split; intros; try easy. Qed.
Lemma rltb_niff x y : rltb x y = false <-> y <= x.
Proof. unfold rltb. destruct (Rlt_dec x y); split; intros; try easy; lra. Qed.
Definition Rofield : ofield.
Proof.
  refine {| ofl := Rfield; oltb := (rltb : Rfield -> Rfield -> bool) |}.
  - intros x. apply rltb_niff. apply Rle_refl.
  - intros x y z H1 H2. apply rltb_iff in H1, H2. apply rltb_iff. eapply Rlt_trans; eassumption.
  - intros x y H1 H2. apply rltb_niff in H1, H2. apply Rle_antisym; assumption.
  - intros x y z H. apply rltb_iff in H. apply rltb_iff. apply Rplus_lt_compat_r. exact H.
  - intros x y H1 H2. apply rltb_iff in H1, H2. apply rltb_iff. apply Rmult_lt_0_compat; assumption.
Defined.
Lemma cnat_R n : cnat (K := Rring) n = INR n.
Proof. induction n as [|n IH]; [reflexivity|]. cbn [cnat]. rewrite IH, S_INR. reflexivity. Qed.
