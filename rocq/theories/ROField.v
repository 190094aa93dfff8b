(** The reals as an ordered field in the sense of OField.v. *)
From Coq Require Import Reals Lra.
From Verif Require Import Base RField OField.
Local Open Scope R_scope.
Definition rltb (x y : R) : bool := if Rlt_dec x y then true else false.
Lemma rltb_iff x y : rltb x y = true <-> x < y.
Proof. unfold rltb. destruct (Rlt_dec x y); split; intros; try assumption; try reflexivity; try discriminate; contradiction. Qed.
Lemma rltb_false x y : rltb x y = false <-> y <= x.
Proof. unfold rltb. destruct (Rlt_dec x y); split; intros; try reflexivity; try discriminate; lra. Qed.
Definition Rofield : ofield.
Proof.
  refine {| ofl := Rfield; oltb := (rltb : Rfield -> Rfield -> bool) |}.
  - intros x. apply rltb_false. lra.
  - intros x y z H1 H2. apply rltb_iff in H1, H2. apply rltb_iff. lra.
  - intros x y H1 H2. apply rltb_false in H1, H2. apply Rle_antisym; assumption.
  - intros x y z H. apply rltb_iff in H. apply rltb_iff. apply Rplus_lt_compat_r. exact H.
  - intros x y H1 H2. apply rltb_iff in H1, H2. apply rltb_iff. apply Rmult_lt_0_compat; assumption.
Defined.
