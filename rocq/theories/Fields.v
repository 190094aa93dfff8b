(** Concrete fields used by the non-vacuity examples: canonical rationals. *)
From Coq Require Import QArith Qcanon.
From Verif Require Import Base.

Definition Qcring : cring :=
  {| car := Qc; c0 := (Q2Qc 0); c1 := (Q2Qc 1); cadd := Qcplus; cmul := Qcmult;
     csub := Qcminus; copp := Qcopp; cth := Qcrt |}.
Definition Qcfield : cfield :=
  {| fring := Qcring; fdiv := (Qcdiv : Qcring -> Qcring -> Qcring); finv := (Qcinv : Qcring -> Qcring);
     fth := Qcft |}.
(** Rational from integers. *)
Definition qc (n : Z) (d : positive) : Qcfield := Q2Qc (n # d).
(** Outputs of a run, as plain rationals in lowest terms. *)
Definition outs {S} (r : res (S * list Qcfield)) : res (list Q) :=
  let* (_, y) := r in Ok (map (fun v : Qc => this v) y).
Lemma qc_eq (a b : Qcfield) : this (a : Qc) = this (b : Qc) -> a = b.
Proof. intros H. apply Qc_is_canon. rewrite H. reflexivity. Qed.
