(** Specification of the Levinson recursions (C41). *)
From Verif Require Import Base.
Section S.
Context {K : cfield}.
Open Scope cring_scope.
(** Toeplitz matrix of first row l and first column c. *)
Definition toeplitz (l c : list K) (i j : nat) : K := if (j <=? i)%nat then samp c (i - j) else samp l (j - i).
(** Row i of the product of the k x k leading block of T with the vector v. *)
Definition mulrow (T : nat -> nat -> K) (k : nat) (v : nat -> K) (i : nat) : K := sum k (fun j => T i j * v j).
(** The k x k leading block of T is non-singular: its kernel is trivial. *)
Definition nonsingular (T : nat -> nat -> K) (k : nat) : Prop :=
  forall v, (forall i, (i < k)%nat -> mulrow T k v i = 0) -> forall i, (i < k)%nat -> v i = 0.
(** All leading blocks up to size n are (what the recursion needs; true of every
    matrix whose quadratic form has no zero but 0, see C41_definite). *)
Definition strongly_regular (T : nat -> nat -> K) (n : nat) : Prop := forall k, (k <= n)%nat -> nonsingular T k.
(** The quadratic form of the n x n block vanishes only at 0. *)
Definition definite (T : nat -> nat -> K) (n : nat) : Prop :=
  forall v, sum n (fun i => v i * mulrow T n v i) = 0 -> forall i, (i < n)%nat -> v i = 0.
End S.
