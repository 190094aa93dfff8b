(** Specification of the vector utilities (C38, C39): what the documentation of
    tsd.hpp promises, independent of the model. *)
From Coq Require Import Sorted.
From Verif Require Import Base.

(** [idx] lists exactly the indices where [x] is true, in increasing order. *)
Definition true_indices (x : list bool) (idx : list nat) : Prop :=
  StronglySorted lt idx /\ forall i, In i idx <-> nth_error x i = Some true.
(** [z] is the first index where the test holds, or -1 if there is none. *)
Definition is_first (n : nat) (P : nat -> Prop) (z : Z) : Prop :=
  (z = (-1)%Z /\ forall i, (i < n)%nat -> ~ P i)
  \/ exists k, z = Z.of_nat k /\ (k < n)%nat /\ P k /\ forall i, (i < k)%nat -> ~ P i.
(** The same for the last index. *)
Definition is_last (n : nat) (P : nat -> Prop) (z : Z) : Prop :=
  (z = (-1)%Z /\ forall i, (i < n)%nat -> ~ P i)
  \/ exists k, z = Z.of_nat k /\ (k < n)%nat /\ P k /\ forall i, (k < i < n)%nat -> ~ P i.
(** Elements of [x] kept by a mask. *)
Fixpoint keep {A} (x : list A) (m : list bool) : list A :=
  match x, m with a :: x', b :: m' => if b then a :: keep x' m' else keep x' m' | _, _ => [] end.
