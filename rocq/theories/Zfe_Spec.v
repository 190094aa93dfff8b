(** Specification for C43. *)
From Coq Require Import Reals.
From Verif Require Import Base Filters_Spec RField.
Section S.
Context {K : cring}.
Open Scope cring_scope.
(** Element (i,j) of a matrix stored by columns, product by a vector. *)
Definition entry (rows : nat) (F : list K) (i j : nat) : K := nth (i + j * rows) F 0.
Definition mat_vec (rows cols : nat) (F g : list K) (i : nat) : K := sum cols (fun j => entry rows F i j * samp g j).
(** The sequence that is 1 at position d, 0 elsewhere. *)
Definition impulse (d i : nat) : K := if (i =? d)%nat then 1 else 0.
End S.
(** Squared error between the channel h followed by the equaliser g and a pure delay of d samples. *)
Definition isi (h g : list Rring) (d : nat) : R :=
  sum (K := Rring) (length h + length g - 1) (fun i => ((conv h g i - impulse (K := Rring) d i) * (conv h g i - impulse (K := Rring) d i))%R).
(** g solves the normal equations of the least-squares problem F g = b. *)
Definition normal_equations (rows cols : nat) (F b g : list Rring) : Prop :=
  length g = cols /\ forall j, j < cols -> sum (K := Rring) rows (fun i => (entry rows F i j * (mat_vec rows cols F g i - samp b i))%R) = 0%R.
