(** Specification of the adaptive equaliser (C55). *)
From Coq Require Import Reals.
From Verif Require Import Base Demod_Model Demod_Spec Egal_Model.
Open Scope R_scope.

(** One sample out of k, starting with the k-th one. *)
Definition every_kth {A} (k : nat) (d : A) (x : list A) : list A :=
  map (fun j => nth (j * k + (k - 1)) x d) (seq 0 (length x / k)).
(** Squared modulus. *)
Definition mod2 (z : R * R) : R := fst z ^ 2 + snd z ^ 2.
(** Energy of a window. *)
Definition energy (w : list (R * R)) : R := fold_right (fun z acc => mod2 z + acc) 0 w.
