(** Specification vocabulary for the real-time filters. *)
From Verif Require Import Base.
Local Open Scope cring_scope.

(** Convolution at output index [n]: sum over k of h_k x_(n-k), samples before
    the start being zero. *)
Definition conv {K : cring} (h x : list K) (n : nat) : K :=
  sum (length h) (fun k => samp h k * sampZ x (Z.of_nat n - Z.of_nat k)).

(** [y] is a solution of the difference equation
    sum_k a_k y_(n-k) = sum_k b_k x_(n-k), zero initial conditions. *)
Definition diff_eq {K : cring} (b a x y : list K) : Prop :=
  length y = length x /\
  forall n, (n < length x)%nat -> conv a y n = conv b x n.

(** Samples 0, R, 2R, ... of a list. *)
Definition every {A} (R : nat) (d : A) (l : list A) : list A :=
  map (fun m => nth (m * R) l d) (seq 0 ((length l + R - 1) / R)).

(** Consecutive blocks of [N] samples: the complete ones, and the remainder. *)
Definition packets {A} (N : nat) (l : list A) : list (list A) :=
  map (fun m => firstn N (skipn (m * N) l)) (seq 0 (length l / N)).
Definition remainder {A} (N : nat) (l : list A) : list A := skipn (length l / N * N) l.

(** First-order recursion y_n = f (x_n) (y_(n-1)) started from [p]. *)
Fixpoint recur {A} (f : A -> A -> A) (p : A) (x : list A) : list A :=
  match x with [] => [] | a :: t => let y := f a p in y :: recur f y t end.

(** Stream extended before its start by the constant [p] (position in Z). *)
Definition ext_left {K : cring} (p : K) (l : list K) (k : Z) : K :=
  if (k <? 0)%Z then p else nth (Z.to_nat k) l 0.
