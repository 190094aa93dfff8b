(** Specification vocabulary for the analogue modulations (C80). *)
From Coq Require Import Reals.
From Verif Require Import Base.
Local Open Scope R_scope.
(** Outputs of a processor, one per block. *)
Fixpoint outs {S A B} (step : S -> list A -> res (S * list B)) (s : S) (blocks : list (list A)) : res (list (list B)) :=
  match blocks with
  | [] => Ok []
  | b :: bs => let* (s1, y) := step s b in let* l := outs step s1 bs in Ok (y :: l)
  end.
(** A processor which never fails and keeps the length of each block. *)
Definition keeps {S A B} (step : S -> list A -> res (S * list B)) : Prop := forall s x, exists s' y, step s x = Ok (s', y) /\ length y = length x.
(** Greatest modulus of a block. *)
Definition is_peak (u : list R) (m : R) : Prop := (forall v, In v u -> Rabs v <= m) /\ exists v, In v u /\ Rabs v = m.
(** Samples of given amplitude and phase. *)
Definition polar_samples (a p : nat -> R) (n : nat) : list (R * R) := map (fun k => (a k * cos (p k), a k * sin (p k))) (seq 0 n).
