(** Specification vocabulary for pseudo-random sequences. *)
From Verif Require Import Base BitStream_Model Lfsr_Model.

(** [taps n p b t] : the next bit of the linear recurrence with feedback mask
    [p], computed from the [n] bits b(t), ..., b(t+n-1). *)
Fixpoint taps (n : nat) (p : N) (b : nat -> bool) (t : nat) : bool :=
  match n with
  | O => false
  | S m => xorb (taps m p b t) (N.testbit p (N.of_nat m) && b (t + m))
  end.

(** A sequence that obeys the recurrence of the polynomial of degree [n]. *)
Definition prbs_seq (n : nat) (p : N) (b : nat -> bool) : Prop :=
  forall t, b (t + n) = taps n p b t.

(** The register value after [t] generator steps. *)
Definition gen_state (c : lfsr_cfg) (r0 : N) (t : nat) : N := Nat.iter t (gen_next c) r0.

(** Number of ones, and periodic autocorrelation, of a binary sequence. *)
Definition ones (l : list bool) : nat := length (filter (fun b => b) l).
Definition corr (l : list bool) (tau : nat) : Z :=
  fold_right Z.add 0%Z
    (map (fun t => if Bool.eqb (nth t l false) (nth ((t + tau) mod length l) l false)
                   then 1%Z else (-1)%Z) (seq 0 (length l))).

(** Feeding a list of bits to the receiver. *)
Definition rx_feed (r : rx) (l : list bool) : rx := fold_left rx_bit l r.

(** Longest run of positions where two sequences differ, as a check:
    [no_run k run l m] holds when no more than [k] consecutive differences occur,
    [run] differences having just been seen. *)
Fixpoint no_run (k run : nat) (l m : list bool) : bool :=
  match l, m with
  | a :: t, b :: u =>
      let run' := if Bool.eqb a b then 0 else run + 1 in
      (run' <=? k) && no_run k run' t u
  | _, _ => true
  end.
