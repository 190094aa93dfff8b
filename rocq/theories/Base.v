(** Shared conventions of the model: outcomes of a C++ call, checked vector
    accesses, commutative rings of samples, finite sums, block processing. *)
From Coq Require Export List Arith ZArith Lia Bool Ring Ring_theory Field_theory.
From Coq Require Import ZifyBool ZifyNat.
Export ListNotations.
#[global] Arguments Nat.div : simpl never.
#[global] Arguments Nat.modulo : simpl never.
#[global] Arguments Z.add : simpl never.
#[global] Arguments Z.mul : simpl never.
#[global] Arguments Z.sub : simpl never.

(** ** Outcomes of a C++ call *)

(** Normal return, exception (libtsd's default logger throws on [échec],
    [assertion] and [msg_erreur], core/src/tsd.cc [tsd_log_msg]) or undefined
    behaviour.  [Diverge] is a loop that never ends. *)
Inductive res (A : Type) : Type :=
| Ok (a : A)
| Exc
| UB
| Diverge.
Arguments Ok {A}. Arguments Exc {A}. Arguments UB {A}. Arguments Diverge {A}.

Definition bind {A B} (x : res A) (f : A -> res B) : res B :=
  match x with Ok a => f a | Exc => Exc | UB => UB | Diverge => Diverge end.

Notation "'let*' p := x 'in' b" := (bind x (fun p => b))
  (at level 61, p pattern, x at next level, right associativity, b at level 200).

(** Checked read of a vector, as libtsd's [operator()(i)]: index outside
    [0,n) throws (core/include/tsd/tableau.hpp, core/src/tableau.cc). *)
Definition vget {A} (l : list A) (i : nat) : res A :=
  match nth_error l i with Some a => Ok a | None => Exc end.

(** List update at position [i]; unchanged outside the range. *)
Fixpoint upd {A} (l : list A) (i : nat) (v : A) : list A :=
  match l, i with
  | [], _ => []
  | _ :: t, O => v :: t
  | a :: t, S j => a :: upd t j v
  end.

(** Checked write, as [v(i) = x]. *)
Definition vset {A} (l : list A) (i : nat) (v : A) : res (list A) :=
  if i <? length l then Ok (upd l i v) else Exc.

(** Same with a C++ [int] index, that may be negative. *)
Definition vgetZ {A} (l : list A) (i : Z) : res A :=
  if (i <? 0)%Z then Exc else vget l (Z.to_nat i).
Definition vsetZ {A} (l : list A) (i : Z) (v : A) : res (list A) :=
  if (i <? 0)%Z then Exc else vset l (Z.to_nat i) v.

(** C++ loop [for(i = 0; i < n; i++)] threading a state. *)
Fixpoint loop {S} (n : nat) (body : nat -> S -> res S) (s : S) : res S :=
  match n with
  | O => Ok s
  | Datatypes.S m => let* s' := loop m body s in body m s'
  end.

(** Feeding successive blocks to a stateful step function and concatenating
    the outputs. *)
Fixpoint run {St A B} (step : St -> list A -> res (St * list B)) (s : St)
    (blocks : list (list A)) : res (St * list B) :=
  match blocks with
  | [] => Ok (s, [])
  | b :: bs =>
      let* (s1, y1) := step s b in
      let* (s2, y2) := run step s1 bs in
      Ok (s2, y1 ++ y2)
  end.

(** Sample-by-sample processing of a block: [y(i) = f(x(i))] with a state. *)
Fixpoint map_st {St A B} (f : St -> A -> res (St * B)) (s : St) (l : list A)
    : res (St * list B) :=
  match l with
  | [] => Ok (s, [])
  | a :: t =>
      let* (s1, b) := f s a in
      let* (s2, bs) := map_st f s1 t in
      Ok (s2, b :: bs)
  end.

(** Same where each input sample yields any number of outputs. *)
Fixpoint flat_st {St A B} (f : St -> A -> res (St * list B)) (s : St) (l : list A)
    : res (St * list B) :=
  match l with
  | [] => Ok (s, [])
  | a :: t =>
      let* (s1, b) := f s a in
      let* (s2, bs) := flat_st f s1 t in
      Ok (s2, b ++ bs)
  end.

(** ** Commutative rings of samples *)

Record cring := {
  car :> Type;
  c0 : car; c1 : car;
  cadd : car -> car -> car;
  cmul : car -> car -> car;
  csub : car -> car -> car;
  copp : car -> car;
  cth : ring_theory c0 c1 cadd cmul csub copp (@eq car)
}.
Arguments c0 {_}. Arguments c1 {_}. Arguments cadd {_}. Arguments cmul {_}.
Arguments csub {_}. Arguments copp {_}.

Declare Scope cring_scope.
Delimit Scope cring_scope with K.
Notation "0" := c0 : cring_scope.
Notation "1" := c1 : cring_scope.
Notation "x + y" := (cadd x y) : cring_scope.
Notation "x * y" := (cmul x y) : cring_scope.
Notation "x - y" := (csub x y) : cring_scope.
Notation "- x" := (copp x) : cring_scope.

Record cfield := {
  fring :> cring;
  fdiv : fring -> fring -> fring;
  finv : fring -> fring;
  fth : field_theory (@c0 fring) (@c1 fring) (@cadd fring) (@cmul fring)
          (@csub fring) (@copp fring) fdiv finv (@eq fring)
}.
Arguments fdiv {_}. Arguments finv {_}.
Notation "x / y" := (fdiv x y) : cring_scope.

(** Integers as a ring of samples (used by the non-vacuity examples). *)
Definition Zring : cring :=
  {| car := Z; c0 := 0%Z; c1 := 1%Z; cadd := Z.add; cmul := Z.mul;
     csub := Z.sub; copp := Z.opp; cth := InitialRing.Zth |}.

(** Powers. *)
Fixpoint cpow {K : cring} (x : K) (n : nat) : K :=
  match n with O => c1 | S m => cmul x (cpow x m) end.

(** Image of a natural number. *)
Fixpoint cnat {K : cring} (n : nat) : K :=
  match n with O => c0 | S m => cadd (cnat m) c1 end.

(** [sum n f] is f(0) + ... + f(n-1). *)
Fixpoint sum {K : cring} (n : nat) (f : nat -> K) : K :=
  match n with O => c0 | S m => cadd (sum m f) (f m) end.

(** Sample [i] of a stream given as a list, zero outside (in the theorems the
    default is only used where the English statement says zero). *)
Definition samp {K : cring} (l : list K) (i : nat) : K := nth i l c0.
(** Sample at an integer position: zero before the start and after the end. *)
Definition sampZ {K : cring} (l : list K) (i : Z) : K :=
  if (i <? 0)%Z then c0 else nth (Z.to_nat i) l c0.
