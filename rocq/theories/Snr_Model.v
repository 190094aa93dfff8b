(** Model of core/src/telecom/snr.cc: Matzner (snr_Matzner).  Exact real numbers; None stands for NaN (square root of a negative number). *)
From Coq Require Import Reals.
From Verif Require Import Base RField DftSys ComplexSys.
Local Open Scope R_scope.

(** sqrt of the C library *)
Definition fsqrt (v : R) : option R := if Rlt_dec v 0 then None else Some (sqrt v).
(** snr.cc:11-22: state (e2, e4), both null after reset *)
Definition matz_init : R * R := (0, 0).
(** snr.cc:28-40: body of the loop; N = e2 - S is NaN if S is *)
Definition matz_one (g : R) (st : R * R) (x : Complex) : res (R * R * (option R * option R)) :=
  let '(e2, e4) := st in
  let e2i := Cnorm2 x in
  let e4i := e2i * e2i in
  let e2 := g * e2i + (1 - g) * e2 in
  let e4 := g * e4i + (1 - g) * e4 in
  let s := fsqrt (2 * e2 * e2 - e4) in
  Ok ((e2, e4), (s, match s with Some v => Some (e2 - v) | None => None end)).
(** snr.cc:23-41 step: the two output vectors, as a vector of pairs *)
Definition matz_step (g : R) (st : R * R) (x : list Complex) := map_st (matz_one g) st x.
