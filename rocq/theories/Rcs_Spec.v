(** Specification vocabulary for the pulse shaping filters. *)
From Coq Require Import Reals.
From Verif Require Import Base RField.
Local Open Scope R_scope.
(** Raised cosine spectrum of roll-off beta, frequency in multiples of the symbol rate. *)
Definition rc_spectrum (beta f : R) : R :=
  if Rle_dec (Rabs f) ((1 - beta) / 2) then 1
  else if Rle_dec (Rabs f) ((1 + beta) / 2) then (1 + cos (PI / beta * (Rabs f - (1 - beta) / 2))) / 2
  else 0.
(** Time t (in symbols) is not in the interval of half-width 1e-7 around the instant x, except x itself. *)
Definition away (x t : R) : Prop := Rabs t = x \/ / 10 ^ 7 <= Rabs (Rabs t - x).
