(** Model of the modulo functions (core/include/tsd/tsd.hpp) and of phase
    unwrapping (core/src/tsd.cc): over the real numbers (no rounding), and the
    float instance of modulo, bit by bit. *)
From Coq Require Import Reals.
From Flocq Require Import Core IEEE754.BinarySingleNaN IEEE754.Binary IEEE754.Bits.
From Verif Require Import Base.

(** ** Modulo, phase unwrapping (real numbers) *)
Section Reals.
  Open Scope R_scope.
  Definition rfloor (x : R) : R := IZR (Int_part x).
  (** truncation of C's (int) x, used by fmod *)
  Definition rtrunc (x : R) : R := if Rle_dec 0 x then rfloor x else - rfloor (- x).
  (** tsd.hpp:771-783 modulo *)
  Definition modulo (x m : R) : R :=
    if Req_EM_T m 0 then x else
    let res := x - m * rfloor (x / m) in
    if Req_EM_T res m then 0 else res.
  (** tsd.hpp:801-804, 822-826 *)
  Definition modulo_2pi (x : R) : R := modulo x (2 * PI).
  Definition modulo_pm_pi (x : R) : R := modulo_2pi (x + PI) - PI.
  (** std::fmod *)
  Definition fmod (x r : R) : R := x - r * rtrunc (x / r).
  (** tsd.cc:497-516 déplie_phase; p is the previous output y(i-1) *)
  Definition deplie_step (r p x : R) : R :=
    let d := fmod (x - p) r in
    let d := if Rlt_dec (r / 2) d then d - r else d in
    let d := if Rlt_dec d (- PI) then d + r else d in
    p + d.
  Fixpoint deplie_from (r p : R) (x : list R) : list R :=
    match x with [] => [] | a :: t => let y := deplie_step r p a in y :: deplie_from r y t end.
  (** y(0) = x(0) throws on an empty vector *)
  Definition deplie_phase (x : list R) (r : R) : res (list R) :=
    match x with [] => Exc | a :: t => Ok (a :: deplie_from r a t) end.
End Reals.

(** ** The float instance of modulo (tsd.hpp:771-783, T = float) *)
(** floor of a finite float *)
Definition b32_floor (x : binary32) : binary32 :=
  match x with
  | B754_finite _ _ s m e _ =>
      if (0 <=? e)%Z then x
      else binary_normalize 24 128 eq_refl eq_refl mode_NE (Z.div (cond_Zopp s (Zpos m)) (2 ^ (- e))) 0 s
  | _ => x
  end.
Definition b32_eqb (x y : binary32) : bool := match b32_compare x y with Some Eq => true | _ => false end.
Definition modulo32 (x m : binary32) : binary32 :=
  if b32_eqb m (B754_zero _ _ false) then x else
  let res := b32_minus mode_NE x (b32_mult mode_NE m (b32_floor (b32_div mode_NE x m))) in
  if b32_eqb res m then B754_zero _ _ false else res.
(** 2 * std::numbers::pi_v<float> = 0x40c90fdb *)
Definition twopi32 : binary32 := b32_of_bits 1086918619.
