(** Specification of the biquad designs: the analog prototypes of the documentation (filtrage.hpp:601-626)
    and of the Audio EQ Cookbook it refers to, for a cut-off of 1 rad/s. *)
From Coq Require Import Reals.
From Verif Require Import Base ComplexSys Rii_Model.
Local Open Scope R_scope.
(** the variable of the Laplace transform, as a function of z: the frequency f goes to s = i *)
Definition laplace (f : R) (z : Cfield) : Cfield := ((z - 1) / (re (tan (PI * f)) * (z + 1)))%K.
(** common denominator s^2 + s/Q + 1 *)
Definition den2 (Q : R) (s : Cfield) : Cfield := (s * s + re (1 / Q) * s + 1)%K.
Definition analog (t : biquad_type) (Q gain_dB : R) (s : Cfield) : Cfield :=
  let A := Rpower 10 (gain_dB / 40) in let b := sqrt (2 * A) in
  match t with
  | B_PASSE_BAS => (1 / den2 Q s)%K
  | B_PASSE_HAUT => (s * s / den2 Q s)%K
  | B_PASSE_BANDE => (re (1 / Q) * s / den2 Q s)%K
  | B_COUPE_BANDE => ((s * s + 1) / den2 Q s)%K
  | B_RESONATEUR => (den2 (Q / A) s / den2 (Q * A) s)%K
  | B_PLATEAU_BF => (re A * (s * s + re b * s + re A) / (re A * s * s + re b * s + 1))%K
  | B_PLATEAU_HF => (re A * (re A * s * s + re b * s + 1) / (s * s + re b * s + re A))%K
  end.
(** denominator of the prototype *)
Definition analog_den (t : biquad_type) (Q gain_dB : R) (s : Cfield) : Cfield :=
  let A := Rpower 10 (gain_dB / 40) in let b := sqrt (2 * A) in
  match t with
  | B_RESONATEUR => den2 (Q * A) s
  | B_PLATEAU_BF => (re A * s * s + re b * s + 1)%K
  | B_PLATEAU_HF => (s * s + re b * s + re A)%K
  | _ => den2 Q s
  end.
