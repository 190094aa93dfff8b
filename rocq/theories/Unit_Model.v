(** Labels of the axes of the figures: vue/unites.cc.  Numbers are exact reals (the conversions of double to
    float are not modelled).  A label is modelled by the decimal number printed, an integer [lab_num] divided by
    10^[lab_digits], and the text that follows it; a null number printed with a minus sign is not distinguished. *)
From Coq Require Import List Arith ZArith Reals String DecimalString.
From Flocq Require Import Core.
From Verif Require Import Base.
Import ListNotations.
Local Open Scope R_scope.

Record label := mklabel { lab_num : Z; lab_digits : nat; lab_suffix : string }.

(** pow(10, e) with an integer exponent *)
Definition p10 (e : Z) : R := powerRZ 10 e.
Definition str_empty (s : string) : bool := match s with EmptyString => true | _ => false end.

(** unites.cc:63-74 ndigits(double); numeric_limits of float: epsilon = 2^-23 *)
Definition short (a : R) (i : nat) : bool :=
  let at_ := a * 10 ^ i in
  if Rlt_dec (Rabs (at_ - IZR (ZnearestA at_))) (2 * 10 ^ i * / 2 ^ 23) then true else false.
Definition ndigits (a : R) : nat := match find (short a) (seq 0 8) with Some i => i | None => 8 end.
(** unites.cc:77-81 ndigits(double, int, string) *)
Definition ndigits3 (t : R) (expo : Z) : nat := ndigits (Rabs t * p10 (- expo)).

Definition geb (a b : R) : bool := if Rle_dec b a then true else false.
Definition ltb (a b : R) : bool := if Rlt_dec a b then true else false.
Definition nul (a : R) : bool := if Req_EM_T a 0 then true else false.
(** unites.cc:86-122 calc_expo_nb_chiffres *)
Definition calc_expo (t : R) (unite : string) : Z * nat :=
  let a := Rabs t in
  if str_empty unite then
    if (ltb a 70000 && geb a 1)%bool then (0%Z, ndigits a)
    else if nul t then (0%Z, 0%nat)
    else if geb a (1 / 10) then (0%Z, ndigits a)
    else let p := Zfloor (ln a / ln 10) in (p, ndigits (a * p10 (- p)))
  else if (ltb a 1000 && geb a 1)%bool then (0%Z, ndigits a)
  else if (geb a 1000 && ltb a 1000000)%bool then (3%Z, ndigits (a * p10 (-3)))
  else if (geb a 1000000 && ltb a 1000000000)%bool then (6%Z, ndigits (a * p10 (-6)))
  else if geb a 1000000000 then (9%Z, ndigits (a * p10 (-9)))
  else if nul t then (0%Z, 0%nat)
  else if ltb a (p10 (-3)) then ((-6)%Z, ndigits (a * p10 6))
  else if ltb a 1 then ((-3)%Z, ndigits (a * p10 3))
  else (0%Z, ndigits a).

(** unites.cc:22-50: the text after the number *)
Definition suffixe (unite : string) (expo : Z) : string :=
  let un :=
    if str_empty unite then (if (expo =? 0)%Z then ""%string else ("e" ++ NilEmpty.string_of_int (Z.to_int expo))%string)
    else if (expo =? 3)%Z then ("K" ++ unite)%string
    else if (expo =? 6)%Z then ("M" ++ unite)%string
    else if (expo =? 9)%Z then ("G" ++ unite)%string
    else if (expo =? -3)%Z then ("m" ++ unite)%string
    else if (expo =? -6)%Z then ("u" ++ unite)%string
    else if (expo =? 0)%Z then unite
    else ("?" ++ unite)%string in
  if str_empty un then un else (" " ++ un)%string.

(** unites.cc:20-60 valeur_vers_chaine(t, unite, expo, nb_chiffres).  Without decimals, the rounded number is
    converted to int (undefined outside of its range); otherwise it is printed with the format %.nf, which rounds
    to the nearest decimal; a negative number of decimals is an invalid format (exception). *)
Definition valeur4 (t : R) (unite : string) (expo nb : Z) : res label :=
  let un := suffixe unite expo in
  let t' := t * p10 (- expo) in
  if (nb =? 0)%Z then
    let r := ZnearestA t' in
    if ((-2147483648 <=? r) && (r <=? 2147483647))%Z%bool then Ok (mklabel r 0 un) else UB
  else if (nb <? 0)%Z then Exc
  else Ok (mklabel (ZnearestE (t' * 10 ^ Z.to_nat nb)) (Z.to_nat nb) un).
(** unites.cc:8-12 *)
Definition valeur3 (t : R) (unite : string) (nb : Z) : res label := valeur4 t unite (fst (calc_expo t unite)) nb.
(** unites.cc:14-18 *)
Definition valeur (t : R) (unite : string) : res label :=
  let c := calc_expo t unite in valeur4 t unite (fst c) (Z.of_nat (snd c)).

(** unites.cc:125-156 calc_expo_nb_chiffres_commun; has_max is never set *)
Definition commun (tics : list R) (unite : string) : Z * nat :=
  match tics with
  | [] => (0%Z, 0%nat)
  | t0 :: q =>
    let e := fold_left (fun e t => if nul t then e else fst (calc_expo t unite)) tics 0%Z in
    (e, fold_left (fun n t => Nat.max n (ndigits3 t e)) q (ndigits3 t0 e))
  end.
