(** Specification: the Gregorian calendar, years 1 to 9999. *)
From Verif Require Import Base Temps_Model.
Local Open Scope Z_scope.
(** A year is a leap year when it is a multiple of 4 but not of 100, or of 400. *)
Definition leap (y : Z) : bool := ((y mod 4 =? 0) && negb (y mod 100 =? 0)) || (y mod 400 =? 0).
Definition month_len (y m : Z) : Z :=
  if m =? 2 then (if leap y then 29 else 28)
  else if (m =? 4) || (m =? 6) || (m =? 9) || (m =? 11) then 30 else 31.
Definition valid_date (d : cal) : Prop := 1 <= an d <= 9999 /\ 1 <= mois d <= 12 /\ 1 <= jour d <= month_len (an d) (mois d).
(** The following day. *)
Definition next_day (d : cal) : cal :=
  if jour d <? month_len (an d) (mois d) then mkcal (an d) (mois d) (jour d + 1)
  else if mois d <? 12 then mkcal (an d) (mois d + 1) 1
  else mkcal (an d + 1) 1 1.
(** Chronological order. *)
Definition before (d e : cal) : Prop :=
  an d < an e \/ (an d = an e /\ (mois d < mois e \/ (mois d = mois e /\ jour d < jour e))).
Definition valid_time (t : hc) : Prop :=
  0 <= h_h t < 24 /\ 0 <= h_m t < 60 /\ 0 <= h_s t < 60 /\ 0 <= h_ms t < 1000 /\ 0 <= h_us t < 1000.
(** Microseconds since midnight. *)
Definition us_of_day (t : hc) : Z := (((h_h t * 60 + h_m t) * 60 + h_s t) * 1000 + h_ms t) * 1000 + h_us t.
Definition us_per_day : Z := 24 * 60 * 60 * 1000000.
(** Number of days from 1/1/1 to the end of year 9999. *)
Definition total_days : Z := 3652059.
