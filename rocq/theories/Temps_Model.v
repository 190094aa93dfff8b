(** Model of core/src/temps.cc: calendar, date-times, GPS time.  The double
    precision operations of the code are the rounding function [dbl]; int and
    int64 values are integers (overflow of int is tracked where it can occur
    in the supported range, vers_GPS). *)
From Coq Require Import Reals.
From Flocq Require Import Core.
From Verif Require Import Base Dbl.
Local Open Scope Z_scope.

(** temps.cc:13-19 *)
Definition TICS_MS := 1000. Definition TICS_SECONDE := 1000 * TICS_MS. Definition TICS_MINUTE := 60 * TICS_SECONDE.
Definition TICS_HEURE := 60 * TICS_MINUTE. Definition TICS_JOUR := 24 * TICS_HEURE.
(** temps.cc:22-36 *)
Definition nbsecs_par_jour := 24 * 3600.
Definition cycle_400 := 365 * 400 + 100 - 3.
Definition cycle_100 := 365 * 100 + 24.
Definition cycle_4 := 365 * 4 + 1.
(** temps.cc:38-48 *)
Definition nb_jours_par_mois (biss : bool) : list Z :=
  if biss then [31; 29; 31; 30; 31; 30; 31; 31; 30; 31; 30; 31] else [31; 28; 31; 30; 31; 30; 31; 31; 30; 31; 30; 31].
Definition cumul_jours_par_mois (biss : bool) : list Z :=
  if biss then [0; 31; 60; 91; 121; 152; 182; 213; 244; 274; 305; 335] else [0; 31; 59; 90; 120; 151; 181; 212; 243; 273; 304; 334].
(** temps.cc:394-397 *)
Definition annee_valide (a : Z) : bool := (1 <=? a) && (a <=? 9999).
(** temps.cc:387-392 *)
Definition est_bissextile (a : Z) : bool :=
  if annee_valide a then ((Z.rem a 4 =? 0) && negb (Z.rem a 100 =? 0)) || (Z.rem a 400 =? 0) else false.
(** temps.cc:190-195 *)
Definition annee_mois_valide (a m : Z) : bool := if annee_valide a then (1 <=? m) && (m <=? 12) else false.
(** temps.cc:197-204 *)
Definition mois_nb_jours (a m : Z) : res Z :=
  if annee_mois_valide a m then
    match nth_error (nb_jours_par_mois (est_bissextile a)) (Z.to_nat (m - 1)) with Some v => Ok v | None => UB end
  else Exc.
(** temps.hpp: struct Calendrier, HeureComposite, DateComposite *)
Record cal := mkcal { an : Z; mois : Z; jour : Z }.
Record hc := mkhc { h_h : Z; h_m : Z; h_s : Z; h_ms : Z; h_us : Z }.
(** temps.cc:206-210 *)
Definition cal_valide (d : cal) : res bool :=
  if annee_mois_valide (an d) (mois d) then
    if 1 <=? jour d then let* n := mois_nb_jours (an d) (mois d) in Ok (jour d <=? n) else Ok false
  else Ok false.
(** temps.cc:281-288 *)
Definition hc_valide (t : hc) : bool :=
  (0 <=? h_h t) && (h_h t <? 24) && (0 <=? h_m t) && (h_m t <? 60) && (0 <=? h_s t) && (h_s t <? 60)
  && (0 <=? h_ms t) && (h_ms t <? 1000) && (0 <=? h_us t) && (h_us t <? 1000).
(** temps.cc:289-298: an invalid date is only reported by a warning *)
Definition debut_annee (d : cal) : res Z :=
  let* v := cal_valide d in
  if v then match nth_error (cumul_jours_par_mois (est_bissextile (an d))) (Z.to_nat (mois d - 1)) with
            | Some c => Ok (jour d - 1 + c) | None => UB end
  else Ok (jour d).
(** temps.cc:300-315: int64 arithmetic, then two double additions *)
Definition greg_jours (a : Z) (j : R) : R :=
  let a1 := a - 1 in
  dbl (dbl (dbl (IZR (365 * a1 + Z.quot a1 4 - Z.quot a1 100 + Z.quot a1 400)) + j) - 1).
(** temps.cc:317-320 *)
Definition debut_ere (d : cal) : res Z :=
  let* n := debut_annee d in Ok (Ztrunc (greg_jours (an d) (IZR (1 + n)))).
(** temps.cc:124-144: Durée::secondes, jours (double -> int64) *)
Definition duree_jours (x : R) : Z := Ztrunc (dbl (x * IZR TICS_JOUR)).
Definition duree_secondes (x : R) : Z := Ztrunc (dbl (x * IZR TICS_SECONDE)).
(** temps.cc:146-150 *)
Definition duree_hc (t : hc) : Z := (h_h t * 3600 + h_m t * 60 + h_s t) * TICS_SECONDE + h_ms t * TICS_MS + h_us t * 1.
(** temps.cc:152-160 *)
Definition duree_jhms (j h m s us : Z) : Z := j * TICS_JOUR + (h * 3600 + m * 60 + s) * TICS_SECONDE + us * 1.
(** temps.cc:173-176 *)
Definition of_date (d : cal) (t : hc) : res Z := let* n := debut_ere d in Ok (duree_hc t + duree_jours (IZR n)).
(** temps.cc:400-408 *)
Definition decomp_heure (t : Z) : hc :=
  mkhc (Z.quot (Z.rem t TICS_JOUR) TICS_HEURE) (Z.quot (Z.rem t TICS_HEURE) TICS_MINUTE) (Z.quot (Z.rem t TICS_MINUTE) TICS_SECONDE)
       (Z.quot (Z.rem t TICS_SECONDE) TICS_MS) (Z.quot (Z.rem t TICS_MS) 1).
(** temps.cc:558-561, the loop on months: ptr[mois] is read before the test on mois (reading ptr[12] is UB) *)
Fixpoint mois_loop (fuel : nat) (tab : list Z) (nb m : Z) : res (Z * Z) :=
  match fuel with
  | O => Diverge
  | S f =>
      match nth_error tab (Z.to_nat m) with
      | None => UB
      | Some v => if (v <=? nb) && (m <=? 11) then mois_loop f tab (nb - v) (m + 1) else Ok (nb, m)
      end
  end.
(** temps.cc:501-564 *)
Definition calendrier (t : Z) : res cal :=
  let nb := Z.quot t TICS_JOUR in
  let n400 := Z.quot nb cycle_400 in
  let nb := Z.rem nb cycle_400 in
  let n100 := Z.quot nb cycle_100 in
  let n100 := if n100 =? 4 then 3 else n100 in
  let nb := nb - n100 * cycle_100 in
  let n4 := Z.quot nb cycle_4 in
  let nb := Z.rem nb cycle_4 in
  let (nans, nb) :=
    if nb <? 365 then (0, nb)
    else if nb <? 2 * 365 then (1, nb - 365)
    else if nb <? 3 * 365 then (2, nb - 2 * 365)
    else (3, nb - 3 * 365) in
  let a := n400 * 400 + n100 * 100 + n4 * 4 + nans + 1 in
  let* (nb, m) := mois_loop 20 (nb_jours_par_mois (est_bissextile a)) nb 0 in
  Ok (mkcal a (m + 1) (nb + 1)).
(** temps.cc:410-413 *)
Definition decomposition (t : Z) : res (cal * hc) := let* d := calendrier t in Ok (d, decomp_heure t).
(** temps.cc:178-183 *)
Definition arrondi_heure_pleine (t : Z) : res Z :=
  let* (d, h) := decomposition t in of_date d (mkhc (h_h h) 0 0 0 0).
(** temps.cc:185-188 *)
Definition microsecondes (t : Z) : Z := Z.quot (Z.rem t TICS_SECONDE) 1.
(** temps.cc:337-351 (double result) *)
Definition nb_jours (t : Z) : R := dbl (dbl (IZR t) / IZR TICS_JOUR).
Definition nb_jours_julien (t : Z) : R := dbl (nb_jours t + 17214255 / 10).
Definition j2000 (t : Z) : R := dbl (nb_jours_julien t - 2415020).
(** temps.cc:359-369 *)
Definition epoque_J2000 : res Z := of_date (mkcal 2000 1 1) (mkhc 12 0 0 0 0).
Definition epoque_GPS : res Z := of_date (mkcal 1980 1 6) (mkhc 0 0 0 0 0).
Definition epoque_unix : res Z := of_date (mkcal 1970 1 1) (mkhc 0 0 0 0 0).
(** temps.cc:422-430 *)
Definition de_GPS (sem secs : Z) : res Z :=
  let* r := epoque_GPS in Ok (r + duree_secondes (IZR secs) + duree_jours (IZR (7 * sem)) + duree_secondes (-18)).
(** int arithmetic: the product nb_semaines * sps is computed on 32-bit ints *)
Definition int32 (n : Z) : res Z := if (-2 ^ 31 <=? n) && (n <? 2 ^ 31) then Ok n else UB.
(** temps.cc:432-447 *)
Definition vers_GPS (t : Z) : res (Z * Z) :=
  let* e0 := epoque_GPS in
  let nsecs := dbl (dbl (dbl (IZR (t - e0)) / IZR TICS_SECONDE) + 18) in
  let sps := nbsecs_par_jour * 7 in
  let* sem := int32 (Ztrunc (dbl (nsecs / IZR sps))) in
  let* p := int32 (sem * sps) in
  let* secs := int32 (Ztrunc (dbl (nsecs - IZR p))) in
  Ok (sem, secs).
