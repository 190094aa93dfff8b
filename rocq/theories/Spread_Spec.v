(** Specification vocabulary for spread spectrum. *)
From Coq Require Import Reals.
From Verif Require Import Base ComplexSys.
(** x multiplied by the chips, repeated for ever. *)
Definition spread {K : cring} (chips x : list K) : list K :=
  map (fun j => (samp x j * samp chips (j mod length chips))%K) (seq 0 (length x)).
(** Frequency hopping: slot s (D samples) is shifted by the frequency s * D / nfreqs, each slot from phase 0; the samples after
    the last whole slot are not shifted. *)
Definition hopped (D nfreqs : nat) (x : list C) : list C :=
  map (fun j => if (j <? length x / D * D)%nat
                then Cmul (nth j x (0, 0)%R) (let t := (2 * PI * (INR (j / D * D) / INR nfreqs) * INR (j mod D))%R in (cos t, sin t))
                else nth j x (0, 0)%R) (seq 0 (length x)).
(** Signal shifted by the normalised frequency f. *)
Definition shifted (f : R) (x : list C) : list C :=
  map (fun k => Cmul (nth k x (0, 0)%R) (let t := (2 * PI * f * INR k)%R in (cos t, sin t))) (seq 0 (length x)).
