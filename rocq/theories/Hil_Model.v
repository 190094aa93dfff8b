(** Model of core/src/filtrage/hilbert.cc (transformers; the design is in Rif_Model.v) and of core/src/filtrage/rif-freq.cc. *)
From Coq Require Import Reals ZArith String.
From Verif Require Import Base RField DftSys ComplexSys Fourier_Model Vec_Model Filters_Model Win_Model OField ROField Interp_Model Rif_Model.

(** hilbert.cc:36-41 configure_impl: the filter and the delay line *)
Definition hil_init (n : nat) (win : string) : res (fir Rring * delay Rring) :=
  let* h := design_rif_hilbert n win in Ok (fir_init (K := Rring) h, delay_init (K := Rring) (n / 2)).
(** hilbert.cc:42-50 step: the output is the vector of pairs (real part, imaginary part) *)
Definition hil_step (s : fir Rring * delay Rring) (x : list R) : res ((fir Rring * delay Rring) * list (R * R)) :=
  let* (f, x2) := fir_step (K := Rring) (fst s) x in
  let* (d, y2) := delay_step (snd s) x in
  Ok ((f, d), combine y2 x2).
(** hilbert.cc:64-71 hilbert_tfd, x real; fft on a real vector is rfft (fourier.hpp:166-169) *)
Definition hilbert_tfd {F : dsys} (junk : F) (x : list F) : res (list F) :=
  let n := length x in
  let* X := rfft junk x in
  let X := firstn (n - n / 2) X ++ repeat c0 (n / 2) in
  ifft junk (map (fun v => cmul (cnat 2) v) X).

(** rif-freq.cc:6-10 design_rif_freq_freqs; n >= 1 *)
Local Open Scope R_scope.
Definition design_rif_freq_freqs (n : nat) : list R :=
  let m := ((n + 1) / 2)%nat in linspace (K := Rfield) 0 ((INR m - 1) / INR (2 * m - 1)) m.
(** abs(imag(hc)).valeur_max() < 1e-3 *)
Definition imag_small (l : list C) : bool := forallb (fun c => if Rlt_dec (Rabs (snd c)) (/ 1000) then true else false) l.
(** rif-freq.cc:34-92 design_rif_freq, f not empty; the plots (debug) are not modelled *)
Definition design_rif_freq (Nc0 : nat) (f : list R) : res (list R) :=
  let M0 := List.length f in
  let Nc1 := if Nat.eqb Nc0 0 then (2 * M0 - 1)%nat else Nc0 in
  let* (Nc, M, F) := (if Nat.eqb Nc1 (2 * M0 - 1) then Ok (Nc1, M0, f)
    else
      let Nc := if Nat.even Nc1 then (Nc1 + 1)%nat else Nc1 in
      let M := ((Nc + 1) / 2)%nat in
      let* F := interp (F := Rofield) true (linspace (K := Rfield) 0 (1 / 2 * (1 - 1 / INR M0)) M0) f (linspace (K := Rfield) 0 (1 / 2 * (1 - 1 / INR M)) M) in
      Ok (Nc, M, F)) in
  if negb (Nat.eqb Nc (2 * M - 1)) then Exc else
  let Hd := map (fun v => (v, 0)) F ++ repeat (0, 0) (Nc - M) in
  let* Hs := csym (F := Complex) Hd in
  let* hi := ifft (F := Complex) (0, 0) Hs in
  let hc := fftshift hi in
  if negb (imag_small hc) then Exc else
  Ok (vdiv (map fst hc) (sqrt (INR Nc))).
