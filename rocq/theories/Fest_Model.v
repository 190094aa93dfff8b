(** Model of core/src/fourier/freqestim.cc, of the spectra of core/include/tsd/fourier.hpp:740-756 and of
    SuiviPicFrequence (core/src/telecom/carrier-rec.cc:158-196).  Exact real and complex numbers; a quotient 0/0 or x/0
    (NaN or infinity in the code) is reported as [UB], so a theorem that concludes [Ok] also says that no such value appears.
    Spectra are given before the conversion to decibels (pow2db, elementwise). *)
From Coq Require Import Reals ZArith String.
From Verif Require Import Base RField DftSys ComplexSys Rii_Model Vec_Model Fourier_Model Win_Model.
Local Open Scope R_scope.

(** tableau.hpp:413-418 index_max (Eigen maxCoeff): the first index of the largest element; an empty vector throws *)
Fixpoint imax_from (l : list R) (i best : nat) (v : R) : nat :=
  match l with [] => best | a :: t => if Rlt_dec v a then imax_from t (S i) i a else imax_from t (S i) best v end.
Definition index_max (l : list R) : res nat := match l with [] => Exc | a :: t => Ok (imax_from t 1 0 a) end.
(** abs, abs2 of complex vectors *)
Definition vabs2 (X : list Complex) : list R := map (fun z => Cnorm2 z) X.
Definition vabs (X : list Complex) : list R := map (fun z => sqrt (Cnorm2 z)) X.
(** a / b, [UB] when b = 0 *)
Definition rdiv (a b : R) : res R := if Req_EM_T b 0 then UB else Ok (a / b).
Definition cdiv (a b : Complex) : res Complex := if Req_EM_T (Cnorm2 b) 0 then UB else Ok (a / b)%K.

(** freqestim.cc:94-110 freq_estim_candan2 *)
Definition freq_estim_candan2 (junk : Complex) (x : list Complex) : res R :=
  let n := List.length x in
  let* X := fft junk x in
  let* k := index_max (vabs X) in
  let* X2 := vget X k in
  let* X1 := vget X ((k + n - 1) mod n) in
  let* X3 := vget X ((k + 1) mod n) in
  let* q := cdiv (X1 - X3)%K (re 2 * X2 - X3 - X1)%K in
  let p := fst q in
  let* t := rdiv (tan (PI / INR n)) (PI / INR n) in
  let p := p * t in
  let* p := rdiv (atan (p * PI / INR n)) (PI / INR n) in
  rdiv (INR k + p) (INR n).
(** freqestim.cc:112-125 freq_estim_quadratique *)
Definition freq_estim_quadratique (junk : Complex) (x : list Complex) : res R :=
  let n := List.length x in
  let* X := fft junk x in
  let X := vabs X in
  let* k := index_max X in
  let* AX2 := vget X k in
  let* AX1 := vget X ((k + n - 1) mod n) in
  let* AX3 := vget X ((k + 1) mod n) in
  let* p := rdiv (1 / 2 * (AX3 - AX1)) (2 * AX2 - AX3 - AX1) in
  rdiv (INR k + p) (INR n).
(** fourier.hpp:822-831 *)
Inductive methode := FFT | CANDAN2 | QUADRATIC.
(** freqestim.cc:127-156 freqestim *)
Definition freqestim (junk : Complex) (x : list Complex) (m : methode) : res R :=
  let* r := match m with
    | FFT => let* X := fft junk x in let* k := index_max (vabs X) in rdiv (INR k) (INR (List.length x))
    | QUADRATIC => freq_estim_quadratique junk x
    | CANDAN2 => freq_estim_candan2 junk x
    end in
  Ok (if Rlt_dec (1 / 2) r then if Rle_dec r 1 then r - 1 else r else r).

(** carrier-rec.cc:158-196 localise_pic_frequence: SuiviPicFrequence configured to the length of the vector.
    a2.moyenne() is the sum divided by the length; 1e-30 is kept. *)
Definition localise_pic_frequence (junk : Complex) (x : list Complex) : res (R * R) :=
  let N := List.length x in
  let* X := fft junk x in
  let a2 := vabs2 X in
  let* i2 := index_max a2 in
  let* y2 := vget a2 i2 in
  let* snr := rdiv y2 (sum (K := Rring) N (fun i => nth i a2 0) / INR N) in
  let* y1 := vget a2 ((i2 + N - 1) mod N) in
  let* y3 := vget a2 ((i2 + 1) mod N) in
  let i2' := if (N / 2 <=? i2)%nat then (Z.of_nat i2 - Z.of_nat N)%Z else Z.of_nat i2 in
  let f := IZR i2' / INR N in
  if negb (if Rle_dec (Rabs f) (1 / 2) then true else false) then Exc else
  let* d := rdiv (y3 - y1) (y1 + y2 + y3 + / 10 ^ 30) in
  if negb (if Rle_dec (Rabs d) 1 then true else false) then Exc else
  Ok (f + d / INR N, snr).

(** ** Frequency axes and spectra *)
(** freqestim.cc:22-43 tfd_freqs, n > 0 *)
Definition tfd_freqs (n : nat) (avec_shift : bool) : list R :=
  if avec_shift then
    if Nat.even n then linspace (K := Rfield) (- (1 / 2)) (1 / 2 - 1 / INR n) n
    else linspace (K := Rfield) (- (1 / 2) + 1 / INR n) (1 / 2) n
  else if Nat.even n then
    linspace (K := Rfield) 0 (1 / 2 - 1 / INR n) (n / 2) ++ linspace (K := Rfield) (- (1 / 2)) (- 1 / INR n) (n / 2)
  else
    linspace (K := Rfield) 0 (1 / 2 - 1 / 2 / INR n) (n / 2 + 1) ++ linspace (K := Rfield) (- (1 / 2)) (- 1 / INR n) (n / 2).
(** freqestim.cc:45-91 psd_freqs, n > 0 *)
Definition psd_freqs (n : nat) (complexe : bool) : list R :=
  if complexe then
    if Nat.even n then linspace (K := Rfield) (- (1 / 2)) (1 / 2 - 1 / INR n) n
    else linspace (K := Rfield) (- (1 / 2) + 1 / INR n) (1 / 2) n
  else linspace (K := Rfield) 0 (if Nat.odd n then 1 / 2 - 1 / INR n else 1 / 2) (n / 2).
(** product of a complex vector and of a real window: lengths must agree (tableau.hpp, binary operators throw) *)
Definition vfen (x : list Complex) (w : list R) : res (list Complex) :=
  if (List.length x =? List.length w)%nat then Ok (map (fun p => (fst p * (re (snd p) : Complex))%K) (combine x w)) else Exc.
(** fourier.hpp:740-750 psd, complex vector *)
Definition psd_c (junk : Complex) (x : list Complex) : res (list R * list R) :=
  let n := List.length x in
  let* w := fen_nom "hn" n false in
  let* xf := vfen x w in
  let* X := fft junk xf in
  Ok (psd_freqs n true, fftshift (vabs2 X)).
(** fourier.hpp:740-745, 751-755 psd, real vector (embedded in the complex numbers) *)
Definition psd_r (junk : Complex) (x : list R) : res (list R * list R) :=
  let n := List.length x in
  let* w := fen_nom "hn" n false in
  let* xf := vfen (map (fun v => (re v : Complex)) x) w in
  let* X := rfft (F := Complex) junk xf in
  Ok (psd_freqs n false, firstn (n / 2) (vabs2 X)).
(** freqestim.cc:7-20 psd_welch: the loop over i; [fuel] bounds the number of windows, the hop N/2 is null for N < 2 and the
    loop then does not end.  S += ... has no size check, but the sizes agree here. *)
Fixpoint welch_loop (junk : Complex) (fuel : nat) (x : list Complex) (N : nat) (w : list R) (i : nat) (s : list R) : res (list R) :=
  if (i + N <? List.length x)%nat then
    match fuel with
    | O => Diverge
    | S f =>
      let* xp := vfen (firstn N (skipn i x)) w in
      let* X := fft junk xp in
      welch_loop junk f x N w (i + N / 2) (map (fun p => fst p + snd p) (combine s (fftshift (vabs2 X))))
    end
  else Ok s.
Definition psd_welch (junk : Complex) (x : list Complex) (N : nat) (nom : string) : res (list R * list R) :=
  let* w := fen_nom nom N false in
  let* s := welch_loop junk (List.length x) x N w 0 (repeat 0 N) in
  Ok (psd_freqs N true, s).
