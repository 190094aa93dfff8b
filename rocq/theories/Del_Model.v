(** Model of core/src/fourier/estimation-delais.cc and of coherence (core/src/fourier/fourier.cc:600-604).
    Exact real and complex numbers; a quotient by zero (NaN or infinity in the code) is reported as [UB]. *)
From Coq Require Import Reals ZArith.
From Verif Require Import Base RField DftSys ComplexSys Vec_Model Fourier_Model Fest_Model.
Local Open Scope R_scope.

(** std::round: nearest integer, halves away from zero *)
Definition roundZ (r : R) : Z := if Rle_dec 0 r then Int_part (r + 1 / 2) else (- Int_part (- r + 1 / 2))%Z.
(** estimation-delais.cc:10-13 qint_loc *)
Definition qint_loc (ym1 y0 yp1 : R) : res R := rdiv (yp1 - ym1) (2 * (2 * y0 - yp1 - ym1)).
(** abs2(x).moyenne() *)
Definition moyenne2 (x : list Complex) : R := sum (K := Rring) (List.length x) (fun i => nth i (vabs2 x) 0) / INR (List.length x).
(** tsd.hpp:515-533 pad_zeros, p2 = true: both vectors completed to the next power of two of the longest (prochaine_puissance_de_2: [np2]) *)
Definition pad_zeros_p2 (x y : list Complex) : list Complex * list Complex :=
  let n := np2 (Nat.max (List.length x) (List.length y)) in
  (x ++ repeat c0 (n - List.length x), y ++ repeat c0 (n - List.length y)).
(** estimation-delais.cc:19-101 estimation_delais: (delay, score).  xcorrb is called with its default m = N; lags(i) = linspace(-(N-1), N-1, 2N-1)(i) = i - (N-1). *)
Definition estimation_delais (junk : Complex) (x y : list Complex) : res (R * R) :=
  let '(xp, yp) := pad_zeros (K := Complex) x y in
  let N := List.length xp in
  let* corr := xcorrb junk xp yp N in
  let e1 := sqrt (moyenne2 xp) in
  let e2 := sqrt (moyenne2 yp) in
  let cn := map (fun v => v / (e1 * e2 + / 10 ^ 50)) (vabs corr) in
  let* index := index_max cn in
  let* score := vget cn index in
  let* d := (if ((0 <? index) && (index + 1 <? List.length cn))%nat%bool then
      let* cn0 := vget cn (index - 1) in
      let* cn1 := vget cn (index + 1) in
      let* d := qint_loc cn0 score cn1 in
      Ok (if Rlt_dec d (- (1 / 2)) then - (1 / 2) else if Rlt_dec (1 / 2) d then 1 / 2 else d)
    else Ok 0) in
  Ok (IZR (Z.of_nat index - (Z.of_nat N - 1)) + d, score).
(** estimation-delais.cc:103-108 *)
Definition estimation_delais_entier (junk : Complex) (x y : list Complex) : res (Z * R) :=
  let* r := estimation_delais junk x y in Ok (roundZ (fst r), snd r).
(** tableau.hpp:894-901, tableau.cc:515-530 tail(k) = segment(n - k, k): the only check, n - k + k <= n, holds for any k.  A negative size is
    accepted and the copy of the result (tableau.cc:241-267 clone) calls malloc and memcpy on it; k > n points before the vector. *)
Definition tailZ (x : list Complex) (k : Z) : res (list Complex) :=
  if ((k <? 0) || (Z.of_nat (List.length x) <? k))%Z%bool then UB else Ok (vtail (Z.to_nat k) x).
(** estimation-delais.cc:111-164 aligne_entier, complex vectors *)
Definition aligne_entier (junk : Complex) (x y : list Complex) : res (list Complex * list Complex * Z * R) :=
  let '(xp, yp) := pad_zeros_p2 x y in
  let* r := estimation_delais_entier junk xp yp in
  let d := fst r in
  let* p := (if (d =? 0)%Z then Ok (x, y)
    else if (d <? 0)%Z then let* xa := tailZ x (Z.of_nat (List.length x) + d) in Ok (xa, y)
    else let* ya := tailZ y (Z.of_nat (List.length y) - d) in Ok (x, ya)) in
  let '(xa, ya) := p in
  let xa' := if (List.length ya <? List.length xa)%nat then vhead (List.length ya) xa else xa in
  let ya' := if (List.length xa <? List.length ya)%nat then vhead (List.length xa) ya else ya in
  if (List.length xa' =? List.length ya')%nat then Ok (xa', ya', d, snd r) else Exc.

Fixpoint map_res {A B} (f : A -> res B) (l : list A) : res (list B) :=
  match l with [] => Ok [] | a :: t => let* b := f a in let* r := map_res f t in Ok (b :: r) end.
(** fourier.cc:600-604 coherence; the vector operations throw when the lengths differ *)
Definition coherence (junk : Complex) (x y : list Complex) : res (list R) :=
  let* X := fft junk x in
  let* Y := fft junk y in
  if (List.length X =? List.length Y)%nat then
    map_res (fun p : Complex * Complex => rdiv (sqrt (Cnorm2 (fst p * conj (snd p))%K)) (sqrt (Cnorm2 (fst p)) * sqrt (Cnorm2 (snd p)))) (combine X Y)
  else Exc.
