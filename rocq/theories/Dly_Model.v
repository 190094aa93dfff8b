(** Model of core/src/fourier/fourier.cc:607-698: délais, delais_fractionnaire_c, delais_fractionnaire_r, rtfr_calcule, irtfr_calcule.
    Exact real and complex numbers.  delais_entier and the transforms are in Fourier_Model.v; [junk] is the content of the buffers before they are written. *)
From Coq Require Import Reals ZArith.
From Verif Require Import Base RField DftSys ComplexSys Rii_Model Fourier_Model Fest_Model.
Local Open Scope R_scope.

(** fourier.cc:617-618: polar(1, - 2 pi i tau / n + pi tau) *)
Definition rot_c (n : nat) (tau : R) : list Complex := map (fun i => eit (- 2 * PI * INR i * tau / INR n + PI * tau)) (seq 0 n).
(** fourier.cc:607-624 *)
Definition delais_frac_c (junk : Complex) (x : list Complex) (tau : R) : res (list Complex) :=
  let n := (2 * List.length x)%nat in
  let x2 := repeat (c0 : Complex) (n / 4) ++ x ++ repeat (c0 : Complex) (n - n / 4 - n / 2) in
  let* X := fft junk x2 in
  let* y := ifft junk (zipmul X (fftshift (rot_c n tau))) in
  Ok (firstn (n / 2) (skipn (n / 4) y)).

(** the imaginary number b i *)
Definition jim (b : R) : Complex := (0, b).
(** fourier.cc:129-179 rtfr_calcule; X(0) holds the bins 0 and n/2 *)
Definition pairs (x : list R) : list Complex := map (fun i => ((nth (2 * i) x 0, nth (2 * i + 1) x 0) : C)) (seq 0 (List.length x / 2)).
Definition rtfr_calcule (junk : Complex) (x : list R) : res (list Complex) :=
  let n := List.length x in
  let h := (n / 2)%nat in
  let* Xt := fft junk (pairs x) in
  let X3 i :=
    let X1 := samp Xt (if (i =? h)%nat then 0%nat else i) in
    let X2 := samp Xt (if (0 <? i)%nat then (h - i)%nat else 0%nat) in
    (re (1 / 4) * (X1 + conj X2) - jim (1 / 4) * (X1 - conj X2) * eit (- (2 * PI * INR i) / INR n))%K in
  Ok (map (fun i => if (i =? 0)%nat then ((fst (X3 0%nat), fst (X3 h)) : C) else X3 i) (seq 0 h)).
(** fourier.cc:185-228 irtfr_calcule *)
Definition irtfr_calcule (junk : Complex) (X : list Complex) : res (list R) :=
  let h := List.length X in
  let n := (2 * h)%nat in
  let X2 i :=
    let Xp : Complex := if (i =? 0)%nat then re (snd (samp X 0)) else samp X (h - i) in
    let Xi : Complex := if (i =? 0)%nat then re (fst (samp X 0)) else samp X i in
    let Xe := (Xi + conj Xp)%K in
    let Xo := ((Xi - conj Xp) * eit (2 * PI * INR i / INR n))%K in
    (Xe + jim 1 * Xo)%K in
  let* x2 := ifft junk (map X2 (seq 0 h)) in
  Ok (flat_map (fun z : Complex => [fst z; snd z]) x2).
(** fourier.cc:630-664; [rot] of the iteration i is the product of i factors [dphi] *)
Definition delais_frac_r (junk : Complex) (x : list R) (tau : R) : res (list R) :=
  let n := (2 * List.length x)%nat in
  let x2 := repeat 0 (n / 4) ++ x ++ repeat 0 (n - n / 4 - n / 2) in
  let* X := rtfr_calcule junk x2 in
  let rot i := cpow (K := Cfield) (eit (- tau * 2 * PI / INR n)) i in
  let X' := map (fun i => if (i =? 0)%nat then ((fst (samp X 0), fst (re (snd (samp X 0)) * rot (n / 2)%nat)%K) : C) else (samp X i * rot i)%K) (seq 0 (n / 2)) in
  let* y := irtfr_calcule junk X' in
  Ok (firstn (n / 2) (skipn (n / 4) y)).

(** fourier.cc:686-698 délais: floor(delais) != delais selects the fractional one *)
Definition delais_c (junk : Complex) (x : list Complex) (tau : R) : res (list Complex) :=
  if Req_EM_T (IZR (Int_part tau)) tau then delais_entier (F := Cring) x (Int_part tau) else delais_frac_c junk x tau.
Definition delais_r (junk : Complex) (x : list R) (tau : R) : res (list R) :=
  if Req_EM_T (IZR (Int_part tau)) tau then delais_entier (F := Rring) x (Int_part tau) else delais_frac_r junk x tau.
