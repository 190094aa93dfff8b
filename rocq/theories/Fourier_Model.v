(** Model of core/src/fourier/fourier.cc: radix-2 transform, FFT plan for every
    length, inverse, real-input plan, correlations.
    Arithmetic is exact ([dsys]); the vectors passed as input and output are
    supposed distinct (no aliasing of x and X). *)
From Verif Require Import Base DftSys Filters_Model.
Local Open Scope cring_scope.

(** Unchecked write through a pointer. *)
Definition pset {A} (l : list A) (i : nat) (v : A) : res (list A) :=
  if (i <? length l)%nat then Ok (upd l i v) else UB.

(** ** fourier.cc:34-48, tfr_rotation_rapide (signe = -1): r = 1, w, w*w, ... *)
Fixpoint rot_from {F : dsys} (r w : F) (n : nat) : list F :=
  match n with O => [] | S m => r :: rot_from (r * w) w m end.
Definition rotation {F : dsys} (n : nat) : list F := rot_from 1 (root n) n.

(** ** fourier.cc:62-123, tfr_radix2 *)
(** One pass of the loop on n (lines 86-118): E is read, the target buffer T is
    written.  The running pointers E, Xp and Xp2 are at 2*k*pas + m, k*pas + m and
    N/2 + k*pas + m in iteration (k, m). *)
Definition stage {F : dsys} (avant : bool) (N n : nat) (rot E T : list F) : res (list F) :=
  let pas := (N / (2 * n))%nat in
  loop n (fun k T =>
    let* r := vget rot (k * pas) in
    let r := if avant then r else conj r in
    loop pas (fun m T =>
      let* g := pget E (2 * k * pas + m + pas) in
      let* e := pget E (2 * k * pas + m) in
      let p := r * g in
      let* T := pset T (k * pas + m) (e + p) in
      pset T (N / 2 + (k * pas + m)) (e - p)) T) T.
(** Lines 84-120: the passes write alternately in [scratch] and in X. *)
Fixpoint radix2_loop {F : dsys} (fuel : nat) (avant : bool) (N n : nat) (rot E X S : list F)
    (paire : bool) : res (list F) :=
  match fuel with
  | O => Diverge
  | Datatypes.S f =>
      if (n <? N)%nat then
        if paire then let* S := stage avant N n rot E S in radix2_loop f avant N (2 * n) rot S X S false
        else let* X := stage avant N n rot E X in radix2_loop f avant N (2 * n) rot X X S true
      else Ok X
  end.
(** X and scratch start with unknown contents ([junk]). *)
Definition radix2 {F : dsys} (junk : F) (avant : bool) (x rot : list F) : res (list F) :=
  let N := length x in
  let paire := negb (Z.land (Z.of_nat N) 0x55555555 =? 0)%Z in
  if negb (length rot =? N)%nat then Exc else
  if (N =? 1)%nat then Ok x else
  let* X := radix2_loop (S N) avant N 1 rot x (repeat junk N) (repeat junk N) paire in
  Ok (map (fun v => v / rt N) X).

(** ** Vector operators *)
Definition zipmul {F : cring} (x y : list F) : list F := map (fun p => fst p * snd p) (combine x y).
Definition zipadd {F : cring} (x y : list F) : list F := map (fun p => fst p + snd p) (combine x y).
Definition vhead {A} (n : nat) (x : list A) : list A := firstn n x.
Definition vtail {A} (n : nat) (x : list A) : list A := skipn (length x - n) x.

(** ** tsd.cc:287-291, prochaine_puissance_de_2, for i >= 1, with an exact logarithm *)
Definition np2 (i : nat) : nat := 2 ^ Nat.log2_up i.

(** ** fourier.cc:395-403: exp(-i pi t^2 / n) for t = -(n-1) ... n-1 *)
Definition chirp {F : dsys} (n : nat) : list F :=
  map (fun i => wz (2 * n) ((Z.of_nat i - (Z.of_nat n - 1)) * (Z.of_nat i - (Z.of_nat n - 1)))) (seq 0 (2 * n - 1)).
(** ** fourier.cc:236-256, tfr_czt_impl *)
Definition czt_impl {F : dsys} (junk : F) (x : list F) (n2 : nat) (tw ch : list F) : res (list F) :=
  let n := length x in
  if (n2 <? 2 * n - 1)%nat then Exc else
  let xp := zipmul x (vtail n ch) ++ repeat 0 (n2 - n) in
  let icp := map conj ch ++ repeat 0 (n2 - (2 * n - 1)) in
  let* Xp := radix2 junk true xp tw in
  let* Xc := radix2 junk true icp tw in
  let* y2 := radix2 junk false (zipmul Xp Xc) tw in
  Ok (map (fun v => v * (rt n2 / rt n)) (zipmul (firstn n (skipn (n - 1) y2)) (vtail n ch))).

(** ** fourier.cc:260-281, tfr2itfr: the pieces, from index 0 on *)
Definition tfr2itfr {A} (d : A) (X : list A) : list A :=
  let n := length X in
  let h := if (n mod 2 =? 0)%nat then (n / 2 - 1)%nat else (n / 2)%nat in
  [nth 0 X d] ++ rev (vtail h X) ++ (if (n mod 2 =? 0)%nat then [nth (n / 2) X d] else []) ++ rev (firstn h (skipn 1 X)).

(** ** fourier.cc:360-465, TFRPlanDefaut::step.  The plan is recomputed whenever
    the length changes (lines 415-416), so only the length matters.  The recursion
    halves the length. *)
Fixpoint evens {A} (x : list A) : list A :=
  match x with [] => [] | a :: t => a :: match t with [] => [] | _ :: u => evens u end end.
Definition odds {A} (x : list A) : list A := match x with [] => [] | _ :: t => evens t end.
Fixpoint plan {F : dsys} (junk : F) (fuel : nat) (avant : bool) (x : list F) : res (list F) :=
  match fuel with
  | O => Diverge
  | S f =>
      let n := length x in
      if (n =? 0)%nat then Exc else
      if (Nat.land n (n - 1) =? 0)%nat then radix2 junk avant x (rotation n)
      else if (n mod 2 =? 0)%nat then
        let* E := plan junk f avant (evens x) in
        let* Od := plan junk f avant (odds x) in
        let rot := if avant then rotation n else map conj (rotation n) in
        let y := zipadd E (zipmul (vhead (n / 2) rot) Od) ++ zipadd E (zipmul (vtail (n / 2) rot) Od) in
        Ok (map (fun v => v * (1 / rt 2)) y)
      else
        let n2 := np2 (2 * n - 1) in
        let* y := czt_impl junk x n2 (rotation n2) (chirp n) in
        Ok (if avant then y else tfr2itfr 0 y)
  end.
(** fft and ifft of a complex vector (fourier.hpp:163-205) *)
Definition fft {F : dsys} (junk : F) (x : list F) := plan junk (S (length x)) true x.
Definition ifft {F : dsys} (junk : F) (x : list F) := plan junk (S (length x)) false x.

(** ** fourier.cc:488-502, correlation_freq *)
Definition correlation_freq {F : dsys} (X0 X1 : list F) : res (list F) :=
  let n := length X0 in
  if negb (n =? length X1)%nat then Exc else
  if (n =? 0)%nat then Exc else
  let Y := [samp X0 0 * conj (samp X1 0)] ++
           zipmul (rev (vtail (n - 1) X0)) (map conj (rev (vtail (n - 1) X1))) in
  Ok (map (fun v => v * rt n) Y).
(** ** fourier.cc:505-540, TFRCorrelateurBloc::step *)
Definition correlateur {F : dsys} (junk : F) (x0 x1 : list F) : res (list F) :=
  let x1p := if (length x1 =? 0)%nat then x0 else x1 in
  if negb (length x0 =? length x1p)%nat then Exc else
  let* X0 := fft junk x0 in
  let* X1 := fft junk x1p in
  let* X2 := correlation_freq X0 X1 in
  ifft junk X2.
(** ** fourier.cc:543-549, ccorr (second vector of the result) *)
Definition ccorr {F : dsys} (junk : F) (x0 x1 : list F) : res (list F) :=
  let* r := correlateur junk x0 x1 in
  Ok (map (fun v => v / cnat (length x0)) r).
(** ** fourier.cc:551-577, xcorrb (second vector), for m >= 1; a negative m stands for n.
    The assignment y2.segment(m, n) = yp only writes when the lengths agree: otherwise it
    rebinds the temporary (tableau.hpp:578-592) and y2 stays null. *)
Definition xcorrb {F : dsys} (junk : F) (x y : list F) (m : nat) : res (list F) :=
  let n := length x in
  let yp := if (length y =? 0)%nat then x else y in
  let pad v := repeat 0 m ++ v ++ repeat 0 m in
  let y2 := if (length yp =? n)%nat then pad yp else repeat 0 (m + n + m) in
  let* r := correlateur junk (pad x) y2 in
  if (m =? 0)%nat then Exc else
  Ok (map (fun v => v / cnat n) (vtail (m - 1) r) ++ map (fun v => v / cnat n) (vhead m r)).
(** ** fourier.cc:579-597, xcorr: the biased estimate divided by (n - |lag|) / n *)
Definition xcorr {F : dsys} (junk : F) (x y : list F) (m : nat) : res (list F) :=
  let n := length x in
  let* zb := xcorrb junk x y m in
  if (1 <? m)%nat then
    Ok (map (fun i => samp zb i / (cnat (n - (m - 1) + i) / cnat n)) (seq 0 (m - 1)) ++ [samp zb (m - 1)] ++
        map (fun i => samp zb (m + i) / (cnat (n - 1 - i) / cnat n)) (seq 0 (m - 1)))
  else Ok zb.

(** ** fourier.cc:290-356, RTFRPlan::step on a real vector of length n (embedded in the
    complex numbers); fourier.hpp:231-249, csym_forcage.  [img] is the imaginary unit. *)
Definition img {F : dsys} : F := conj (root 4).
Definition re_only {F : dsys} (v : F) : F := (v + conj v) / cnat 2.
Definition csym {F : dsys} (X : list F) : res (list F) :=
  let n := length X in
  let* a := vget X 0 in
  let X := upd X 0 (re_only a) in
  let* X := (if (n mod 2 =? 0)%nat then let* b := vget X (n / 2) in Ok (upd X (n / 2) (re_only b))
             else let* b := vget X (n / 2) in vset X (n / 2 + 1) (conj b)) in
  let h := (n / 2 - 1)%nat in
  Ok (firstn (n - h) X ++ map conj (rev (firstn h (skipn 1 X)))).
Definition rfft {F : dsys} (junk : F) (x : list F) : res (list F) :=
  let n := length x in
  if (n mod 2 =? 0)%nat then
    let x2 := zipadd (evens x) (map (fun v => img * v) (odds x)) in
    let* Xt := plan junk (length x2) true x2 in
    let r2 := 1 / cnat 2 / rt 2 in
    let j2 := img / cnat 2 / rt 2 in
    let* y := loop (n / 2 + 1) (fun i y =>
      let* X1 := vget Xt (if (i =? n / 2)%nat then 0%nat else i) in
      let* X2 := vget Xt (if (0 <? i)%nat then (n / 2 - i)%nat else 0%nat) in
      let* r := vget (rotation n) i in
      vset y i (r2 * (X1 + conj X2) - j2 * (X1 - conj X2) * r)) (repeat junk n) in
    csym y
  else plan junk n true x.
(** ** fourier.hpp:218-230, fftshift *)
Definition fftshift {A} (X : list A) : list A :=
  let n := length X in vtail (n / 2) X ++ vhead (if (n mod 2 =? 0)%nat then n / 2 else 1 + n / 2) X.

(** ** fourier.cc:666-683, delais_entier.  A [head]/[tail] with a size outside
    0..n: a negative size throws in the allocation of the view, |tau| > n gives a
    negative size here. *)
Definition delais_entier {F : cring} (x : list F) (tau : Z) : res (list F) :=
  let n := Z.of_nat (length x) in
  if (tau =? 0)%Z then Ok x else
  if (Z.abs tau >? n)%Z then Exc else
  if (tau >? 0)%Z then Ok (repeat 0 (Z.to_nat tau) ++ vhead (Z.to_nat (n - tau)) x)
  else Ok (vtail (Z.to_nat (n + tau)) x ++ repeat 0 (Z.to_nat (- tau))).

(** ** fourier.cc:737-860, OLA without window, and 799-818 the buffering.
    The head of [padded] keeps its zeros (only its tail is written), so it is not
    part of the state.  [treat] is the callback on the spectrum.  The packets given
    by the buffer are processed one after the other. *)
Record ola (F : dsys) := mkola { ol_Ne : nat; ol_N : nat; ol_svg : list F; ol_tampon : tampon F; ol_vide : bool }.
Arguments mkola {F}. Arguments ol_Ne {F}. Arguments ol_N {F}. Arguments ol_svg {F}. Arguments ol_tampon {F}. Arguments ol_vide {F}.
(** fourier.cc:759-797; dim = 0 selects 512 *)
Definition ola_init {F : dsys} (dim nb_zeros_min : nat) : ola F :=
  let Ne := if (dim =? 0)%nat then 512%nat else dim in
  mkola Ne (np2 (Ne + nb_zeros_min)) (repeat 0 Ne) (tampon_init Ne) true.
(** fourier.cc:822-862.  svg.tail(N_zeros) with N_zeros > Ne starts before the vector:
    the check of [segment] does not see it (tableau.cc), hence UB. *)
Definition ola_interne {F : dsys} (junk : F) (treat : list F -> res (list F)) (s : ola F) (x : list F)
    : res (ola F * list F) :=
  let Ne := ol_Ne s in let N := ol_N s in let Nz := (N - Ne)%nat in
  if negb (length x =? Ne)%nat then Exc else
  let* X := fft junk (repeat 0 Nz ++ x) in
  let* X := treat X in
  let* x2 := ifft junk X in
  if (Ne <? Nz)%nat then UB else
  let svg := firstn (Ne - Nz) (ol_svg s) ++ zipadd (skipn (Ne - Nz) (ol_svg s)) (vhead Nz x2) in
  Ok (mkola Ne N (vtail Ne x2) (ol_tampon s) (ol_vide s), svg).
Definition ola_step {F : dsys} (junk : F) (treat : list F -> res (list F)) (s : ola F) (x : list F)
    : res (ola F * list F) :=
  if ol_vide s && (length x =? ol_Ne s)%nat then ola_interne junk treat s x else
  let* (t, packs) := tampon_step junk (S (length x)) (ol_tampon s) x in
  run (ola_interne junk treat) (mkola (ol_Ne s) (ol_N s) (ol_svg s) t false) packs.

(** ** fourier.cc:931-970, FiltreFFTRIF: h is real; the block size is the default *)
Definition rif_fft_H {F : dsys} (junk : F) (h : list F) : res (list F) :=
  let N := ol_N (ola_init (F := F) 0 (length h)) in
  let* H := rfft junk (repeat 0 (N - length h) ++ h) in
  Ok (map (fun v => v * rt N) H).
Definition rif_fft_step {F : dsys} (junk : F) (H : list F) (s : ola F) (x : list F) : res (ola F * list F) :=
  let* (s', y) := ola_step junk (fun X => Ok (zipmul X H)) s x in Ok (s', map re_only y).
