(** Frequency-domain tools: fourier/fourier.cc (rééchan_freq, czt, Spectrum, ola_complexité).
    Numbers are exact reals and complex numbers (rounding is not modelled); the transforms are
    those of Fourier_Model.v, instantiated on the complex numbers. *)
From Coq Require Import List Arith ZArith Reals Lia.
From Verif Require Import Base DftSys ComplexSys Filters_Model Fourier_Model Del_Model.
Import ListNotations.
Local Open Scope R_scope.

(** ** Segments of a vector: head(n), tail(n) as sources and as targets of an assignment
    (tableau.hpp; an out of range segment throws). *)
Definition hd_get {A} (x : list A) (m : nat) : res (list A) := seg x 0 m.
Definition tl_get {A} (x : list A) (m : nat) : res (list A) :=
  if (length x <? m)%nat then Exc else seg x (length x - m) m.
Definition hd_set {A} (x : list A) (m : nat) (v : list A) : res (list A) := set_seg x 0 v.
Definition tl_set {A} (x : list A) (m : nat) (v : list A) : res (list A) :=
  if (length x <? m)%nat then Exc else set_seg x (length x - m) v.

(** ** rééchan_freq, fourier.cc:1398-1424.
    [reel] selects the float instance (fft of a real vector is rfft, fourier.hpp) or the cfloat
    one.  A real vector is represented by complex numbers with a null imaginary part.  In both
    instances [real(...)] is taken.  lom > 0 is assumed by the statements (a negative size is
    not modelled). *)
Definition refreq (reel : bool) (junk : C) (x : list C) (lom : R) : res (list C) :=
  if Req_EM_T lom 1 then Ok x else
  let n := length x in
  let n2 := Z.to_nat (roundZ (INR n * lom)) in
  let* X := (if reel then rfft (F := Complex) junk x else fft (F := Complex) junk x) in
  let m := if Rlt_dec 1 lom then (n / 2)%nat else (n2 / 2)%nat in
  let X2 := repeat ((0, 0) : C) n2 in
  let* h := hd_get X m in
  let* X2 := hd_set X2 m h in
  let* t := tl_get X m in
  let* X2 := tl_set X2 m t in
  let* y := ifft (F := Complex) junk X2 in
  Ok (map (fun v : C => (fst v * sqrt lom, 0) : C) y).

(** ** czt, fourier.cc:1346-1396.
    [s] is pow(W, 0.5f), so that pow(W, -0.5f * i * i) = s^-(i i).  The tests on NaN and on null
    moduli are always passed for W, z0 <> 0 (hypotheses of the statements).  The product of two
    spectra of different lengths throws (tableau.hpp). *)
Fixpoint Cpw (z : C) (k : nat) : C := match k with O => (1, 0) | S k' => Cmul (Cpw z k') z end.
Definition czt (junk : C) (x : list C) (m : nat) (s z0 : C) : res (list C) :=
  let n := length x in
  let nm := Nat.max n m in
  let h0 := map (fun i => Cinv (Cpw s (i * i))) (seq 0 nm) in
  let h := h0 ++ map (fun i => nth (nm - 1 - (i - nm)) h0 (0, 0)) (seq nm (nm - 1)) in
  let g := map (fun i => Cdiv (Cmul (nth i x (0, 0)) (Cinv (Cpw z0 i))) (nth (nm + i - 1) h (0, 0))) (seq 0 n) in
  let hc := repeat ((0, 0) : C) (m + n - 1) in
  let* a := seg h (nm - 1) m in
  let* hc := hd_set hc m a in
  let* b := seg h (nm - n) (n - 1) in
  let* hc := tl_set hc (n - 1) b in
  let gc := repeat ((0, 0) : C) (m + m - 1) in
  let* gc := hd_set gc n g in
  let* H := fft (F := Complex) junk hc in
  let* G := fft (F := Complex) junk gc in
  if negb (length H =? length G)%nat then Exc else
  let* hcg := ifft (F := Complex) junk (zipmul (F := Complex) H G) in
  let* num := hd_get hcg m in
  let* den := seg h (nm - 1) m in
  Ok (map (fun p => Cdiv (fst p) (snd p)) (combine num den)).

(** ** The transform plan, fourier.cc:358-470 (TFRPlanDefaut): configure receives the flag
    [normalize] but the field [normaliser] keeps its initial value (true); the step divides by
    sqrt(n) when the field is set. *)
Record fplan := { fp_n : nat; fp_norm : bool }.
Definition fplan_new : fplan := {| fp_n := 0; fp_norm := true |}.
Definition fplan_conf (p : fplan) (n : nat) (normalize : bool) : fplan := {| fp_n := n; fp_norm := fp_norm p |}.
Definition fplan_step (p : fplan) (junk : C) (x : list C) : res (list C) :=
  let* X := fft (F := Complex) junk x in
  Ok (if fp_norm p then X else map (fun v => Cmul v (sqrt (INR (length x)), 0)) X).

(** ** Spectrum, fourier.hpp:905-948 (configuration) and fourier.cc:1150-1343. *)
Record scfg := { BS : nat; nmeans : nat; nsubs : nat; sw : bool; sw_step : nat; sw_bf : nat; sw_hf : nat }.
(** State: window, mask, counters of contributions, accumulator, number of blocks accumulated. *)
Record spst := { sp_f : list R; sp_mask : list R; sp_cnt : list R; sp_mag : list R; sp_k : nat; sp_plan : fplan }.
(** SpectrumConfig::Nf, Ns, 1150-1160 *)
Definition sNf (c : scfg) : nat := (BS c / nsubs c)%nat.
Definition sNs (c : scfg) : nat := if sw c then (sNf c + (nsubs c - 1) * sw_step c)%nat else sNf c.
(** x.segment(i, n) += v : sizes are those of the segment (checked by segment). *)
Definition seg_add (x : list R) (i : nat) (v : list R) : res (list R) :=
  let* a := seg x i (length v) in
  set_seg x i (map (fun p => fst p + snd p) (combine a v)).
Definition rsum (l : list R) : R := fold_right Rplus 0 l.
(** configure_impl, 1174-1228; [w] is fenêtre(config.fenetre, Nf, non) (modelled in Win_Model).
    A start of segment below 0 is not seen by the range check (UB). *)
Definition sp_conf (c : scfg) (w : list R) : res spst :=
  if (nsubs c =? 0)%nat then UB else
  let Nf := sNf c in
  let masque := repeat 1 Nf in
  let* masque := (if (0 <? sw_hf c)%nat then
      let* a := hd_set masque (sw_hf c) (repeat 0 (sw_hf c)) in tl_set a (sw_hf c) (repeat 0 (sw_hf c))
    else Ok masque) in
  let* masque := (if (0 <? sw_bf c)%nat then
      if (Nf / 2 <? sw_bf c)%nat then UB else set_seg masque (Nf / 2 - sw_bf c) (repeat 0 (2 * sw_bf c))
    else Ok masque) in
  let* cnt := (if sw c then
      let* k := loop (nsubs c) (fun i k => seg_add k (i * sw_step c) masque) (repeat 0 (sNs c)) in
      Ok (map (fun v => Rmax v 1) k)
    else Ok []) in
  let g := sqrt (INR Nf / rsum (map (fun v => v * v) w)) in
  Ok {| sp_f := map (fun v => g * v) w; sp_mask := masque; sp_cnt := cnt; sp_mag := repeat 0 (sNs c); sp_k := 0;
        sp_plan := fplan_conf fplan_new Nf false |}.
(** Windowed power spectrum of a sub-block, 1252-1254 and 1278-1279 *)
Definition wmul (x : list C) (f : list R) : list C := map (fun p => (fst (fst p) * snd p, snd (fst p) * snd p) : C) (combine x f).
Definition sp_sub (s : spst) (junk : C) (x : list C) : res (list R) :=
  if negb (length x =? length (sp_f s))%nat then Exc else
  let* X := fplan_step (sp_plan s) junk (wmul x (sp_f s)) in
  Ok (fftshift (map Cnorm2 X)).
(** pow2db, tsd.hpp:415; numeric_limits<float>::min() = 2^-126 *)
Definition pow2db (x : R) : R := 10 * (ln x / ln 10).
Definition flt_min : R := / 2 ^ 126.
Definition radd (a b : list R) : list R := map (fun p => fst p + snd p) (combine a b).
(** step, 1231-1334 *)
Definition sp_step (c : scfg) (junk : C) (s : spst) (x : list C) : res (spst * list R) :=
  if negb (length x =? BS c)%nat then Exc else
  let Nf := sNf c in
  let* mag := (if (1 <? nsubs c)%nat then
      if sw c then
        loop (nsubs c) (fun i mag =>
          let* xi := seg x (i * Nf) Nf in
          let* y := sp_sub s junk xi in
          seg_add mag (i * sw_step c) (map (fun p => fst p * snd p) (combine y (sp_mask s)))) (sp_mag s)
      else
        loop (nsubs c) (fun i mag =>
          let* xi := seg x (i * Nf) Nf in
          let* y := sp_sub s junk xi in
          Ok (radd mag y)) (sp_mag s)
    else
      let* y := sp_sub s junk x in
      Ok (radd (sp_mag s) y)) in
  let k := S (sp_k s) in
  if (k =? nmeans c)%nat then
    let mag := map (fun v => v / INR (nmeans c * nsubs c * Nf)) mag in
    let mag := if sw c then map (fun p => fst p / snd p) (combine mag (sp_cnt s)) else mag in
    Ok ({| sp_f := sp_f s; sp_mask := sp_mask s; sp_cnt := sp_cnt s; sp_mag := repeat 0 (sNs c); sp_k := 0; sp_plan := sp_plan s |},
        map (fun v => pow2db (v + flt_min)) mag)
  else
    Ok ({| sp_f := sp_f s; sp_mask := sp_mask s; sp_cnt := sp_cnt s; sp_mag := mag; sp_k := k; sp_plan := sp_plan s |}, []).

(** ** ola_complexité, fourier.cc:708-715: cost per input sample, FFT size, number of zeros.
    Natural logarithms are exact. *)
Definition ola_complexite (M Ne : nat) : R * nat * nat :=
  let Nf := np2 (Ne + M - 1) in
  (1 / INR Ne * 2 * 5 * INR Nf * ln (INR Nf) / ln 2, Nf, (Nf - Ne)%nat).
(** ola_complexité_optimise, 717-735.  kmin = ceil(log(M) / log(2)).  The first candidate is always
    taken.  Result: (C, Nf, Nz, Ne); the initial contents of the output arguments are [o]. *)
Definition ola_opt (M : nat) (o : R * nat * nat * nat) : R * nat * nat * nat :=
  let kmin := Nat.log2_up M in
  fold_left (fun (o : R * nat * nat * nat) k =>
      let Ne := (2 ^ k - (M - 1))%nat in
      let '(c, Nf, _) := ola_complexite M Ne in
      if ((k =? kmin)%nat || (if Rlt_dec c (fst (fst (fst o))) then true else false))%bool
      then (c, Nf, (Nf - Ne)%nat, Ne) else o)
    (seq kmin (Nat.min (kmin + 20) 31 - kmin)) o.
