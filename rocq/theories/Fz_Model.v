(** Model of core/src/filtrage/filtre-analyse.cc (frequency, phase, impulse and step
    responses, kind of a filter) and of the class Design of core/include/tsd/filtrage.hpp.
    Exact arithmetic; the logs, the plots and the lobe analysis (filtre-analyse.cc:97-226)
    are not modelled. *)
From Coq Require Import Reals.
From Verif Require Import Base RField DftSys ComplexSys Poly_Model Vec_Model Fourier_Model Filters_Model Design_Model Rii_Model Geo_Model Phase_Model Pll_Model.
Local Open Scope R_scope.

(** filtrage.hpp:24-85: a design is a list of taps, a real or a complex rational function *)
Inductive design := D_rif (h : list R) | D_real (f : frat Rring) | D_cplx (f : frat Cfield).
(** filtrage.hpp:70-75: coefficients (or roots), mode and multiplier are copied *)
Definition p_cplx (p : poly Rring) : poly Cfield := mkpoly (K := Cfield) (map re (p_coefs p)) (p_roots p) (re (p_mlt p)).
Definition f_cplx (f : frat Rring) : frat Cfield := mkfrat (K := Cfield) (p_cplx (f_num f)) (p_cplx (f_den f)).
(** filtrage.hpp:56-77 complex_frat *)
Definition complex_frat (d : design) : res (frat Cfield) :=
  match d with
  | D_cplx f => Ok f
  | D_real f => Ok (f_cplx f)
  | D_rif h => let* f := f_rif (K := Rring) h in Ok (f_cplx f)
  end.
(** filtre-analyse.cc:273-277 repfreq (the transfer function is computed again for every frequency) *)
Definition repfreq (d : design) (fr : list R) : res (list Cfield) :=
  match fr with
  | [] => Ok []
  | _ => let* f := complex_frat d in Ok (map (fun v => f_horner f (eit (2 * PI * v))) fr)
  end.
Definition cmod (z : Complex) : R := sqrt (Cnorm2 z).
(** frequencies linspace(0, 0.5 - (0.5 / n), n) *)
Definition fgrid (n : nat) : list R := linspace (K := Rfield) 0 (/ 2 - / 2 / INR n) n.
(** filtre-analyse.cc:280-289 frmag_rif.  npts = 0 is reported as undefined (0.5 / 0).
    The fft of a real vector is rfft; junk: uninitialised cells of its work vector. *)
Definition frmag_rif (junk : C) (h : list R) (npts : nat) : res (list R * list R) :=
  let npts := Nat.max npts (length h / 2) in
  if (npts =? 0)%nat then UB else
  if (2 * npts <? length h)%nat then Exc else
  let* X := rfft (F := Complex) junk (map re (h ++ repeat 0 (2 * npts - length h))) in
  Ok (fgrid npts, map (fun z : Complex => cmod z * sqrt (2 * INR npts)) (firstn npts X)).
(** filtre-analyse.cc:291-298 frmag *)
Definition frmag (junk : C) (d : design) (npts : nat) : res (list R * list R) :=
  match d with
  | D_rif h => frmag_rif junk h npts
  | _ => if (npts =? 0)%nat then UB else let* r := repfreq d (fgrid npts) in Ok (fgrid npts, map cmod r)
  end.

(** filtrage.hpp:1685-1711 filtrer on a complex signal (a real signal is a particular
    case); the chains of second-order sections are a parameter.  1702: a rational
    function whose denominator looks like a power of z is taken as a FIR filter. *)
Section Filtrer.
  Variable sois_c : frat Cfield -> list Complex -> res (list Complex).
  Variable sois_r : frat Rring -> list Complex -> res (list Complex).
  Definition rzero (x : R) : bool := if Req_EM_T x 0 then true else false.
  Definition filtrer (d : design) (x : list Complex) : res (list Complex) :=
    match d with
    | D_rif h => filtrer_rif (K := Cfield) (map re h) x
    | D_cplx f => sois_c f x
    | D_real f => if f_est_rif (K := Rring) rzero f then filtrer_rif (K := Cfield) (map re (rev (p_coefs (f_num f)))) x else sois_r f x
    end.
  (** filtre-analyse.cc:300-311 repech; None: the default value -1 *)
  Definition repech (d : design) (npts : option nat) : res (list Complex) :=
    let n := match npts, d with Some n, _ => n | None, D_rif h => (2 * length h)%nat | None, _ => 200%nat end in
    filtrer d (repeat (c1 : Cfield) n).
  (** filtre-analyse.cc:324-325: samples are dropped from the end while the last one is
      below a hundredth of the mean modulus *)
  Definition mean_mod (r : list Complex) : R := sum (K := Rring) (length r) (fun i => cmod (samp r i)) / INR (length r).
  Fixpoint trim (fuel : nat) (r : list Complex) : list Complex :=
    match fuel with
    | O => r
    | S fu => if (1 <? length r)%nat then
                if Rlt_dec (cmod (samp r (length r - 1))) (mean_mod r * / 100) then trim fu (firstn (length r - 1) r) else r
              else r
    end.
  (** filtre-analyse.cc:313-329 repimp; sigimp(n): 1 at rank 0, throws for n = 0 *)
  Definition repimp (d : design) (npts : option nat) : res (list Complex) :=
    match d with
    | D_rif h => Ok (map re h)
    | _ =>
      let n := match npts, d with Some n, _ => n | None, D_real f => (length (p_coefs (f_num f)) * 20)%nat | None, D_cplx f => (length (p_coefs (f_num f)) * 20)%nat | None, D_rif h => 0%nat end in
      if (n =? 0)%nat then Exc else
      let* r := filtrer d ((c1 : Cfield) :: repeat (c0 : Cfield) (n - 1)) in
      Ok (trim (length r) r)
    end.
End Filtrer.

(** filtre-analyse.cc:54-81: kind of filter from the magnitudes at the first and last
    points of the grid *)
Inductive kind := PASSE_BAS | PASSE_HAUT | PASSE_BANDE | COUPE_BANDE | AUTRE.
Definition Rltb (a b : R) : bool := if Rlt_dec a b then true else false.
Definition classify (m0 m1 : R) : kind :=
  let seuil := / 5 in
  if Rltb (1 - seuil) m0 && Rltb m1 seuil then PASSE_BAS
  else if Rltb (1 - seuil) m1 && Rltb m0 seuil then PASSE_HAUT
  else if Rltb (1 - seuil) m1 && Rltb (1 - seuil) m1 then COUPE_BANDE
  else if Rltb m1 seuil && Rltb m1 seuil then PASSE_BANDE
  else if Rltb (1 - seuil) m0 && Rltb m1 m0 then PASSE_BAS
  else if Rltb (1 - seuil) m1 && Rltb m0 m1 then PASSE_HAUT
  else AUTRE.
(** filtre-analyse.cc:45-54, with npts = 4096 (a parameter here) *)
Definition filter_kind (junk : C) (npts : nat) (d : design) : res kind :=
  let* r := frmag junk d npts in
  let* m0 := vget (snd r) 0 in let* m1 := vget (snd r) (npts - 1) in Ok (classify m0 m1).
(** filtre-analyse.cc:96-97 gain_dc, gain_Nyquist *)
Definition gains (d : design) : res (R * R) :=
  let* f := complex_frat d in Ok (cmod (f_horner f (re 1)), cmod (f_horner f (re (-1)))).

(** filtre-analyse.cc:234-243 frphase *)
Definition frphase (d : design) (n : nat) : res (list R * list R) :=
  if (n =? 0)%nat then UB else
  let* f := complex_frat d in
  let* ph := deplie_phase (map (fun v => arg (f_horner f (eit (2 * PI * v)))) (fgrid n)) (2 * PI) in
  Ok (fgrid n, ph).
(** filtre-analyse.cc:246-270 frgroup; None: not-a-number.  npts < 2: fr(1) or phi(npts-2) throws *)
Fixpoint diffs (p : R) (x : list R) : list R := match x with [] => [] | a :: t => (a - p) :: diffs a t end.
Definition frgroup (junk : C) (d : design) (npts : nat) : res (list R * list (option R)) :=
  let* p := frphase d npts in
  let* m := frmag junk d npts in
  let* f1 := vget (fst p) 1 in let* f0 := vget (fst p) 0 in
  let delta := 2 * PI * (f1 - f0) in
  match snd p with
  | [] => Exc
  | a :: t =>
    let g := map (fun v => if Rlt_dec (PI / 2) (Rabs v) then None else Some (- v / delta)) (diffs a t) in
    let* l := vget g (npts - 2) in
    Ok (fst p, g ++ [l])
  end.
