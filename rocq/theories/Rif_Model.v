(** Model of core/src/filtrage/rif-fen.cc, rif-cs.cc, hilbert.cc (design) and rif-freq.cc: FIR design, over the reals (exact arithmetic). *)
From Coq Require Import Reals ZArith String.
From Verif Require Import Base RField Vec_Model Special_Model Win_Model Filters_Model Design_Model.
Local Open Scope R_scope.

(** tableau.cc:1427-1448 (DEF_OP_TAB): product of two vectors element by element, throws if the sizes differ *)
Definition vmul (x y : list R) : res (list R) :=
  if Nat.eqb (List.length x) (List.length y) then Ok (map (fun p => fst p * snd p) (combine x y)) else Exc.
(** tableau.cc:1511-1521 operator *=: no check, an Eigen expression with different sizes is undefined behaviour *)
Definition vmul_eq (x y : list R) : res (list R) :=
  if Nat.eqb (List.length x) (List.length y) then Ok (map (fun p => fst p * snd p) (combine x y)) else UB.
Definition vscale (c : R) (x : list R) : list R := map (fun v => c * v) x.
Definition vneg (x : list R) : list R := map (fun v => - v) x.
(** somme() *)
Definition somme (x : list R) : R := sum (K := Rring) (List.length x) (fun i => nth i x 0).
(** x /= c; a division by zero gives infinities or NaN, here the unspecified value of the total division *)
Definition vdiv (x : list R) (c : R) : list R := map (fun v => v / c) x.

(** ** Windowed design *)
(** rif-fen.cc:31-41 coefs_filtre_sinc; int divisions truncate *)
Definition coefs_filtre_sinc (n : nat) (fc : R) : list R :=
  let z := Z.of_nat n in
  if Nat.odd n then map (fun i => sinc_T (2 * fc) (IZR (Z.of_nat i - Z.quot z 2))) (seq 0 n)
  else map (fun i => sinc_T (2 * fc) (IZR (Z.of_nat i - Z.quot (z - 1) 2))) (seq 0 n).
(** h(k)++: a bounds-checked access *)
Definition incr_at (h : list R) (k : Z) : res (list R) := let* v := vgetZ h k in vsetZ h k (v + 1).
(** rif-fen.cc:44-50 *)
Definition rif_fen_hp (n : nat) (fc : R) : res (list R) :=
  let no2 := Z.quot (Z.of_nat n - 1) 2 in
  incr_at (vneg (coefs_filtre_sinc n fc)) no2.
(** rif-fen.cc:54-58 *)
Definition rif_fen_pb (n : nat) (fc : R) : res (list R) := Ok (coefs_filtre_sinc n fc).
(** the vector of cosines of rif-fen.cc:65 and 74 *)
Definition cosines (wc : R) (no2 : Z) : list R := map (fun k => cos (wc * IZR k)) (intervalle_entier (- no2) no2).
(** rif-fen.cc:60-66 *)
Definition rif_fen_pm (n : nat) (fl fh : R) : res (list R) :=
  let no2 := Z.quot (Z.of_nat n - 1) 2 in
  let wc := PI * (fh + fl) in
  let df := (fh - fl) / 2 in
  vmul (vscale 2 (coefs_filtre_sinc n df)) (cosines wc no2).
(** rif-fen.cc:68-77 *)
Definition rif_fen_sb (n : nat) (fl fh : R) : res (list R) :=
  let no2 := Z.quot (Z.of_nat n - 1) 2 in
  let wc := PI * (fh + fl) in
  let df := (fh - fl) / 2 in
  let* h := vmul_eq (vneg (coefs_filtre_sinc n df)) (vscale 2 (cosines wc no2)) in
  incr_at h no2.
Local Open Scope string_scope.
(** rif-fen.cc:80-99 design_rif_fen with the window f *)
Definition design_fen (type : string) (fc : R) (f : list R) (fc2 : R) : res (list R) :=
  let n := List.length f in
  let* h := (if String.eqb type "lp" || String.eqb type "pb" then rif_fen_pb n fc
             else if String.eqb type "hp" || String.eqb type "ph" then rif_fen_hp n fc
             else if String.eqb type "bp" || String.eqb type "pm" then rif_fen_pm n fc fc2
             else if String.eqb type "sb" then rif_fen_sb n fc fc2
             else Exc) in
  if negb (Nat.eqb (List.length h) n) then Exc else
  let* h2 := vmul h f in
  Ok (if String.eqb type "lp" then vdiv h2 (somme h2) else h2).
(** rif-fen.cc:102-106; n >= 0 *)
Definition design_rif_fen (n : nat) (type : string) (fc : R) (fen : string) (fc2 : R) : res (list R) :=
  let* f := fen_nom fen n true in design_fen type fc f fc2.
(** rif-fen.cc:108-112; I0 is the Bessel function of the Kaiser window *)
Definition design_rif_fen_kaiser (I0 : R -> R) (type : string) (fc atten_db df fc2 : R) : res (list R) :=
  design_fen type fc (fenetre_kaiser I0 atten_db df true) fc2.
(** rif-fen.cc:114-118 *)
Definition design_rif_fen_chebychev (n : nat) (type : string) (fc atten_db fc2 : R) : res (list R) :=
  design_fen type fc (fenetre_chebychev n atten_db) fc2.
Local Close Scope string_scope.

(** ** Hilbert filter *)
(** hilbert.cc:8-21 design_rif_hilbert; (k & 1) is the parity of a negative int too; 126 of hilbert.cc: the window is symmetric by default *)
Definition design_rif_hilbert (n : nat) (fen : string) : res (list R) :=
  if negb (Nat.odd n) then Exc else
  let h := map (fun i => let k := (Z.of_nat i - Z.quot (Z.of_nat n) 2)%Z in if Z.even k then 0 else 2 / (IZR k * PI)) (seq 0 n) in
  let* f := fen_nom fen n true in
  vmul h f.

(** ** Raised cosine *)
(** rif-cs.cc:22-28 cs; the threshold 1e-7 is a real number here.  For beta = 0 the quotient 1 / (2 beta) is infinite but not used. *)
Definition cs (t beta : R) : R :=
  let delta := Rabs t - 1 / (2 * beta) in
  if Rlt_dec 0 beta then
    if Rlt_dec (Rabs delta) (/ 10 ^ 7) then sinc1 t * PI / 4
    else sinc1 t * cos (PI * beta * t) / (1 - (2 * beta * t) * (2 * beta * t))
  else sinc1 t * cos (PI * beta * t) / (1 - (2 * beta * t) * (2 * beta * t)).
(** rif-cs.cc:32-41 rcs *)
Definition rcs (t beta : R) : R :=
  let delta := Rabs t - 1 / (4 * beta) in
  let general := (sin (PI * t * (1 - beta)) + 4 * beta * t * cos (PI * t * (1 + beta))) / (PI * t * (1 - (4 * beta * t) * (4 * beta * t))) in
  if Req_EM_T t 0 then (1 - beta) + 4 * beta / PI
  else if Rlt_dec 0 beta then
    if Rlt_dec (Rabs delta) (/ 10 ^ 7) then (beta / sqrt 2) * ((1 + (2 / PI)) * sin (PI / (4 * beta)) + (1 - (2 / PI)) * cos (PI / (4 * beta)))
    else general
  else general.
(** rif-cs.cc:148-168 design_rif_cs *)
Definition design_rif_cs (n : nat) (beta fc : R) : list R :=
  let m := Z.quot (Z.of_nat n) 2 in
  let h := map (fun i => cs (IZR (Z.of_nat i - m) * fc * 2) beta) (seq 0 n) in
  vdiv h (somme h).
(** rif-cs.cc:121-146 design_rif_rcs1: [nrm] tells if the normalisation is 'e' *)
Definition design_rif_rcs1 (n : nat) (beta osf : R) (nrm_e : bool) : res (list R) :=
  if Nat.eqb n 0 then Exc else
  let m := Z.quot (Z.of_nat n) 2 in
  let h := map (fun i => rcs ((INR i - IZR m) / osf) beta) (seq 0 n) in
  Ok (if nrm_e then vdiv h (sqrt (somme (map (fun v => v * v) h))) else vdiv h (somme h)).
(** rif-cs.cc:112-119 design_rif_rcs *)
Definition design_rif_rcs (n : nat) (beta fc : R) : res (list R) := design_rif_rcs1 n beta (1 / (2 * fc)) false.

(** ** Gaussian *)
(** rif-cs.cc:45-52 design_rif_gaussien_gen *)
Definition design_rif_gaussien_gen (n : nat) (sigma dt : R) : list R :=
  let t := map (fun v => v + dt) (linspace (K := Rfield) (- (INR n - 1) / 2) ((INR n - 1) / 2) n) in
  let h := map (fun v => exp (- (v * v) / (2 * sigma * sigma))) t in
  if Rlt_dec 0 (somme h) then vdiv h (somme h) else h.
(** rif-cs.cc:55-58 *)
Definition design_rif_gaussien (n : nat) (sigma : R) : list R := design_rif_gaussien_gen n sigma 0.
(** rif-cs.cc:79-82 *)
Definition BT_vers_sigma (BT : R) : R := sqrt (ln 2) / (2 * BT * PI).
(** rif-cs.cc:86-118 design_rif_gaussien_telecom, for n >= 1 and osf >= 1.  The branch 97-104 (every coefficient rounded to zero) is only reached by rounding
    (exp is positive) and is not modelled.  convol is a fresh FIR filter applied to h1 (filtrage.hpp:1775-1781). *)
Definition design_rif_gaussien_telecom (n : nat) (BT : R) (osf : nat) : res (list R) :=
  let dec_nrz := (INR osf - 1) / 2 in
  let sigma := BT_vers_sigma BT in
  let h1 := design_rif_gaussien_gen n (sigma * INR osf) dec_nrz in
  let h0 := vdiv (repeat 1 osf) (INR osf) in
  let* h2 := filtrer_rif (K := Rring) h0 h1 in
  Ok (vdiv h2 (somme h2)).
