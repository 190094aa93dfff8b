(** Model of core/src/filtrage/rii.cc (the elliptic prototype and the band-pass transformation are not modelled).
    Exact real and complex numbers instead of floats; the coefficients of FRat<float> are embedded in the complex numbers. *)
From Coq Require Import Reals ZArith String.
From Verif Require Import Base RField DftSys ComplexSys Poly_Model Vec_Model.
Local Open Scope R_scope.

(** a real number as a complex number; exp(i t) (std::polar(1, t)) *)
Definition re (x : R) : Cfield := (x, 0).
Definition eit (t : R) : Cfield := (cos t, sin t).
(** rii.cc:21-39: conversions between digital and analog frequencies *)
Definition wd_vers_wa (wd fe : R) : R := 2 * fe * tan (wd / (2 * fe)).
Definition wa_vers_wd (wa fe : R) : R := 2 * fe * atan (wa / (2 * fe)).
Definition fd_vers_fa (fd : R) : R := tan (PI * fd) / PI.
Definition fa_vers_fd (fa : R) : R := atan (PI * fa) / PI.
(** product of the elements: tableau.hpp:299-306 *)
Definition produit (l : list Cfield) : Cfield := fold_left (fun x v => (x * v)%K) l c1.
(** frat.cc:41-77 roots(), complex coefficients: an exception unless the polynomial is given by its roots *)
Definition roots_c (p : poly Cfield) : res (list Cfield) := if p_roots p then Ok (p_coefs p) else Exc.
(** rii.cc:42-73 trf_bilineaire *)
Definition trf_bilineaire (ha : frat Cfield) (fe : R) : res (frat Cfield) :=
  let nz := List.length (p_coefs (f_num ha)) in
  let np := List.length (p_coefs (f_den ha)) in
  let* z := roots_c (f_num ha) in
  let* p := roots_c (f_den ha) in
  let warp := map (fun r : Cfield => ((r + re (2 * fe)) / (- r + re (2 * fe)))%K) in
  let num := mkpoly (K := Cfield) (warp z) true (p_mlt (f_num ha)) in
  let den := mkpoly (K := Cfield) (warp p) true (p_mlt (f_den ha)) in
  let q := p_from_roots (repeat (copp c1 : Cfield) (if Nat.leb nz np then np - nz else nz - np)) in
  let num := if Nat.ltb nz np then p_mul num q else num in
  let den := if Nat.ltb np nz then p_mul den q else den in
  let gain := fold_left (fun (g : Cfield) r => (g * (re (2 * fe) - r))%K) (p_coefs (f_num ha)) c1 in
  let gain := fold_left (fun (g : Cfield) r => (g / (re (2 * fe) - r))%K) (p_coefs (f_den ha)) gain in
  Ok (mkfrat (mkpoly (p_coefs num) (p_roots num) (p_mlt num * gain)%K) den).
(** rii.cc:125-143 pban_vers_pha: normalised low-pass to high-pass *)
Definition pban_vers_pha (ha : frat Cfield) (wc : R) : res (frat Cfield) :=
  if negb (p_roots (f_num ha) && p_roots (f_den ha)) then Exc else
  let N := List.length (p_coefs (f_num ha)) in
  let M := List.length (p_coefs (f_den ha)) in
  let inv := map (fun r : Cfield => (finv r * re wc)%K) in
  Ok (mkfrat (mkpoly (inv (p_coefs (f_num ha)) ++ repeat c0 (M - N)) true (p_mlt (f_num ha) * produit (p_coefs (f_num ha)))%K)
             (mkpoly (inv (p_coefs (f_den ha)) ++ repeat c0 (N - M)) true (p_mlt (f_den ha) * produit (p_coefs (f_den ha)))%K)).
(** std::pow(float, int) *)
Definition powZ (x : R) (n : Z) : R := match n with Z0 => 1 | Zpos p => x ^ Pos.to_nat p | Zneg p => / (x ^ Pos.to_nat p) end.
(** rii.cc:172-186 pban_vers_pba: normalised low-pass to low-pass *)
Definition pban_vers_pba (ha : frat Cfield) (wc : R) : res (frat Cfield) :=
  if negb (p_roots (f_num ha) && p_roots (f_den ha)) then Exc else
  let M := (Z.of_nat (List.length (p_coefs (f_num ha))) - 1)%Z in
  let N := (Z.of_nat (List.length (p_coefs (f_den ha))) - 1)%Z in
  let sc := map (fun r : Cfield => (r * re wc)%K) in
  Ok (mkfrat (mkpoly (sc (p_coefs (f_num ha))) true (p_mlt (f_num ha) * re (powZ wc (N - M)))%K)
             (mkpoly (sc (p_coefs (f_den ha))) true (p_mlt (f_den ha)))).
(** rii.cc:194-215 butterworth_analogique *)
Definition butterworth_analogique (n : nat) : frat Cfield :=
  let k := linspace (K := Rfield) 1 (INR n) n in
  let pol := map (fun k : R => eit (PI * (2 * k + INR n - 1) / (2 * INR n))) k in
  mkfrat (mkpoly (K := Cfield) [] true c1) (p_from_roots pol).
(** tsd.hpp:82-84 signe *)
Definition signe (x : R) : R := if Rlt_dec 0 x then 1 else if Rlt_dec x 0 then -1 else 0.
(** tsd.hpp:448-470, real argument *)
Definition db2pow (x : R) : R := Rpower 10 (x / 10).
(** rii.cc:320-350 tchebychev_I_analogique *)
Definition tcheb_poles (n : nat) (eps : R) : list Cfield :=
  let m := linspace (K := Rfield) 1 (INR n) n in
  let ash := arcsinh (1 / eps) / INR n in
  let s := sinh ash in let c := cosh ash in let sc := s * signe s in
  map (fun m : R => let th := (2 * m - 1) * (PI / (2 * INR n)) in ((- sin th * signe (sin th) * sc, cos th * c) : Cfield)) m.
Definition tchebychev_I_analogique (n : nat) (delta : R) : frat Cfield :=
  let den := p_from_roots (tcheb_poles n (sqrt (db2pow delta - 1))) in
  mkfrat (mkpoly (K := Cfield) [] true (c1 * p_horner den c0)%K) den.
(** rii.cc:352-386 tchebychev_II_analogique; copysign(1, x) *)
Definition copysign1 (x : R) : R := if Rlt_dec x 0 then -1 else 1.
Definition tchebychev_II_analogique (n : nat) (delta : R) : frat Cfield :=
  let m := linspace (K := Rfield) 1 (INR n) n in
  let eps := 1 / sqrt (db2pow delta - 1) in
  let ash := arcsinh (1 / eps) / INR n in
  let s := sinh ash in let c := cosh ash in
  let poles := map (fun m : R => let th := (2 * m - 1) * (PI / (2 * INR n)) in
    fdiv (c1 : Cfield) (- s * sin th * copysign1 s * copysign1 (sin th), c * cos th)) m in
  let zeros := map (fun i => fdiv (c1 : Cfield) (0, - cos (PI / 2 * (2 * (INR i + 1) - 1) / INR n))) (seq 0 n) in
  let num := p_from_roots zeros in let den := p_from_roots poles in
  mkfrat (mkpoly (K := Cfield) zeros true (c1 * (p_horner den c0 / p_horner num c0))%K) den.

(** rii.cc:388-431 design_riia_laplace; filtrage.hpp:460-467, 655-661.  The elliptic prototype is a parameter. *)
Inductive type_filtre := PASSE_BAS | PASSE_HAUT | PASSE_BANDE | COUPE_BANDE | AUTRE.
Inductive prototype := BUTTERWORTH | TCHEBYCHEV_I | TCHEBYCHEV_II | ELLIPTIQUE.
Definition design_riia_laplace (ellip : nat -> R -> R -> frat Cfield) (n : nat) (type : type_filtre) (proto : prototype) (fcut d_bp d_bc : R) : res (frat Cfield) :=
  let wa := wd_vers_wa (2 * PI * fcut) 1 in
  let ha := match proto with
            | BUTTERWORTH => butterworth_analogique n
            | TCHEBYCHEV_I => tchebychev_I_analogique n d_bp
            | TCHEBYCHEV_II => tchebychev_II_analogique n d_bc
            | ELLIPTIQUE => ellip n d_bp d_bc
            end in
  match type with
  | PASSE_BAS => pban_vers_pba ha wa
  | PASSE_HAUT => pban_vers_pha ha wa
  | _ => Exc
  end.
(** rii.cc:435-439 design_riia *)
Definition design_riia ellip (n : nat) (type : type_filtre) (proto : prototype) (fcut d_bp d_bc : R) : res (frat Cfield) :=
  let* ha := design_riia_laplace ellip n type proto fcut d_bp d_bc in trf_bilineaire ha 1.
(** rii.cc:441-467 parse_proto, parse_tf *)
Definition parse_proto (s : string) : res prototype :=
  if String.eqb (substring 0 1 s) "b" then Ok BUTTERWORTH
  else if String.eqb s "cheb1" then Ok TCHEBYCHEV_I
  else if String.eqb s "cheb2" then Ok TCHEBYCHEV_II
  else if String.eqb (substring 0 5 s) "ellip" then Ok ELLIPTIQUE
  else Exc.
Definition parse_tf (s : string) : res type_filtre :=
  if String.eqb s "lp" || String.eqb s "pb" then Ok PASSE_BAS
  else if String.eqb s "hp" || String.eqb s "ph" then Ok PASSE_HAUT
  else if String.eqb s "pb" || String.eqb s "bp" then Ok PASSE_BANDE
  else if String.eqb s "sb" then Ok COUPE_BANDE
  else Exc.
(** rii.cc:470-474 *)
Definition design_riia_s ellip (n : nat) (type proto : string) (fcut d_bp d_bc : R) : res (frat Cfield) :=
  let* t := parse_tf type in let* p := parse_proto proto in design_riia ellip n t p fcut d_bp d_bc.

(** rii.cc:557-647 design_biquad, filtrage.hpp:565-597; isz is the test for zero of frat.hpp:66-76 *)
Inductive biquad_type := B_PASSE_BAS | B_PASSE_HAUT | B_PASSE_BANDE | B_COUPE_BANDE | B_RESONATEUR | B_PLATEAU_BF | B_PLATEAU_HF.
(** coefficients ((b0, b1, b2), (a0, a1, a2)) before the division by a0 *)
Definition biquad_coefs (t : biquad_type) (f Q gain_dB : R) : (R * R * R) * (R * R * R) :=
  let A := sqrt (db2pow (gain_dB / 2)) in
  let w := 2 * PI * f in let sn := sin w in let cs := cos w in
  let al := sn / (2 * Q) in
  let be := sqrt (2 * A) in
  match t with
  | B_PASSE_BAS => (((1 - cs) / 2, 1 - cs, (1 - cs) / 2), (1 + al, -2 * cs, 1 - al))
  | B_PASSE_HAUT => (((1 + cs) / 2, - (1 + cs), (1 + cs) / 2), (1 + al, -2 * cs, 1 - al))
  | B_PASSE_BANDE => ((al, 0, - al), (1 + al, -2 * cs, 1 - al))
  | B_COUPE_BANDE => ((1, -2 * cs, 1), (1 + al, -2 * cs, 1 - al))
  | B_RESONATEUR => ((1 + al * A, -2 * cs, 1 - al * A), (1 + al / A, -2 * cs, 1 - al / A))
  | B_PLATEAU_BF => ((A * ((A + 1) - (A - 1) * cs + be * sn), 2 * A * ((A - 1) - (A + 1) * cs), A * ((A + 1) - (A - 1) * cs - be * sn)),
                     ((A + 1) + (A - 1) * cs + be * sn, -2 * ((A - 1) + (A + 1) * cs), (A + 1) + (A - 1) * cs - be * sn))
  | B_PLATEAU_HF => ((A * ((A + 1) + (A - 1) * cs + be * sn), -2 * A * ((A - 1) + (A + 1) * cs), A * ((A + 1) + (A - 1) * cs - be * sn)),
                     ((A + 1) - (A - 1) * cs + be * sn, 2 * ((A - 1) - (A + 1) * cs), (A + 1) - (A - 1) * cs - be * sn))
  end.
(** rii.cc:644-646: z is 1/z; (b0 + b1 * z + b2 * z.pow(2)) / (1 + a1 * z + a2 * z.pow(2)) *)
Definition biquad_frat {K : cfield} (isz : K -> bool) (b0 b1 b2 a1 a2 : K) : frat K :=
  let z := f_inv f_z in
  f_div isz (f_add (f_addc (f_scale z b1) b0) (f_scale (f_pow z 2) b2)) (f_add (f_addc (f_scale z a1) c1) (f_scale (f_pow z 2) a2)).
Definition design_biquad (isz : Cfield -> bool) (t : biquad_type) (f Q gain_dB : R) : frat Cfield :=
  let '((b0, b1, b2), (a0, a1, a2)) := biquad_coefs t f Q gain_dB in
  biquad_frat isz (re (b0 / a0)) (re (b1 / a0)) (re (b2 / a0)) (re (a1 / a0)) (re (a2 / a0)).
(** rii.cc:476-496: for an unknown name the type keeps its value-initialised value 0 (PASSE_BAS) *)
Definition parse_biquad (s : string) : biquad_type :=
  if String.eqb s "lp" || String.eqb s "pb" then B_PASSE_BAS
  else if String.eqb s "hp" || String.eqb s "ph" then B_PASSE_HAUT
  else if String.eqb s "bp" || String.eqb s "passe-bande" then B_PASSE_BANDE
  else if String.eqb s "cb" || String.eqb s "notch" || String.eqb s "sb" then B_COUPE_BANDE
  else if String.eqb s "plateau-bf" then B_PLATEAU_BF
  else if String.eqb s "plateau-hf" then B_PLATEAU_HF
  else if String.eqb s "res" then B_RESONATEUR
  else B_PASSE_BAS.
Definition design_biquad_s (isz : Cfield -> bool) (type : string) (f Q gain_dB : R) : frat Cfield :=
  design_biquad isz (parse_biquad type) f Q gain_dB.
