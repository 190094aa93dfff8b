(** Model of core/src/filtrage/filtrage.cc (design of filters from other filters, first
    and second order rational filters, differentiator) and of type_rif
    (core/src/filtrage/filtre-analyse.cc), in exact arithmetic. *)
From Coq Require Import Reals.
From Verif Require Import Base OField Filters_Model Poly_Model.
Local Open Scope cring_scope.

(** filtrage.hpp:1684-1690 filtrer, for a FIR design: a fresh filter applied to the whole signal; 1775-1781 convol is the same *)
Definition filtrer_rif {K : cring} (h x : list K) : res (list K) :=
  let* r := fir_step (fir_init h) x in Ok (snd r).
(** filtrage.hpp:1762-1766 filtfilt *)
Definition filtfilt {K : cring} (h x : list K) : res (list K) :=
  let* y := filtrer_rif h x in let* z := filtrer_rif h (rev y) in Ok (rev z).
(** filtrage.cc:45-50 design_rif_prod.  An empty h1 makes the size n1 - 1 negative; the filter then throws in any case. *)
Definition design_rif_prod {K : cring} (h1 h2 : list K) : res (list K) :=
  match h1 with [] => Exc | _ => filtrer_rif h1 (h2 ++ repeat 0 (length h1 - 1)) end.

Section Kind.
  Context {F : ofield}.
  Definition energy (x : list F) : F := sum (length x) (fun i => samp x i * samp x i).
  (** difference of two vectors of the same length *)
  Definition vsub (x y : list F) : list F := map (fun p => fst p - snd p) (combine x y).
  Definition vneg (x : list F) : list F := map (fun v => - v) x.
  (** tolerance 1e-5 (tableau.hpp:142), squared *)
  Definition tol2 : F := 1 / cpow (cnat 10) 10.
  (** tableau.cc:1135-1152 est_approx: Eigen's isApprox, |x-y|^2 <= tol^2 min(|x|^2, |y|^2) *)
  Definition est_approx (x y : list F) : bool :=
    oleb (energy (vsub x y)) (tol2 * energy x) && oleb (energy (vsub x y)) (tol2 * energy y).
  (** filtre-analyse.cc:32-42 type_rif *)
  Definition type_rif (h : list F) : Z :=
    let hrr := rev h in
    if est_approx hrr h then (if Nat.odd (length h) then 1 else 2)
    else if est_approx hrr (vneg h) then (if Nat.odd (length h) then 3 else 4)
    else (-1).
  (** filtrage.cc:59-61 loop: negates the odd coefficients *)
  Definition neg_odd (n : nat) (g : list F) : res (list F) :=
    loop n (fun k g => if Nat.odd k then let* v := vget g k in vset g k (- v) else Ok g) g.
  (** filtrage.cc:52-74 design_rif_pb2ph_rs *)
  Definition design_rif_pb2ph_rs (h : list F) : res (list F) :=
    if (type_rif h =? 1)%Z then neg_odd (length h) h else Exc.
  (** filtrage.cc:76-84 design_rif_pb2ph_is *)
  Definition design_rif_pb2ph_is (h : list F) : res (list F) :=
    if (type_rif h =? 1)%Z then
      let g := vneg h in
      let* v := vget g ((length h - 1) / 2) in vset g ((length h - 1) / 2) (v + 1)
    else Exc.
End Kind.

Section Rational.
  Context {K : cfield} (isz : K -> bool).
  (** filtrage.cc:140-150 design_notch, from the cosine of the angle and r; isz is the test for zero of frat.hpp:66-76 *)
  Definition notch_frat (c r : K) : frat K :=
    let z := f_z in
    let A := f_addc (f_sub (f_mul z z) (f_scale z ((1 + 1) * c))) 1 in
    let B := f_addc (f_sub (f_mul z z) (f_scale z ((1 + 1) * r * c))) (r * r) in
    f_scale (f_div isz A B) r.
  (** filtrage.cc:152-158 design_bloqueur_dc *)
  Definition dc_frat (r : K) : frat K := f_scale (f_div isz (f_subc f_z 1) (f_subc f_z r)) r.
  (** filtrage.cc:160-166 design_lexp *)
  Definition lexp_frat (g : K) : frat K := f_div isz (f_scale f_z g) (f_subc f_z (1 - g)).
  (** frat.hpp:154-190 horner with a rational function as argument (coefficients a) *)
  Definition p_horner_frat (a : list K) (f : frat K) : frat K :=
    match rev a with
    | [] => f_const 0
    | c :: t => fold_left (fun r c => f_add (f_mul r f) (f_const c)) t (f_const c)
    end.
  (** filtrage.cc:204-213 design_mg: 744-748 of frat.hpp divides by the value of the denominator 1 *)
  Definition design_mg (k : nat) : frat K :=
    f_div isz (p_horner_frat (repeat (1 / cnat k) k) f_zinv) (p_horner_frat [1] f_zinv).
End Rational.

Section Reals.
  Open Scope R_scope.
  (** filtrage.cc:121-139 *)
  Definition lexp_coef (fc : R) : R := 1 - exp (- fc * 2 * PI).
  Definition lexp_tc_vers_coef (t : R) : R := lexp_coef (1 / (2 * PI * t)).
  Definition lexp_fcoupure (g : R) : R := - ln (1 - g) / (2 * PI).
  Definition lexp_coef_vers_tc (g : R) : R := 1 / (2 * PI * lexp_fcoupure g).
  (** filtrage.cc:13-43 design_rif_diff; (k & 1) on a negative int is its parity *)
  Definition diff_nc (k : Z) : R := (if Z.odd (k + 1) then -1 else 1) / (PI * (/ 2 + IZR k) * (/ 2 + IZR k)).
  Definition diff_c (k : Z) : R := if (k =? 0)%Z then 0 else (if Z.odd k then -1 else 1) / IZR k.
  Definition design_rif_diff (n : Z) (centre : bool) : res (list R) :=
    if (n <? 2)%Z then Exc
    else if (n =? 2)%Z then Ok [-1; 1]
    else Ok (map (fun i => let k := (Z.of_nat i - n / 2)%Z in if centre then diff_c k else diff_nc k) (seq 0 (Z.to_nat n))).
End Reals.
