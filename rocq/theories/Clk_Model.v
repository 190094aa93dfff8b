(** Model of core/src/telecom/clock-rec.cc (ClockRec, the timing error detectors, ClockRec2), and of the coefficients of the interpolators
    it uses (core/src/reechan/itrp.cc:56-92).  Exact real and complex numbers; the debug plots are not modelled. *)
From Coq Require Import Reals ZArith.
From Verif Require Import Base RField DftSys ComplexSys Rii_Model Filters_Model Interp_Model.
Local Open Scope R_scope.

(** an InterpolateurRIF: number of points K and coefs(tau) *)
Record itrp := mkitrp { it_K : nat; it_coefs : R -> res (list R) }.
(** filtrage.hpp:1872-1881 step: h = coefs(tau), then the sum on the circular window whose oldest sample is at k *)
Definition itrp_run (it : itrp) (win : list Complex) (k : nat) (tau : R) : res Complex :=
  let* h := it_coefs it tau in itrp_step (F := Cfield) (map (fun a => (a, 0) : C) h) win (it_K it) k.
(** itrp.cc:79-92 *)
Definition itrp_lineaire : itrp := mkitrp 2 (fun tau => Ok (lin_coefs (F := Rfield) tau)).
(** itrp.cc:94-131 *)
Definition itrp_lagrange (d : nat) : itrp := mkitrp (d + 1) (fun tau => Ok (lagrange_coefs (F := Rfield) d tau)).
(** itrp.cc:56-76: table of 257 columns, lut_index = (entier) (tau * 256), truncated towards zero *)
Definition trunc (r : R) : Z := if Rle_dec 0 r then Int_part r else (- Int_part (- r))%Z.
Definition itrp_cspline : itrp := mkitrp 4 (fun tau =>
  let i := trunc (tau * 256) in
  if ((0 <=? i) && (i <=? 256))%Z%bool then vget (cspline_lut (F := Rfield) 256 0) (Z.to_nat i) else Exc).

(** clock-rec.cc:12-76: the detectors (osf, calcule).  TedMM and TedEL return 0. *)
Record ted := mkted { ted_osf : nat; ted_calcule : Complex -> Complex -> Complex -> R }.
Definition gardner (x0 x1 x2 : Complex) : R := fst ((x2 - x0) * conj x1)%K.
Definition TedMM : ted := mkted 1 (fun _ _ _ => 0).
Definition TedEL : ted := mkted 2 (fun _ _ _ => 0).
Definition TedGardner : ted := mkted 2 gardner.

(** telecom.hpp:703-723 ClockRecConfig *)
Record clkconfig := mkclk { ck_osf : nat; ck_ted : ted; ck_itrp : itrp; ck_tc : R }.
(** std::clamp *)
Definition clamp (v a b : R) : R := if Rlt_dec v a then a else if Rlt_dec b v then b else v.
(** clock-rec.cc:93-128: state and constructor; gain = K1 (1 - exp(-1/(tc K1))) *)
Record clk := mkst { ck_phase : R; ck_cnt : nat; ck_win : list Complex; ck_idx : nat; ck_x0 : Complex; ck_x1 : Complex; ck_x2 : Complex }.
Definition clk_gain (c : clkconfig) : R := INR (ck_osf c) * (1 - exp (- (1) / (ck_tc c * INR (ck_osf c)))).
Definition clk_init (c : clkconfig) : res clk :=
  if (ted_osf (ck_ted c) =? 0)%nat then Exc else
  Ok (mkst (INR (ck_osf c) / 2) 0 (repeat c0 (it_K (ck_itrp c))) 0 c0 c0 c0).
(** clock-rec.cc:196-313, body of the loop of step for one sample; oindex is the number of outputs already written in this call, nmax = nout_max.
    The error is computed in place with the formula of the Gardner detector: config.ted->calcule is not called. *)
Definition clk_sample (c : clkconfig) (nmax : nat) (st : clk * nat) (x : Complex) : res (clk * nat * list Complex) :=
  let '(s, oindex) := st in
  let K1 := INR (ck_osf c) in
  let K2 := ted_osf (ck_ted c) in
  let* win := vset (ck_win s) (ck_idx s) x in
  let* idx := imod (ck_idx s + 1) (it_K (ck_itrp c)) in
  let phase := ck_phase s - 1 in
  if Rlt_dec 1 phase then Ok (mkst phase (ck_cnt s) win idx (ck_x0 s) (ck_x1 s) (ck_x2 s), oindex, []) else
  let* v := itrp_run (ck_itrp c) win idx phase in
  let phase := phase + K1 / INR K2 in
  let x0 := ck_x1 s in let x1 := ck_x2 s in let x2 := v in
  if (ck_cnt s =? K2 - 1)%nat then
    if (oindex <? nmax)%nat then
      let e := fst ((x2 - x0) * conj x1)%K in
      let dec := clamp (clk_gain c * e) (- K1 / 4) (K1 / 4) in
      Ok (mkst (phase - dec) 0 win idx x0 x1 x2, (oindex + 1)%nat, [v])
    else Exc
  else Ok (mkst phase (ck_cnt s + 1) win idx x0 x1 x2, oindex, []).
(** clock-rec.cc:137-320 step *)
Definition clk_step (c : clkconfig) (s : clk) (x : list Complex) : res (clk * list Complex) :=
  if (ck_osf c =? 0)%nat then UB else
  let* (st, y) := flat_st (clk_sample c (2 + List.length x / ck_osf c)) (s, 0%nat) x in
  Ok (fst st, y).
