(** Model of the channel simulators: core/src/telecom/ecp.cc (propagation channel emulator),
    core/src/telecom/simulation.cc (dispersive channel, Doppler distribution, thermal noise) and the noise
    generators of core/src/telecom/telecom.cc.

    Simplifications: floats are reals; the draws of the random generator are arguments; log output, plots and the
    phase noise field (never read by the code) are left out. *)
From Coq Require Import List Arith ZArith Lia Bool Reals.
From Verif Require Import Base ComplexSys Sig_Model Sig_Spec.
Import ListNotations.
Local Open Scope R_scope.

(** abs2(x).moyenne() (tableau.hpp, moyenne: sum divided by the number of elements). *)
Definition rsumf (l : list R) : R := fold_right Rplus 0 l.
Definition mean2 (x : list C) : R := rsumf (map Cnorm2 x) / INR (length x).

(** Element-wise operation on two arrays of the same size. *)
Definition map2 {A B D : Type} (f : A -> B -> D) (a : list A) (b : list B) : list D :=
  map (fun p => f (fst p) (snd p)) (combine a b).

(** bruit_awgn (telecom.cc:172-179), complex: [wr k] and [wi k] are the values of the two calls of randn. *)
Definition awgn (x : list C) (sigma : R) (wr wi : nat -> R) : list C :=
  map (fun k => (fst (nth k x (0, 0)) + sigma * wr k, snd (nth k x (0, 0)) + sigma * wi k)) (seq 0 (length x)).

(** bruit_awgn (telecom.cc:181-184), real. *)
Definition awgn_real (x : list R) (sigma : R) (w : nat -> R) : list R :=
  map (fun k => nth k x 0 + sigma * w k) (seq 0 (length x)).

(** ECPConfig (telecom.hpp:1455-1483); [ec_delay] is the clock delay converted to an integer (ecp.cc:74). *)
Record ecp_cfg := Ecp { ec_ebn0 : R; ec_phase : R; ec_df : R; ec_delay : Z; ec_fe : R; ec_fbit : R }.

(** ECP::configure_impl (ecp.cc:19-27). *)
Definition ecp_init (c : ecp_cfg) : (R * R) * (R * R) := ohc_new (ec_df c / ec_fe c).

(** One call: the input block, the noise draws and the value of randi used when the delay is negative. *)
Record ecp_in := EcpIn { ei_x : list C; ei_wr : nat -> R; ei_wi : nat -> R; ei_r : Z }.

(** Standard deviation of the noise (ecp.cc:35, 49, 62). *)
Definition ecp_sigma (c : ecp_cfg) (x : list C) : R :=
  sqrt (mean2 x) * sqrt (0.5 * (ec_fe c / ec_fbit c) / Rpower 10 (ec_ebn0 c / 10)).

(** ECP::step (ecp.cc:28-106). The tail of a block shorter than the delay has a negative size, which is not
    detected (tableau.cc: segment) and copied: undefined behaviour. *)
Definition ecp_step (c : ecp_cfg) (s : (R * R) * (R * R)) (i : ecp_in) : res (((R * R) * (R * R)) * list C) :=
  let n := length (ei_x i) in
  let sigma := ecp_sigma c (ei_x i) in
  let (s', o) := ohc_step s n in
  let y := map2 Cmul (ei_x i) o in
  let y := map (fun z => Cmul z (cos (ec_phase c), sin (ec_phase c))) y in
  let y := awgn y sigma (ei_wr i) (ei_wi i) in
  let d := if (ec_delay c <? 0)%Z then ei_r i else ec_delay c in
  if (0 <? d)%Z then
    if (d <=? Z.of_nat n)%Z then Ok (s', skipn (Z.to_nat d) y) else UB
  else Ok (s', y).

Definition ecp_run (c : ecp_cfg) (l : list ecp_in) : res (((R * R) * (R * R)) * list (list C)) :=
  map_st (ecp_step c) (ecp_init c) l.

(** ** Dispersive channel (simulation.cc) *)

(** randnc (simulation.cc:14-20). *)
Definition randnc (n : nat) (wr wi : nat -> R) : list C :=
  map (fun k => (wr k / sqrt 2, wi k / sqrt 2)) (seq 0 n).

(** Mean of a complex array. *)
Definition cmean (b : list C) : C :=
  (rsumf (map fst b) / INR (length b), rsumf (map snd b) / INR (length b)).

(** CanalDispersif::gen_bruit (simulation.cc:70-86); [csqrt] is the complex square root, square(b) is the complex
    square of each element.  [rice] tells whether the type of the channel is RICE. *)
Definition gen_bruit (csqrt : C -> C) (rice : bool) (K : R) (n : nat) (wr wi : nat -> R) : list C :=
  let b := randnc n wr wi in
  if rice then
    let b := map (fun z => (fst z + sqrt K, snd z)) b in
    let g := csqrt (cmean (map (fun z => Cmul z z) b)) in
    map (fun z => Cdiv z g) b
  else b.

(** ceil *)
Definition Zceil (r : R) : Z := (- Int_part (- r))%Z.

(** CanalDispersif::step (simulation.cc:88-128).  [gen s m] models reechan->step(rif->step(gen_bruit(m))): the
    state of the generator and filters, and the samples delivered.  The state also holds the samples not used yet
    and the flag of the first call; [nh] is the length of the Doppler filter. *)
Section Dispersif.
Context {S : Type}.
Variable gen : S -> nat -> res (S * list C).
Variables (fd fe : R) (nh : nat).

Record cd_st := Cd { cd_gen : S; cd_rest : list C; cd_first : bool }.

Definition cd_step (s : cd_st) (x : list C) : res (cd_st * list C) :=
  let n := length x in
  let nr := length (cd_rest s) in
  let m := Zceil (IZR (Z.of_nat n - Z.of_nat nr + 1) * (4 * fd) / fe) in
  let* g0 := (if cd_first s then let* p := gen (cd_gen s) nh in Ok (fst p) else Ok (cd_gen s)) in
  if (m <? 0)%Z then UB else
  let* p := gen g0 (Z.to_nat m) in
  let (g1, x2) := p in
  (* y.head(nr) *)
  if (n <? nr)%nat then Exc else
  if (length x2 <? n - nr)%nat then Exc else
  let y := map2 Cmul (firstn nr x) (cd_rest s) ++ map2 Cmul (skipn nr x) (firstn (n - nr) x2) in
  Ok (Cd g1 (skipn (n - nr) x2) false, y).

Definition cd_run (s0 : S) (l : list (list C)) : res (cd_st * list (list C)) :=
  map_st cd_step (Cd s0 [] true) l.
End Dispersif.

(** doppler_distri (simulation.cc:22-27), one frequency. *)
Definition doppler_distri (f fd fc : R) : R :=
  if Rle_dec fd (Rabs (f - fc)) then 0 else 1 / (PI * fd * sqrt (1 - ((f - fc) / fd) * ((f - fc) / fd))).

(** bruit_thermique (simulation.cc:138-143). *)
Definition bruit_thermique (bp T : R) : R := 1.380650e-23 * (T + 273.15) * bp.
