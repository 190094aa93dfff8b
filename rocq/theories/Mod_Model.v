(** Model of the digital modulator (core/src/telecom/modulateur.cc), of the pulse
    shaping and matched filters (core/src/telecom/modulations.cc:797-889) and of the
    emitter (core/src/telecom/emetteur.cc).  Samples are pairs of real numbers: the
    rounding of float, messages and figures (debug_actif) are not modelled. *)
From Coq Require Import Reals ZArith.
From Verif Require Import Base Filters_Model RField DftSys ComplexSys Fourier_Model BitStream_Model Demod_Model Special_Model Design_Model Rif_Model Polyphase_Model Ra_Model Sig_Model Rii_Model.
Local Open Scope R_scope.

(** telecom.hpp:36-60 SpecFiltreMiseEnForme: type and its parameter *)
Inductive forme := NRZ | AUCUN | GAUSSIEN (BT : R) | RCS (beta : R).

(** modulations.cc:797-858 get_coefs.  The number of coefficients of the last two
    types is positive (816-822, or assertion); int overflow of 5 osf + 1 and the test
    for NaN (852-853) are not modelled. *)
Definition nb_coefs (ncoefs osf : Z) : Z :=
  if (ncoefs =? 0)%Z then (let n := (5 * osf + 1)%Z in if Z.even n then (n + 1)%Z else n) else ncoefs.
Definition get_coefs (f : forme) (ncoefs osf : Z) : res (list R) :=
  if (osf <=? 0)%Z then Exc else
  if (osf =? 1)%Z then Ok [1] else
  let n := nb_coefs ncoefs osf in
  match f with
  | NRZ => Ok (vdiv (repeat 1 (Z.to_nat osf)) (IZR osf))
  | AUCUN => Ok [1]
  | GAUSSIEN BT => if (n <=? 0)%Z then Exc else design_rif_gaussien_telecom (Z.to_nat n) BT (Z.to_nat osf)
  | RCS beta => if (n <=? 0)%Z then Exc else design_rif_rcs1 (Z.to_nat n) beta (IZR osf) false
  end.

(** A filter that is either filtre_id or of the given kind *)
Inductive opt_filter (S : Type) := F_id | F_on (s : S).
Arguments F_id {S}. Arguments F_on {S} s.
Definition opt_step {S A} (step : S -> list A -> res (S * list A)) (f : opt_filter S) (x : list A) : res (opt_filter S * list A) :=
  match f with F_id => Ok (F_id, x) | F_on s => let* (s', y) := step s x in Ok (F_on s', y) end.
(** modulations.cc:876-889 filtre_mise_en_forme: h *= (sqrt(R) / sqrt(en)) / R *)
Definition shape_new (f : forme) (ncoefs osf : Z) : res (opt_filter (fups Cring)) :=
  if (osf =? 1)%Z then Ok F_id else
  let* h := get_coefs f ncoefs osf in
  let en := somme (map (fun v => v * v) h) in
  let h := map (fun v => v * ((sqrt (IZR osf) / sqrt en) / IZR osf)) h in
  let* s := fups_init (K := Cring) (map re h) (Z.to_nat osf) in Ok (F_on s).
Definition shape_step : opt_filter (fups Cring) -> list C -> res (opt_filter (fups Cring) * list C) := opt_step (fups_step (K := Cring)).
(** modulations.cc:860-866 filtre_adapté; 868-874 filtre_adapté_décimation *)
Definition adapt_new (f : forme) (ncoefs osf : Z) : res (opt_filter (fir Cring)) :=
  if (osf =? 1)%Z then Ok F_id else let* h := get_coefs f ncoefs osf in Ok (F_on (fir_init (K := Cring) (map re h))).
Definition adapt_step : opt_filter (fir Cring) -> list C -> res (opt_filter (fir Cring) * list C) := opt_step (fir_step (K := Cring)).
Definition adaptd_new (f : forme) (ncoefs osf : Z) : res (opt_filter (fdec Cring)) :=
  if (osf =? 1)%Z then Ok F_id else let* h := get_coefs f ncoefs osf in Ok (F_on (fdec_init (K := Cring) (map re h) (Z.to_nat osf))).
Definition adaptd_step : opt_filter (fdec Cring) -> list C -> res (opt_filter (fdec Cring) * list C) := opt_step (rif_decim_step (K := Cring)).

(** polyphase.cc:363-369 filtre_rif_ups_délais; nc % R on ints, undefined for R = 0 *)
Definition ups_delais (nc osf : Z) : res R :=
  if (osf =? 0)%Z then UB else
  let r := Z.rem nc osf in
  Ok (IZR (nc - 1) / 2 + IZR (if (r =? 0)%Z then 0 else osf - r)%Z).

(** telecom.hpp:852-874 ModConfig, with what it uses of the waveform (infos.est_fsk,
    infos.index, filtre) *)
Record mconf := { mc_wave : wave; mc_forme : forme; mc_fsk : bool; mc_index : R;
  mc_fe : R; mc_fi : R; mc_fsymb : R; mc_real : bool; mc_ncoefs : Z }.
(** modulateur.cc:21-40 ModGen (the rate adapter ra is never created, 76-88) *)
Record modgen := { md_conf : mconf; md_osf : Z; md_wave : wave; md_filt : opt_filter (fups Cring);
  md_ol : (R * R) * (R * R); md_lat : R }.

(** modulateur.cc:91: osf = fe1 / fsymb, float to unsigned int (undefined out of
    range), then unsigned to int in the calls *)
Definition osf_of (fe fsymb : R) : res Z :=
  if Req_EM_T fsymb 0 then UB else
  let q := fe / fsymb in
  if Rle_dec q (-1) then UB else if Rle_dec (2 ^ 32) q then UB else
  let z := if Rlt_dec q 0 then 0%Z else Int_part q in
  Ok (if (2 ^ 31 <=? z)%Z then (z - 2 ^ 32)%Z else z).
(** modulateur.cc:58-138 configure *)
Definition mod_new (c : mconf) : res modgen :=
  let* osf := osf_of (mc_fe c) (mc_fsymb c) in
  let* f := shape_new (mc_forme c) (mc_ncoefs c) osf in
  let* h := get_coefs (mc_forme c) (mc_ncoefs c) osf in
  let* lat := ups_delais (Z.of_nat (length h)) osf in
  Ok {| md_conf := c; md_osf := osf; md_wave := mc_wave c; md_filt := f; md_ol := ohc_new (mc_fi c / mc_fe c); md_lat := lat |}.
(** modulateur.cc:52-55 delais *)
Definition mod_delais (m : modgen) : R := md_lat m.
(** modulateur.cc:42-45 def_forme_onde: only the symbol generation of step(BitStream)
    uses it; the FSK test of step uses the waveform of the configuration *)
Definition mod_def_forme (m : modgen) (w : wave) : modgen :=
  {| md_conf := md_conf m; md_osf := md_osf m; md_wave := w; md_filt := md_filt m; md_ol := md_ol m; md_lat := md_lat m |}.

(** modulateur.cc:167-195: frequency modulation of a filtered block.  maxCoeff is 0 on
    an empty vector (tableau.cc:629-653). *)
Definition vmax (l : list R) : R := match l with [] => 0 | a :: t => fold_left Rmax t a end.
Definition fsk_map (index : R) (osf : Z) (x : list C) : list C :=
  let Om := (PI * index) / IZR osf in
  let xr := map fst x in
  let den := vmax (map Rabs xr) in
  let den := if Req_EM_T den 0 then 1 else den in
  map (fun p : R => (cos p, sin p)) (cumsum (K := Rring) (map (fun v => v * (Om / den)) xr)).

(** modulateur.cc:155-246 step on symbols *)
Definition mod_step (m : modgen) (s : list C) : res (modgen * list C) :=
  let c := md_conf m in
  let* (f, x) := shape_step (md_filt m) s in
  let x := if mc_fsk c then fsk_map (mc_index c) (md_osf m) x else x in
  let (ol, x) := if Req_EM_T (mc_fi c) 0 then (md_ol m, x) else
    let (ol, o) := ohc_step (md_ol m) (length x) in
    let x := map (fun p => cmul (c := Cring) (fst p) (snd p)) (combine x o) in
    (ol, if mc_real c then map (fun z => re (fst z)) x else x) in
  Ok ({| md_conf := c; md_osf := md_osf m; md_wave := md_wave m; md_filt := f; md_ol := ol; md_lat := md_lat m |}, x).
(** modulateur.cc:149-152 step on bits *)
Definition mod_bits (m : modgen) (bs : bitstream) : res (modgen * list C) :=
  let* s := genere_symboles (md_wave m) bs in mod_step m s.
(** modulateur.cc:139-146 flush *)
Definition mod_flush (m : modgen) (n : Z) : res (modgen * list C) :=
  if (n <=? 0)%Z then Ok (m, []) else
  mod_step m (repeat (0, 0) (Z.to_nat (ceilZ (IZR n / IZR (md_osf m))))).

(** ** Emitter *)
(** telecom.hpp FormatTrame: header, optional waveform of the header, modulation *)
Record econf := { ec_mod : mconf; ec_head : bitstream; ec_fo : option wave }.
(** emetteur.cc:20-27 retard: the quotient is converted to int (truncated) *)
Definition emet_retard (c : econf) : res R :=
  let q := mc_fe (ec_mod c) / mc_fsymb (ec_mod c) in
  ups_delais (mc_ncoefs (ec_mod c)) (if Rlt_dec q 0 then (- Int_part (- q))%Z else Int_part q).
(** emetteur.cc:46-120 step *)
Definition emet_step (c : econf) (m : modgen) (bs : bitstream) : res (modgen * list C) :=
  let w := mc_wave (ec_mod c) in
  let d := ceilZ (mod_delais m) in
  let* (m, x) :=
    match ec_fo c with
    | Some wh =>
        let m := mod_def_forme m wh in
        let* tmp := bs_pad_mult (ec_head c) (w_k wh) in
        let* (m, x1) := mod_bits m tmp in
        let* bs2 := bs_pad_mult bs (w_k w) in
        let m := mod_def_forme m w in
        let* (m, x2) := mod_bits m bs2 in
        Ok (m, x1 ++ x2)
    | None =>
        let* et2 := bs_pad_mult (ec_head c) (w_k w) in
        let* bs2 := bs_cat et2 bs in
        let* bs2 := bs_pad_mult bs2 (w_k w) in
        mod_bits m bs2
    end in
  let* (m, xf) := mod_flush m d in
  Ok (m, x ++ xf).
