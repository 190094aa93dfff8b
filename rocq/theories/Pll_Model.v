(** Model of core/src/telecom/carrier-rec.cc: loop filters, phase error detectors,
    complex and real phase-locked loops.  Over the real numbers (no rounding; no NaN). *)
From Coq Require Import Reals.
From Verif Require Import Base Filters_Model Design_Model Geo_Model Demod_Model Sig_Model RField.
Local Open Scope R_scope.

(** ** Loop filters *)
(** carrier-rec.cc:13-57 the state of LF1 (alpha, theta) or of LF2 (gamma, rho, theta, mu, last_ped) *)
Inductive lf := LF1 (alpha theta : R) | LF2 (gamma rho theta mu last : R).
(** carrier-rec.cc:43-47, 61-64 filtre_boucle_ordre_1 *)
Definition filtre_boucle_ordre_1 (tau : R) : lf := LF1 (lexp_tc_vers_coef tau) 0.
(** carrier-rec.cc:17-29, 66-69 filtre_boucle_ordre_2, with A = 1 *)
Definition filtre_boucle_ordre_2 (BL eta : R) : lf :=
  LF2 (16 * eta * eta * BL / (1 * (1 + 4 * eta * eta))) (4 * BL / (1 + 4 * eta * eta)) 0 0 0.
(** carrier-rec.cc:30-36, 48-52 step: the returned value is the new theta *)
Definition lf_step (s : lf) (x : R) : lf * R :=
  match s with
  | LF1 a t => let t' := t + a * x in (LF1 a t', t')
  | LF2 g r t m l => let t' := t + m in (LF2 g r t' (m + g * ((1 + r) * x - l)) x, t')
  end.
(** carrier-rec.cc:26-29, 53-56 reset *)
Definition lf_reset (s : lf) : lf := match s with LF1 a _ => LF1 a 0 | LF2 g r _ _ _ => LF2 g r 0 0 0 end.

(** ** Phase error detectors *)
(** std::arg *)
Definition arg (z : R * R) : R := atan2 (snd z) (fst z).
(** tsd.hpp:82-84 signe *)
Definition signe (x : R) : R := if Rlt_dec 0 x then 1 else if Rlt_dec x 0 then -1 else 0.
(** std::pow(z, M), M >= 0 *)
Fixpoint zpow (z : R * R) (M : nat) : R * R := match M with O => (1, 0) | S m => cmulr z (zpow z m) end.
(** std::conj *)
Definition zconj (z : R * R) : R * R := (fst z, - snd z).
Definition ped := R * R -> res R.
(** carrier-rec.cc:71-98 ped_costa (msg_erreur throws) *)
Definition ped_costa (M : nat) : res ped :=
  if (M =? 2)%nat then Ok (fun x => Ok (fst x * snd x))
  else if (M =? 4)%nat then Ok (fun x => let z := cmulr x (polar1 (PI / 4)) in Ok (snd z * signe (fst z) - fst z * signe (snd z)))
  else Exc.
(** carrier-rec.cc:99-106 ped_ploop *)
Definition ped_ploop (M : nat) : ped := fun x => Ok (snd (zpow x M) / INR M).
(** carrier-rec.cc:107-115 ped_tloop *)
Definition is0 (x : R * R) : bool := if Req_EM_T (fst x) 0 then (if Req_EM_T (snd x) 0 then true else false) else false.
Definition ped_tloop (M : nat) : ped := fun x => if is0 x then Ok 0 else Ok (arg (zpow x M) / INR M).
(** carrier-rec.cc:116-125 ped_decision (cnt = 0: the counter of the waveform is not advanced) *)
Definition ped_decision (w : wave) : ped := fun x =>
  let* i := symbole_plus_proche w 0 x in
  let* p := lis_symbole w 0 i in
  let c := cmulr x (zconj p) in
  if is0 c then Ok 0 else Ok (arg c).
(** telecom.hpp:773-780 PedType; any other value of the enumeration is [INCONNU] *)
Inductive ped_type := AUTO | COSTA | POWER_LOOP | TAN_LOOP | DEC_LOOP | INCONNU.
(** carrier-rec.cc:127-155 ped_init; psk, ask: wf->infos.est_psk, wf->infos.est_ask *)
Definition ped_init (ty : ped_type) (psk ask : bool) (w : wave) : res ped :=
  let ty := match ty with AUTO => if psk then POWER_LOOP else if ask then TAN_LOOP else DEC_LOOP | _ => ty end in
  let M := if ask then 2%nat else w_M w in
  match ty with
  | COSTA => ped_costa M
  | POWER_LOOP => Ok (ped_ploop M)
  | TAN_LOOP => Ok (ped_tloop M)
  | DEC_LOOP => Ok (ped_decision w)
  | _ => Exc
  end.

(** ** Complex PLL *)
(** telecom.hpp:1616-1679 PLLConfig: the fields the code reads (freq and sortie_porteuse are not) *)
Record pll_config := { p_order : Z; p_bp : R; p_tc : R; p_ped : option ped }.
(** carrier-rec.cc:295-332: loop filter, theta, ped *)
Record cpll := mkcpll { l_lf : lf; l_theta : R; l_ped : ped }.
Definition cpll_init (c : pll_config) : cpll :=
  mkcpll (if (p_order c =? 1)%Z then filtre_boucle_ordre_1 (p_tc c) else filtre_boucle_ordre_2 (p_bp c) 1) 0
    (match p_ped c with Some p => p | None => fun x => Ok (arg x) end).
Section Osc.
  (** lut.step (tsd.hpp:1355: OLUT of resolution 1024) *)
  Variable osc : R -> res (R * R).
  (** carrier-rec.cc:348-361 one turn of the loop *)
  Definition cpll_sample (s : cpll) (x : R * R) : res (cpll * (R * R)) :=
    let* w := osc (- l_theta s) in
    let y := cmulr x w in
    let* err := l_ped s y in
    let (f, t) := lf_step (l_lf s) err in
    Ok (mkcpll f t (l_ped s), y).
  (** carrier-rec.cc:334-361 step *)
  Definition cpll_step (s : cpll) (x : list (R * R)) : res (cpll * list (R * R)) := map_st cpll_sample s x.
End Osc.
Definition lut1024 : R -> res (R * R) := olut_step (Z.to_nat 1024).

(** ** Real PLL *)
(** carrier-rec.cc:199-231 RPLL: oscillator, optional low-pass filter (coefficients h, on complex samples), complex PLL *)
Record rpll := mkrpll { r_osc : (R * R) * (R * R); r_re : option (fir Rring * fir Rring); r_cpll : cpll }.
Definition rpll_init (c : pll_config) (freq : R) (h : option (list R)) : rpll :=
  mkrpll (ohc_new (- freq)) (match h with Some h => Some (fir_init (K := Rring) h, fir_init (K := Rring) h) | None => None end) (cpll_init c).
Definition zip {A B} (x : list A) (y : list B) : list (A * B) := combine x y.
(** carrier-rec.cc:232-253 step *)
Definition rpll_step (osc : R -> res (R * R)) (s : rpll) (x : list R) : res (rpll * list R) :=
  let (o, sosc) := ohc_step (r_osc s) (length x) in
  let x1 := map (fun p => (fst (fst p) * snd p, snd (fst p) * snd p)) (zip sosc x) in
  let* (f, x2) := match r_re s with
    | None => Ok (None, x1)
    | Some (a, b) =>
        let* (a', u) := fir_step a (map fst x1 : list Rring) in
        let* (b', v) := fir_step b (map snd x1 : list Rring) in Ok (Some (a', b'), zip u v)
    end in
  let* (c, x3) := cpll_step osc (r_cpll s) x2 in
  let y := map (fun p => fst (cmulr (zconj (fst p)) (snd p))) (zip sosc x3) in
  Ok (mkrpll o f c, y).
