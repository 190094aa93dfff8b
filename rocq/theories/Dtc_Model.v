(** Model of core/src/fourier/detection.cc, mode MODE_RIF (correlation by a FIR filter).  Exact real and complex numbers; the NaN are None or [UB].
    Not modelled: the estimation of the noise level of each detection (lines 432-476: received signal minus the pattern delayed by a fraction of sample), except that it reads M - 2 samples (see dtc_step); the plots, the CPU monitors. *)
From Coq Require Import Reals ZArith.
From Verif Require Import Base RField DftSys ComplexSys Rii_Model Filters_Model Fest_Model Del_Spec.
Local Open Scope R_scope.

(** fourier.hpp:577-601 DetecteurConfig *)
Record dcfg := mkdcfg { d_motif : list Complex; d_seuil : R }.
(** fourier.hpp Detection: score, position, position_prec - position (None: NaN), complex gain (gain and phase) *)
Record det := mkdet { dt_score : R; dt_pos : Z; dt_frac : option R; dt_gain : option Complex }.
(** detection.cc:68-104 and 200-202 state; d_pf: pic_final (score, position) when pic_final_a_traiter *)
Record dst := mkdst { d_mg : mg Rring; d_fir : fir Cring; d_pf : option (R * Z); d_lastn : Z; d_lc : Complex; d_lc0 : Complex; d_alc : R; d_alc0 : R }.

(** detection.cc:125 config.motif.norme() *)
Definition norme (m : list Complex) : R := sqrt (energy m).
(** detection.cc:179-188: coefficients of the correlator, before reversal; the imaginary part is dropped if its sum is below 1e-7 of that of the moduli *)
Definition est_reel (m : list Complex) : bool :=
  if Rlt_dec (sum (K := Rring) (List.length m) (fun i => Rabs (snd (samp m i))) / sum (K := Rring) (List.length m) (fun i => sqrt (Cnorm2 (samp m i)))) (/ 10 ^ 7) then true else false.
Definition coefs_motif (m : list Complex) : list Complex :=
  if est_reel m then map (fun z => re (fst z)) m else map (fun z => conj z) m.
(** detection.cc:120-197 configure_impl; a null pattern makes every value NaN *)
Definition dtc_init (c : dcfg) : res dst :=
  if Req_EM_T (norme (d_motif c)) 0 then UB else
  let motif := map (fun z => (z / re (norme (d_motif c)))%K) (d_motif c) in
  Ok (mkdst (mg_init (K := Rfield) (List.length motif)) (fir_init (K := Cring) (rev (coefs_motif motif))) None 0 c0 c0 0 0).

(** detection.cc:11-14 qint_loc, then the clamp of lines 416-422: the quotient is infinite, with the sign of the numerator, when the denominator is null, and NaN for 0/0 *)
Definition qint_frac (ym1 y0 yp1 : R) : option R :=
  let num := yp1 - ym1 in
  let den := 2 * (2 * y0 - yp1 - ym1) in
  if Req_EM_T den 0 then (if Rlt_dec 0 num then Some (1 / 2) else if Rlt_dec num 0 then Some (- (1 / 2)) else None)
  else let d := num / den in Some (if Rlt_dec d (- (1 / 2)) then - (1 / 2) else if Rlt_dec (1 / 2) d then 1 / 2 else d).
(** detection.cc:17-21 qint_val *)
Definition qint_val (ym1 y0 yp1 : Complex) (d : R) : Complex := (y0 - (ym1 - yp1) * re d * re (1 / 4))%K.

(** detection.cc:262-269: the maximum of each segment of M values is kept, the others are replaced by 0 *)
Definition erosion (M : nat) (y : list R) : res (list R) :=
  let n := List.length y in
  loop ((n + M - 1) / M) (fun s y2 =>
    let i := (s * M)%nat in
    let seg := firstn (Nat.min M (n - i)) (skipn i y) in
    let* k := index_max seg in
    let* v := vget seg k in
    vset y2 (k + i) v) (repeat 0 n).
(** detection.cc:271 trouve(y2 > config.seuil) *)
Definition trouve_sup (l : list R) (t : R) : list nat := filter (fun i => if Rlt_dec t (nth i l 0) then true else false) (seq 0 (List.length l)).
(** detection.cc:282-296 *)
Definition plus_grand (M : nat) (y : list R) (lst : list nat) (i : nat) : bool :=
  forallb (fun j => negb ((if Rlt_dec (nth i y 0) (nth j y 0) then true else false) && (Z.abs (Z.of_nat i - Z.of_nat j) <? Z.of_nat M)%Z)) lst.
Definition selection (M : nat) (seuil : R) (y : list R) : res (list nat) :=
  let* y2 := erosion M y in
  let lst := trouve_sup y2 seuil in
  Ok (filter (plus_grand M y lst) lst).

(** detection.cc:321-491: the loop over the peaks (None is the index -1: final peak of the previous block); a goto leaves the loop *)
Section Loop.
  Variables (M : nat) (nm : R) (s : dst) (y : list R) (corr : list Complex).
  Let n := List.length y.
  Definition report (score : R) (pos : Z) (a0 a1 a2 : R) (z0 z1 z2 : Complex) : det :=
    let d := qint_frac a0 a1 a2 in
    mkdet score pos d (match d with Some d => Some (qint_val z0 z1 z2 d * re (/ nm))%K | None => None end).
  Fixpoint detections (l : list (option nat)) : res (list det * option (R * Z)) :=
    match l with
    | [] => Ok ([], None)
    | None :: t =>
        match d_pf s with
        | None => UB
        | Some (sc, p) =>
            let* a2 := vget y 0 in
            let* z2 := vget corr 0 in
            if Rlt_dec (d_alc s) a2 then Ok ([], None) else
            let* r := detections t in
            Ok (report sc (p - d_lastn s) (d_alc0 s) (d_alc s) a2 (d_lc0 s) (d_lc s) z2 :: fst r, snd r)
        end
    | Some i :: t =>
        let* sc := vget y i in
        let* z1 := vget corr i in
        let p := (Z.of_nat i - (Z.of_nat M - 1))%Z in
        if (i =? 0)%nat then
          let* a2 := vget y 1 in
          let* z2 := vget corr 1 in
          if Rlt_dec sc (d_alc s) then Ok ([], None) else
          let* r := detections t in
          Ok (report sc p (d_alc s) sc a2 (d_lc s) z1 z2 :: fst r, snd r)
        else if (i =? n - 1)%nat then Ok ([], Some (sc, p))
        else
          let* a0 := vget y (i - 1) in
          let* z0 := vget corr (i - 1) in
          let* a2 := vget y (i + 1) in
          let* z2 := vget corr (i + 1) in
          let* r := detections t in
          Ok (report sc p a0 sc a2 z0 z1 z2 :: fst r, snd r)
    end.
End Loop.

(** detection.cc:204-506 step: the normalised correlation and the detections passed to the callback.  N = 1 in this mode: ratio = 1 / sqrt(M).
    Line 473: the noise is measured on bruit.segment(1, M - 2), of negative size if M = 1. *)
Definition dtc_step (c : dcfg) (s : dst) (x : list Complex) : res (dst * list R * list det) :=
  let n := Z.of_nat (List.length x) in
  let M := List.length (d_motif c) in
  let* (g, en) := mg_step (d_mg s) (vabs2 x) in
  let* (f, corr) := fir_step (d_fir s) x in
  let corr := map (fun z => if Rle_dec (sqrt (Cnorm2 z)) (/ 10 ^ 6) then (c0 : Complex) else z) corr in
  let y := map (fun p => 1 / sqrt (INR M) * sqrt (Cnorm2 (fst p) / (snd p + / 10 ^ 20))) (combine corr en) in
  let* sel := selection M (d_seuil c) y in
  let l := (match d_pf s with Some _ => [None] | None => [] end) ++ map Some sel in
  let* r := detections M (norme (d_motif c)) s y corr l in
  if (M <=? 1)%nat && match fst r with [] => false | _ => true end then UB else
  let* alc0 := vgetZ y (n - 2) in
  let* lc0 := vgetZ corr (n - 2) in
  let* alc := vgetZ y (n - 1) in
  let* lc := vgetZ corr (n - 1) in
  Ok (mkdst g f (snd r) n lc lc0 alc alc0, y, fst r).
(** successive calls: all the outputs y, and the detections of each call *)
Fixpoint dtc_run (c : dcfg) (s : dst) (blocks : list (list Complex)) : res (dst * list R * list (list det)) :=
  match blocks with
  | [] => Ok (s, [], [])
  | b :: bs =>
      let* (s1, y1, d1) := dtc_step c s b in
      let* (s2, y2, d2) := dtc_run c s1 bs in
      Ok (s2, y1 ++ y2, d1 :: d2)
  end.
