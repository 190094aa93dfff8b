(** Model of the test signals and oscillators of core/src/tsd.cc, over the real
    numbers (no rounding). *)
From Coq Require Import Reals.
From Verif Require Import Base Phase_Model.

Section Reals.
  Open Scope R_scope.
  (** ** Test signals *)
  (** tsd.cc:179-183 sigscie; p = 0: i % 0 is undefined *)
  Definition sigscie (p n : nat) : res (list R) :=
    if (p =? 0)%nat && negb (n =? 0)%nat then UB else
    Ok (map (fun i => (INR (i mod p) - (INR p - 1) * / 2) / (/ 2 * (INR p - 1))) (seq 0 n)).
  (** tsd.cc:185-199 sigtri *)
  Definition sigtri (p n : nat) : res (list R) :=
    if (p =? 0)%nat && negb (n =? 0)%nat then UB else
    Ok (map (fun i =>
          let j := (i mod p)%nat in
          let x := if (j <? p / 2)%nat then INR j else INR p - INR j in
          4 * ((x - / 2 * INR (p / 2)) / INR p)) (seq 0 n)).
  (** tsd.cc:201-205 sigcar; p < 2: division by zero *)
  Definition sigcar (p n : nat) : res (list R) :=
    if (p <? 2)%nat && negb (n =? 0)%nat then UB else
    Ok (map (fun i => 2 * (INR ((i / (p / 2)) mod 2) - / 2)) (seq 0 n)).
  (** tsd.cc:207-213 sigimp *)
  Definition sigimp (n : nat) (p : Z) : res (list R) :=
    let x := repeat 0 n in
    if (0 <=? p)%Z && (p <? Z.of_nat n)%Z then vsetZ x p 1 else Exc.
  (** tsd.cc:247-260 signyquist: pairs (-1, 1), then -1 when n is odd *)
  Fixpoint signyquist (n : nat) : list R :=
    match n with O => [] | S O => [-1] | S (S m) => -1 :: 1 :: signyquist m end.

  (** ** Oscillators: complex numbers as pairs *)
  Definition cmulR (a b : R * R) : R * R := (fst a * fst b - snd a * snd b, fst a * snd b + snd a * fst b).
  Definition cabs (a : R * R) : R := sqrt (fst a * fst a + snd a * snd a).
  Definition cscale (a : R * R) (k : R) : R * R := (fst a / k, snd a / k).
  (** The loop y(i) = acc; acc *= rotation *)
  Fixpoint osc_loop (n : nat) (acc rot : R * R) : (R * R) * list (R * R) :=
    match n with
    | O => (acc, [])
    | S m => let (acc', t) := osc_loop m (cmulR acc rot) rot in (acc', acc :: t)
    end.
  (** tsd.cc:584-621 OHC: state (acc, rotation); configure; step *)
  Definition ohc_conf (acc : R * R) (f : R) : (R * R) * (R * R) := (acc, (cos (2 * PI * f), sin (2 * PI * f))).
  Definition ohc_new (f : R) : (R * R) * (R * R) := ohc_conf (1, 0) f.
  Definition ohc_step (s : (R * R) * (R * R)) (n : nat) : ((R * R) * (R * R)) * list (R * R) :=
    let acc := cscale (fst s) (cabs (fst s)) in
    let (acc', y) := osc_loop n acc (snd s) in ((acc', snd s), y).
  (** Successive calls with block sizes ns *)
  Fixpoint ohc_run (s : (R * R) * (R * R)) (ns : list nat) : ((R * R) * (R * R)) * list (R * R) :=
    match ns with
    | [] => (s, [])
    | n :: t => let (s1, y1) := ohc_step s n in let (s2, y2) := ohc_run s1 t in (s2, y1 ++ y2)
    end.
  (** Reconfigurations (Configurable::configure, tsd.hpp:560-566) between calls:
      each element is a new frequency and the number of samples then asked for *)
  Fixpoint ohc_prog (s : (R * R) * (R * R)) (l : list (R * nat)) : list (R * R) :=
    match l with
    | [] => []
    | (f, n) :: t => let (s1, y) := ohc_step (ohc_conf (fst s) f) n in y ++ ohc_prog s1 t
    end.
  (** tsd.cc:623-644 OHR *)
  Definition ohr_run (f : R) (ns : list nat) : list R := map fst (snd (ohc_run (ohc_new f) ns)).

  (** tsd.cc:217-235 sigexp: chunks of 1000 samples, then correction of the modulus *)
  Fixpoint sigexp_chunks (fuel n : nat) (r w0 : R * R) : list (R * R) :=
    match fuel with
    | O => []
    | S fu =>
        if (n =? 0)%nat then [] else
        let k := Nat.min n 1000 in
        let (r', y) := osc_loop k r w0 in
        y ++ sigexp_chunks fu (n - k) (cscale r' (cabs r')) w0
    end.
  Definition sigexp (f : R) (n : nat) : list (R * R) :=
    sigexp_chunks n n (1, 0) (cos (f * 2 * PI), sin (f * 2 * PI)).
  (** tsd.cc:237-245 sigsin, sigcos *)
  Definition sigsin (f : R) (n : nat) : list R := map snd (sigexp f n).
  Definition sigcos (f : R) (n : nat) : list R := map fst (sigexp f n).

  (** tsd.cc:547-572 OLUT: table of N points, linear interpolation *)
  Definition olut_table (N k : nat) : R * R := (cos (2 * PI * INR k / INR N), sin (2 * PI * INR k / INR N)).
  Definition olut_step (N : nat) (t0 : R) : res (R * R) :=
    let t := modulo_2pi t0 in
    if Rlt_dec t 0 then Exc else if Rle_dec (2 * PI) t then Exc else
    let idf := t * INR N / (2 * PI) in
    let idi := Int_part idf in
    let f := idf - IZR idi in
    if (idi <? 0)%Z || (Z.of_nat N <=? idi)%Z then Exc else
    let a := olut_table N (Z.to_nat idi) in
    let b := olut_table N ((Z.to_nat idi + 1) mod N) in
    Ok (fst a * (1 - f) + fst b * f, snd a * (1 - f) + snd b * f).
End Reals.
