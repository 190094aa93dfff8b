(** Model of core/src/reechan/ra.cc: rate adaptation by interpolation and by a cascade
    of decimators, oversamplers and an interpolator.  The phase is a real number
    (no rounding); the interpolator is a parameter. *)
From Coq Require Import Reals.
From Verif Require Import Base Filters_Model Polyphase_Model Interp_Model RField.
Local Open Scope R_scope.

(** std::ceil *)
Definition ceilZ (x : R) : Z := (- Int_part (- x))%Z.

Section Simple.
  Context {A : Type}.
  (** interpolateur->step(fenetre, 0, phase) *)
  Variable itp : list A -> R -> res A.
  (** ra.cc:14-38: phase and window; the ratio does not change.  An interpolator of K = 0 points is excluded. *)
  Record ra := mkra { ra_phase : R; ra_fen : list A }.
  Definition ra_init (zero : A) (nfen : nat) : ra := mkra 0 (repeat zero nfen).
  (** ra.cc:68-77: while(phase < 1); room is tmp_len - j, so that the assertion j < tmp_len is the test of room *)
  Fixpoint ra_while (room : nat) (inc : R) (fen : list A) (phase : R) : res (R * nat * list A) :=
    match room with
    | O => if Rlt_dec phase 1 then let* _ := itp fen phase in Exc else Ok (phase, O, [])
    | S m => if Rlt_dec phase 1 then
               let* v := itp fen phase in
               let* (r, l) := ra_while m inc fen (phase + inc) in Ok (r, v :: l)
             else Ok (phase, S m, [])
    end.
  (** ra.cc:62-66: shift of the window *)
  Definition ra_shift (fen : list A) (x : A) : list A := tl fen ++ [x].
  (** ra.cc:60-79 *)
  Fixpoint ra_loop (inc : R) (room : nat) (s : ra) (x : list A) : res (ra * list A) :=
    match x with
    | [] => Ok (s, [])
    | a :: t =>
        let fen := ra_shift (ra_fen s) a in
        let* (r, l) := ra_while room inc fen (ra_phase s) in
        let* (s', l') := ra_loop inc (snd r) (mkra (fst r - 1) fen) t in
        Ok (s', l ++ l')
    end.
  (** ra.cc:42-82 *)
  Definition ra_step (ratio : R) (s : ra) (x : list A) : res (ra * list A) :=
    if (length x =? 0)%nat then Ok (s, [])
    else ra_loop (1 / ratio) (Z.to_nat (ceilZ (ratio * INR (length x)) + 10)) s x.
End Simple.
Arguments mkra {A}. Arguments ra_phase {A}. Arguments ra_fen {A}.

(** filtrage.hpp:1872-1881 with itrp.cc:79-131: the linear and Lagrange interpolators as used by ra.cc *)
Definition itp_lin (fen : list Rfield) (phase : R) : res Rfield := itrp_step (lin_coefs (phase : Rfield)) fen 2 0.
Definition itp_lagrange (d : nat) (fen : list Rfield) (phase : R) : res Rfield := itrp_step (lagrange_coefs d (phase : Rfield)) fen (d + 1) 0.

(** ra.cc:123-134: the factor is brought into [0.5, 2); Diverge if the given number of turns is not enough *)
Fixpoint norm_up (fuel nb : nat) (f : R) : res (nat * R) :=
  if Rlt_dec f (/ 2) then match fuel with O => Diverge | S k => norm_up k (nb + 1) (f * 2) end else Ok (nb, f).
Fixpoint norm_down (fuel nb : nat) (f : R) : res (nat * R) :=
  if Rle_dec 2 f then match fuel with O => Diverge | S k => norm_down k (nb + 1) (f / 2) end else Ok (nb, f).
(** ra.cc:102-160 configure_impl: numbers of decimators and oversamplers, final factor; an invalid ratio is reported by
    msg_erreur, which throws *)
Definition raa_conf (fuel : nat) (ratio : R) : res (nat * nat * R) :=
  if Rle_dec ratio 0 then Exc else if Rle_dec (10 ^ 9) ratio then Exc else
  let* (nd, f) := norm_up fuel 0 ratio in
  let* (nu, f) := norm_down fuel 0 f in
  Ok (nd, nu, f).

Section Arbitrary.
  Context {K : cring}.
  (** ra.cc:139-146: coefs are the 15 coefficients of the half-band filter, half is the centre tap 0.5 of FiltreRIFDemiBande;
      152-155: sinc interpolator of 15 points *)
  Variables (half : K) (coefs : list K) (itp : list K -> R -> res K).
  Record raa := mkraa { raa_ratio : R; raa_f : R; raa_dec : list (fdec K); raa_ups : list (fups K); raa_itp : ra (A := K) }.
  (** ups.resize(n) and one filter each *)
  Fixpoint repeat_res {B} (n : nat) (v : res B) : res (list B) :=
    match n with O => Ok [] | S m => let* b := v in let* l := repeat_res m v in Ok (b :: l) end.
  Definition raa_init (fuel : nat) (ratio : R) (nfen : nat) : res raa :=
    let* (c, f) := raa_conf fuel ratio in
    let* u := repeat_res (snd c) (fups_init coefs 2) in
    Ok (mkraa ratio f (repeat (fdec_init coefs 2) (fst c)) u (ra_init 0%K nfen)).
  (** for(auto &d: filters) y = d->step(y) *)
  Fixpoint chain_step {St} (step : St -> list K -> res (St * list K)) (l : list St) (x : list K) : res (list St * list K) :=
    match l with
    | [] => Ok ([], x)
    | s :: t => let* (s', y) := step s x in let* (t', z) := chain_step step t y in Ok (s' :: t', z)
    end.
  (** ra.cc:162-184 step *)
  Definition raa_step (s : raa) (x : list K) : res (raa * list K) :=
    if Req_EM_T (raa_ratio s) 1 then Ok (s, x) else
    let* (d, y) := chain_step (hb_step half) (raa_dec s) x in
    let* (u, y) := chain_step fups_step (raa_ups s) y in
    if Rlt_dec (Rabs (raa_f s - 1)) (/ 10 ^ 6) then Ok (mkraa (raa_ratio s) (raa_f s) d u (raa_itp s), y) else
    let* (i, y) := ra_step itp (raa_f s) (raa_itp s) y in
    Ok (mkraa (raa_ratio s) (raa_f s) d u i, y).
End Arbitrary.
Arguments mkraa {K}. Arguments raa_ratio {K}. Arguments raa_f {K}. Arguments raa_dec {K}. Arguments raa_ups {K}. Arguments raa_itp {K}.
