(** Model of the symbol generation and hard decoding of core/src/telecom/modulations.cc,
    over the real numbers (complex points as pairs, no rounding). *)
From Coq Require Import Reals.
From Verif Require Import Base BitStream_Model TeleBits_Model.
Open Scope R_scope.

(** std::norm(a - b) *)
Definition dist2 (a b : R * R) : R := (fst a - fst b) * (fst a - fst b) + (snd a - snd b) * (snd a - snd b).
(** complex product, std::polar(1, t) *)
Definition cmulr (a b : R * R) : R * R := (fst a * fst b - snd a * snd b, fst a * snd b + snd a * fst b).
Definition polar1 (t : R) : R * R := (cos t, sin t).

(** telecom.hpp:135-240 FormeOnde: M points, k bits per symbol; the point of index i
    may depend on the member cnt; [w_real] says that symbole_plus_proche is the
    override of FormeOndePSK for M = 2. *)
Record wave := { w_M : nat; w_k : nat; w_pt : nat -> nat -> R * R; w_real : bool }.

(** lis_symbole, e.g. modulations.cc:325-329, 400-404, 488-492: assertion(index < M) *)
Definition lis_symbole (w : wave) (cnt i : nat) : res (R * R) := if (i <? w_M w)%nat then Ok (w_pt w cnt i) else Exc.
(** the double 1e100 of modulations.cc:263 (taken as exact) *)
Definition huge : R := IZR (10 ^ 100).
(** modulations.cc:261-276 FormeOnde::symbole_plus_proche, one turn of the loop *)
Definition near_turn (w : wave) (cnt : nat) (p : R * R) (st : R * nat) (i : nat) : R * nat :=
  let d2 := dist2 p (w_pt w cnt i) in if Rlt_dec d2 (fst st) then (d2, i) else st.
(** with the override of modulations.cc:337-342 (M = 2) *)
Definition symbole_plus_proche (w : wave) (cnt : nat) (p : R * R) : res nat :=
  if w_real w then Ok (if Rlt_dec 0 (fst p) then 1%nat else 0%nat) else
  let r := snd (fold_left (near_turn w cnt p) (seq 0 (w_M w)) (huge, 0%nat)) in
  if (r <? w_M w)%nat then Ok r else Exc.

(** the loops with cnt = i *)
Fixpoint mapi_res {A B} (f : nat -> A -> res B) (i : nat) (l : list A) : res (list B) :=
  match l with [] => Ok [] | a :: t => let* b := f i a in let* r := mapi_res f (S i) t in Ok (b :: r) end.
(** modulations.cc:110-121 génère_symboles *)
Definition genere_symboles (w : wave) (bs : bitstream) : res (list (R * R)) :=
  let* x := symmap bs (Z.of_nat (w_k w)) in mapi_res (fun i v => lis_symbole w i (Z.to_nat v)) 0 x.
(** modulations.cc:243-253 decode_symboles *)
Definition decode_symboles (w : wave) (bs : bitstream) (x : list (R * R)) : res bitstream :=
  let* x2 := mapi_res (symbole_plus_proche w) 0 x in symdemap bs (map Z.of_nat x2) (w_k w).

(** ** The waveforms (infos.k = log2(M), truncated) *)
(** modulations.cc:56-59, 278-330 FormeOndeASK *)
Definition wave_ask (M : nat) (K1 K2 : R) : wave :=
  {| w_M := M; w_k := Nat.log2 M; w_pt := fun _ i => (K1 + INR i * (K2 / INR (M - 1)), 0); w_real := false |}.
(** modulations.cc:44-54, 333-405 FormeOndePSK *)
Definition psk_point (M i : nat) : R * R :=
  if (M =? 2)%nat then (if (i =? 0)%nat then (-1, 0) else (1, 0))
  else polar1 ((if (M =? 4)%nat then PI / 4 else 0) + 2 * PI * INR i / INR M).
Definition wave_psk (M : nat) : wave :=
  {| w_M := M; w_k := Nat.log2 M; w_pt := fun _ i => psk_point M i; w_real := (M =? 2)%nat |}.
(** modulations.cc:408-493 FormeOnde_π4QPSK: symbs[cnt & 1] *)
Definition pi4_point (parity i : nat) : R * R :=
  if (parity =? 0)%nat then psk_point 4 i else cmulr (psk_point 4 i) (polar1 (PI / 4)).
Definition wave_pi4 : wave := {| w_M := 4; w_k := 2; w_pt := fun cnt i => pi4_point (cnt mod 2) i; w_real := false |}.
(** modulations.cc:496-549 FormeOndeQAM: index x + M2 y (column-major reshape); M not a
    square throws (msg_erreur) *)
Definition qam_point (M2 i : nat) : R * R :=
  (INR (i mod M2) / INR (M2 - 1) * 2 - 1, INR (i / M2) / INR (M2 - 1) * 2 - 1).
Definition wave_qam (M : nat) : res wave :=
  let M2 := Nat.sqrt M in
  if (M2 * M2 =? M)%nat then Ok {| w_M := M; w_k := Nat.log2 M; w_pt := fun _ i => qam_point M2 i; w_real := false |} else Exc.
(** modulations.cc:676-702 FormeOndeFSK (frequency symbols) *)
Definition wave_fsk (M : nat) : wave :=
  {| w_M := M; w_k := Nat.log2 M; w_pt := fun _ i => (INR i / INR (M - 1) * 2 - 1, 0); w_real := false |}.

(** ** Demodulation contexts *)
(** modulations.cc:23-36 decode_QPSK *)
Definition decode_QPSK (x : R * R) : nat :=
  if Rle_dec 0 (fst x) then (if Rle_dec 0 (snd x) then 0%nat else 3%nat) else (if Rle_dec 0 (snd x) then 1%nat else 2%nat).
(** modulations.cc:427-455 Ctxπ4QPSK::step; state cnt *)
Definition ctx_pi4_step (cnt : nat) (x : R * R) : nat * (nat * (R * R)) :=
  let x := if (cnt mod 2 =? 1)%nat then cmulr x (polar1 (- (PI / 4))) else x in
  let r := decode_QPSK x in
  (S cnt, (r, pi4_point ((S cnt + 1) mod 2) r)).
Fixpoint ctx_pi4_run (cnt : nat) (xs : list (R * R)) : list (nat * (R * R)) :=
  match xs with [] => [] | x :: t => let (c, o) := ctx_pi4_step cnt x in o :: ctx_pi4_run c t end.
(** modulations.cc:205-221 CtxSansMemoire::step (cnt of the waveform left as it is) *)
Definition ctx_step (w : wave) (cnt : nat) (x : R * R) : res (nat * (R * R)) :=
  let* i := symbole_plus_proche w cnt x in let* p := lis_symbole w cnt i in Ok (i, p).
