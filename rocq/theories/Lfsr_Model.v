(** Model of core/src/telecom/prbs.cc and core/include/tsd/telecom/lfsr.hpp. *)
From Verif Require Import Base BitStream_Model.

(** prbs.cc:25-43 : table of primitive polynomials. *)
Definition pols_prim : list N :=
  [0; 0;
   N.shiftl 1 1; N.shiftl 1 2; N.shiftl 1 3; N.shiftl 1 3; N.shiftl 1 5; N.shiftl 1 6;
   N.lor (N.lor (N.shiftl 1 6) (N.shiftl 1 5)) (N.shiftl 1 4);
   N.shiftl 1 5; N.shiftl 1 7; N.shiftl 1 9;
   N.lor (N.lor (N.shiftl 1 9) (N.shiftl 1 8)) (N.shiftl 1 5);
   N.lor (N.lor (N.shiftl 1 9) (N.shiftl 1 10)) (N.shiftl 1 12);
   N.lor (N.lor (N.shiftl 1 5) (N.shiftl 1 3)) (N.shiftl 1 1);
   N.shiftl 1 14;
   N.lor (N.lor (N.shiftl 1 5) (N.shiftl 1 3)) (N.shiftl 1 2)]%N.

(** prbs.cc:45-50 *)
Definition pol_prim (n : Z) : res N :=
  if (n <=? 0)%Z || (17 <=? n)%Z then Exc
  else Ok (N.lor (nth (Z.to_nat n) pols_prim 0%N) 1).

(** [__builtin_popcount(x) & 1] *)
Fixpoint pos_parity (p : positive) : bool :=
  match p with xH => true | xO q => pos_parity q | xI q => negb (pos_parity q) end.
Definition parity (x : N) : bool := match x with N0 => false | Npos p => pos_parity p end.

(** lfsr.hpp:34-39 *)
Inductive sortie_mode := POIDS_FAIBLE | POIDS_FORT | POL.

(** lfsr.hpp:24-41 *)
Record lfsr_cfg := mkcfg {
  reglen : nat; pol : N; p0 : N; pol_sortie : N; sortie : sortie_mode }.

(** prbs.cc:114-117, 159-161 : xor of the [n] low bits of [tmp]. *)
Fixpoint xor_low (n : nat) (tmp : N) : bool :=
  match n with
  | O => false
  | S m => xorb (xor_low m tmp) (negb (N.eqb (N.land (N.shiftr tmp (N.of_nat m)) 1) 0))
  end.

Definition b2n (b : bool) : N := if b then 1%N else 0%N.

(** prbs.cc:108, 125 : the register update [reg = (reg >> 1) | (somme << (reglen - 1))]. *)
Definition reg_next (n : nat) (reg : N) (b : bool) : N :=
  N.lor (N.shiftr reg 1) (N.shiftl (b2n b) (N.of_nat (n - 1))).
Definition gen_next (c : lfsr_cfg) (reg : N) : N :=
  reg_next (reglen c) reg (parity (N.land reg (pol c))).

(** prbs.cc:109-122 : the output bit. *)
Definition gen_out (c : lfsr_cfg) (reg : N) : bool :=
  match sortie c with
  | POL => xor_low (reglen c) (N.land reg (pol_sortie c))
  | POIDS_FAIBLE => negb (N.eqb (N.land reg 1) 0)
  | POIDS_FORT => parity (N.land reg (pol c))
  end.

(** prbs.cc:104-127.  The shift by [reglen - 1] is undefined for reglen = 0
    or reglen > 32. *)
Definition gen_step (c : lfsr_cfg) (st : bitstream * N) (nbits : nat) : res (bitstream * N) :=
  if (reglen c =? 0) || (32 <? reglen c) then (if nbits =? 0 then Ok st else UB) else
  loop nbits (fun _ st =>
    let* bs := bs_push (fst st) (gen_out c (snd st)) in
    Ok (bs, gen_next c (snd st))) st.

(** prbs.cc:87-95 : configure(reglen), initial register 0xfa17 whatever the length. *)
Definition gen_configure (n : nat) : res (lfsr_cfg * N) :=
  if 16 <? n then Exc else
  let* p := pol_prim (Z.of_nat n) in
  Ok (mkcfg n p 0 0 POIDS_FAIBLE, 64023%N).

(** prbs.cc:66-80 *)
Definition code_mls (n : nat) : res bitstream :=
  let m := (2 ^ Z.of_nat n - 1)%Z in
  let* pb := pol_prim (Z.of_nat n) in
  let* r := gen_step (mkcfg n pb 1 0 POIDS_FAIBLE) (bs_empty, 1%N) (Z.to_nat m) in
  Ok (fst r).

(** prbs.cc:130-148.  Bit counters are unbounded here (uint64_t in the code). *)
Record rx := mkrx {
  rx_reglen : nat; rx_reg : N; rx_pol : N;
  rx_locked : bool;
  rx_err_run : nat;   (* nb_consecutive_bits_errors *)
  rx_ok_run : nat;    (* nb_consecutive_bits_ok *)
  rx_nbits : N; rx_nerr : N }.

(** prbs.cc:153-219, one received bit. *)
Definition rx_bit (r : rx) (b : bool) : rx :=
  let sum := xor_low (rx_reglen r) (N.land (rx_reg r) (rx_pol r)) in
  if negb (rx_locked r) then
    let ok := if Bool.eqb b sum then rx_ok_run r + 1 else 0 in
    mkrx (rx_reglen r) (reg_next (rx_reglen r) (rx_reg r) b) (rx_pol r)
      (20 <? ok) (if 20 <? ok then 0 else rx_err_run r) ok (rx_nbits r) (rx_nerr r)
  else
    let err := if Bool.eqb b sum then 0 else rx_err_run r + 1 in
    let nerr := if Bool.eqb b sum then rx_nerr r else (rx_nerr r + 1)%N in
    mkrx (rx_reglen r) (reg_next (rx_reglen r) (rx_reg r) sum) (rx_pol r)
      (negb (5 <? err)) err (if 5 <? err then 0 else rx_ok_run r) (rx_nbits r + 1)%N nerr.

(** prbs.cc:150-220 *)
Definition rx_step (r : rx) (bs : bitstream) : res rx :=
  loop (bs_lon bs) (fun i r => let* b := bs_get bs i in Ok (rx_bit r b)) r.

(** prbs.cc:229-250 : configure then reset. *)
Definition rx_configure (n : nat) : res rx :=
  if 16 <? n then Exc else
  let* p := pol_prim (Z.of_nat n) in
  Ok (mkrx n 1 p false 0 0 0 0).

(** prbs.cc:266-273 : locked?, and the error rate as a fraction errors/bits
    ([None] stands for the constant 0.5). *)
Definition rx_state (r : rx) : bool * option (N * N) :=
  (rx_locked r,
   if (rx_nbits r =? 0)%N || negb (rx_locked r) || (rx_nbits r <? 10)%N then None
   else Some (rx_nerr r, rx_nbits r)).
