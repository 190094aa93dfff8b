(** Model of the comparison of bit streams (core/src/telecom/telecom.cc:40-136).  The
    alignment is the model of Del_Model.v; exact arithmetic; logs are not modelled. *)
From Coq Require Import Reals ZArith.
From Verif Require Import Base RField DftSys ComplexSys BitStream_Model TeleBits_Model Del_Model.
Local Open Scope R_scope.

(** bitstream.cc:136-143 BitStream::array *)
Definition bs_array (s : bitstream) : res (list R) := loop (bs_lon s) (fun i acc => let* b := bs_get s i in Ok (acc ++ [if b then 1 else 0])) [].
(** as_complex *)
Definition as_complex (x : list R) : list Complex := map (fun v => ((v, 0) : Complex)) x.
Definition reals (x : list Complex) : list R := map (fun z : Complex => fst z) x.
(** telecom.hpp:1746-1768 CmpBitsRes; ber = None stands for not-a-number *)
Record cmp_res := mkcmp { cr_b0 : list R; cr_b1 : list R; cr_nerr : nat; cr_ber : option R; cr_dec : Z; cr_phase : nat; cr_score : R }.
(** telecom.cc:60-67: beyond 100 samples, 50 are removed on each side *)
Definition trim (x : list R) : list R := if (100 <? List.length x)%nat then firstn (List.length x - 100) (skipn 50 x) else x.
(** telecom.cc:69-74 *)
Definition count_errors (a b : list R) : res nat :=
  loop (List.length a) (fun i n => let* u := vget a i in let* v := vget b i in Ok (if Z.eq_dec (roundZ u) (roundZ v) then n else S n)) 0%nat.
(** telecom.cc:40-97 cmp_bits *)
Definition cmp_bits (junk : Complex) (bs1 bs2 : bitstream) : res cmp_res :=
  let* b1 := bs_array bs1 in
  let* b2 := bs_array bs2 in
  let* r := aligne_entier junk (as_complex b1) (as_complex b2) in
  let '(x, y, dt, score) := r in
  let b1ar := reals x in let b2ar := reals y in
  let b1ap := trim b1ar in let b2ap := trim b2ar in
  let* nerr := count_errors b1ap b2ap in
  let ber := if (List.length b2ar =? 0)%nat then None else Some (INR nerr / INR (List.length b2ap)) in
  Ok (mkcmp b1ar b2ar nerr ber dt 0 score).
(** telecom.cc:108-116: the symbols of the second stream, advanced by l modulo M = 2^k *)
Definition rotate (bs : bitstream) (k l : nat) : res bitstream :=
  let* idx := symmap bs (Z.of_nat k) in
  symdemap bs_empty (map (fun v => Z.rem (v + Z.of_nat l) (2 ^ Z.of_nat k)) idx) k.
(** telecom.cc:100-135 cmp_bits_psk.  The shift 1 << k is undefined beyond 30; the array
    of M results on the stack is not modelled. *)
Definition cmp_bits_psk (junk : Complex) (bs0 bs1 : bitstream) (k : nat) : res cmp_res :=
  if (30 <? k)%nat then UB else
  let* o := loop (2 ^ k) (fun l (br : option cmp_res) =>
      let* bs := rotate bs1 k l in
      let* r := cmp_bits junk bs0 bs in
      let r' := mkcmp (cr_b0 r) (cr_b1 r) (cr_nerr r) (cr_ber r) (cr_dec r) l (cr_score r) in
      Ok (match br with None => Some r' | Some b => if (cr_nerr r <? cr_nerr b)%nat then Some r' else Some b end)) None in
  match o with None => UB | Some r => Ok r end.
