(** Model of the bit-level functions of core/src/telecom/modulations.cc and
    core/src/telecom/telecom.cc. *)
From Verif Require Import Base BitStream_Model.

Definition b2z (b : bool) : Z := if b then 1%Z else 0%Z.

(** modulations.cc:88-96, inner loop of symmap_binaire for symbol [i]:
    [for(j = 0; (j < k) && (i*k+j < n); j++) { symb += e * x[i*k+j]; e *= 2; }].
    [e *= 2] on a 32-bit int is undefined when the result exceeds 2^31-1. *)
Fixpoint symmap_inner (x : bitstream) (n k i : nat) (fuel j : nat) (e symb : Z) : res Z :=
  match fuel with
  | O => Ok symb
  | S f =>
      if (j <? k) && (i * k + j <? n) then
        let* b := bs_get x (i * k + j) in
        let symb' := (symb + e * b2z b)%Z in
        if (2 ^ 31 <=? e * 2)%Z then UB
        else symmap_inner x n k i f (j + 1) (e * 2)%Z symb'
      else Ok symb
  end.

(** modulations.cc:78-99 *)
Definition symmap (x : bitstream) (k : Z) : res (list Z) :=
  let n := bs_lon x in
  if (k <=? 0)%Z then Exc else
  let k := Z.to_nat k in
  let nsymbs := (n + k - 1) / k in
  loop nsymbs (fun i y =>
    let* v := symmap_inner x n k i k 0 1%Z 0%Z in Ok (y ++ [v])) [].

(** modulations.cc:102-108.  [>> j] is undefined for j >= 32. *)
Definition symdemap (bs : bitstream) (x : list Z) (k : nat) : res bitstream :=
  loop (length x) (fun i bs =>
    loop k (fun j bs =>
      let* v := vget x i in
      if 32 <=? j then UB else
      bs_push bs (negb (Z.eqb (Z.land (Z.shiftr v (Z.of_nat j)) 1) 0))) bs) bs.

(** telecom.cc:138-149 *)
Definition diff_encode (y x : bitstream) : res bitstream :=
  let* r := loop (bs_lon x) (fun i st =>
    let* bi := bs_get x i in
    let bo := xorb (snd st) bi in
    let* y' := bs_push (fst st) bo in
    Ok (y', bo)) (y, false) in
  Ok (fst r).

(** telecom.cc:151-167 *)
Definition diff_decode (y x : bitstream) : res bitstream :=
  let n := bs_lon x in
  if n =? 0 then Ok y else
  let* lb := bs_get x 0 in
  let* r := loop (n - 1) (fun i st =>
    let* bi := bs_get x i in
    let bo := xorb (snd st) bi in
    let* y' := bs_push (fst st) bo in
    Ok (y', bi)) (y, lb) in
  Ok (fst r).

(** telecom.cc:169-174; a log-likelihood is represented by an integer (only its
    sign matters). *)
Definition decode_hard (y : bitstream) (llr : list Z) : res bitstream :=
  loop (length llr) (fun i y => let* v := vget llr i in bs_push y (0 <? v)%Z) y.

(** telecom.cc:12-35 *)
Definition code_Barker (n : nat) : res bitstream :=
  let str s := bs_of_chars bs_empty (map (fun d => 48 + d) s) in
  match n with
  | 2 => str [1;0]
  | 3 => str [1;1;0]
  | 4 => str [1;1;0;1]
  | 5 => str [1;1;1;0;1]
  | 7 => str [1;1;1;0;0;1;0]
  | 11 => str [1;1;1;0;0;0;1;0;0;1;0]
  | 13 => str [1;1;1;1;1;0;0;1;1;0;1;0;1]
  | _ => Exc
  end.
