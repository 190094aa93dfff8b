(** Model of core/src/telecom/bitstream.cc and
    core/include/tsd/telecom/bitstream.hpp (class BitStream). *)
From Verif Require Import Base.
From Coq Require Export NArith.

(** bitstream.hpp:113-114  [vector<unsigned char> buffer; entier pos, nbits].
    Bytes are [N] below 256.  [nbits], [pos] are [nat]: the API only ever
    increments them or sets them from a (non-negative) argument. *)
Record bitstream := mkbs { bs_buf : list N; bs_pos : nat; bs_nbits : nat }.

(** bitstream.hpp:25 *)
Definition bs_empty : bitstream := mkbs [] 0 0.

(** [std::vector::resize(n, 0)]: truncates or extends with zeros. *)
Definition vec_resize (l : list N) (n : nat) : list N :=
  firstn n l ++ repeat 0%N (n - length l).

(** bitstream.cc:66-69 : [buffer[octet] |= (1 << bit)] / [&= ~(1 << bit)]. *)
Definition byte_set (b : N) (bit : nat) (v : bool) : N :=
  if v then N.lor b (N.shiftl 1 (N.of_nat bit))
  else N.land b (N.lxor 255 (N.shiftl 1 (N.of_nat bit))).

(** bitstream.cc:58-70 *)
Definition bs_set (s : bitstream) (index : nat) (v : bool) : res bitstream :=
  let octet := index / 8 in
  let bit := index mod 8 in
  match nth_error (bs_buf s) octet with
  | None => Exc
  | Some b => Ok (mkbs (upd (bs_buf s) octet (byte_set b bit v)) (bs_pos s) (bs_nbits s))
  end.

(** bitstream.cc:72-85 ([msg_erreur] throws with the default logger). *)
Definition bs_get (s : bitstream) (index : nat) : res bool :=
  match nth_error (bs_buf s) (index / 8) with
  | None => Exc
  | Some b => Ok (negb (N.eqb (N.land b (N.shiftl 1 (N.of_nat (index mod 8)))) 0))
  end.

(** bitstream.cc:145-148 *)
Definition bs_lon (s : bitstream) : nat := bs_nbits s.

(** bitstream.cc:234-241 *)
Definition bs_push (s : bitstream) (b : bool) : res bitstream :=
  let nbits := bs_nbits s + 1 in
  let buf := if 8 * length (bs_buf s) <? nbits
             then vec_resize (bs_buf s) ((nbits + 7) / 8) else bs_buf s in
  bs_set (mkbs buf (bs_pos s) nbits) (nbits - 1) b.

Fixpoint bs_push_list (s : bitstream) (l : list bool) : res bitstream :=
  match l with
  | [] => Ok s
  | b :: t => let* s1 := bs_push s b in bs_push_list s1 t
  end.

(** bitstream.cc:13-20, 38-45 (loops of push) *)
Definition bs_zeros (n : nat) : res bitstream := bs_push_list bs_empty (repeat false n).
Definition bs_uns (n : nat) : res bitstream := bs_push_list bs_empty (repeat true n).

(** bitstream.cc:22-36.  The loop [for(i = 0; i < nbits+1; i += 2)] runs
    ceil((nbits+1)/2) times. *)
Definition bs_altern (n : nat) : res bitstream :=
  let* r := loop ((n + 1 + 1) / 2)
              (fun _ r => let* r1 := bs_push r true in bs_push r1 false) bs_empty in
  if Nat.odd n then bs_push r true else Ok r.

(** bitstream.cc:87-98 (constructor from a string; characters are codes). *)
Fixpoint bs_of_chars (s : bitstream) (l : list nat) : res bitstream :=
  match l with
  | [] => Ok s
  | c :: t =>
      if c =? 49 then let* s1 := bs_push s true in bs_of_chars s1 t
      else if c =? 48 then let* s1 := bs_push s false in bs_of_chars s1 t
      else Exc
  end.

(** bitstream.cc:165-170 (stream output: the characters 0 and 1). *)
Definition bs_to_chars (s : bitstream) : res (list nat) :=
  loop (bs_lon s) (fun i acc => let* b := bs_get s i in
                     Ok (acc ++ [if b then 49 else 48])) [].

(** bitstream.cc:127-134 *)
Definition bs_iarray (s : bitstream) : res (list nat) :=
  loop (bs_lon s) (fun i acc => let* b := bs_get s i in
                     Ok (acc ++ [if b then 1 else 0])) [].

(** bitstream.cc:100-112 *)
Definition bs_hamming (s t : bitstream) : res nat :=
  if negb (bs_lon t =? bs_lon s) then Exc
  else loop (bs_lon s) (fun i cnt =>
         let* a := bs_get s i in
         let* b := bs_get t i in
         Ok (if eqb a b then cnt else cnt + 1)) 0.

(** bitstream.cc:150-153 : compares the byte buffers only. *)
Fixpoint bytes_eqb (l1 l2 : list N) : bool :=
  match l1, l2 with
  | [], [] => true
  | a :: t1, b :: t2 => N.eqb a b && bytes_eqb t1 t2
  | _, _ => false
  end.
Definition bs_eqb (s t : bitstream) : bool := bytes_eqb (bs_buf s) (bs_buf t).

(** bitstream.cc:155-163 *)
Definition bs_cat (t1 t2 : bitstream) : res bitstream :=
  let* r := loop (bs_lon t1) (fun i r => let* b := bs_get t1 i in bs_push r b) bs_empty in
  loop (bs_lon t2) (fun i r => let* b := bs_get t2 i in bs_push r b) r.

(** bitstream.cc:172-175, 177-180, 211-216 *)
Definition bs_restart (s : bitstream) : bitstream := mkbs (bs_buf s) 0 (bs_nbits s).
Definition bs_resize (s : bitstream) (n : nat) : bitstream :=
  mkbs (vec_resize (bs_buf s) ((n + 7) / 8)) 0 n.
Definition bs_clear (s : bitstream) : bitstream := bs_resize s 0.
(** bitstream.cc:114-117 *)
Definition bs_of_size (n : nat) : bitstream := bs_resize bs_empty n.

(** bitstream.cc:187-191 *)
Definition bs_pad (s : bitstream) (n : nat) : res bitstream :=
  loop n (fun _ r => bs_push r false) s.

(** bitstream.cc:193-204.  [nbits % m] with m = 0 is undefined behaviour. *)
Definition bs_pad_mult (s : bitstream) (m : nat) : res bitstream :=
  if m =? 0 then UB else
  let reste := bs_lon s mod m in
  if reste =? 0 then Ok s else bs_pad s (m - reste).

(** bitstream.cc:206-209 *)
Definition bs_append (s t : bitstream) : res bitstream := bs_cat s t.

(** bitstream.cc:218-222.  [i] is a uint32_t. *)
Definition bs_push_u32 (s : bitstream) (i : N) : res bitstream :=
  loop 32 (fun j r => bs_push r (negb (N.eqb (N.land i (N.shiftl 1 (N.of_nat j))) 0))) s.

(** bitstream.cc:243-246 *)
Definition bs_pop (s : bitstream) : res (bitstream * bool) :=
  let* b := bs_get s (bs_pos s) in
  Ok (mkbs (bs_buf s) (bs_pos s + 1) (bs_nbits s), b).

(** bitstream.cc:248-251 *)
Definition bs_eof (s : bitstream) : bool := bs_nbits s <=? bs_pos s.

(** bitstream.cc:224-232.  [res |= ((uint32_t) pop() & 1) << j] *)
Definition bs_pop_u32 (s : bitstream) : res (bitstream * N) :=
  loop 32 (fun j sr => let* (s1, b) := bs_pop (fst sr) in
             Ok (s1, N.lor (snd sr) (N.shiftl (N.land (if b then 1 else 0) 1) (N.of_nat j))))
       (s, 0%N).
