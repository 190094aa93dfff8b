(** Specification of bit streams: programs using the public API, and what they
    mean on plain lists of bits. *)
From Verif Require Import Base BitStream_Model.

(** An expression built with the public operations of BitStream. *)
Inductive bsprog :=
| PEmpty                              (* BitStream()            *)
| PPush (p : bsprog) (b : bool)       (* p.push(b)              *)
| PSet (p : bsprog) (i : nat) (b : bool)  (* p.set(i, b)        *)
| PCat (p q : bsprog)                 (* p + q, p += q          *)
| PPad (p : bsprog) (n : nat)         (* p.pad(n)               *)
| PPadMult (p : bsprog) (m : nat)     (* p.pad_mult(m), m > 0   *)
| PU32 (p : bsprog) (v : N)           (* p.push_u32(v)          *)
| PClear (p : bsprog).                (* p.clear()              *)

(** Running the program on the model of the code. *)
Fixpoint exec (p : bsprog) : res bitstream :=
  match p with
  | PEmpty => Ok bs_empty
  | PPush p b => let* s := exec p in bs_push s b
  | PSet p i b => let* s := exec p in bs_set s i b
  | PCat p q => let* s := exec p in let* t := exec q in bs_append s t
  | PPad p n => let* s := exec p in bs_pad s n
  | PPadMult p m => let* s := exec p in bs_pad_mult s m
  | PU32 p v => let* s := exec p in bs_push_u32 s v
  | PClear p => let* s := exec p in Ok (bs_clear s)
  end.

(** Smallest multiple of [m] not below [n]. *)
Definition ceil_mult (n m : nat) : nat := (n + m - 1) / m * m.

(** Bits of a 32-bit word, least significant first. *)
Definition u32_bits (v : N) : list bool := map (fun j => N.testbit v (N.of_nat j)) (seq 0 32).

(** Meaning of a program as a list of bits; [None] when the API throws.
    Writing between the last bit and the end of its byte is silently ignored. *)
Fixpoint denote (p : bsprog) : option (list bool) :=
  match p with
  | PEmpty => Some []
  | PPush p b => match denote p with Some l => Some (l ++ [b]) | None => None end
  | PSet p i b =>
      match denote p with
      | Some l => if i <? length l then Some (firstn i l ++ [b] ++ skipn (S i) l)
                  else if i <? ceil_mult (length l) 8 then Some l else None
      | None => None
      end
  | PCat p q =>
      match denote p, denote q with Some l, Some m => Some (l ++ m) | _, _ => None end
  | PPad p n => match denote p with Some l => Some (l ++ repeat false n) | None => None end
  | PPadMult p m =>
      match denote p with
      | Some l => Some (l ++ repeat false (ceil_mult (length l) m - length l))
      | None => None
      end
  | PU32 p v => match denote p with Some l => Some (l ++ u32_bits v) | None => None end
  | PClear p => match denote p with Some _ => Some [] | None => None end
  end.

(** What a user can see of a stream: its length and its bits. *)
Definition shows (s : bitstream) (l : list bool) : Prop :=
  bs_lon s = length l /\
  forall i, i < length l -> bs_get s i = Ok (nth i l false).

(** All the multiples given to pad_mult are positive, all words are 32 bits. *)
Fixpoint prog_ok (p : bsprog) : Prop :=
  match p with
  | PEmpty => True
  | PPush p _ => prog_ok p | PSet p _ _ => prog_ok p
  | PCat p q => prog_ok p /\ prog_ok q
  | PPad p _ => prog_ok p
  | PPadMult p m => prog_ok p /\ 0 < m
  | PU32 p v => prog_ok p /\ (v < 2 ^ 32)%N
  | PClear p => prog_ok p
  end.

(** Programs that never write beyond the current length. *)
Fixpoint no_overwrite (p : bsprog) : Prop :=
  match p with
  | PEmpty => True
  | PPush p _ => no_overwrite p
  | PSet p i _ => no_overwrite p /\
                  match denote p with Some l => i < length l | None => False end
  | PCat p q => no_overwrite p /\ no_overwrite q
  | PPad p _ => no_overwrite p | PPadMult p _ => no_overwrite p
  | PU32 p _ => no_overwrite p
  | PClear p => no_overwrite p
  end.

(** Reading [n] bits one after the other. *)
Fixpoint pops (n : nat) (s : bitstream) : res (bitstream * list bool) :=
  match n with
  | O => Ok (s, [])
  | S m => let* (s1, b) := bs_pop s in let* (s2, l) := pops m s1 in Ok (s2, b :: l)
  end.

(** Number of positions where two lists differ. *)
Fixpoint ndiff (l m : list bool) : nat :=
  match l, m with
  | a :: t, b :: u => (if Bool.eqb a b then 0 else 1) + ndiff t u
  | _, _ => 0
  end.
