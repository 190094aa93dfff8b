(** What a WAV session is expected to preserve. *)
From Coq Require Import Reals.
From Flocq Require Import Core IEEE754.Binary IEEE754.Bits.
From Verif Require Import Base Wav_Model.
Open Scope Z_scope.

(** Value of a float and of a double as real numbers. *)
Definition v32 (x : binary32) : R := B2R 24 128 x.
Definition v64 (x : binary64) : R := B2R 53 1024 x.

(** The samples handed to the writer by one call, in file order: integers as
    they are, the two parts of a complex sample one after the other. *)
Definition op_floats (o : wop) : list binary32 :=
  match o with
  | WInt l => map b32_of_Z l
  | WFloat l => l
  | WCplx l => flat_map (fun p => [fst p; snd p]) l
  end.
Definition op_len (o : wop) : nat :=
  match o with WInt l => length l | WFloat l => length l | WCplx l => 2 * length l end.
(** Total number of samples of a session. *)
Definition total (os : list wop) : nat := list_sum (map op_len os).

(** A sample rate the header can hold: finite, between 0 and 10^9 Hz. *)
Definition rate_ok (f : binary64) : Prop :=
  is_finite 53 1024 f = true /\ (0 <= v64 f <= 1000000000)%R.
(** Integer samples are 16-bit. *)
Definition is16 (z : Z) : Prop := -32768 <= z <= 32767.
Definition ints_ok (o : wop) : Prop := match o with WInt l => Forall is16 l | _ => True end.
(** A float that fits 16 bits once truncated. *)
Definition fits16 (x : binary32) : Prop :=
  is_finite 24 128 x = true /\ is16 (Ztrunc (v32 x)).
(** Every write holds a whole number of frames. *)
Definition whole_frames (c : Z) (os : list wop) : Prop :=
  Forall (fun o => (c | Z.of_nat (op_len o))) os.

(** The RIFF/WAVE file format: chunks skipped by a reader. A chunk is a 4-byte
    identifier, a 4-byte size and its contents, padded to an even length. *)
Definition chunk (id : Z) (body : list Z) : list Z :=
  le 4 id ++ le 4 (Z.of_nat (length body)) ++ body
  ++ (if Nat.odd (length body) then [0] else []).
Definition data_id : Z := 1635017060. (* 0x61746164, "data" *)
