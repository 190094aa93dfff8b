(** Model of the WAV reader and writer: core/src/wav.cc, core/include/tsd/wav.hpp.

    Files are byte lists with a file offset (stdio semantics of [fread],
    [fwrite], [fseek]); integers are little-endian, as on the machines libtsd
    targets (the code writes the C structure directly).  A [float] is an IEEE
    binary32 and a [double] an IEEE binary64 (Flocq), stored by their bit
    patterns.  Not modelled: opening errors, full disks, log messages. *)
From Flocq Require Import Core IEEE754.BinarySingleNaN IEEE754.Binary IEEE754.Bits.
From Verif Require Import Base.
Open Scope Z_scope.

(** ** Bytes *)

(** The [k] little-endian bytes of [v] (memory image of a C integer). *)
Fixpoint le (k : nat) (v : Z) : list Z :=
  match k with O => [] | S j => (v mod 256) :: le j (v / 256) end.
(** The unsigned integer stored in little-endian bytes. *)
Fixpoint unle (l : list Z) : Z :=
  match l with [] => 0 | b :: t => b + 256 * unle t end.
(** Bytes [o .. o+n-1] of a file. *)
Definition sub (o n : nat) (f : list Z) : list Z := firstn n (skipn o f).
(** Conversions to [int16_t] / [int] from an unsigned pattern. *)
Definition s16 (w : Z) : Z := if w <? 32768 then w else w - 65536.
Definition s32 (w : Z) : Z := if w <? 2147483648 then w else w - 4294967296.

(** ** Floating point conversions *)

(** [(float) i], [(double) i]: round to nearest even. *)
Definition b32_of_Z (i : Z) : binary32 :=
  binary_normalize 24 128 eq_refl eq_refl mode_NE i 0 false.
Definition b64_of_Z (i : Z) : binary64 :=
  binary_normalize 53 1024 eq_refl eq_refl mode_NE i 0 false.
(** [(double) x] for a float and [(float) x] for a double. *)
Definition b64_of_b32 (x : binary32) : binary64 :=
  match x with
  | Binary.B754_zero _ _ s => Binary.B754_zero 53 1024 s
  | Binary.B754_infinity _ _ s => Binary.B754_infinity 53 1024 s
  | Binary.B754_nan _ _ _ _ _ => proj1_sig default_nan_pl64
  | Binary.B754_finite _ _ s m e _ =>
      binary_normalize 53 1024 eq_refl eq_refl mode_NE (cond_Zopp s (Zpos m)) e s
  end.
Definition b32_of_b64 (x : binary64) : binary32 :=
  match x with
  | Binary.B754_zero _ _ s => Binary.B754_zero 24 128 s
  | Binary.B754_infinity _ _ s => Binary.B754_infinity 24 128 s
  | Binary.B754_nan _ _ _ _ _ => proj1_sig default_nan_pl32
  | Binary.B754_finite _ _ s m e _ =>
      binary_normalize 24 128 eq_refl eq_refl mode_NE (cond_Zopp s (Zpos m)) e s
  end.
(** [(int16_t) x] of a float: truncation, undefined when out of range. *)
Definition int16_of_b32 (x : binary32) : res Z :=
  if Binary.is_finite 24 128 x then
    let z := Binary.Btrunc 24 128 x in
    if (-32768 <=? z) && (z <=? 32767) then Ok z else UB
  else UB.
(** [(uint32_t) x] of a double: truncation, undefined when out of range. *)
Definition uint32_of_b64 (x : binary64) : res Z :=
  if Binary.is_finite 53 1024 x then
    let z := Binary.Btrunc 53 1024 x in
    if (0 <=? z) && (z <? 4294967296) then Ok z else UB
  else UB.

(** ** Configuration (wav.hpp:18-27) *)
Inductive wfmt := PCM_16 | PCM_FLOAT.
Record wavcfg := mkcfg { ncanaux : Z; freq_ech : binary64; format : wfmt }.

(** ** Writer (wav.cc:344-483) *)

(** [e_open] is [fd != nullptr]; [e_file], [e_off]: contents of the file and
    stdio offset; [e_pos]: the uint32 counter of frames. *)
Record ecr := mkecr { e_cfg : wavcfg; e_file : list Z; e_off : nat; e_pos : Z; e_open : bool }.

(** [fwrite] of the bytes [b] at offset [o]. *)
Definition fwrite (f : list Z) (o : nat) (b : list Z) : list Z :=
  firstn o f ++ repeat 0 (o - length f) ++ b ++ skipn (o + length b) f.

(** wav.cc:357-392 [init]: empty file, 44 zero bytes, counter at 0. *)
Definition e_init (cfg : wavcfg) : ecr :=
  mkecr cfg (fwrite [] 0 (repeat 0 44)) 44 0 true.

(** [fwrite(...)] then [pos += n / ncanaux] (int division, then uint32 sum). *)
Definition e_put (e : ecr) (bytes : list Z) (n : Z) : res ecr :=
  let f := fwrite (e_file e) (e_off e) bytes in
  if ncanaux (e_cfg e) =? 0 then UB else
  Ok (mkecr (e_cfg e) f (e_off e + length bytes)
       ((e_pos e + Z.quot n (ncanaux (e_cfg e))) mod 2 ^ 32) (e_open e)).

(** Conversion of every element of a vector, in order. *)
Fixpoint mapr {A B} (g : A -> res B) (l : list A) : res (list B) :=
  match l with
  | [] => Ok []
  | a :: t => let* b := g a in let* bs := mapr g t in Ok (b :: bs)
  end.

(** wav.cc:463-481 [ecris(int16_t*, n)] in 16-bit mode and
    wav.cc:455-459 [ecris(const Vecf&)] in float mode. *)
Definition e_raw16 (e : ecr) (l : list Z) : res ecr :=
  e_put e (flat_map (fun z => le 2 (z mod 65536)) l) (Z.of_nat (length l)).
Definition e_rawf (e : ecr) (l : list binary32) : res ecr :=
  e_put e (flat_map (fun x => le 4 (bits_of_b32 x)) l) (Z.of_nat (length l)).

(** wav.cc:442-461 [ecris(const Vecf&)]. *)
Definition ecris_f (e : ecr) (l : list binary32) : res ecr :=
  if e_open e then
    match format (e_cfg e) with
    | PCM_16 => let* p := mapr int16_of_b32 l in e_raw16 e p
    | PCM_FLOAT => e_rawf e l
    end
  else Ok e.

(** wav.cc:463-481 [ecris(int16_t*, n)]. *)
Definition ecris_16 (e : ecr) (l : list Z) : res ecr :=
  if e_open e then
    match format (e_cfg e) with
    | PCM_16 => e_raw16 e l
    | PCM_FLOAT => ecris_f e (map b32_of_Z l)
    end
  else Ok e.

(** wav.cc:432-440 [ecris(const Veccf&)]: real and imaginary parts interleaved
    (memory image of an array of complex numbers). *)
Definition interleave {A} (l : list (A * A)) : list A :=
  flat_map (fun p => [fst p; snd p]) l.
Definition ecris_c (e : ecr) (l : list (binary32 * binary32)) : res ecr :=
  ecris_f e (interleave l).

(** One call of the writer's API. *)
Inductive wop :=
| WInt (l : list Z) | WFloat (l : list binary32) | WCplx (l : list (binary32 * binary32)).
Definition ecris (e : ecr) (o : wop) : res ecr :=
  match o with WInt l => ecris_16 e l | WFloat l => ecris_f e l | WCplx l => ecris_c e l end.
Fixpoint ecris_all (e : ecr) (os : list wop) : res ecr :=
  match os with
  | [] => Ok e
  | o :: t => let* e1 := ecris e o in ecris_all e1 t
  end.

(** wav.cc:394-430 [ferme]: header written over the first 44 bytes.  The field
    [file_size] is never assigned: [junk] is whatever the stack held.
    The other fields, in the order of the structure (wav.cc:15-63). *)
Definition header (junk : Z) (cfg : wavcfg) (freq bps : Z) (pos : Z) : list Z :=
  let oct := match format cfg with PCM_FLOAT => 4 | PCM_16 => 2 end in
  [82; 73; 70; 70] ++ le 4 junk ++ [87; 65; 86; 69] ++ [102; 109; 116; 32]
  ++ le 4 16
  ++ le 2 (match format cfg with PCM_FLOAT => 3 | PCM_16 => 1 end)
  ++ le 2 (ncanaux cfg mod 65536)
  ++ le 4 freq ++ le 4 bps ++ le 2 oct ++ le 2 (oct * 8)
  ++ [100; 97; 116; 97]
  ++ le 4 ((pos * oct * ncanaux cfg) mod 2 ^ 32).

Definition e_ferme (junk : Z) (e : ecr) : res ecr :=
  if e_open e then
    let cfg := e_cfg e in
    let oct := match format cfg with PCM_FLOAT => 4 | PCM_16 => 2 end in
    let* freq := uint32_of_b64 (freq_ech cfg) in
    let* bps := uint32_of_b64 (b64_mult mode_NE (freq_ech cfg) (b64_of_Z oct)) in
    Ok (mkecr cfg (fwrite (e_file e) 0 (header junk cfg freq bps (e_pos e))) 44 (e_pos e) false)
  else Ok e.

(** A whole writing session: the bytes left in the file. *)
Definition wav_session (junk : Z) (cfg : wavcfg) (os : list wop) : res (list Z) :=
  let* e := ecris_all (e_init cfg) os in
  let* e1 := e_ferme junk e in
  Ok (e_file e1).

(** ** Reader (wav.cc:118-342) *)

(** Fields of the header used later, file contents, stdio offset, [pos], [nech]. *)
Record lec := mklec {
  l_file : list Z; l_off : nat; l_pos : Z; l_nech : Z;
  l_fmt : Z; l_can : Z; l_freq : Z; l_bits : Z }.

(** wav.cc:151-190: the loop over chunks.  [id], [sz]: current chunk header;
    the offset is just after it.  [fseek] to a negative offset fails and leaves
    the offset; [feof] is never set after [fseek].  Returns the offset of the
    samples and the chunk size. *)
Fixpoint cherche_data (fuel : nat) (f : list Z) (off : nat) (id sz : Z) : res (nat * Z) :=
  if id =? 1635017060 then Ok (off, sz) else
  match fuel with
  | O => Diverge
  | S fu =>
      let n0 := s32 sz in
      if n0 =? 2147483647 then UB else
      let nskips := if Z.odd n0 then n0 + 1 else n0 in
      let o := Z.of_nat off + nskips in
      let off1 := if o <? 0 then off else Z.to_nat o in
      if (off1 + 8 <=? length f)%nat then
        cherche_data fu f (off1 + 8) (unle (sub off1 4 f)) (unle (sub (off1 + 4) 4 f))
      else Exc
  end.

(** wav.cc:129-199 [charge].  The number of frames is computed in uint32. *)
Definition charge (fuel : nat) (f : list Z) : res lec :=
  if (length f <? 44)%nat then Exc else
  if negb (unle (sub 0 4 f) =? 1179011410) then Exc else
  let* (off, sz) := cherche_data fuel f 44 (unle (sub 36 4 f)) (unle (sub 40 4 f)) in
  let can := unle (sub 22 2 f) in
  let bits := unle (sub 34 2 f) in
  let d := bits * can in
  if (2147483647 <? d) || (d =? 0) then UB else
  Ok (mklec f off 0 (s32 ((8 * sz) mod 2 ^ 32 / d))
        (unle (sub 20 2 f)) can (unle (sub 24 4 f)) bits).

(** wav.cc:275-278 [lis_config] (channels and rate), 291-296 [lis_nechantillons]. *)
Definition lis_config (s : lec) : Z * binary64 := (l_can s, b64_of_Z (l_freq s)).
Definition lis_nechantillons (s : lec) : Z := l_nech s.
(** wav.cc:305-308 [lis_position]. *)
Definition lis_position (s : lec) : Z := l_pos s.

(** [fread] of [n] items of [k] bytes: the complete items available. *)
Definition fread_items (k n : nat) (s : lec) : nat := Nat.min n ((length (l_file s) - l_off s) / k).
(** New offset after such a call: a short read goes to the end of the file. *)
Definition fread_off (k n : nat) (s : lec) : nat :=
  if (fread_items k n s =? n)%nat then (l_off s + k * n)%nat
  else Nat.max (l_off s) (length (l_file s)).
Definition adv (s : lec) (off : nat) (n : nat) : lec :=
  mklec (l_file s) off (l_pos s + Z.of_nat n) (l_nech s) (l_fmt s) (l_can s) (l_freq s) (l_bits s).

(** wav.cc:236-248 [lis_donnees]: the 16-bit values actually read. *)
Definition lis_donnees (s : lec) (n : nat) : lec * list Z :=
  let k := fread_items 2 n s in
  (adv s (fread_off 2 n s) k,
   map (fun i => s16 (unle (sub (l_off s + 2 * i) 2 (l_file s)))) (seq 0 k)).

(** wav.cc:210-234 [lis_flottant].  After a short read the code only warns and
    the end of the vector holds uninitialised memory: outcome [UB]. *)
Definition lis_flottant (s : lec) (n : nat) : res (lec * list binary32) :=
  if l_fmt s =? 1 then
    let (s1, t) := lis_donnees s n in
    if (length t =? n)%nat then Ok (s1, map b32_of_Z t) else UB
  else
    let k := fread_items 4 n s in
    if (k =? n)%nat then
      Ok (adv s (fread_off 4 n s) k,
          map (fun i => b32_of_bits (unle (sub (l_off s + 4 * i) 4 (l_file s)))) (seq 0 n))
    else UB.

(** Successive calls, with block sizes [ns]. *)
Fixpoint lis_all (s : lec) (ns : list nat) : res (lec * list binary32) :=
  match ns with
  | [] => Ok (s, [])
  | n :: t => let* (s1, a) := lis_flottant s n in let* (s2, b) := lis_all s1 t in Ok (s2, a ++ b)
  end.

(** wav.cc:326-333 [redemarre]: back to offset 44, whatever the chunks. *)
Definition redemarre (s : lec) : lec :=
  mklec (l_file s) 44 0 (l_nech s) (l_fmt s) (l_can s) (l_freq s) (l_bits s).
(** wav.cc:335-342 [recherche]; [p] is [(entier) (temps * frequency)] (the float
    product is not modelled), non-negative here. *)
Definition recherche (s : lec) (p : nat) : lec :=
  mklec (l_file s) (p * 2 + 44) (Z.of_nat p) (l_nech s) (l_fmt s) (l_can s) (l_freq s) (l_bits s).

(** ** Convenience functions (wav.cc:66-116) *)

(** wav.cc:83-88 [wav_enregistre], wav.cc:90-95 [wav_enregistre_stereo]. *)
Definition wav_enregistre (junk : Z) (fech : binary32) (x : list binary32) : res (list Z) :=
  wav_session junk (mkcfg 1 (b64_of_b32 fech) PCM_FLOAT) [WFloat x].
Definition wav_enregistre_stereo (junk : Z) (fech : binary32) (x : list (binary32 * binary32)) : res (list Z) :=
  wav_session junk (mkcfg 2 (b64_of_b32 fech) PCM_FLOAT) [WCplx x].

(** wav.cc:97-114 [wav_charge]: [n] values, whatever the channel count (a
    negative count makes the allocation fail). *)
Definition wav_charge (fuel : nat) (f : list Z) : res (list binary32 * binary32) :=
  let* s := charge fuel f in
  let n := lis_nechantillons s in
  if n <? 0 then Exc else
  let* (_, x) := lis_flottant s (Z.to_nat n) in
  Ok (x, b32_of_b64 (snd (lis_config s))).

(** Memory image of [2n] floats seen as [n] complex numbers. *)
Fixpoint pairs {A} (l : list A) : list (A * A) :=
  match l with a :: b :: t => (a, b) :: pairs t | _ => [] end.
(** wav.cc:66-81 [wav_charge_stereo]. *)
Definition wav_charge_stereo (fuel : nat) (f : list Z) : res (list (binary32 * binary32) * binary32) :=
  let* s := charge fuel f in
  let n := lis_nechantillons s in
  if n <? 0 then Exc else
  let* (_, x) := lis_flottant s (2 * Z.to_nat n) in
  Ok (pairs x, b32_of_b64 (snd (lis_config s))).
