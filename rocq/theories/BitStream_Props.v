(** Properties of bit streams (C01-C04). *)
From Verif Require Import Base BitStream_Model BitStream_Spec BitStream_Proofs.

(** C01. Any program over the public API behaves as the same program on plain
    lists of bits (and throws exactly when [denote] says so). *)
Theorem C01_bitstream_is_a_list_of_bits : forall p, prog_ok p ->
  match denote p with
  | Some l => exists s, exec p = Ok s /\ shows s l
  | None => exec p = Exc
  end.
Proof. exact exec_denote. Qed.
Print Assumptions C01_bitstream_is_a_list_of_bits.

(** C01. Reading beyond the last byte throws. *)
Theorem C01_read_outside_throws : forall p l s i,
  prog_ok p -> denote p = Some l -> exec p = Ok s ->
  ceil_mult (length l) 8 <= i -> bs_get s i = Exc.
Proof. exact get_outside. Qed.
Print Assumptions C01_read_outside_throws.

(** C01. Conversion to a vector of integers. *)
Theorem C01_iarray : forall p l s, prog_ok p -> denote p = Some l -> exec p = Ok s ->
  bs_iarray s = Ok (map (fun b : bool => if b then 1 else 0) l).
Proof. exact prog_to_iarray. Qed.
Print Assumptions C01_iarray.

(** C01. Construction from a string of 0 and 1 (character codes 48 and 49),
    and printing, are inverse; any other character throws. *)
Theorem C01_string_roundtrip : forall l, (forall c, In c l -> c = 48 \/ c = 49) ->
  exists s, bs_of_chars bs_empty l = Ok s /\ shows s (map (Nat.eqb 49) l) /\ bs_to_chars s = Ok l.
Proof. exact string_roundtrip. Qed.
Print Assumptions C01_string_roundtrip.

Theorem C01_string_invalid : forall l, (exists c, In c l /\ c <> 48 /\ c <> 49) ->
  bs_of_chars bs_empty l = Exc.
Proof. exact (fun l => of_chars_exc l bs_empty WF_empty). Qed.
Print Assumptions C01_string_invalid.

Example C01_nonvacuous :
  let p := PPush (PSet (PCat (PU32 PEmpty 305419896) (PPad (PPush PEmpty true) 5)) 33 true) true in
  prog_ok p /\ denote p = Some (u32_bits 305419896 ++ [true;true;false;false;false;false;true]).
Proof. split; [cbn; repeat split; reflexivity | reflexivity]. Qed.
Example C01_nonvacuous_exc : denote (PSet (PPush PEmpty true) 8 true) = None.
Proof. reflexivity. Qed.

(** C02. Sequential reading. *)
Theorem C02_pop_returns_the_bits : forall p l s n,
  prog_ok p -> denote p = Some l -> exec p = Ok s -> n <= length l ->
  exists s', pops n (bs_restart s) = Ok (s', firstn n l) /\ (bs_eof s' = true <-> n = length l).
Proof. exact pop_sequence. Qed.
Print Assumptions C02_pop_returns_the_bits.

(** C02. A 32-bit word anywhere in a stream is read back. *)
Theorem C02_u32_anywhere : forall p l v m s,
  prog_ok p -> denote p = Some (l ++ u32_bits v ++ m) -> exec p = Ok s -> (v < 2 ^ 32)%N ->
  exists s1, pops (length l) (bs_restart s) = Ok (s1, l) /\
  exists s2, bs_pop_u32 s1 = Ok (s2, v) /\ bs_eof s2 = (length m =? 0).
Proof. exact u32_at. Qed.
Print Assumptions C02_u32_anywhere.

(** C02. Any list of words pushed is popped back, and then the stream is at its end. *)
Theorem C02_words_roundtrip : forall ws s, Forall (fun w => (w < 2 ^ 32)%N) ws ->
  exec (push_words PEmpty ws) = Ok s ->
  exists s', pop_words (length ws) (bs_restart s) = Ok (s', ws) /\ bs_eof s' = true.
Proof. exact words_roundtrip. Qed.
Print Assumptions C02_words_roundtrip.

Example C02_nonvacuous : exists s, exec (push_words PEmpty [305419896; 4294967295]%N) = Ok s.
Proof. eexists. vm_compute. reflexivity. Qed.

(** C02 (finding). Appending with += moves the read position back to the start. *)
Theorem C02_append_keeps_read_position_refuted : exists s t s1 b s2,
  bs_push_list bs_empty [true; false] = Ok s /\ bs_push_list bs_empty [true] = Ok t /\
  bs_pop s = Ok (s1, b) /\ bs_append s1 t = Ok s2 /\
  bs_pos s1 = 1 /\ bs_pos s2 = 0.
Proof. do 5 eexists. vm_compute. repeat split; reflexivity. Qed.
Print Assumptions C02_append_keeps_read_position_refuted.

(** C03. Hamming distance. *)
Theorem C03_hamming : forall p q l1 l2 s t, prog_ok p -> prog_ok q ->
  denote p = Some l1 -> denote q = Some l2 -> exec p = Ok s -> exec q = Ok t ->
  bs_hamming s t = if length l1 =? length l2 then Ok (ndiff l1 l2) else Exc.
Proof. exact hamming_prog. Qed.
Print Assumptions C03_hamming.

(** C03. operator== on streams of the same length that were never written past their end. *)
Theorem C03_equality : forall p q l1 l2 s t,
  prog_ok p -> prog_ok q -> no_overwrite p -> no_overwrite q ->
  denote p = Some l1 -> denote q = Some l2 -> exec p = Ok s -> exec q = Ok t ->
  length l1 = length l2 -> (bs_eqb s t = true <-> l1 = l2).
Proof. exact exec_eqb. Qed.
Print Assumptions C03_equality.

Example C03_nonvacuous :
  let p := PPush (PSet (PPad PEmpty 9) 3 true) true in
  let q := PCat (PPad (PPush (PPad PEmpty 3) true) 5) (PPush PEmpty true) in
  prog_ok p /\ prog_ok q /\ no_overwrite p /\ no_overwrite q /\ denote p = denote q /\
  exists s t, exec p = Ok s /\ exec q = Ok t.
Proof.
  cbn. repeat split; try lia. do 2 eexists. vm_compute. split; reflexivity.
Qed.

(** C03 (finding). Streams of different lengths can compare equal. *)
Theorem C03_equality_ignores_length_refuted : exists s t,
  bs_zeros 7 = Ok s /\ bs_zeros 8 = Ok t /\ bs_eqb s t = true /\ bs_lon s <> bs_lon t.
Proof. do 2 eexists. vm_compute. repeat split; congruence. Qed.
Print Assumptions C03_equality_ignores_length_refuted.

(** C03 (finding). Streams with the same bits can compare different after a shrinking resize. *)
Theorem C03_equality_of_contents_refuted : exists s t u,
  bs_uns 2 = Ok s /\ bs_resize s 1 = t /\ bs_uns 1 = Ok u /\
  shows t [true] /\ shows u [true] /\ bs_eqb t u = false.
Proof.
  do 3 eexists. split; [vm_compute; reflexivity|]. split; [reflexivity|].
  split; [vm_compute; reflexivity|]. split; [|split]; [| |reflexivity];
  (split; [reflexivity|]; intros [|i] Hi; [reflexivity|simpl in Hi; lia]).
Qed.
Print Assumptions C03_equality_of_contents_refuted.

(** C03 (finding). resize() is documented to clear all bits; it keeps them, and
    bits cut off by a shrinking resize come back when the stream is grown again. *)
Theorem C03_resize_clears_refuted : exists s,
  bs_uns 8 = Ok s /\ bs_get (bs_resize s 16) 0 = Ok true /\
  bs_get (bs_resize (bs_resize s 1) 8) 7 = Ok true.
Proof. eexists. vm_compute. repeat split; reflexivity. Qed.
Print Assumptions C03_resize_clears_refuted.

(** C04. pad_mult and pad are part of [denote]; stated here on their own. *)
Theorem C04_pad_mult : forall p l m, prog_ok p -> denote p = Some l -> 0 < m ->
  exists s l', exec (PPadMult p m) = Ok s /\ shows s l' /\
    l' = l ++ repeat false (length l' - length l) /\
    length l' mod m = 0 /\ length l <= length l' < length l + m.
Proof. exact pad_mult_prog. Qed.
Print Assumptions C04_pad_mult.

(** C04 (finding). altern(n) is n+2 bits 1,0,1,0..., not n. *)
Theorem C04_altern_length : forall n, exists s l, bs_altern n = Ok s /\ shows s l /\
  length l = n + 2 /\ forall i, i < length l -> nth i l false = Nat.even i.
Proof. exact altern_spec. Qed.
Print Assumptions C04_altern_length.

Theorem C04_altern_returns_n_bits_refuted : forall n, exists s, bs_altern n = Ok s /\ bs_lon s <> n.
Proof. exact altern_wrong_length. Qed.
Print Assumptions C04_altern_returns_n_bits_refuted.
