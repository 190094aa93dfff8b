(** C05, C06: symbol mapping, differential coding, hard decisions, Barker codes. *)
From Verif Require Import Base BitStream_Model BitStream_Spec TeleBits_Model TeleBits_Spec TeleBits_Proofs.

(** C05. symmap of any stream gives ceil(n/k) symbols, symbol i being the value
    (least significant bit first) of bits i*k ... i*k+k-1 of the stream. *)
Theorem C05_symmap_values : forall s l k, shows s l -> 0 < k <= 30 ->
  symmap s (Z.of_nat k) =
    Ok (map (fun i => bits_val (group l k i)) (seq 0 (ngroups (length l) k))).
Proof. exact symmap_spec. Qed.
Print Assumptions C05_symmap_values.

(** C05. Mapping then demapping (onto any stream) appends the same bits, padded
    with zeros up to a multiple of k; the symbols are all in [0, 2^k). *)
Theorem C05_symmap_then_symdemap : forall p l s q l0 s0 k,
  prog_ok p -> denote p = Some l -> exec p = Ok s ->
  prog_ok q -> denote q = Some l0 -> exec q = Ok s0 -> 0 < k <= 30 ->
  exists y s1, symmap s (Z.of_nat k) = Ok y /\ symdemap s0 y k = Ok s1 /\
    length y = ngroups (length l) k /\
    (forall v, In v y -> (0 <= v < 2 ^ Z.of_nat k)%Z) /\
    shows s1 (l0 ++ l ++ repeat false (ngroups (length l) k * k - length l)).
Proof. exact symmap_then_demap. Qed.
Print Assumptions C05_symmap_then_symdemap.

(** C05. Demapping then mapping is the identity on lists of k-bit symbols. *)
Theorem C05_symdemap_then_symmap : forall y k, 0 < k <= 30 ->
  (forall v, In v y -> (0 <= v < 2 ^ Z.of_nat k)%Z) ->
  exists s, symdemap bs_empty y k = Ok s /\ bs_lon s = length y * k /\
    symmap s (Z.of_nat k) = Ok y.
Proof. exact demap_then_symmap. Qed.
Print Assumptions C05_symdemap_then_symmap.

(** C05. A non-positive number of bits per symbol is refused. *)
Theorem C05_symmap_bad_k : forall s k, (k <= 0)%Z -> symmap s k = Exc.
Proof. exact symmap_exc. Qed.
Print Assumptions C05_symmap_bad_k.

(** C05 (finding). Above 30 bits per symbol the weight overflows a 32-bit int. *)
Theorem C05_symmap_31_bits_refuted : exists s,
  bs_uns 31 = Ok s /\ symmap s 31 = UB.
Proof. eexists. split; [vm_compute; reflexivity|]. vm_compute. reflexivity. Qed.
Print Assumptions C05_symmap_31_bits_refuted.

Example C05_case : exists s, exec (PU32 (PPush PEmpty true) 200) = Ok s /\
  prog_ok (PU32 (PPush PEmpty true) 200) /\
  symmap s 4 = Ok [1; 9; 1; 0; 0; 0; 0; 0; 0]%Z.
Proof. eexists. split; [vm_compute; reflexivity|]. vm_compute. repeat split; reflexivity. Qed.

(** C06. diff_encode appends y_n = x_n xor y_(n-1), with y_(-1) = 0. *)
Theorem C06_diff_encode : forall p l s q l0 s0,
  prog_ok p -> denote p = Some l -> exec p = Ok s ->
  prog_ok q -> denote q = Some l0 -> exec q = Ok s0 ->
  exists s', diff_encode s0 s = Ok s' /\ shows s' (l0 ++ denc false l).
Proof. exact encode_prog. Qed.
Print Assumptions C06_diff_encode.

(** C06. The documented decoder inverts the documented encoder, up to the first bit. *)
Theorem C06_documented_decoder_inverts : forall b p l, ddec (denc p (b :: l)) = l.
Proof. exact ddec_denc. Qed.
Print Assumptions C06_documented_decoder_inverts.

(** C06 (finding). What diff_decode appends is a spurious 0 followed by the
    documented output without its last bit. *)
Theorem C06_diff_decode_actual : forall p l s q l0 s0,
  prog_ok p -> denote p = Some l -> exec p = Ok s ->
  prog_ok q -> denote q = Some l0 -> exec q = Ok s0 ->
  exists s', diff_decode s0 s = Ok s' /\
    shows s' (l0 ++ if length l <? 2 then [] else false :: removelast (ddec l)).
Proof. exact decode_prog. Qed.
Print Assumptions C06_diff_decode_actual.

(** C06 (finding). Hence decoding an encoded stream does not give the stream back. *)
Theorem C06_decode_encode_refuted : exists s e d,
  exec (PPush (PPush (PPush PEmpty false) true) true) = Ok s /\
  diff_encode bs_empty s = Ok e /\ diff_decode bs_empty e = Ok d /\
  shows d [false; true] /\ ddec (denc false [false; true; true]) = [true; true].
Proof.
  do 3 eexists. split; [vm_compute; reflexivity|]. split; [vm_compute; reflexivity|].
  split; [vm_compute; reflexivity|]. split; [|reflexivity]. split; [reflexivity|].
  intros [|[|i]] H; [reflexivity|reflexivity|simpl in H; lia].
Qed.
Print Assumptions C06_decode_encode_refuted.

(** C06. Hard decisions: bit i is 1 exactly when LLR i is positive. *)
Theorem C06_decode_hard : forall llr, exists s, decode_hard bs_empty llr = Ok s /\
  shows s (map (fun v => (0 <? v)%Z) llr).
Proof. exact decode_hard_sign. Qed.
Print Assumptions C06_decode_hard.

(** C06 (finding). The documentation (telecom.hpp) says 0 for L > 0 and 1 for L <= 0. *)
Theorem C06_decode_hard_doc_refuted : exists s, decode_hard bs_empty [5; -5]%Z = Ok s /\
  bs_get s 0 = Ok true /\ bs_get s 1 = Ok false.
Proof. eexists. split; [vm_compute; reflexivity|]. vm_compute. repeat split; reflexivity. Qed.
Print Assumptions C06_decode_hard_doc_refuted.

(** C06. Barker codes: the seven known lengths have aperiodic autocorrelation
    sidelobes of magnitude at most 1; every other length is refused. *)
Theorem C06_Barker_sidelobes : forall n, In n [2;3;4;5;7;11;13] ->
  exists s l, code_Barker n = Ok s /\ shows s l /\ length l = n /\
    forall tau, 0 < tau < n -> (Z.abs (acorr l tau) <= 1)%Z.
Proof. exact barker_check. Qed.
Print Assumptions C06_Barker_sidelobes.

Theorem C06_Barker_other_lengths : forall n, ~ In n [2;3;4;5;7;11;13] -> code_Barker n = Exc.
Proof. exact barker_other. Qed.
Print Assumptions C06_Barker_other_lengths.

Example C06_case : exists s, exec (PU32 PEmpty 11) = Ok s /\
  exists e, diff_encode bs_empty s = Ok e /\ bs_get e 4 = Ok true.
Proof. eexists. split; [vm_compute; reflexivity|]. eexists. split; [vm_compute; reflexivity|]. vm_compute. reflexivity. Qed.
