(** Properties C16 to C20: decimating, oversampling and half-band FIR filters,
    polyphase form, CIC filters. *)
From Coq Require Import QArith_base. Close Scope Q_scope.
From Verif Require Import Base BaseLemmas Fields Filters_Spec Filters_Proofs
  Polyphase_Model Polyphase_Spec Polyphase_Proofs Polyphase_Proofs2.

(** ** C16: FIR filter and decimate *)

(** One output per R inputs, whatever the blocks: the correlation of the last
    samples with h. *)
Theorem C16_correlation : forall (K : cring) (h : list K) R blocks, 0 < R -> h <> [] ->
  exists s y, run rif_decim_step (fdec_init h R) blocks = Ok (s, y) /\
    length y = length (concat blocks) / R /\
    forall m, m < length y -> samp y m =
      sum (length h) (fun k => cmul (samp h k) (sampZ (concat blocks) (Z.of_nat ((m + 1) * R) - Z.of_nat (length h) + Z.of_nat k))).
Proof. exact decim_fir_run. Qed.
Print Assumptions C16_correlation.

(** It is the filtering by h, decimated, for all inputs exactly when h is a palindrome. *)
Theorem C16_palindrome_iff : forall (K : cring) (h : list K) R, 0 < R -> h <> [] ->
  (h = rev h <->
   forall blocks, exists s y, run rif_decim_step (fdec_init h R) blocks = Ok (s, y) /\
    length y = length (concat blocks) / R /\
    forall m, m < length y -> samp y m = conv h (concat blocks) ((m + 1) * R - 1)).
Proof. exact decim_fir_palindrome_iff. Qed.
Print Assumptions C16_palindrome_iff.

Theorem C16_rejects_empty : forall (K : cring) R (x : list K), rif_decim_step (fdec_init [] R) x = Exc.
Proof. reflexivity. Qed.
Print Assumptions C16_rejects_empty.

(** Finding: for h = (1, 2) and R = 1 the impulse response comes out reversed. *)
Theorem C16_filter_then_decimate_refuted :
  exists s, run rif_decim_step (fdec_init ([1; 2]%Z : list Zring) 1) [[1; 0]%Z] = Ok (s, [2; 1]%Z) /\
    map (conv ([1; 2]%Z : list Zring) [1; 0]%Z) [0; 1] = [1; 2]%Z.
Proof. eexists. split; reflexivity. Qed.
Print Assumptions C16_filter_then_decimate_refuted.

Example C16_case : exists s, run rif_decim_step (fdec_init ([1; 3; 1]%Z : list Zring) 2) [[1; 2; 3]; [4; 5; 6; 7]]%Z
  = Ok (s, [5; 15; 25]%Z).
Proof. eexists. reflexivity. Qed.

(** ** C17: oversampling FIR filter *)

(** R outputs per input; the R-times longer signal is the zero-stuffed input
    filtered by the scaled and padded coefficients, read backwards. *)
Theorem C17_oversample : forall (K : cring) (c : list K) R blocks s0, 0 < R -> c <> [] -> fups_init c R = Ok s0 ->
  exists s y, run fups_step s0 blocks = Ok (s, y) /\ length y = length (concat blocks) * R /\
    forall n, n < length y -> samp y n = conv (rev (ups_coefs c R)) (stuff R (concat blocks)) n.
Proof. exact fups_run. Qed.
Print Assumptions C17_oversample.

(** The constructor accepts every R > 0; R = 0 is an integer division by zero; an
    empty filter throws at the first block. *)
Theorem C17_construct : forall (K : cring) (c : list K) R,
  (0 < R -> exists s0, fups_init c R = Ok s0) /\ fups_init c 0 = UB /\
  forall s0 x, fups_init (@nil K) R = Ok s0 -> fups_step s0 x = Exc.
Proof.
  intros K c R. split; [intros HR; rewrite fups_init_ok by exact HR; eexists; reflexivity|]. split; [reflexivity|].
  intros s0 x. destruct R as [|R]; [discriminate|]. intros E. rewrite fups_init_ok in E by lia.
  unfold ups_coefs in E. cbn [map app length] in E. rewrite Nat.mod_0_l, Nat.sub_0_r, Nat.mod_same in E by lia.
  injection E as <-. reflexivity.
Qed.
Print Assumptions C17_construct.

(** Finding: a non-symmetric filter comes out reversed: c = (1, 2), R = 2, input 1
    gives 4, 2 while zero-stuffing then filtering by c (scaled) gives 2, 4. *)
Theorem C17_filter_order_refuted :
  exists s0 s, fups_init ([1; 2]%Z : list Zring) 2 = Ok s0 /\ run fups_step s0 [[1%Z]] = Ok (s, [4; 2]%Z) /\
   map (conv (ups_coefs ([1; 2]%Z : list Zring) 2) (stuff 2 ([1]%Z : list Zring))) [0; 1] = [2; 4]%Z.
Proof. do 2 eexists. do 2 (split; [reflexivity|]). reflexivity. Qed.
Print Assumptions C17_filter_order_refuted.

Example C17_case : exists s0 s, fups_init ([1; 2; 1]%Z : list Zring) 2 = Ok s0 /\
  run fups_step s0 [[1]; [0; 3]]%Z = Ok (s, [0; 2; 4; 2; 0; 6]%Z).
Proof. do 2 eexists. split; reflexivity. Qed.

(** ** C18: half-band decimator *)

(** Same outputs as the general decimating filter, for any half-band filter. *)
Theorem C18_half_band : forall (K : cring) (half : K) (h : list K) blocks, half_band half h ->
  exists s y, run (hb_step half) (fdec_init h 2) blocks = Ok (s, y) /\
    length y = length (concat blocks) / 2 /\
    forall m, m < length y -> samp y m =
      sum (length h) (fun k => cmul (samp h k) (sampZ (concat blocks) (Z.of_nat ((m + 1) * 2) - Z.of_nat (length h) + Z.of_nat k))).
Proof. exact hb_run. Qed.
Print Assumptions C18_half_band.

Theorem C18_same_as_decimator : forall (K : cring) (half : K) (h : list K) blocks, half_band half h ->
  exists s s' y, run (hb_step half) (fdec_init h 2) blocks = Ok (s, y) /\
     run rif_decim_step (fdec_init h 2) blocks = Ok (s', y).
Proof. exact hb_same_as_decim. Qed.
Print Assumptions C18_same_as_decimator.

(** For a symmetric half-band filter: every second sample of the convolution. *)
Theorem C18_symmetric : forall (K : cring) (half : K) (h : list K) blocks, half_band half h -> h = rev h ->
  exists s y, run (hb_step half) (fdec_init h 2) blocks = Ok (s, y) /\
    length y = length (concat blocks) / 2 /\
    forall m, m < length y -> samp y m = conv h (concat blocks) ((m + 1) * 2 - 1).
Proof.
  intros K half h blocks HB P. assert (Hc : h <> []) by (intros ->; destruct HB as (M & _); discriminate).
  destruct (hb_same_as_decim K half h blocks HB) as (s & s' & y & E & E').
  destruct (decim_fir_palindrome K h 2 blocks ltac:(lia) Hc P) as (s2 & y2 & E2 & R).
  rewrite E' in E2. injection E2 as _ <-. exists s, y. split; [exact E|exact R].
Qed.
Print Assumptions C18_symmetric.

(** What the code computes for any non-empty filter: even taps, plus half the centre. *)
Theorem C18_any_filter : forall (K : cring) (half : K) (h : list K) blocks, h <> [] ->
  exists s y, run (hb_step half) (fdec_init h 2) blocks = Ok (s, y) /\
    length y = length (concat blocks) / 2 /\
    forall m, m < length y -> 
      let w i := sampZ (concat blocks) (Z.of_nat ((m + 1) * 2) - Z.of_nat (length h) + Z.of_nat i) in
      samp y m = cadd (sum ((length h + 1) / 2) (fun t => cmul (samp h (2 * t)) (w (2 * t)))) (cmul half (w (length h / 2))).
Proof. exact hb_run_any. Qed.
Print Assumptions C18_any_filter.

(** The designer produces the half-band shape for n = 3, 7, 11, ... *)
Theorem C18_design : forall (K : cring) (half : K) des n, n mod 4 = 3 -> (forall q, length (des q) = q) ->
  exists h, design_hb half des n = Ok h /\ length h = n /\ half_band half h.
Proof. exact design_hb_good. Qed.
Print Assumptions C18_design.

(** Finding: for n = 5, 9, 13, ... the designer pads with zeros, so that the taps
    that are zero are the even ones, which are those the decimator reads: whatever
    the design, it computes the centre sample only (counted twice). *)
Theorem C18_design_then_filter_refuted : forall (K : cring) (half : K) des n blocks,
  n mod 4 = 1 -> 5 <= n -> (forall q, length (des q) = q) ->
  exists h s y, design_hb half des n = Ok h /\ run (hb_step half) (fdec_init h 2) blocks = Ok (s, y) /\
    forall m, m < length y -> samp y m =
      let v := sampZ (concat blocks) (Z.of_nat ((m + 1) * 2) - Z.of_nat n + Z.of_nat (n / 2)) in
      cadd (cmul half v) (cmul half v).
Proof. exact design_hb_bad. Qed.
Print Assumptions C18_design_then_filter_refuted.

Example C18_case :
  half_band (5 : Zring)%Z [3; 5; 3]%Z /\
  exists s, run (hb_step (5 : Zring)%Z) (fdec_init ([3; 5; 3]%Z : list Zring) 2) [[1; 2; 3]; [4; 5; 6]]%Z = Ok (s, [11; 33; 55]%Z).
Proof.
  split; [split; [reflexivity|]; split; [reflexivity|]|].
  - cbn [length]. intros k Hk H1 H2. destruct k as [|[|[|k]]]; try discriminate; [exfalso; apply H2; reflexivity|lia].
  - eexists. reflexivity.
Qed.

(** ** C19: polyphase form *)
Theorem C19_roundtrip : forall (K : cring) (x : list K) M, 0 < M -> x <> [] ->
  exists X, forme_polyphase x M = Ok X /\ iforme_polyphase X = x ++ repeat c0 ((M - length x mod M) mod M) /\
    m_rows X = M /\ m_cols X = (length x + M - 1) / M /\
    forall m k, m < M -> k < m_cols X -> m_at X m k = Some (samp x (k * M + m)).
Proof. exact polyphase_roundtrip. Qed.
Print Assumptions C19_roundtrip.

Theorem C19_edges : forall (K : cring) (x : list K) M,
  forme_polyphase x 0 = UB /\ (0 < M -> exists X, forme_polyphase (@nil K) M = Ok X /\ iforme_polyphase X = []).
Proof.
  intros K x M. split; [reflexivity|]. intros HM. exists (mkmat 0 0 []). split; [|reflexivity].
  unfold forme_polyphase. rewrite imod_ok by exact HM. reflexivity.
Qed.
Print Assumptions C19_edges.

Example C19_case : exists X, forme_polyphase ([1; 2; 3; 4; 5]%Z : list Zring) 3 = Ok X /\ iforme_polyphase X = [1; 2; 3; 4; 5; 0]%Z.
Proof. eexists. split; reflexivity. Qed.

(** ** C20: CIC filters, on one block from a fresh state *)
Theorem C20_decimator_one_block : forall (K : cring) N R (x : list K), 0 < R -> R <= length x ->
  exists s y, cic_decim (cic_init N R) x = Ok (s, y) /\ length y = length x / R /\
   forall m, m < length y -> samp y m = box_n N R (sampZ x) (Z.of_nat (m * R)).
Proof. exact cic_decim_ok. Qed.
Print Assumptions C20_decimator_one_block.

Theorem C20_interpolator_one_block : forall (K : cring) N R (x : list K), 0 < R -> x <> [] ->
  exists s y, cic_interp (cic_init N R) x = Ok (s, y) /\ length y = length x * R /\
   forall n, n < length y -> samp y n = box_n N R (sampZ (stuff R x)) (Z.of_nat n).
Proof. exact cic_interp_ok. Qed.
Print Assumptions C20_interpolator_one_block.

(** Finding: the result depends on how the signal is cut into blocks. *)
Theorem C20_block_independence_refuted :
  exists s1 s2 s3 s4 : cic Zring,
   run (cic_decim (K:=Zring)) (cic_init 1 1) [[1; 1]%Z] = Ok (s1, [1; 1]%Z) /\
   run (cic_decim (K:=Zring)) (cic_init 1 1) [[1]; [1]]%Z = Ok (s2, [1; 0]%Z) /\
   run (cic_interp (K:=Zring)) (cic_init 1 1) [[1; 1]%Z] = Ok (s3, [1; 1]%Z) /\
   run (cic_interp (K:=Zring)) (cic_init 1 1) [[1]; [1]]%Z = Ok (s4, [1; 0]%Z).
Proof. do 4 eexists. repeat split. Qed.
Print Assumptions C20_block_independence_refuted.

(** Finding: a block shorter than R throws or reads out of bounds instead of
    producing nothing (N > 0). *)
Theorem C20_short_block_refuted : forall (K : cring) N R (x : list K), length x < R ->
  forall s y, cic_decim (cic_init (S N) R) x <> Ok (s, y).
Proof. exact cic_short_block. Qed.
Print Assumptions C20_short_block_refuted.

Example C20_case : exists s : cic Zring, cic_decim (K:=Zring) (cic_init 2 2) [1; 2; 3; 4; 5; 6]%Z = Ok (s, [1; 8; 16]%Z).
Proof. eexists. reflexivity. Qed.
