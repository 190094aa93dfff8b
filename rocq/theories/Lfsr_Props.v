(** C07, C08: maximal-length sequences and the PRBS receiver. *)
From Verif Require Import Base BitStream_Model BitStream_Spec Lfsr_Model Lfsr_Spec Lfsr_Proofs.

(** C07. code_mls(n), 1 <= n <= 16: 2^n-1 bits, 2^(n-1) of them ones, periodic
    autocorrelation -1 at every non-zero shift. *)
Theorem C07_mls : forall n, 1 <= n <= 16 -> exists s l, code_mls n = Ok s /\ shows s l /\
  length l = 2 ^ n - 1 /\ ones l = 2 ^ (n - 1) /\
  forall tau, 0 < tau < length l -> corr l tau = (-1)%Z.
Proof. exact mls_main. Qed.
Print Assumptions C07_mls.

(** C07. With the table polynomial the register runs through every non-zero
    value exactly once, then is back to its initial value. *)
Theorem C07_all_states_visited_once : forall n p, 1 <= n <= 16 -> pol_prim (Z.of_nat n) = Ok p ->
  let c := mkcfg n p 1 0 POIDS_FAIBLE in
  gen_state c 1 (2 ^ n - 1) = 1%N /\
  forall r, (0 < r < 2 ^ N.of_nat n)%N ->
    exists t, t < 2 ^ n - 1 /\ gen_state c 1 t = r /\
      forall t', t' < 2 ^ n - 1 -> gen_state c 1 t' = r -> t' = t.
Proof. exact mls_states. Qed.
Print Assumptions C07_all_states_visited_once.

(** C07. Every non-zero pattern of n bits appears exactly once in the (circular) sequence. *)
Theorem C07_window_property : forall n s l w, 1 <= n <= 16 -> code_mls n = Ok s -> shows s l ->
  length w = n -> (exists j, nth j w false = true) ->
  exists t, t < length l /\ (forall j, j < n -> nth ((t + j) mod length l) l false = nth j w false) /\
  forall t', t' < length l -> (forall j, j < n -> nth ((t' + j) mod length l) l false = nth j w false) -> t' = t.
Proof. exact mls_windows'. Qed.
Print Assumptions C07_window_property.

(** C07. Degrees outside the table are refused. *)
Theorem C07_other_degrees : forall n, n = 0 \/ 16 < n -> code_mls n = Exc.
Proof. exact mls_exc. Qed.
Print Assumptions C07_other_degrees.

(** C07. A generator configured by its register length only starts with a
    transient of 16-n bits (its start value does not fit the register); from
    then on its register is non-zero and its output obeys the recurrence. *)
Theorem C07_default_generator : forall n, 1 <= n <= 16 -> exists c g, gen_configure n = Ok (c, g) /\
  let g1 := gen_state c g (16 - n) in
  (0 < g1 < 2 ^ N.of_nat n)%N /\
  (forall k, gen_step c (bs_empty, g) (16 - n + k) = let* st := gen_step c (bs_empty, g) (16 - n) in gen_step c st k) /\
  prbs_seq n (pol c) (fun t => gen_out c (gen_state c g (t + (16 - n)))).
Proof. exact default_gen. Qed.
Print Assumptions C07_default_generator.

(** C07 (finding). The first bits of that generator do not obey the recurrence. *)
Theorem C07_default_generator_start_refuted : exists n c g, 1 <= n <= 16 /\ gen_configure n = Ok (c, g) /\
  ~ prbs_seq n (pol c) (fun t => gen_out c (gen_state c g t)).
Proof.
  exists 4. do 2 eexists. split; [lia|]. split; [vm_compute; reflexivity|].
  intros H. specialize (H 5). vm_compute in H. discriminate H.
Qed.
Print Assumptions C07_default_generator_start_refuted.

Example C07_case : exists s, code_mls 3 = Ok s /\ bs_to_chars s = Ok [49;48;48;49;49;49;48] /\
  shows s [true;false;false;true;true;true;false].
Proof.
  eexists. split; [vm_compute; reflexivity|]. split; [vm_compute; reflexivity|].
  split; [reflexivity|]. intros i Hi. do 7 (destruct i as [|i]; [reflexivity|]). simpl in Hi. lia.
Qed.

(** C08. Whatever the output mode and the start value of the generator, its
    output obeys the recurrence of the polynomial. *)
Theorem C08_generator_recurrence : forall n p m g ps s k,
  pol_prim (Z.of_nat n) = Ok p -> (g < 2 ^ N.of_nat n)%N ->
  gen_step (mkcfg n p g ps m) (bs_empty, g) k = Ok s ->
  exists b, prbs_seq n p b /\ shows (fst s) (map b (seq 0 k)).
Proof. exact gen_prbs'. Qed.
Print Assumptions C08_generator_recurrence.

(** C08. The receiver treats a block of bits like the bits one by one (so that
    the way a stream is cut in blocks does not matter). *)
Theorem C08_blocks : forall r s l, shows s l -> rx_step r s = Ok (rx_feed r l).
Proof. exact rx_step_feed. Qed.
Print Assumptions C08_blocks.

(** C08. On a sequence obeying the recurrence the receiver is locked after at
    most n+21 bits (not before 21) and never counts an error. *)
Theorem C08_clean_lock : forall n p b r m, pol_prim (Z.of_nat n) = Ok p -> prbs_seq n p b ->
  rx_configure n = Ok r -> n + 21 <= m ->
  rx_locked (rx_feed r (map b (seq 0 m))) = true /\ rx_nerr (rx_feed r (map b (seq 0 m))) = 0%N /\
  (N.of_nat (m - (n + 21)) <= rx_nbits (rx_feed r (map b (seq 0 m))) <= N.of_nat (m - 21))%N.
Proof. exact rx_clean. Qed.
Print Assumptions C08_clean_lock.

(** C08. End to end: generator (any mode, any start value) into receiver. *)
Theorem C08_link : forall n m ps g k, 1 <= n <= 16 -> (g < 2 ^ N.of_nat n)%N -> n + 21 <= k ->
  exists p s g' r r', pol_prim (Z.of_nat n) = Ok p /\
    gen_step (mkcfg n p g ps m) (bs_empty, g) k = Ok (s, g') /\
    rx_configure n = Ok r /\ rx_step r s = Ok r' /\
    rx_locked r' = true /\ rx_nerr r' = 0%N.
Proof.
  intros n m ps g k Hn Hg Hk. destruct (link n m ps g k Hn Hg Hk) as (s & g' & r & r' & H).
  exists (tabpol n), s, g', r, r'. split; [exact (pol_prim_ok n Hn)|exact H].
Qed.
Print Assumptions C08_link.

(** C08. Once locked, the error counter is the exact number of received bits
    that differ from the sent sequence, and the lock is kept, as long as no
    more than 5 consecutive bits are wrong. *)
Theorem C08_counts_errors : forall n p b r m l, pol_prim (Z.of_nat n) = Ok p -> prbs_seq n p b ->
  rx_configure n = Ok r -> n + 21 <= m ->
  no_run 5 0 l (map b (seq m (length l))) = true ->
  let r1 := rx_feed r (map b (seq 0 m)) in
  let r2 := rx_feed r1 l in
  rx_locked r2 = true /\ rx_nerr r2 = N.of_nat (ndiff l (map b (seq m (length l)))) /\
  rx_nbits r2 = (rx_nbits r1 + N.of_nat (length l))%N.
Proof. exact rx_noise. Qed.
Print Assumptions C08_counts_errors.

(** C08. Six consecutive wrong bits unlock it; it then locks again on any
    sequence obeying the recurrence, without counting new errors. *)
Theorem C08_loses_and_reacquires : forall n p b r m b2 m2, pol_prim (Z.of_nat n) = Ok p -> prbs_seq n p b ->
  prbs_seq n p b2 -> rx_configure n = Ok r -> n + 21 <= m -> n + 21 <= m2 ->
  let r1 := rx_feed r (map b (seq 0 m) ++ map (fun i => negb (b i)) (seq m 6)) in
  let r2 := rx_feed r1 (map b2 (seq 0 m2)) in
  rx_locked r1 = false /\ rx_locked r2 = true /\ rx_nerr r2 = rx_nerr r1.
Proof. exact rx_lose_and_reacquire. Qed.
Print Assumptions C08_loses_and_reacquires.

(** C08 (finding). A constant zero input (no signal) is reported as locked
    without errors. *)
Theorem C08_locks_only_on_signal_refuted : forall n p r m, pol_prim (Z.of_nat n) = Ok p ->
  rx_configure n = Ok r -> n + 21 <= m ->
  rx_locked (rx_feed r (repeat false m)) = true /\ rx_nerr (rx_feed r (repeat false m)) = 0%N.
Proof. exact zero_locks. Qed.
Print Assumptions C08_locks_only_on_signal_refuted.

(** A case: PRBS of degree 5, errors at isolated positions. *)
Example C08_case : exists p r st s, pol_prim 5 = Ok p /\ rx_configure 5 = Ok r /\
  gen_step (mkcfg 5 p 9 0 POIDS_FAIBLE) (bs_empty, 9%N) 40 = Ok (s, st) /\
  (let* r' := rx_step r s in Ok (rx_state r')) = Ok (true, Some (0, 15)%N) /\
  no_run 5 0 [true;true;false] [false;true;true] = true.
Proof.
  do 4 eexists. split; [vm_compute; reflexivity|]. split; [vm_compute; reflexivity|].
  split; [vm_compute; reflexivity|]. vm_compute. split; reflexivity.
Qed.
