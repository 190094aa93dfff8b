(** Proofs about the bit stream model. *)
From Verif Require Import Base BaseLemmas BitStream_Model BitStream_Spec.
From Coq Require Import ZifyBool ZifyNat ZifyN.
Ltac Zify.zify_post_hook ::= Z.div_mod_to_equations.

Definition bitat (buf : list N) (i : nat) : bool :=
  N.testbit (nth (i / 8) buf 0%N) (N.of_nat (i mod 8)).

Lemma land_bit b k : negb (N.eqb (N.land b (N.shiftl 1 (N.of_nat k))) 0) = N.testbit b (N.of_nat k).
Proof.
  destruct (N.testbit b (N.of_nat k)) eqn:E.
  - destruct (N.eqb_spec (N.land b (N.shiftl 1 (N.of_nat k))) 0) as [H|H]; [|reflexivity].
    exfalso. assert (T : N.testbit (N.land b (N.shiftl 1 (N.of_nat k))) (N.of_nat k) = true).
    { rewrite N.land_spec, E, N.shiftl_spec_high by lia.
      rewrite N.sub_diag. reflexivity. }
    rewrite H in T. rewrite N.bits_0 in T. discriminate.
  - replace (N.land b (N.shiftl 1 (N.of_nat k))) with 0%N; [reflexivity|].
    symmetry. apply N.bits_inj_iff. intros m. rewrite N.bits_0, N.land_spec.
    destruct (N.eq_dec m (N.of_nat k)) as [->|Hm]; [rewrite E; reflexivity|].
    rewrite N.shiftl_1_l, N.pow2_bits_false by congruence. apply andb_false_r.
Qed.

Lemma byte_set_bit b k v j : j < 8 -> k < 8 ->
  N.testbit (byte_set b k v) (N.of_nat j) = if k =? j then v else N.testbit b (N.of_nat j).
Proof.
  intros Hj Hk. unfold byte_set. rewrite N.shiftl_1_l.
  destruct (Nat.eqb_spec k j) as [->|H]; destruct v.
  - rewrite N.lor_spec, N.pow2_bits_true. apply orb_true_r.
  - rewrite N.land_spec, N.lxor_spec, N.pow2_bits_true.
    replace (N.testbit 255 (N.of_nat j)) with true; [apply andb_false_r|].
    do 8 (destruct j as [|j]; [reflexivity|]). lia.
  - rewrite N.lor_spec, N.pow2_bits_false by lia. apply orb_false_r.
  - rewrite N.land_spec, N.lxor_spec, N.pow2_bits_false by lia.
    replace (N.testbit 255 (N.of_nat j)) with true; [apply andb_true_r|].
    do 8 (destruct j as [|j]; [reflexivity|]). lia.
Qed.

Lemma lt256_bits b : (b < 256)%N <-> forall j, (8 <= j)%N -> N.testbit b j = false.
Proof.
  split.
  - intros H j Hj. destruct (N.eq_dec b 0) as [->|Hb]; [apply N.bits_0|].
    apply N.bits_above_log2. apply N.log2_lt_pow2; [lia|].
    apply N.lt_le_trans with (2 ^ 8)%N; [exact H|]. apply N.pow_le_mono_r; lia.
  - intros H. destruct (N.eq_dec b 0) as [->|Hb]; [lia|].
    change 256%N with (2 ^ 8)%N. apply N.log2_lt_pow2; [lia|].
    destruct (N.lt_ge_cases (N.log2 b) 8) as [|Hge]; [assumption|].
    pose proof (N.bit_log2 b Hb) as B. rewrite H in B by assumption. discriminate.
Qed.

Lemma byte_set_lt b k v : k < 8 -> (b < 256)%N -> (byte_set b k v < 256)%N.
Proof.
  intros Hk Hb. apply lt256_bits. intros j Hj.
  pose proof (proj1 (lt256_bits b) Hb j Hj) as B.
  unfold byte_set. rewrite N.shiftl_1_l. destruct v.
  - rewrite N.lor_spec, B, N.pow2_bits_false by lia. reflexivity.
  - rewrite N.land_spec, B. reflexivity.
Qed.

Definition WF (s : bitstream) : Prop :=
  length (bs_buf s) = (bs_nbits s + 7) / 8 /\ Forall (fun b => (b < 256)%N) (bs_buf s).

Definition bits (s : bitstream) : list bool := map (bitat (bs_buf s)) (seq 0 (bs_nbits s)).

Lemma bits_length s : length (bits s) = bs_nbits s.
Proof. unfold bits. rewrite map_length, seq_length. reflexivity. Qed.

Lemma nth_bits s i : i < bs_nbits s -> nth i (bits s) false = bitat (bs_buf s) i.
Proof.
  intros H. unfold bits.
  rewrite nth_indep with (d' := bitat (bs_buf s) 0) by (rewrite map_length, seq_length; lia).
  rewrite map_nth, seq_nth by lia. reflexivity.
Qed.

Lemma bs_get_buf s i : i < 8 * length (bs_buf s) -> bs_get s i = Ok (bitat (bs_buf s) i).
Proof.
  intros H. unfold bs_get, bitat.
  assert (L : i / 8 < length (bs_buf s)) by lia.
  rewrite (nth_error_nth' (bs_buf s) 0%N L), land_bit. reflexivity.
Qed.

Lemma bs_get_exc s i : 8 * length (bs_buf s) <= i -> bs_get s i = Exc.
Proof.
  intros H. unfold bs_get.
  replace (nth_error (bs_buf s) (i / 8)) with (@None N); [reflexivity|].
  symmetry. apply nth_error_None. lia.
Qed.

Lemma WF_get s i : WF s -> i < bs_nbits s -> bs_get s i = Ok (nth i (bits s) false).
Proof.
  intros [L _] H. rewrite nth_bits by assumption. apply bs_get_buf. lia.
Qed.

Lemma WF_shows s : WF s -> shows s (bits s).
Proof.
  intros H. split; [symmetry; apply bits_length|].
  intros i Hi. rewrite bits_length in Hi. apply WF_get; assumption.
Qed.

(** [set] on a buffer position. *)
Lemma bs_set_buf s i v : i < 8 * length (bs_buf s) -> Forall (fun b => (b < 256)%N) (bs_buf s) ->
  exists buf, bs_set s i v = Ok (mkbs buf (bs_pos s) (bs_nbits s)) /\
    length buf = length (bs_buf s) /\ Forall (fun b => (b < 256)%N) buf /\
    forall j, bitat buf j = if i =? j then v else bitat (bs_buf s) j.
Proof.
  intros H F. unfold bs_set.
  assert (L : i / 8 < length (bs_buf s)) by lia.
  rewrite (nth_error_nth' (bs_buf s) 0%N L).
  eexists; split; [reflexivity|]. split; [apply upd_length|]. split.
  - apply Forall_forall. intros x Hx. apply In_nth with (d := 0%N) in Hx.
    destruct Hx as (n & Hn & <-). rewrite upd_length in Hn. rewrite nth_upd.
    rewrite Forall_forall in F.
    destruct ((i / 8 =? n) && (i / 8 <? length (bs_buf s))) eqn:E.
    + apply byte_set_lt; [lia|]. apply F. apply nth_In. lia.
    + apply F. apply nth_In. lia.
  - intros j. unfold bitat. rewrite nth_upd.
    replace (i / 8 <? length (bs_buf s)) with true by (symmetry; apply Nat.ltb_lt; lia).
    rewrite andb_true_r.
    destruct (Nat.eqb_spec (i / 8) (j / 8)) as [E|E].
    + rewrite byte_set_bit by (apply Nat.mod_upper_bound; lia). rewrite E.
      destruct (Nat.eqb_spec (i mod 8) (j mod 8)) as [E2|E2];
        destruct (Nat.eqb_spec i j) as [E3|E3]; try reflexivity; exfalso; lia.
    + destruct (Nat.eqb_spec i j) as [E3|E3]; [exfalso; subst; lia|reflexivity].
Qed.

Lemma vec_resize_length l n : length (vec_resize l n) = n.
Proof. unfold vec_resize. rewrite app_length, firstn_length, repeat_length. lia. Qed.

Lemma nth_vec_resize l n i : nth i (vec_resize l n) 0%N = if i <? n then nth i l 0%N else 0%N.
Proof.
  unfold vec_resize. destruct (Nat.ltb_spec i n) as [H|H].
  - destruct (Nat.lt_ge_cases i (length l)) as [H2|H2].
    + rewrite app_nth1 by (rewrite firstn_length; lia).
      rewrite <- (firstn_skipn n l) at 2.
      rewrite app_nth1 by (rewrite firstn_length; lia). reflexivity.
    + rewrite app_nth2 by (rewrite firstn_length; lia).
      rewrite nth_repeat. rewrite nth_overflow by lia. reflexivity.
  - apply nth_overflow. rewrite app_length, firstn_length, repeat_length. lia.
Qed.

Lemma Forall_resize (P : N -> Prop) l n : P 0%N -> Forall P l -> Forall P (vec_resize l n).
Proof.
  intros P0 F. unfold vec_resize. apply Forall_app. split.
  - apply Forall_forall. intros x Hx. rewrite Forall_forall in F. apply F.
    rewrite <- (firstn_skipn n l). apply in_or_app. left. exact Hx.
  - apply Forall_forall. intros x Hx. apply repeat_spec in Hx. subst. exact P0.
Qed.

Lemma bits_ext s l : length l = bs_nbits s ->
  (forall i, i < bs_nbits s -> bitat (bs_buf s) i = nth i l false) -> bits s = l.
Proof.
  intros L H. apply (list_ext false); rewrite bits_length; [lia|].
  intros i Hi. rewrite nth_bits by assumption. apply H. assumption.
Qed.

(** [push]: the invariant and the bits; padding beyond the new bit is kept
    from the old byte, or zero in a new byte. *)
Lemma bs_push_spec s b : WF s ->
  exists s', bs_push s b = Ok s' /\ WF s' /\ bits s' = bits s ++ [b] /\ bs_pos s' = bs_pos s /\
    forall j, bs_nbits s < j -> bitat (bs_buf s') j = bitat (bs_buf s) j.
Proof.
  intros [L F]. unfold bs_push.
  set (nb := bs_nbits s + 1).
  set (buf := if 8 * length (bs_buf s) <? nb then vec_resize (bs_buf s) ((nb + 7) / 8) else bs_buf s).
  assert (Lb : length buf = (nb + 7) / 8).
  { unfold buf. destruct (Nat.ltb_spec (8 * length (bs_buf s)) nb).
    - apply vec_resize_length.
    - unfold nb in *. lia. }
  assert (Fb : Forall (fun b => (b < 256)%N) buf).
  { unfold buf. destruct (Nat.ltb_spec (8 * length (bs_buf s)) nb); [|exact F].
    apply Forall_resize; [lia|exact F]. }
  assert (Bb : forall j, bitat buf j = bitat (bs_buf s) j).
  { intros j. unfold buf. destruct (Nat.ltb_spec (8 * length (bs_buf s)) nb); [|reflexivity].
    unfold bitat. rewrite nth_vec_resize.
    destruct (Nat.ltb_spec (j / 8) ((nb + 7) / 8)); [reflexivity|].
    rewrite (nth_overflow (bs_buf s)); [reflexivity|]. unfold nb in *. lia. }
  destruct (bs_set_buf (mkbs buf (bs_pos s) nb) (nb - 1) b) as (buf' & E & L' & F' & B').
  { simpl. unfold nb in *. lia. }
  { exact Fb. }
  simpl in *. rewrite E. eexists. split; [reflexivity|]. split; [|split; [|split]].
  - split; simpl; [lia|exact F'].
  - apply bits_ext; simpl.
    + rewrite app_length, bits_length. reflexivity.
    + intros i Hi. rewrite B', Bb.
      destruct (Nat.eqb_spec (nb - 1) i) as [E2|E2].
      * rewrite app_nth2 by (rewrite bits_length; unfold nb in *; lia).
        rewrite bits_length. replace (i - bs_nbits s) with 0 by (unfold nb in *; lia). reflexivity.
      * rewrite app_nth1 by (rewrite bits_length; unfold nb in *; lia).
        rewrite nth_bits by (unfold nb in *; lia). reflexivity.
  - reflexivity.
  - simpl. intros j Hj. rewrite B', Bb.
    destruct (Nat.eqb_spec (nb - 1) j); [unfold nb in *; lia|reflexivity].
Qed.

(** A stream whose padding bits are zero. *)
Definition clean (s : bitstream) : Prop := forall j, bs_nbits s <= j -> bitat (bs_buf s) j = false.

Lemma bs_push_clean s b s' : WF s -> clean s -> bs_push s b = Ok s' -> clean s'.
Proof.
  intros W C E. destruct (bs_push_spec s b W) as (s1 & E1 & W1 & B1 & _ & P1).
  rewrite E in E1. injection E1 as <-. intros j Hj.
  assert (N1 : bs_nbits s' = bs_nbits s + 1).
  { rewrite <- (bits_length s'), B1, app_length, bits_length. reflexivity. }
  rewrite P1 by lia. apply C. lia.
Qed.

Lemma WF_empty : WF bs_empty.
Proof. split; [reflexivity|constructor]. Qed.
Lemma clean_empty : clean bs_empty.
Proof. intros j _. unfold bitat. change (bs_buf _) with (@nil N). destruct (j / 8); apply N.bits_0. Qed.

(** A loop of pushes. *)
Lemma push_loop n (f : nat -> res bool) (v : nat -> bool) s :
  (forall i, i < n -> f i = Ok (v i)) -> WF s ->
  exists s', loop n (fun i r => let* b := f i in bs_push r b) s = Ok s' /\ WF s' /\
    bits s' = bits s ++ map v (seq 0 n) /\ bs_pos s' = bs_pos s /\ (clean s -> clean s').
Proof.
  intros Hf W. induction n as [|n IH].
  - exists s. simpl. rewrite app_nil_r. auto.
  - destruct IH as (s1 & E1 & W1 & B1 & P1 & C1); [intros; apply Hf; lia|].
    cbn [loop]. rewrite E1. cbn [bind]. rewrite Hf by lia. cbn [bind].
    destruct (bs_push_spec s1 (v n) W1) as (s2 & E2 & W2 & B2 & P2 & _).
    exists s2. split; [exact E2|]. split; [exact W2|].
    split; [rewrite B2, B1, seq_S, map_app, app_assoc; reflexivity|].
    split; [congruence|]. intros C. eapply bs_push_clean; [| |exact E2]; auto.
Qed.

Lemma bs_pad_spec s n : WF s ->
  exists s', bs_pad s n = Ok s' /\ WF s' /\ bits s' = bits s ++ repeat false n /\
    bs_pos s' = bs_pos s /\ (clean s -> clean s').
Proof.
  intros W. destruct (push_loop n (fun _ => Ok false) (fun _ => false) s) as (s' & E & H); auto.
  exists s'. split; [exact E|].
  replace (repeat false n) with (map (fun _ : nat => false) (seq 0 n)); [exact H|].
  clear. generalize 0. induction n as [|n IH]; intros k; simpl; [reflexivity|]. rewrite IH. reflexivity.
Qed.

Lemma map_nth_bits (l : list bool) : map (fun i => nth i l false) (seq 0 (length l)) = l.
Proof.
  apply (list_ext false).
  - rewrite map_length, seq_length. reflexivity.
  - intros i Hi. rewrite map_length, seq_length in Hi.
    rewrite nth_indep with (d' := nth 0 l false) by (rewrite map_length, seq_length; lia).
    rewrite (map_nth (fun i => nth i l false)), seq_nth by lia. reflexivity.
Qed.

Lemma bs_cat_spec s t : WF s -> WF t ->
  exists r, bs_cat s t = Ok r /\ WF r /\ bits r = bits s ++ bits t /\ clean r.
Proof.
  intros Ws Wt. unfold bs_cat, bs_lon.
  destruct (push_loop (bs_nbits s) (bs_get s) (fun i => nth i (bits s) false) bs_empty)
    as (r1 & E1 & W1 & B1 & _ & C1).
  { intros i Hi. apply WF_get; assumption. }
  { apply WF_empty. }
  rewrite E1. cbn [bind].
  destruct (push_loop (bs_nbits t) (bs_get t) (fun i => nth i (bits t) false) r1)
    as (r2 & E2 & W2 & B2 & _ & C2).
  { intros i Hi. apply WF_get; assumption. }
  { exact W1. }
  exists r2. rewrite E2. split; [reflexivity|]. split; [exact W2|].
  split; [|apply C2, C1, clean_empty].
  rewrite B2, B1. change (bits bs_empty) with (@nil bool). simpl.
  rewrite <- (bits_length s), <- (bits_length t), !map_nth_bits. reflexivity.
Qed.

Lemma bs_pad_mult_spec s m : WF s -> 0 < m ->
  exists s', bs_pad_mult s m = Ok s' /\ WF s' /\
    bits s' = bits s ++ repeat false (ceil_mult (length (bits s)) m - length (bits s)) /\
    (clean s -> clean s').
Proof.
  intros W Hm. unfold bs_pad_mult, bs_lon, ceil_mult. rewrite bits_length.
  destruct (Nat.eqb_spec m 0); [lia|].
  assert (D : bs_nbits s = m * (bs_nbits s / m) + bs_nbits s mod m) by (apply Nat.div_mod; lia).
  assert (U : bs_nbits s mod m < m) by (apply Nat.mod_upper_bound; lia).
  set (q := bs_nbits s / m) in *. set (r := bs_nbits s mod m) in *.
  destruct (Nat.eqb_spec r 0) as [R|R].
  - exists s. split; [reflexivity|]. split; [exact W|]. split; [|auto].
    assert (E : (bs_nbits s + m - 1) / m = q).
    { symmetry. apply Nat.div_unique with (r := m - 1); nia. }
    rewrite E. replace (q * m - bs_nbits s) with 0 by nia. simpl. rewrite app_nil_r. reflexivity.
  - destruct (bs_pad_spec s (m - r) W) as (s' & E & W' & B & _ & C).
    exists s'. split; [exact E|]. split; [exact W'|]. split; [|exact C].
    assert (E2 : (bs_nbits s + m - 1) / m = q + 1).
    { symmetry. apply Nat.div_unique with (r := r - 1); nia. }
    rewrite E2. replace ((q + 1) * m - bs_nbits s) with (m - r) by nia. exact B.
Qed.

Lemma bs_push_u32_spec s v : WF s ->
  exists s', bs_push_u32 s v = Ok s' /\ WF s' /\ bits s' = bits s ++ u32_bits v /\
    bs_pos s' = bs_pos s /\ (clean s -> clean s').
Proof.
  intros W.
  destruct (push_loop 32 (fun j => Ok (negb (N.eqb (N.land v (N.shiftl 1 (N.of_nat j))) 0)))
              (fun j => N.testbit v (N.of_nat j)) s) as (s' & E & H); auto.
  - intros i _. rewrite land_bit. reflexivity.
  - exists s'. split; [exact E|exact H].
Qed.

Lemma clean_clear s : WF s -> WF (bs_clear s) /\ bits (bs_clear s) = [] /\ clean (bs_clear s).
Proof.
  intros _. split; [split; [reflexivity|constructor]|]. split; [reflexivity|].
  intros j _. unfold bitat. change (bs_buf _) with (@nil N). destruct (j / 8); apply N.bits_0.
Qed.

Lemma upd_firstn_skipn {A} (l : list A) i v : i < length l ->
  upd l i v = firstn i l ++ [v] ++ skipn (S i) l.
Proof.
  revert i; induction l as [|a t IH]; intros [|i] H; simpl in *; try lia; auto.
  rewrite IH by lia. reflexivity.
Qed.

Lemma bs_set_spec s i b : WF s ->
  (i < bs_nbits s -> exists s', bs_set s i b = Ok s' /\ WF s' /\ bs_pos s' = bs_pos s /\
      bits s' = upd (bits s) i b /\ (clean s -> clean s')) /\
  (bs_nbits s <= i < ceil_mult (bs_nbits s) 8 ->
     exists s', bs_set s i b = Ok s' /\ WF s' /\ bits s' = bits s) /\
  (ceil_mult (bs_nbits s) 8 <= i -> bs_set s i b = Exc).
Proof.
  intros [L F]. unfold ceil_mult. split; [|split].
  - intros H. destruct (bs_set_buf s i b) as (buf & E & L2 & F2 & B2); [lia|exact F|].
    rewrite E. eexists; split; [reflexivity|]. split; [split; simpl; [lia|exact F2]|].
    split; [reflexivity|]. split.
    + apply bits_ext; simpl; [rewrite upd_length, bits_length; reflexivity|].
      intros j Hj. rewrite B2, nth_upd, bits_length.
      replace (i <? bs_nbits s) with true by (symmetry; apply Nat.ltb_lt; lia).
      rewrite andb_true_r. destruct (i =? j); [reflexivity|].
      rewrite nth_bits by assumption. reflexivity.
    + intros C j Hj. simpl in *. rewrite B2. destruct (Nat.eqb_spec i j); [lia|]. apply C. lia.
  - intros H. destruct (bs_set_buf s i b) as (buf & E & L2 & F2 & B2); [lia|exact F|].
    rewrite E. eexists; split; [reflexivity|]. split; [split; simpl; [lia|exact F2]|].
    apply bits_ext; simpl; [rewrite bits_length; reflexivity|].
    intros j Hj. rewrite B2. destruct (Nat.eqb_spec i j); [lia|].
    rewrite nth_bits by assumption. reflexivity.
  - intros H. unfold bs_set.
    replace (nth_error (bs_buf s) (i / 8)) with (@None N); [reflexivity|].
    symmetry. apply nth_error_None. lia.
Qed.

(** Main refinement. *)
Lemma exec_denote_wf p : prog_ok p ->
  match denote p with
  | Some l => exists s, exec p = Ok s /\ WF s /\ bits s = l /\ (no_overwrite p -> clean s)
  | None => exec p = Exc
  end.
Proof.
  induction p as [|p IH b|p IH i b|p IHp q IHq|p IH n|p IH m|p IH v|p IH]; cbn [denote exec prog_ok no_overwrite]; intros HP.
  - exists bs_empty. split; [reflexivity|]. split; [apply WF_empty|]. split; [reflexivity|].
    intros _. apply clean_empty.
  - specialize (IH HP). destruct (denote p) as [l|]; [|rewrite IH; reflexivity].
    destruct IH as (s & E & W & B & C). rewrite E. cbn [bind].
    destruct (bs_push_spec s b W) as (s' & E' & W' & B' & _).
    exists s'. split; [exact E'|]. split; [exact W'|]. split; [congruence|].
    intros HO. eapply bs_push_clean; [exact W|auto|exact E'].
  - specialize (IH HP). destruct (denote p) as [l|]; [|rewrite IH; reflexivity].
    destruct IH as (s & E & W & B & C). rewrite E. cbn [bind].
    assert (LN : length l = bs_nbits s) by (rewrite <- B; apply bits_length).
    destruct (bs_set_spec s i b W) as (S1 & S2 & S3). rewrite LN.
    destruct (Nat.ltb_spec i (bs_nbits s)) as [H|H].
    + destruct (S1 H) as (s' & E' & W' & _ & B' & C'). exists s'.
      split; [exact E'|]. split; [exact W'|].
      split; [rewrite B', B; apply upd_firstn_skipn; lia|].
      intros [HO _]. auto.
    + destruct (Nat.ltb_spec i (ceil_mult (bs_nbits s) 8)) as [H2|H2].
      * destruct (S2 (conj H H2)) as (s' & E' & W' & B'). exists s'.
        split; [exact E'|]. split; [exact W'|]. split; [congruence|].
        intros [_ HO]. lia.
      * apply S3. exact H2.
  - destruct HP as [HPp HPq]. specialize (IHp HPp). specialize (IHq HPq).
    destruct (denote p) as [l|]; [|rewrite IHp; reflexivity].
    destruct IHp as (s & E & W & B & _). rewrite E. cbn [bind].
    destruct (denote q) as [l2|]; [|rewrite IHq; reflexivity].
    destruct IHq as (t & E2 & W2 & B2 & _). rewrite E2. cbn [bind].
    destruct (bs_cat_spec s t W W2) as (r & E3 & W3 & B3 & C3).
    exists r. split; [exact E3|]. split; [exact W3|]. split; [congruence|]. auto.
  - specialize (IH HP). destruct (denote p) as [l|]; [|rewrite IH; reflexivity].
    destruct IH as (s & E & W & B & C). rewrite E. cbn [bind].
    destruct (bs_pad_spec s n W) as (s' & E' & W' & B' & _ & C').
    exists s'. split; [exact E'|]. split; [exact W'|]. split; [congruence|]. auto.
  - destruct HP as [HP Hm]. specialize (IH HP). destruct (denote p) as [l|]; [|rewrite IH; reflexivity].
    destruct IH as (s & E & W & B & C). rewrite E. cbn [bind].
    destruct (bs_pad_mult_spec s m W Hm) as (s' & E' & W' & B' & C').
    exists s'. split; [exact E'|]. split; [exact W'|]. split; [congruence|]. auto.
  - destruct HP as [HP _]. specialize (IH HP). destruct (denote p) as [l|]; [|rewrite IH; reflexivity].
    destruct IH as (s & E & W & B & C). rewrite E. cbn [bind].
    destruct (bs_push_u32_spec s v W) as (s' & E' & W' & B' & _ & C').
    exists s'. split; [exact E'|]. split; [exact W'|]. split; [congruence|]. auto.
  - specialize (IH HP). destruct (denote p) as [l|]; [|rewrite IH; reflexivity].
    destruct IH as (s & E & W & B & C). rewrite E. cbn [bind].
    destruct (clean_clear s W) as (W' & B' & C').
    exists (bs_clear s). auto.
Qed.

Lemma exec_denote p : prog_ok p ->
  match denote p with
  | Some l => exists s, exec p = Ok s /\ shows s l
  | None => exec p = Exc
  end.
Proof.
  intros HP. pose proof (exec_denote_wf p HP) as H. destruct (denote p); [|exact H].
  destruct H as (s & E & W & B & _). exists s. split; [exact E|]. rewrite <- B. apply WF_shows, W.
Qed.

(** Reading. *)
Lemma pops_spec s n : WF s -> bs_pos s + n <= bs_nbits s ->
  pops n s = Ok (mkbs (bs_buf s) (bs_pos s + n) (bs_nbits s), firstn n (skipn (bs_pos s) (bits s))).
Proof.
  revert s; induction n as [|n IH]; intros s W H; cbn [pops].
  - destruct s; simpl. rewrite Nat.add_0_r. reflexivity.
  - unfold bs_pop. rewrite (WF_get s (bs_pos s) W) by lia. cbn [bind].
    set (s1 := mkbs (bs_buf s) (bs_pos s + 1) (bs_nbits s)).
    rewrite (IH s1) by (try exact W; subst s1; simpl; lia).
    cbn [bind]. subst s1. simpl bs_buf. simpl bs_pos. simpl bs_nbits.
    f_equal. f_equal.
    + f_equal. lia.
    + change (bits _) with (bits s).
      assert (L : bs_pos s < length (bits s)) by (rewrite bits_length; lia).
      rewrite Nat.add_1_r.
      clear IH W H. revert L. generalize (bits s) as l. generalize (bs_pos s) as k.
      induction k as [|k IHk]; intros [|a l] L; simpl in *; try lia; auto.
      apply IHk. lia.
Qed.

Lemma pop_past_exc s : WF s -> ceil_mult (bs_nbits s) 8 <= bs_pos s -> bs_pop s = Exc.
Proof.
  intros [L _] H. unfold bs_pop. rewrite bs_get_exc; [reflexivity|].
  unfold ceil_mult in H. lia.
Qed.

(** pop_u32 *)
Lemma pop_u32_loop s n : WF s -> bs_pos s + n <= bs_nbits s -> n <= 32 ->
  exists w, loop n (fun j sr => let* (s1, b) := bs_pop (fst sr) in
             Ok (s1, N.lor (snd sr) (N.shiftl (N.land (if b then 1 else 0) 1) (N.of_nat j))))
       (s, 0%N) = Ok (mkbs (bs_buf s) (bs_pos s + n) (bs_nbits s), w) /\
    forall j, N.testbit w j = if (j <? N.of_nat n)%N then nth (bs_pos s + N.to_nat j) (bits s) false else false.
Proof.
  intros W. induction n as [|n IH]; intros H Hn.
  - exists 0%N. split; [destruct s; simpl; rewrite Nat.add_0_r; reflexivity|].
    intros j. rewrite N.bits_0. destruct (N.ltb_spec j (N.of_nat 0)); [lia|reflexivity].
  - destruct IH as (w & E & T); [lia|lia|]. cbn [loop]. rewrite E. cbn [bind fst snd].
    unfold bs_pop. simpl bs_pos.
    rewrite (bs_get_buf (mkbs (bs_buf s) (bs_pos s + n) (bs_nbits s))) by (destruct W; simpl; lia).
    cbn [bind bs_buf bs_nbits].
    eexists. split; [f_equal; f_equal; f_equal; lia|].
    intros j. rewrite N.lor_spec, T.
    replace (N.land (if bitat (bs_buf s) (bs_pos s + n) then 1 else 0) 1)
      with (N.b2n (bitat (bs_buf s) (bs_pos s + n))) by (destruct (bitat (bs_buf s) (bs_pos s + n)); reflexivity).
    destruct (N.ltb_spec j (N.of_nat n)) as [H1|H1].
    + rewrite N.shiftl_spec_low by assumption. rewrite orb_false_r.
      destruct (N.ltb_spec j (N.of_nat (S n))); [reflexivity|lia].
    + rewrite N.shiftl_spec_high by lia. simpl orb.
      destruct (N.ltb_spec j (N.of_nat (S n))) as [H2|H2].
      * replace j with (N.of_nat n) by lia. rewrite N.sub_diag, Nat2N.id, N.b2n_bit0.
        rewrite nth_bits by lia. reflexivity.
      * destruct (bitat (bs_buf s) (bs_pos s + n)); [|apply N.bits_0].
        change (N.b2n true) with (2 ^ 0)%N. apply N.pow2_bits_false. lia.
Qed.

Lemma u32_bits_length v : length (u32_bits v) = 32.
Proof. reflexivity. Qed.

Lemma nth_u32_bits v j : j < 32 -> nth j (u32_bits v) false = N.testbit v (N.of_nat j).
Proof.
  intros H. unfold u32_bits.
  rewrite nth_indep with (d' := N.testbit v (N.of_nat 0)) by (rewrite map_length, seq_length; lia).
  rewrite (map_nth (fun j => N.testbit v (N.of_nat j))), seq_nth by lia. reflexivity.
Qed.

Lemma pop_u32_wf s l v m : WF s -> bits s = l ++ u32_bits v ++ m -> bs_pos s = length l ->
  (v < 2 ^ 32)%N ->
  bs_pop_u32 s = Ok (mkbs (bs_buf s) (length l + 32) (bs_nbits s), v).
Proof.
  intros W B P Hv. unfold bs_pop_u32.
  assert (LN : bs_nbits s = length l + (32 + length m)).
  { rewrite <- bits_length, B, !app_length, u32_bits_length. reflexivity. }
  destruct (pop_u32_loop s 32 W) as (w & E & T); [lia|lia|].
  rewrite E, P. f_equal. f_equal. apply N.bits_inj. intros j. rewrite T.
  change (N.of_nat 32) with 32%N.
  destruct (N.ltb_spec j 32) as [H|H].
  - rewrite B, P, app_nth2 by lia. replace (length l + N.to_nat j - length l) with (N.to_nat j) by lia.
    rewrite app_nth1 by (rewrite u32_bits_length; lia). rewrite nth_u32_bits by lia.
    rewrite N2Nat.id. reflexivity.
  - destruct (N.eq_dec v 0) as [->|Hv0]; [rewrite N.bits_0; reflexivity|].
    symmetry. apply N.bits_above_log2. apply N.log2_lt_pow2; [lia|].
    apply N.lt_le_trans with (2 ^ 32)%N; [exact Hv|]. apply N.pow_le_mono_r; lia.
Qed.

(** Equality of clean streams. *)
Lemma bytes_eqb_spec l1 l2 : bytes_eqb l1 l2 = true <-> l1 = l2.
Proof.
  revert l2; induction l1 as [|a t IH]; intros [|b u]; simpl; try (split; congruence).
  rewrite andb_true_iff, N.eqb_eq, IH. split; [intros [-> ->]; reflexivity|intros [= -> ->]; auto].
Qed.

Lemma buf_of_bits s t : WF s -> WF t -> clean s -> clean t -> bits s = bits t -> bs_buf s = bs_buf t.
Proof.
  intros [Ls Fs] [Lt Ft] Cs Ct B.
  assert (E : bs_nbits s = bs_nbits t) by (rewrite <- !bits_length, B; reflexivity).
  apply (list_ext 0%N); [congruence|]. intros i Hi.
  apply N.bits_inj. intros j.
  destruct (N.lt_ge_cases j 8) as [Hj|Hj].
  - assert (A : forall buf, N.testbit (nth i buf 0%N) j = bitat buf (8 * i + N.to_nat j)).
    { intros buf. unfold bitat.
      replace ((8 * i + N.to_nat j) / 8) with i by lia.
      replace (N.of_nat ((8 * i + N.to_nat j) mod 8)) with j by lia. reflexivity. }
    rewrite !A. set (k := 8 * i + N.to_nat j).
    destruct (Nat.lt_ge_cases k (bs_nbits s)) as [Hk|Hk].
    + rewrite <- !nth_bits by lia. rewrite B. reflexivity.
    + rewrite Cs, Ct by lia. reflexivity.
  - rewrite Forall_forall in Fs, Ft.
    rewrite (proj1 (lt256_bits _) (Fs _ (nth_In _ _ Hi)) j Hj).
    assert (Hi2 : i < length (bs_buf t)) by lia.
    rewrite (proj1 (lt256_bits _) (Ft _ (nth_In _ _ Hi2)) j Hj). reflexivity.
Qed.

Lemma bits_of_buf s t : bs_nbits s = bs_nbits t -> bs_buf s = bs_buf t -> bits s = bits t.
Proof. intros E1 E2. unfold bits. rewrite E1, E2. reflexivity. Qed.

Lemma exec_eqb p q l1 l2 s t : prog_ok p -> prog_ok q -> no_overwrite p -> no_overwrite q ->
  denote p = Some l1 -> denote q = Some l2 -> exec p = Ok s -> exec q = Ok t ->
  length l1 = length l2 -> (bs_eqb s t = true <-> l1 = l2).
Proof.
  intros Pp Pq Np Nq Dp Dq Ep Eq L.
  pose proof (exec_denote_wf p Pp) as Hp. rewrite Dp in Hp.
  destruct Hp as (s' & Es & Ws & Bs & Cs). rewrite Ep in Es. injection Es as <-.
  pose proof (exec_denote_wf q Pq) as Hq. rewrite Dq in Hq.
  destruct Hq as (t' & Et & Wt & Bt & Ct). rewrite Eq in Et. injection Et as <-.
  unfold bs_eqb. rewrite bytes_eqb_spec. rewrite <- Bs, <- Bt. split.
  - intros E. apply bits_of_buf; [|exact E]. rewrite <- !bits_length, Bs, Bt. exact L.
  - intros E. apply buf_of_bits; auto.
Qed.

(** Hamming distance. *)
Lemma hamming_shows s t l1 l2 : shows s l1 -> shows t l2 -> length l1 = length l2 ->
  bs_hamming s t = Ok (ndiff l1 l2).
Proof.
  intros [Ls Gs] [Lt Gt] L. unfold bs_hamming. rewrite Ls, Lt.
  destruct (Nat.eqb_spec (length l2) (length l1)); [|lia]. simpl negb. cbv iota.
  assert (G : forall n, n <= length l1 ->
    loop n (fun i cnt => let* a := bs_get s i in let* b := bs_get t i in
            Ok (if eqb a b then cnt else cnt + 1)) 0 = Ok (ndiff (firstn n l1) (firstn n l2))).
  { induction n as [|n IH]; intros Hn; [reflexivity|].
    cbn [loop]. rewrite IH by lia. cbn [bind]. rewrite Gs, Gt by lia. cbn [bind]. f_equal.
    clear - L Hn. revert n l2 L Hn. induction l1 as [|a l1 IH]; intros n [|b l2] L Hn; simpl in *; try lia.
    destruct n as [|n]; simpl.
    - destruct (eqb a b); reflexivity.
    - rewrite <- IH by lia. destruct (eqb (nth n l1 false) (nth n l2 false)); lia. }
  rewrite G by lia. rewrite firstn_all, L, firstn_all. reflexivity.
Qed.

Lemma hamming_exc s t l1 l2 : shows s l1 -> shows t l2 -> length l1 <> length l2 ->
  bs_hamming s t = Exc.
Proof.
  intros [Ls _] [Lt _] L. unfold bs_hamming. rewrite Ls, Lt.
  destruct (Nat.eqb_spec (length l2) (length l1)); [lia|reflexivity].
Qed.

(** altern *)
Fixpoint alt_bits (n : nat) : list bool :=
  match n with O => [] | S m => alt_bits m ++ [true; false] end.

Lemma altern_loop n : exists s,
  loop n (fun _ r => let* r1 := bs_push r true in bs_push r1 false) bs_empty = Ok s /\
  WF s /\ bits s = alt_bits n.
Proof.
  induction n as [|n IH].
  - exists bs_empty. split; [reflexivity|]. split; [apply WF_empty|reflexivity].
  - destruct IH as (s & E & W & B). cbn [loop]. rewrite E. cbn [bind].
    destruct (bs_push_spec s true W) as (s1 & E1 & W1 & B1 & _). rewrite E1. cbn [bind].
    destruct (bs_push_spec s1 false W1) as (s2 & E2 & W2 & B2 & _). rewrite E2.
    exists s2. split; [reflexivity|]. split; [exact W2|].
    rewrite B2, B1, B. cbn [alt_bits]. rewrite <- app_assoc. reflexivity.
Qed.

Lemma alt_bits_length n : length (alt_bits n) = 2 * n.
Proof. induction n as [|n IH]; simpl; [reflexivity|]. rewrite app_length, IH. simpl. lia. Qed.

Lemma alt_bits_nth n i : i < 2 * n -> nth i (alt_bits n) false = Nat.even i.
Proof.
  induction n as [|n IH]; intros H; [lia|]. cbn [alt_bits].
  destruct (Nat.lt_ge_cases i (2 * n)) as [H1|H1].
  - rewrite app_nth1 by (rewrite alt_bits_length; lia). apply IH. exact H1.
  - rewrite app_nth2 by (rewrite alt_bits_length; lia). rewrite alt_bits_length.
    destruct (Nat.eq_dec i (2 * n)) as [->|H2].
    + rewrite Nat.sub_diag. symmetry. apply Nat.even_spec. exists n. lia.
    + replace i with (2 * n + 1) by lia. replace (2 * n + 1 - 2 * n) with 1 by lia.
      simpl nth. symmetry. rewrite Nat.even_add, Nat.even_mul. reflexivity.
Qed.

Lemma altern_spec n : exists s l, bs_altern n = Ok s /\ shows s l /\ length l = n + 2 /\
  forall i, i < length l -> nth i l false = Nat.even i.
Proof.
  unfold bs_altern. set (k := (n + 1 + 1) / 2).
  destruct (altern_loop k) as (s & E & W & B). rewrite E. cbn [bind].
  destruct (Nat.odd n) eqn:O.
  - apply Nat.odd_spec in O. destruct O as [q Hq].
    assert (K : k = q + 1) by (unfold k; lia).
    destruct (bs_push_spec s true W) as (s1 & E1 & W1 & B1 & _). rewrite E1.
    exists s1, (bits s1). split; [reflexivity|]. split; [apply WF_shows, W1|].
    rewrite B1, B, app_length, alt_bits_length. simpl length. split; [lia|].
    intros i Hi. destruct (Nat.lt_ge_cases i (2 * k)) as [H1|H1].
    + rewrite app_nth1 by (rewrite alt_bits_length; lia). apply alt_bits_nth. lia.
    + replace i with (2 * k) by lia. rewrite app_nth2 by (rewrite alt_bits_length; lia).
      rewrite alt_bits_length, Nat.sub_diag. simpl nth. symmetry. apply Nat.even_spec. exists k. lia.
  - assert (Ev : Nat.even n = true).
    { rewrite <- Nat.negb_odd, O. reflexivity. }
    apply Nat.even_spec in Ev. destruct Ev as [q Hq].
    assert (K : k = q + 1) by (unfold k; lia).
    exists s, (bits s). split; [reflexivity|]. split; [apply WF_shows, W|].
    rewrite B, alt_bits_length. split; [lia|]. intros i Hi. apply alt_bits_nth. lia.
Qed.

(** String constructor / printing round trip. *)
Lemma of_chars_spec l s : WF s ->
  (forall c, In c l -> c = 48 \/ c = 49) ->
  exists s', bs_of_chars s l = Ok s' /\ WF s' /\ bits s' = bits s ++ map (Nat.eqb 49) l.
Proof.
  revert s; induction l as [|c t IH]; intros s W H; cbn [bs_of_chars].
  - exists s. simpl. rewrite app_nil_r. auto.
  - destruct (H c (or_introl eq_refl)) as [-> | ->]; simpl Nat.eqb; cbv iota.
    + destruct (bs_push_spec s false W) as (s1 & E1 & W1 & B1 & _). rewrite E1. cbn [bind].
      destruct (IH s1 W1) as (s2 & E2 & W2 & B2); [intros; apply H; right; assumption|].
      exists s2. split; [exact E2|]. split; [exact W2|]. rewrite B2, B1, <- app_assoc. reflexivity.
    + destruct (bs_push_spec s true W) as (s1 & E1 & W1 & B1 & _). rewrite E1. cbn [bind].
      destruct (IH s1 W1) as (s2 & E2 & W2 & B2); [intros; apply H; right; assumption|].
      exists s2. split; [exact E2|]. split; [exact W2|]. rewrite B2, B1, <- app_assoc. reflexivity.
Qed.

Lemma of_chars_exc l s : WF s -> (exists c, In c l /\ c <> 48 /\ c <> 49) -> bs_of_chars s l = Exc.
Proof.
  revert s; induction l as [|c t IH]; intros s W (x & Hx & H48 & H49); [destruct Hx|].
  cbn [bs_of_chars].
  destruct (Nat.eqb_spec c 49) as [->|N49]; [|destruct (Nat.eqb_spec c 48) as [->|N48]; [|reflexivity]];
    (destruct Hx as [Hx|Hx]; [congruence|]).
  - destruct (bs_push_spec s true W) as (s1 & E1 & W1 & _). rewrite E1. cbn [bind].
    apply IH; [exact W1|]. exists x. auto.
  - destruct (bs_push_spec s false W) as (s1 & E1 & W1 & _). rewrite E1. cbn [bind].
    apply IH; [exact W1|]. exists x. auto.
Qed.

Lemma to_chars_shows s l : shows s l ->
  bs_to_chars s = Ok (map (fun b : bool => if b then 49 else 48) l).
Proof.
  intros [L G]. unfold bs_to_chars. rewrite L.
  assert (A : forall n, n <= length l ->
    loop n (fun i acc => let* b := bs_get s i in Ok (acc ++ [if b then 49 else 48])) []
    = Ok (map (fun b : bool => if b then 49 else 48) (firstn n l))).
  { induction n as [|n IH]; intros Hn; [reflexivity|].
    cbn [loop]. rewrite IH by lia. cbn [bind]. rewrite G by lia. cbn [bind]. f_equal.
    clear - Hn. revert n Hn. induction l as [|a t IHl]; intros n Hn; simpl in *; [lia|].
    destruct n as [|n]; [reflexivity|]. simpl. rewrite <- IHl by lia. reflexivity. }
  rewrite A by lia. rewrite firstn_all. reflexivity.
Qed.

Lemma iarray_shows s l : shows s l ->
  bs_iarray s = Ok (map (fun b : bool => if b then 1 else 0) l).
Proof.
  intros [L G]. unfold bs_iarray. rewrite L.
  assert (A : forall n, n <= length l ->
    loop n (fun i acc => let* b := bs_get s i in Ok (acc ++ [if b then 1 else 0])) []
    = Ok (map (fun b : bool => if b then 1 else 0) (firstn n l))).
  { induction n as [|n IH]; intros Hn; [reflexivity|].
    cbn [loop]. rewrite IH by lia. cbn [bind]. rewrite G by lia. cbn [bind]. f_equal.
    clear - Hn. revert n Hn. induction l as [|a t IHl]; intros n Hn; simpl in *; [lia|].
    destruct n as [|n]; [reflexivity|]. simpl. rewrite <- IHl by lia. reflexivity. }
  rewrite A by lia. rewrite firstn_all. reflexivity.
Qed.

(** Statements used by the property file. *)
Lemma bits_restart s : bits (bs_restart s) = bits s.
Proof. reflexivity. Qed.

Lemma exec_wf p l s : prog_ok p -> denote p = Some l -> exec p = Ok s -> WF s /\ bits s = l.
Proof.
  intros P D E. pose proof (exec_denote_wf p P) as H. rewrite D in H.
  destruct H as (s' & E' & W & B & _). rewrite E in E'. injection E' as <-. auto.
Qed.

Lemma pop_sequence p l s n : prog_ok p -> denote p = Some l -> exec p = Ok s -> n <= length l ->
  exists s', pops n (bs_restart s) = Ok (s', firstn n l) /\ (bs_eof s' = true <-> n = length l).
Proof.
  intros P D E Hn. destruct (exec_wf p l s P D E) as [W B].
  assert (LN : bs_nbits s = length l) by (rewrite <- B; symmetry; apply bits_length).
  eexists. split.
  - rewrite pops_spec; [|exact W|simpl; lia]. simpl. rewrite bits_restart, B. reflexivity.
  - unfold bs_eof. simpl. rewrite Nat.leb_le. lia.
Qed.

Lemma get_outside p l s i : prog_ok p -> denote p = Some l -> exec p = Ok s ->
  ceil_mult (length l) 8 <= i -> bs_get s i = Exc.
Proof.
  intros P D E H. destruct (exec_wf p l s P D E) as [[L _] B].
  apply bs_get_exc. rewrite <- B, bits_length in H. unfold ceil_mult in H. lia.
Qed.

Lemma u32_at p l v m s : prog_ok p -> denote p = Some (l ++ u32_bits v ++ m) -> exec p = Ok s ->
  (v < 2 ^ 32)%N ->
  exists s1, pops (length l) (bs_restart s) = Ok (s1, l) /\
  exists s2, bs_pop_u32 s1 = Ok (s2, v) /\ bs_eof s2 = (length m =? 0).
Proof.
  intros P D E Hv. destruct (exec_wf _ _ s P D E) as [W B].
  assert (LN : bs_nbits s = length l + (32 + length m)).
  { rewrite <- bits_length, B, !app_length, u32_bits_length. reflexivity. }
  eexists. split.
  - rewrite pops_spec; [|exact W|simpl; lia]. simpl. rewrite bits_restart, B.
    rewrite firstn_app, firstn_all, Nat.sub_diag. simpl. rewrite app_nil_r. reflexivity.
  - rewrite (pop_u32_wf _ l v m); [| |exact B|reflexivity|exact Hv].
    + eexists. split; [reflexivity|]. unfold bs_eof. simpl. rewrite LN.
      destruct (Nat.eqb_spec (length m) 0); [apply Nat.leb_le; lia|apply Nat.leb_gt; lia].
    + exact W.
Qed.

Fixpoint push_words (p : bsprog) (ws : list N) : bsprog :=
  match ws with [] => p | w :: t => push_words (PU32 p w) t end.
Fixpoint pop_words (n : nat) (s : bitstream) : res (bitstream * list N) :=
  match n with
  | O => Ok (s, [])
  | S m => let* (s1, w) := bs_pop_u32 s in let* (s2, l) := pop_words m s1 in Ok (s2, w :: l)
  end.

Lemma denote_push_words ws : forall p l, denote p = Some l ->
  denote (push_words p ws) = Some (l ++ concat (map u32_bits ws)).
Proof.
  induction ws as [|w t IH]; intros p l D; cbn [push_words].
  - simpl. rewrite app_nil_r. exact D.
  - rewrite (IH (PU32 p w) (l ++ u32_bits w)); [|cbn [denote]; rewrite D; reflexivity].
    cbn [map concat]. rewrite app_assoc. reflexivity.
Qed.

Lemma prog_ok_push_words ws : forall p, prog_ok p -> Forall (fun w => (w < 2 ^ 32)%N) ws ->
  prog_ok (push_words p ws).
Proof.
  induction ws as [|w t IH]; intros p P F; cbn [push_words]; [exact P|].
  inversion F; subst. apply IH; [split; assumption|assumption].
Qed.

Lemma pop_words_wf ws : forall s l, WF s -> bits s = l ++ concat (map u32_bits ws) ->
  bs_pos s = length l -> Forall (fun w => (w < 2 ^ 32)%N) ws ->
  exists s', pop_words (length ws) s = Ok (s', ws) /\ bs_eof s' = true.
Proof.
  induction ws as [|w t IH]; intros s l W B P F; cbn [pop_words length].
  - exists s. split; [reflexivity|]. unfold bs_eof. apply Nat.leb_le.
    rewrite <- bits_length, B, P, app_length. simpl. lia.
  - inversion F; subst. cbn [map concat] in B.
    rewrite (pop_u32_wf s l w (concat (map u32_bits t)) W B P) by assumption. cbn [bind].
    destruct (IH (mkbs (bs_buf s) (length l + 32) (bs_nbits s)) (l ++ u32_bits w)) as (s' & E & O).
    + exact W.
    + rewrite <- app_assoc. exact B.
    + simpl. rewrite app_length, u32_bits_length. reflexivity.
    + assumption.
    + exists s'. rewrite E. cbn [bind]. auto.
Qed.

Lemma words_roundtrip ws s : Forall (fun w => (w < 2 ^ 32)%N) ws ->
  exec (push_words PEmpty ws) = Ok s ->
  exists s', pop_words (length ws) (bs_restart s) = Ok (s', ws) /\ bs_eof s' = true.
Proof.
  intros F E.
  assert (P : prog_ok (push_words PEmpty ws)) by (apply prog_ok_push_words; simpl; auto).
  pose proof (denote_push_words ws PEmpty [] eq_refl) as D.
  destruct (exec_wf _ _ s P D E) as [W B].
  apply (pop_words_wf ws (bs_restart s) []); [exact W|exact B|reflexivity|exact F].
Qed.

Lemma hamming_prog p q l1 l2 s t : prog_ok p -> prog_ok q ->
  denote p = Some l1 -> denote q = Some l2 -> exec p = Ok s -> exec q = Ok t ->
  bs_hamming s t = if length l1 =? length l2 then Ok (ndiff l1 l2) else Exc.
Proof.
  intros Pp Pq Dp Dq Ep Eq.
  destruct (exec_wf _ _ s Pp Dp Ep) as [Ws Bs].
  destruct (exec_wf _ _ t Pq Dq Eq) as [Wt Bt].
  pose proof (WF_shows s Ws) as Ss. rewrite Bs in Ss.
  pose proof (WF_shows t Wt) as St. rewrite Bt in St.
  destruct (Nat.eqb_spec (length l1) (length l2)) as [L|L].
  - apply hamming_shows; assumption.
  - eapply hamming_exc; eassumption.
Qed.

Lemma string_roundtrip l : (forall c, In c l -> c = 48 \/ c = 49) ->
  exists s, bs_of_chars bs_empty l = Ok s /\ shows s (map (Nat.eqb 49) l) /\ bs_to_chars s = Ok l.
Proof.
  intros H. destruct (of_chars_spec l bs_empty WF_empty H) as (s & E & W & B).
  change (bits bs_empty) with (@nil bool) in B. cbn [app] in B.
  assert (S : shows s (map (Nat.eqb 49) l)) by (rewrite <- B; apply WF_shows, W).
  exists s. split; [exact E|]. split; [exact S|].
  rewrite (to_chars_shows _ _ S). f_equal. rewrite map_map.
  rewrite <- (map_id l) at 2. apply map_ext_in. intros c Hc.
  destruct (H c Hc) as [-> | ->]; reflexivity.
Qed.

Lemma prog_to_iarray p l s : prog_ok p -> denote p = Some l -> exec p = Ok s ->
  bs_iarray s = Ok (map (fun b : bool => if b then 1 else 0) l).
Proof.
  intros P D E. destruct (exec_wf p l s P D E) as [W B].
  apply iarray_shows. rewrite <- B. apply WF_shows, W.
Qed.

Lemma pad_mult_arith (l : list bool) m : 0 < m ->
  let l' := l ++ repeat false (ceil_mult (length l) m - length l) in
  l' = l ++ repeat false (length l' - length l) /\
  length l' mod m = 0 /\ length l <= length l' < length l + m.
Proof.
  intros Hm l'. 
  assert (A : length l <= ceil_mult (length l) m < length l + m).
  { unfold ceil_mult. pose proof (Nat.div_mod (length l + m - 1) m ltac:(lia)) as D.
    pose proof (Nat.mod_upper_bound (length l + m - 1) m ltac:(lia)) as U. nia. }
  assert (L : length l' = ceil_mult (length l) m).
  { unfold l'. rewrite app_length, repeat_length. lia. }
  rewrite L. split; [reflexivity|]. split; [|exact A].
  unfold ceil_mult. apply Nat.mod_mul. lia.
Qed.

Lemma altern_wrong_length n : exists s, bs_altern n = Ok s /\ bs_lon s <> n.
Proof.
  destruct (altern_spec n) as (s & l & E & [L _] & Hl & _). exists s. split; [exact E|]. lia.
Qed.

Lemma pad_mult_prog p l m : prog_ok p -> denote p = Some l -> 0 < m ->
  exists s l', exec (PPadMult p m) = Ok s /\ shows s l' /\
    l' = l ++ repeat false (length l' - length l) /\
    length l' mod m = 0 /\ length l <= length l' < length l + m.
Proof.
  intros P D Hm. pose proof (exec_denote (PPadMult p m) (conj P Hm)) as H.
  cbn [denote] in H. rewrite D in H. destruct H as (s & E & S).
  exists s. eexists. split; [exact E|]. split; [exact S|]. exact (pad_mult_arith l m Hm).
Qed.
