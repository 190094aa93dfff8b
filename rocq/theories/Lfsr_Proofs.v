(** Proofs for maximal-length sequences and the PRBS receiver. *)
From Verif Require Import Base BaseLemmas BitStream_Model BitStream_Spec BitStream_Proofs
  Lfsr_Model Lfsr_Spec.
From Coq Require Import ZifyBool ZifyNat ZifyN.

Definition tb (x : N) (j : nat) : bool := N.testbit x (N.of_nat j).

Lemma tb_ext a b : (forall j, tb a j = tb b j) -> a = b.
Proof.
  intros H. apply N.bits_inj. intros n. specialize (H (N.to_nat n)). unfold tb in H.
  rewrite N2Nat.id in H. exact H.
Qed.

Lemma tb_small x n : (x < 2 ^ N.of_nat n)%N <-> (forall j, n <= j -> tb x j = false).
Proof.
  split.
  - intros H j Hj. unfold tb. destruct (N.eq_dec x 0) as [->|X]; [apply N.bits_0|].
    apply N.bits_above_log2. apply N.log2_lt_pow2; [lia|].
    apply N.lt_le_trans with (1 := H). apply N.pow_le_mono_r; lia.
  - intros H. destruct (N.eq_dec x 0) as [->|X].
    + apply N.neq_0_lt_0. apply N.pow_nonzero. lia.
    + apply N.log2_lt_pow2; [lia|]. destruct (N.lt_ge_cases (N.log2 x) (N.of_nat n)) as [L|L]; [exact L|].
      specialize (H (N.to_nat (N.log2 x))). unfold tb in H. rewrite N2Nat.id, N.bit_log2 in H by exact X.
      discriminate H. lia.
Qed.

Lemma tb_b2n b j : tb (b2n b) j = (j =? 0) && b.
Proof.
  unfold tb, b2n. destruct b; [|rewrite andb_false_r; apply N.bits_0].
  rewrite andb_true_r. destruct (Nat.eqb_spec j 0) as [->|H]; [reflexivity|].
  change 1%N with (2 ^ 0)%N. apply N.pow2_bits_false. lia.
Qed.

Lemma tb_reg_next n r b j : 0 < n ->
  tb (reg_next n r b) j = tb r (S j) || ((j =? n - 1) && b).
Proof.
  intros Hn. unfold reg_next, tb at 1. rewrite N.lor_spec, N.shiftr_spec'. f_equal.
  - unfold tb. f_equal. lia.
  - destruct (Nat.lt_ge_cases j (n - 1)) as [L|L].
    + rewrite N.shiftl_spec_low by lia. destruct (Nat.eqb_spec j (n - 1)); [lia|reflexivity].
    + rewrite N.shiftl_spec_high' by lia.
      replace (N.of_nat j - N.of_nat (n - 1))%N with (N.of_nat (j - (n - 1))) by lia.
      change (tb (b2n b) (j - (n - 1)) = (j =? n - 1) && b). rewrite tb_b2n. f_equal. lia.
Qed.

Lemma tb_reg_next_lt n r b j : 0 < n -> (r < 2 ^ N.of_nat n)%N -> 
  tb (reg_next n r b) j = if S j <? n then tb r (S j) else (j =? n - 1) && b.
Proof.
  intros Hn Hr. rewrite tb_reg_next by exact Hn. rewrite tb_small in Hr.
  destruct (Nat.ltb_spec (S j) n).
  - destruct (Nat.eqb_spec j (n - 1)); [lia|]. apply orb_false_r.
  - rewrite Hr by lia. reflexivity.
Qed.

Lemma reg_next_lt n r b : 0 < n -> (r < 2 ^ N.of_nat n)%N -> (reg_next n r b < 2 ^ N.of_nat n)%N.
Proof.
  intros Hn Hr. apply tb_small. intros j Hj. rewrite tb_reg_next_lt by assumption.
  destruct (Nat.ltb_spec (S j) n); [lia|]. destruct (Nat.eqb_spec j (n - 1)); [lia|reflexivity].
Qed.

(** Xor of a family of bits. *)
Fixpoint xs (n : nat) (f : nat -> bool) : bool :=
  match n with O => false | S m => xorb (xs m f) (f m) end.

Lemma xs_ext n f g : (forall j, j < n -> f j = g j) -> xs n f = xs n g.
Proof. induction n as [|n IH]; intros H; simpl; [reflexivity|]. rewrite IH, H; auto. Qed.

Lemma xs_xor n f g : xs n (fun j => xorb (f j) (g j)) = xorb (xs n f) (xs n g).
Proof.
  induction n as [|n IH]; simpl; [reflexivity|]. rewrite IH.
  destruct (xs n f), (xs n g), (f n), (g n); reflexivity.
Qed.

Lemma xs_S_l n f : xs (S n) f = xorb (f 0) (xs n (fun j => f (S j))).
Proof.
  induction n as [|n IH]; [simpl; destruct (f 0); reflexivity|].
  change (xs (S (S n)) f) with (xorb (xs (S n) f) (f (S n))). rewrite IH.
  cbn [xs]. rewrite xorb_assoc. reflexivity.
Qed.

Lemma taps_xs n p b t : taps n p b t = xs n (fun m => tb p m && b (t + m)).
Proof. induction n as [|n IH]; simpl; [reflexivity|]. rewrite IH. reflexivity. Qed.

Lemma land1_tb x : negb (N.eqb (N.land x 1) 0) = tb x 0.
Proof.
  change 1%N with (N.ones 1). rewrite N.land_ones. change (2 ^ 1)%N with 2%N.
  unfold tb. change (N.of_nat 0) with 0%N. rewrite <- N.bit0_mod.
  destruct (N.testbit x 0); reflexivity.
Qed.

Lemma xor_low_xs n x : xor_low n x = xs n (tb x).
Proof.
  induction n as [|n IH]; simpl; [reflexivity|]. rewrite IH. f_equal.
  rewrite land1_tb. unfold tb. rewrite N.shiftr_spec'. f_equal.
Qed.

Lemma parity_step x : parity x = xorb (tb x 0) (parity (N.div2 x)).
Proof.
  destruct x as [|[q|q|]]; try reflexivity.
  cbn. destruct (pos_parity q); reflexivity.
Qed.

Lemma tb_div2 x j : tb (N.div2 x) j = tb x (S j).
Proof. unfold tb. rewrite N.div2_spec, N.shiftr_spec'. f_equal. lia. Qed.

Lemma parity_xs n x : (x < 2 ^ N.of_nat n)%N -> parity x = xs n (tb x).
Proof.
  revert x; induction n as [|n IH]; intros x H.
  - simpl in H. replace x with 0%N by lia. reflexivity.
  - rewrite xs_S_l, parity_step. f_equal. rewrite IH.
    + apply xs_ext. intros j _. apply tb_div2.
    + apply tb_small. intros j Hj. rewrite tb_div2. rewrite tb_small in H. apply H. lia.
Qed.

Lemma tb_land a b j : tb (N.land a b) j = tb a j && tb b j.
Proof. apply N.land_spec. Qed.

Lemma land_lt a b n : (b < 2 ^ N.of_nat n)%N -> (N.land a b < 2 ^ N.of_nat n)%N.
Proof.
  rewrite !tb_small. intros H j Hj. rewrite tb_land, H by exact Hj. apply andb_false_r.
Qed.

(** ** The table *)
Definition tabpol (n : nat) : N := N.lor (nth n pols_prim 0%N) 1.

Lemma pol_prim_ok n : 1 <= n <= 16 -> pol_prim (Z.of_nat n) = Ok (tabpol n).
Proof.
  intros H. unfold pol_prim. destruct (Z.leb_spec (Z.of_nat n) 0); [lia|].
  destruct (Z.leb_spec 17 (Z.of_nat n)); [lia|]. rewrite Nat2Z.id. reflexivity.
Qed.

Lemma in_1_16 (P : nat -> Prop) : (forall n, In n (seq 1 16) -> P n) -> forall n, 1 <= n <= 16 -> P n.
Proof. intros H n Hn. apply H, in_seq. lia. Qed.

Lemma tabpol_ok n : 1 <= n <= 16 -> (tabpol n < 2 ^ N.of_nat n)%N /\ tb (tabpol n) 0 = true.
Proof.
  revert n. apply in_1_16. intros n H.
  assert (A : forallb (fun n => (tabpol n <? 2 ^ N.of_nat n)%N && tb (tabpol n) 0) (seq 1 16) = true)
    by (vm_compute; reflexivity).
  rewrite forallb_forall in A. specialize (A n H). apply andb_true_iff in A.
  destruct A as [A B]. apply N.ltb_lt in A. auto.
Qed.

(** ** The generator *)
Definition cfg (n : nat) (m : sortie_mode) (ps : N) : lfsr_cfg := mkcfg n (tabpol n) 1 ps m.

Section Gen.
Variable c : lfsr_cfg.
Let n := reglen c.
Hypothesis Hn : 0 < n.
Hypothesis Hp : (pol c < 2 ^ N.of_nat n)%N.

Let L := gen_next c.

Lemma L_tb r j : (r < 2 ^ N.of_nat n)%N ->
  tb (L r) j = if S j <? n then tb r (S j)
               else (j =? n - 1) && xs n (fun m => tb (pol c) m && tb r m).
Proof.
  intros Hr. unfold L, gen_next. fold n. rewrite tb_reg_next_lt by assumption.
  rewrite (parity_xs n) by (apply land_lt; exact Hp).
  rewrite (xs_ext n (tb (N.land r (pol c))) (fun m => tb (pol c) m && tb r m)); [reflexivity|].
  intros j' _. rewrite tb_land. apply andb_comm.
Qed.

Lemma L_lt r : (r < 2 ^ N.of_nat n)%N -> (L r < 2 ^ N.of_nat n)%N.
Proof. intros H. apply reg_next_lt; assumption. Qed.

Lemma L_lin a b : (a < 2 ^ N.of_nat n)%N -> (b < 2 ^ N.of_nat n)%N ->
  L (N.lxor a b) = N.lxor (L a) (L b).
Proof.
  intros Ha Hb. apply tb_ext. intros j.
  assert (X : forall x y i, tb (N.lxor x y) i = xorb (tb x i) (tb y i)) by (intros; apply N.lxor_spec).
  assert (Hx : (N.lxor a b < 2 ^ N.of_nat n)%N).
  { apply tb_small. intros i Hi. rewrite X. rewrite tb_small in Ha, Hb. rewrite Ha, Hb by exact Hi. reflexivity. }
  rewrite X, !L_tb by assumption. destruct (S j <? n); [apply X|].
  destruct (j =? n - 1); [|reflexivity]. simpl.
  rewrite <- xs_xor. apply xs_ext. intros i _. rewrite X.
  destruct (tb (pol c) i), (tb a i), (tb b i); reflexivity.
Qed.

Definition st r t := gen_state c r t.

Lemma st_S r t : st r (S t) = L (st r t). Proof. reflexivity. Qed.
Lemma st_add r t u : st r (t + u) = st (st r u) t.
Proof. induction t as [|t IH]; [reflexivity|]. simpl Nat.add. rewrite !st_S, IH. reflexivity. Qed.
Lemma st_lt r t : (r < 2 ^ N.of_nat n)%N -> (st r t < 2 ^ N.of_nat n)%N.
Proof. intros H. induction t as [|t IH]; [exact H|]. rewrite st_S. apply L_lt, IH. Qed.
Lemma st_lin a b t : (a < 2 ^ N.of_nat n)%N -> (b < 2 ^ N.of_nat n)%N ->
  st (N.lxor a b) t = N.lxor (st a t) (st b t).
Proof.
  intros Ha Hb. induction t as [|t IH]; [reflexivity|].
  rewrite !st_S, IH. apply L_lin; apply st_lt; assumption.
Qed.

(** Bit [j] of the register is the low bit [j] steps later. *)
Lemma st_bits r t j : (r < 2 ^ N.of_nat n)%N -> j < n -> tb (st r t) j = tb (st r (t + j)) 0.
Proof.
  intros Hr. revert t; induction j as [|j IH]; intros t Hj; [rewrite Nat.add_0_r; reflexivity|].
  replace (t + S j) with (S t + j) by lia. rewrite <- IH by lia.
  rewrite st_S, L_tb by (apply st_lt; exact Hr). destruct (Nat.ltb_spec (S j) n); [reflexivity|lia].
Qed.

(** The low bits obey the recurrence. *)
Lemma st_rec r : (r < 2 ^ N.of_nat n)%N -> prbs_seq n (pol c) (fun t => tb (st r t) 0).
Proof.
  intros Hr t. rewrite taps_xs.
  replace (t + n) with (S t + (n - 1)) by lia. rewrite <- st_bits by (assumption || lia).
  rewrite st_S, L_tb by (apply st_lt; exact Hr).
  destruct (Nat.ltb_spec (S (n - 1)) n); [lia|]. rewrite Nat.eqb_refl. simpl.
  apply xs_ext. intros j Hj. rewrite st_bits by assumption. reflexivity.
Qed.

(** Injectivity of one step, when the mask contains bit 0. *)
Lemma L_inj a b : tb (pol c) 0 = true -> (a < 2 ^ N.of_nat n)%N -> (b < 2 ^ N.of_nat n)%N ->
  L a = L b -> a = b.
Proof.
  intros H0 Ha Hb E. 
  assert (HS : forall j, tb a (S j) = tb b (S j)).
  { intros j. destruct (Nat.lt_ge_cases (S j) n) as [H|H].
    - pose proof (f_equal (fun x => tb x j) E) as E'. cbv beta in E'.
      rewrite !L_tb in E' by assumption. destruct (Nat.ltb_spec (S j) n); [exact E'|lia].
    - rewrite tb_small in Ha, Hb. rewrite Ha, Hb by exact H. reflexivity. }
  apply tb_ext. intros [|j]; [|apply HS].
  pose proof (f_equal (fun x => tb x (n - 1)) E) as E'. cbv beta in E'.
  rewrite !L_tb in E' by assumption. destruct (Nat.ltb_spec (S (n - 1)) n); [lia|].
  rewrite Nat.eqb_refl in E'. simpl in E'.
  replace n with (S (n - 1)) in E' by lia. rewrite !xs_S_l in E'. rewrite H0 in E'. simpl in E'.
  rewrite (xs_ext (n - 1) (fun j => tb (pol c) (S j) && tb a (S j)) (fun j => tb (pol c) (S j) && tb b (S j))) in E'
    by (intros; rewrite HS; reflexivity).
  destruct (xs (n - 1) _), (tb a 0), (tb b 0); simpl in E'; congruence.
Qed.

Lemma st_inj a b t : tb (pol c) 0 = true -> (a < 2 ^ N.of_nat n)%N -> (b < 2 ^ N.of_nat n)%N ->
  st a t = st b t -> a = b.
Proof.
  intros H0 Ha Hb. induction t as [|t IH]; intros E; [exact E|].
  rewrite !st_S in E. apply IH. apply L_inj; auto; apply st_lt; assumption.
Qed.

Lemma st_zero t : st 0 t = 0%N.
Proof.
  induction t as [|t IH]; [reflexivity|]. rewrite st_S, IH. unfold L, gen_next. rewrite N.land_0_l.
  unfold reg_next, parity, b2n. rewrite N.shiftl_0_l. reflexivity.
Qed.
End Gen.

(** Output bits of a step. *)
Lemma gen_loop c k s r : WF s -> exists s',
  loop k (fun _ st => let* bs := bs_push (fst st) (gen_out c (snd st)) in Ok (bs, gen_next c (snd st))) (s, r)
    = Ok (s', gen_state c r k) /\ WF s' /\
    bits s' = bits s ++ map (fun t => gen_out c (gen_state c r t)) (seq 0 k).
Proof.
  intros W. induction k as [|k IH].
  - exists s. simpl. rewrite app_nil_r. auto.
  - destruct IH as (s1 & E1 & W1 & B1). rewrite loop_S, E1. cbn [bind fst snd].
    destruct (bs_push_spec s1 (gen_out c (gen_state c r k)) W1) as (s2 & E2 & W2 & B2 & _).
    rewrite E2. cbn [bind]. exists s2. split; [reflexivity|]. split; [exact W2|].
    rewrite B2, B1, seq_S, map_app, app_assoc. reflexivity.
Qed.

Lemma gen_step_spec c k s r : 0 < reglen c <= 32 -> WF s -> exists s',
  gen_step c (s, r) k = Ok (s', gen_state c r k) /\ WF s' /\
    bits s' = bits s ++ map (fun t => gen_out c (gen_state c r t)) (seq 0 k).
Proof.
  intros Hc W. unfold gen_step.
  destruct (Nat.eqb_spec (reglen c) 0); [lia|]. destruct (Nat.ltb_spec 32 (reglen c)); [lia|].
  apply gen_loop. exact W.
Qed.

(** ** Period of the table polynomials *)

(** Iterate until the register is 1 again: number of steps done. *)
Fixpoint ret_time (c : lfsr_cfg) (fuel : nat) (r : N) (t : N) : option N :=
  match fuel with
  | O => None
  | S f => if (r =? 1)%N then Some t else ret_time c f (gen_next c r) (t + 1)%N
  end.

Lemma ret_time_spec c fuel r0 k r t T : r = gen_state c r0 k -> t = N.of_nat k ->
  ret_time c fuel r t = Some T ->
  gen_state c r0 (N.to_nat T) = 1%N /\ k <= N.to_nat T /\
  forall j, k <= j < N.to_nat T -> gen_state c r0 j <> 1%N.
Proof.
  revert k r t; induction fuel as [|f IH]; intros k r t Hr Ht H; cbn [ret_time] in H; [discriminate|].
  destruct (N.eqb_spec r 1) as [E|E].
  - injection H as <-. subst t. rewrite Nat2N.id. rewrite <- Hr. split; [exact E|]. split; [lia|]. lia.
  - destruct (IH (S k) (gen_next c r) (t + 1)%N) as (A & B & C); [subst r; reflexivity|lia|exact H|].
    split; [exact A|]. split; [lia|]. intros j Hj.
    destruct (Nat.eq_dec j k) as [->|]; [rewrite <- Hr; exact E|]. apply C. lia.
Qed.

Definition fuel_big : nat := Nat.pow 2 17.
Lemma table_period_check :
  forallb (fun n => match ret_time (cfg n POIDS_FAIBLE 0) fuel_big (gen_next (cfg n POIDS_FAIBLE 0) 1) 1 with
                    | Some T => (T =? 2 ^ N.of_nat n - 1)%N | None => false end) (seq 1 16) = true.
Proof. vm_compute. reflexivity. Qed.

Lemma table_period n : 1 <= n <= 16 ->
  gen_state (cfg n POIDS_FAIBLE 0) 1 (2 ^ n - 1) = 1%N /\
  forall j, 1 <= j < 2 ^ n - 1 -> gen_state (cfg n POIDS_FAIBLE 0) 1 j <> 1%N.
Proof.
  revert n. apply in_1_16. intros n H. pose proof table_period_check as A.
  rewrite forallb_forall in A. specialize (A n H).
  destruct (ret_time _ _ _ _) as [T|] eqn:E; [|discriminate]. apply N.eqb_eq in A.
  assert (TT : N.to_nat T = 2 ^ n - 1).
  { rewrite A, N2Nat.inj_sub, N2Nat.inj_pow, Nat2N.id. reflexivity. }
  destruct (ret_time_spec (cfg n POIDS_FAIBLE 0) fuel_big 1%N 1 _ 1%N T eq_refl eq_refl E) as (B & C & D).
  rewrite TT in B, D. auto.
Qed.

Section Table.
Variable n : nat.
Hypothesis Hn : 1 <= n <= 16.
Let c := cfg n POIDS_FAIBLE 0.
Let P := 2 ^ n - 1.
Let S_ := gen_state c 1.

Lemma c_pos : 0 < reglen c. Proof. cbn. lia. Qed.
Lemma c_pol : (pol c < 2 ^ N.of_nat (reglen c))%N.
Proof. apply (tabpol_ok n Hn). Qed.
Lemma c_odd : tb (pol c) 0 = true.
Proof. apply (tabpol_ok n Hn). Qed.
Lemma one_lt : (1 < 2 ^ N.of_nat n)%N.
Proof. change 1%N with (2 ^ 0)%N at 1. apply N.pow_lt_mono_r; lia. Qed.
Lemma P_pos : 0 < P.
Proof. unfold P. assert (2 ^ 1 <= 2 ^ n) by (apply Nat.pow_le_mono_r; lia). simpl in H. lia. Qed.

Lemma S_lt t : (S_ t < 2 ^ N.of_nat n)%N.
Proof. apply (st_lt c c_pos). exact one_lt. Qed.

Lemma S_per t : S_ (t + P) = S_ t.
Proof.
  unfold S_. change (st c 1 (t + P) = st c 1 t). rewrite st_add. f_equal. apply (table_period n Hn).
Qed.

Lemma S_inj_lt i j : i < P -> j < P -> S_ i = S_ j -> i = j.
Proof.
  assert (A : forall i j, i < j -> j < P -> S_ i <> S_ j).
  { intros i' j' Hij Hj E. unfold S_ in E. change (st c 1 i' = st c 1 j') in E.
    replace j' with (i' + (j' - i')) in E by lia. rewrite st_add in E.
    apply (st_inj c c_pos c_pol) in E; [|exact c_odd|exact one_lt|apply (st_lt c c_pos); exact one_lt].
    destruct (table_period n Hn) as [_ D]. apply (D (j' - i')); [unfold P in *; lia|].
    symmetry. exact E. }
  intros Hi Hj E. destruct (Nat.lt_trichotomy i j) as [H|[H|H]]; [|exact H|].
  - destruct (A i j H Hj E).
  - symmetry in E. destruct (A j i H Hi E).
Qed.

Lemma S_nz t : S_ t <> 0%N.
Proof.
  intros E. unfold S_ in E. change (st c 1 t = 0%N) in E. rewrite <- (st_zero c t) in E.
  apply (st_inj c c_pos c_pol) in E; [discriminate|exact c_odd|exact one_lt|].
  pose proof one_lt. cbn. lia.
Qed.

Lemma two_pow_N : N.of_nat (2 ^ n) = (2 ^ N.of_nat n)%N.
Proof. rewrite Nat2N.inj_pow. reflexivity. Qed.

Lemma visit r : (0 < r < 2 ^ N.of_nat n)%N -> exists t, t < P /\ S_ t = r.
Proof.
  intros Hr. set (all := map N.of_nat (seq 1 P)). set (vis := map S_ (seq 0 P)).
  assert (ND : NoDup vis).
  { apply NoDup_nth_error. intros i j Hi E. unfold vis in *. rewrite map_length, seq_length in Hi.
    assert (Hj : j < P).
    { assert (nth_error (map S_ (seq 0 P)) j <> None) as K.
      { rewrite <- E. apply nth_error_Some. rewrite map_length, seq_length. exact Hi. }
      apply nth_error_Some in K. rewrite map_length, seq_length in K. exact K. }
    assert (V : forall k, k < P -> nth_error (map S_ (seq 0 P)) k = Some (S_ k)).
    { intros k Hk. apply map_nth_error. rewrite nth_error_nth' with (d := 0) by (rewrite seq_length; exact Hk).
      rewrite seq_nth by exact Hk. reflexivity. }
    rewrite !V in E by assumption. injection E as E. apply S_inj_lt; assumption. }
  assert (IN : incl vis all).
  { intros x Hx. apply in_map_iff in Hx. destruct Hx as (t & <- & _).
    apply in_map_iff. exists (N.to_nat (S_ t)). split; [apply N2Nat.id|].
    apply in_seq. pose proof (S_lt t). pose proof (S_nz t). pose proof two_pow_N. unfold P in *.
    pose proof P_pos. unfold P in *. lia. }
  assert (IN2 : incl all vis).
  { apply NoDup_length_incl; [exact ND| |exact IN]. unfold all, vis. rewrite !map_length, !seq_length. lia. }
  assert (Hin : In r all).
  { apply in_map_iff. exists (N.to_nat r). split; [apply N2Nat.id|]. apply in_seq.
    pose proof two_pow_N. unfold P. lia. }
  apply IN2 in Hin. apply in_map_iff in Hin. destruct Hin as (t & E & Ht). apply in_seq in Ht.
  exists t. split; [lia|exact E].
Qed.

(** Counting over one period. *)
Fixpoint cnt (f : nat -> bool) (a k : nat) : nat :=
  match k with O => 0 | S m => cnt f a m + (if f (a + m) then 1 else 0) end.

Lemma cnt_shift f k : (forall t, f (t + P) = f t) -> cnt f k P = cnt f 0 P.
Proof.
  intros Hf. induction k as [|k IH]; [reflexivity|]. rewrite <- IH.
  assert (A : forall m, cnt f (S k) m + (if f k then 1 else 0) = cnt f k (S m)).
  { induction m as [|m IHm]; [simpl; rewrite Nat.add_0_r; reflexivity|].
    cbn [cnt] in *. replace (S k + m) with (k + S m) by lia. lia. }
  specialize (A P). cbn [cnt] in A. rewrite Hf in A. destruct (f k); lia.
Qed.

Lemma cnt_bound f a k : cnt f a k <= k.
Proof. induction k as [|k IH]; simpl; [lia|]. destruct (f (a + k)); lia. Qed.

Lemma cnt_ext f g a k : (forall j, j < k -> f (a + j) = g (a + j)) -> cnt f a k = cnt g a k.
Proof. induction k as [|k IH]; intros H; simpl; [reflexivity|]. rewrite IH, H by auto. reflexivity. Qed.
End Table.

(** Number of ones in a period, by computation. *)
Fixpoint ones_count (c : lfsr_cfg) (k : nat) (r : N) (acc : N) : N :=
  match k with
  | O => acc
  | S f => ones_count c f (gen_next c r) (if N.odd r then acc + 1 else acc)%N
  end.

Lemma ones_count_spec c k : forall r t acc, r = gen_state c 1 t ->
  ones_count c k r acc = (acc + N.of_nat (cnt (fun t => tb (gen_state c 1 t) 0) t k))%N.
Proof.
  assert (A : forall f a m, cnt f a (S m) = (if f a then 1 else 0) + cnt f (S a) m).
  { intros f a m. induction m as [|m IHm]; [simpl; rewrite Nat.add_0_r; lia|].
    change (cnt f a (S (S m))) with (cnt f a (S m) + (if f (a + S m) then 1 else 0)).
    rewrite IHm. cbn [cnt]. replace (a + S m) with (S a + m) by lia. lia. }
  induction k as [|k IH]; intros r t acc Hr; cbn [ones_count]; [simpl; lia|].
  rewrite (IH _ (S t)) by (subst r; reflexivity). rewrite A.
  unfold tb at 2. rewrite <- Hr. change (N.of_nat 0) with 0%N. rewrite N.bit0_odd.
  destruct (N.odd r); lia.
Qed.

Lemma ones_check :
  forallb (fun n => (ones_count (cfg n POIDS_FAIBLE 0) (2 ^ n - 1) 1 0 =? 2 ^ N.of_nat (n - 1))%N) (seq 1 16) = true.
Proof. vm_compute. reflexivity. Qed.

Lemma table_ones n : 1 <= n <= 16 ->
  cnt (fun t => tb (gen_state (cfg n POIDS_FAIBLE 0) 1 t) 0) 0 (2 ^ n - 1) = 2 ^ (n - 1).
Proof.
  revert n. apply in_1_16. intros n H. pose proof ones_check as A.
  rewrite forallb_forall in A. specialize (A n H). apply N.eqb_eq in A.
  rewrite (ones_count_spec _ _ 1%N 0 0%N eq_refl) in A. rewrite N.add_0_l in A.
  apply Nat2N.inj. rewrite A, Nat2N.inj_pow. reflexivity.
Qed.

Definition mls_bit (n t : nat) : bool := tb (gen_state (cfg n POIDS_FAIBLE 0) 1 t) 0.

(** The sum of the sequence and any proper shift of it is a shift of it. *)
Lemma shift_add n tau : 1 <= n <= 16 -> 0 < tau < 2 ^ n - 1 ->
  exists k, forall t, xorb (mls_bit n t) (mls_bit n (t + tau)) = mls_bit n (t + k).
Proof.
  intros Hn Ht. set (c := cfg n POIDS_FAIBLE 0).
  pose proof (c_pos n Hn) as Cp. pose proof (c_pol n Hn) as Cq.
  pose proof (one_lt n Hn) as O1.
  assert (Lt : (st c 1 tau < 2 ^ N.of_nat n)%N) by (apply (st_lt c Cp); exact O1).
  destruct (visit n Hn (N.lxor 1 (st c 1 tau))) as (k & _ & Ek).
  - split.
    + assert (N.lxor 1 (st c 1 tau) <> 0%N); [|lia]. intros E. apply N.lxor_eq in E.
      destruct (table_period n Hn) as [_ D]. apply (D tau); [lia|]. symmetry. exact E.
    + apply tb_small. intros j Hj. unfold tb. rewrite N.lxor_spec.
      change (xorb (tb 1 j) (tb (st c 1 tau) j) = false).
      rewrite tb_small in O1, Lt. rewrite O1, Lt by exact Hj. reflexivity.
  - exists k. intros t. unfold mls_bit. fold c.
    change (xorb (tb (st c 1 t) 0) (tb (st c 1 (t + tau)) 0) = tb (st c 1 (t + k)) 0).
    rewrite !st_add. change (st c 1 k = N.lxor 1 (st c 1 tau)) in Ek. rewrite Ek.
    rewrite (st_lin c Cp Cq) by assumption. unfold tb. rewrite N.lxor_spec. reflexivity.
Qed.

Lemma ones_cnt f k : ones (map f (seq 0 k)) = cnt f 0 k.
Proof.
  induction k as [|k IH]; [reflexivity|]. rewrite seq_S, map_app. unfold ones in *.
  rewrite filter_app, app_length, IH. cbn [cnt map filter Nat.add]. destruct (f k); reflexivity.
Qed.

Lemma sumpm_cnt (g : nat -> bool) k :
  fold_right Z.add 0%Z (map (fun t => if g t then (-1)%Z else 1%Z) (seq 0 k))
  = (Z.of_nat k - 2 * Z.of_nat (cnt g 0 k))%Z.
Proof.
  induction k as [|k IH]; [reflexivity|]. rewrite seq_S, map_app, fold_right_app.
  cbn [map fold_right Nat.add]. 
  assert (F : forall l a, fold_right Z.add a l = (fold_right Z.add 0 l + a)%Z).
  { induction l as [|x l IHl]; intros a; simpl; [lia|]. rewrite IHl. lia. }
  rewrite F, IH. cbn [cnt Nat.add]. destruct (g k); lia.
Qed.

Lemma mls_per n t : 1 <= n <= 16 -> mls_bit n (t + (2 ^ n - 1)) = mls_bit n t.
Proof. intros Hn. unfold mls_bit. rewrite (S_per n Hn). reflexivity. Qed.

Lemma mls_mod n t : 1 <= n <= 16 -> mls_bit n (t mod (2 ^ n - 1)) = mls_bit n t.
Proof.
  intros Hn. pose proof (P_pos n Hn) as HP. cbv zeta in HP. set (Q := 2 ^ n - 1) in *.
  rewrite (Nat.div_mod t Q) at 2 by lia. generalize (t / Q) as q, (t mod Q) as r. intros q r.
  induction q as [|q IH]; [f_equal; lia|]. rewrite IH. rewrite <- (mls_per n (Q * q + r) Hn).
  f_equal. fold Q. lia.
Qed.

Lemma two_half n : 1 <= n -> 2 ^ n = 2 * 2 ^ (n - 1).
Proof. intros H. replace n with (S (n - 1)) at 1 by lia. reflexivity. Qed.

Lemma mls_corr n tau : 1 <= n <= 16 -> 0 < tau < 2 ^ n - 1 ->
  corr (map (mls_bit n) (seq 0 (2 ^ n - 1))) tau = (-1)%Z.
Proof.
  intros Hn Ht. destruct (shift_add n tau Hn Ht) as (k & Hk). set (Q := 2 ^ n - 1) in *.
  unfold corr. rewrite map_length, seq_length.
  rewrite (map_ext_in _ (fun t => if mls_bit n (t + k) then (-1)%Z else 1%Z)).
  - rewrite (sumpm_cnt (fun t => mls_bit n (t + k))).
    assert (C : cnt (fun t => mls_bit n (t + k)) 0 Q = 2 ^ (n - 1)).
    { transitivity (cnt (mls_bit n) k Q).
      - generalize Q. intros q. induction q as [|q IH]; [reflexivity|]. cbn [cnt].
        rewrite IH. rewrite (Nat.add_comm (0 + q) k). reflexivity.
      - rewrite (cnt_shift n Hn (mls_bit n)) by (intros; apply mls_per; exact Hn).
        apply (table_ones n Hn). }
    rewrite C. unfold Q. pose proof (two_half n ltac:(lia)).
    pose proof (P_pos n Hn). cbv zeta in *. lia.
  - intros t Hin. apply in_seq in Hin.
    assert (V : forall i, i < Q -> nth i (map (mls_bit n) (seq 0 Q)) false = mls_bit n i).
    { intros i Hi. rewrite nth_indep with (d' := mls_bit n 0) by (rewrite map_length, seq_length; exact Hi).
      rewrite map_nth, seq_nth by exact Hi. reflexivity. }
    rewrite !V; [|apply Nat.mod_upper_bound; lia|lia].
    unfold Q at 1. rewrite (mls_mod n _ Hn). rewrite <- Hk.
    destruct (mls_bit n t), (mls_bit n (t + tau)); reflexivity.
Qed.

Lemma Z_pow_nat n : Z.to_nat (2 ^ Z.of_nat n - 1) = 2 ^ n - 1.
Proof.
  replace (2 ^ Z.of_nat n)%Z with (Z.of_nat (2 ^ n)) by (rewrite Nat2Z.inj_pow; reflexivity). lia.
Qed.

Lemma code_mls_spec n : 1 <= n <= 16 -> exists s, code_mls n = Ok s /\
  shows s (map (mls_bit n) (seq 0 (2 ^ n - 1))).
Proof.
  intros Hn. unfold code_mls. rewrite pol_prim_ok by exact Hn. cbn [bind].
  rewrite Z_pow_nat. change (mkcfg n (tabpol n) 1 0 POIDS_FAIBLE) with (cfg n POIDS_FAIBLE 0).
  destruct (gen_step_spec (cfg n POIDS_FAIBLE 0) (2 ^ n - 1) bs_empty 1%N) as (s & E & W & B);
    [cbn; lia|exact WF_empty|].
  rewrite E. cbn [bind fst]. exists s. split; [reflexivity|].
  change (bits bs_empty) with (@nil bool) in B. cbn [app] in B.
  replace (map (mls_bit n) (seq 0 (2 ^ n - 1))) with (bits s); [apply WF_shows, W|].
  rewrite B. apply map_ext. intros t. unfold mls_bit, gen_out. cbn [sortie cfg]. apply land1_tb.
Qed.

Lemma mls_main n : 1 <= n <= 16 -> exists s l, code_mls n = Ok s /\ shows s l /\
  length l = 2 ^ n - 1 /\ ones l = 2 ^ (n - 1) /\
  forall tau, 0 < tau < length l -> corr l tau = (-1)%Z.
Proof.
  intros Hn. destruct (code_mls_spec n Hn) as (s & E & S).
  exists s, (map (mls_bit n) (seq 0 (2 ^ n - 1))). rewrite map_length, seq_length.
  split; [exact E|]. split; [exact S|]. split; [reflexivity|]. split.
  - rewrite ones_cnt. apply table_ones. exact Hn.
  - intros tau Ht. apply mls_corr; assumption.
Qed.

Lemma mls_exc n : n = 0 \/ 16 < n -> code_mls n = Exc.
Proof.
  intros H. unfold code_mls, pol_prim.
  destruct (Z.leb_spec (Z.of_nat n) 0), (Z.leb_spec 17 (Z.of_nat n)); try reflexivity. lia.
Qed.

(** Every non-zero window of n consecutive bits appears exactly once per period. *)
Lemma mls_windows n w : 1 <= n <= 16 -> length w = n -> (exists j, nth j w false = true) ->
  exists t, t < 2 ^ n - 1 /\ (forall j, j < n -> mls_bit n (t + j) = nth j w false) /\
  forall t', t' < 2 ^ n - 1 -> (forall j, j < n -> mls_bit n (t' + j) = nth j w false) -> t' = t.
Proof.
  intros Hn Lw [j0 Hj0]. set (c := cfg n POIDS_FAIBLE 0).
  assert (VN : exists r, (r < 2 ^ N.of_nat n)%N /\ forall j, j < n -> tb r j = nth j w false).
  { clear Hn Hj0 j0 c. revert w Lw. induction n as [|m IH]; intros w Lw.
    - exists 0%N. split; [reflexivity|]. lia.
    - destruct w as [|b w]; [discriminate|]. injection Lw as Lw. destruct (IH w Lw) as (r & Hr & Hb).
      exists (N.b2n b + 2 * r)%N. split.
      + rewrite Nat2N.inj_succ, N.pow_succ_r'. destruct b; simpl N.b2n; lia.
      + intros [|j] Hj; unfold tb.
        * simpl. rewrite N.add_comm. destruct b; simpl N.b2n.
          -- apply N.testbit_odd_0.
          -- rewrite N.add_0_r. apply N.testbit_even_0.
        * rewrite Nat2N.inj_succ. rewrite N.add_comm. simpl nth. rewrite <- Hb by lia. unfold tb.
          destruct b; simpl N.b2n.
          -- apply N.testbit_odd_succ. lia.
          -- rewrite N.add_0_r. apply N.testbit_even_succ. lia. }
  destruct VN as (r & Hr & Hb).
  assert (Hj : j0 < n).
  { destruct (Nat.lt_ge_cases j0 n); [assumption|]. rewrite nth_overflow in Hj0 by lia. discriminate. }
  pose proof (c_pos n Hn) as Cp. pose proof (c_pol n Hn) as Cq. pose proof (one_lt n Hn) as O1.
  destruct (visit n Hn r) as (t & Ht & Et).
  { split; [|exact Hr]. assert (r <> 0%N); [|lia]. intros ->. specialize (Hb j0 Hj).
    unfold tb in Hb. rewrite N.bits_0, Hj0 in Hb. discriminate. }
  exists t. split; [exact Ht|]. split.
  - intros j Hjn. rewrite <- Hb by exact Hjn. rewrite <- Et. unfold mls_bit. symmetry.
    apply (st_bits c Cp Cq); assumption.
  - intros t' Ht' H'. apply (S_inj_lt n Hn); [exact Ht'|exact Ht|]. rewrite Et.
    apply tb_ext. intros j. destruct (Nat.lt_ge_cases j n) as [L|L].
    + rewrite Hb, <- H' by exact L. apply (st_bits c Cp Cq); assumption.
    + pose proof (S_lt n Hn t') as A. rewrite tb_small in A, Hr. rewrite A, Hr by exact L. reflexivity.
Qed.

(** ** The receiver *)

Lemma xs_false n : xs n (fun _ => false) = false.
Proof. induction n as [|n IH]; simpl; [reflexivity|]. rewrite IH. reflexivity. Qed.
Lemma xs_andb n a f : xs n (fun j => a && f j) = a && xs n f.
Proof. destruct a; simpl; [reflexivity|apply xs_false]. Qed.
Lemma xs_swap n m f : xs n (fun i => xs m (fun j => f i j)) = xs m (fun j => xs n (fun i => f i j)).
Proof.
  induction n as [|n IH]; simpl; [symmetry; apply xs_false|]. rewrite IH, <- xs_xor. reflexivity.
Qed.

Lemma prbs_shift n p b k : prbs_seq n p b -> prbs_seq n p (fun t => b (t + k)).
Proof.
  intros H t. rewrite taps_xs. replace (t + n + k) with (t + k + n) by lia. rewrite H, taps_xs.
  apply xs_ext. intros j _. do 2 f_equal. lia.
Qed.

Lemma prbs_comb n p b q : prbs_seq n p b -> prbs_seq n p (fun t => xs n (fun j => tb q j && b (t + j))).
Proof.
  intros H t. rewrite taps_xs.
  rewrite (xs_ext n _ (fun j => xs n (fun m => tb q j && (tb p m && b (t + j + m))))).
  - rewrite xs_swap. apply xs_ext. intros m _. rewrite <- xs_andb. apply xs_ext. intros j _.
    replace (t + m + j) with (t + j + m) by lia. destruct (tb q j), (tb p m); reflexivity.
  - intros j _. rewrite xs_andb. f_equal. replace (t + n + j) with (t + j + n) by lia.
    rewrite H, taps_xs. reflexivity.
Qed.

(** Every output mode of the generator obeys the recurrence. *)
Lemma gen_prbs c r : 0 < reglen c -> (pol c < 2 ^ N.of_nat (reglen c))%N ->
  (r < 2 ^ N.of_nat (reglen c))%N ->
  prbs_seq (reglen c) (pol c) (fun t => gen_out c (gen_state c r t)).
Proof.
  intros Hn Hp Hr. pose proof (st_rec c Hn Hp r Hr) as H. unfold gen_out.
  destruct (sortie c).
  - intros t. specialize (H t). rewrite taps_xs in *. rewrite land1_tb.
    unfold st in H. rewrite H. apply xs_ext. intros j _. rewrite land1_tb. reflexivity.
  - assert (E : forall t, parity (N.land (gen_state c r t) (pol c)) = tb (st c r (t + reglen c)) 0).
    { intros t. rewrite H, taps_xs. rewrite (parity_xs (reglen c)) by (apply land_lt; exact Hp).
      apply xs_ext. intros j Hj. rewrite tb_land, andb_comm. f_equal.
      apply (st_bits c Hn Hp); assumption. }
    pose proof (prbs_shift _ _ _ (reglen c) H) as H2. intros t. specialize (H2 t). cbv beta in H2.
    rewrite E, H2, !taps_xs. apply xs_ext. intros j _. rewrite E. reflexivity.
  - assert (E : forall t, xor_low (reglen c) (N.land (gen_state c r t) (pol_sortie c))
                = xs (reglen c) (fun j => tb (pol_sortie c) j && tb (st c r (t + j)) 0)).
    { intros t. rewrite xor_low_xs. apply xs_ext. intros j Hj. rewrite tb_land, andb_comm. f_equal.
      apply (st_bits c Hn Hp); assumption. }
    pose proof (prbs_comb _ _ _ (pol_sortie c) H) as H2. intros t. specialize (H2 t). cbv beta in H2.
    rewrite E, H2, !taps_xs. apply xs_ext. intros j _. rewrite E. reflexivity.
Qed.

Definition holds (n : nat) (reg : N) (b : nat -> bool) (t : nat) : Prop :=
  (reg < 2 ^ N.of_nat n)%N /\ forall j, j < n -> tb reg j = b (t + j).

Lemma holds_pred n p reg b t : prbs_seq n p b -> holds n reg b t ->
  xor_low n (N.land reg p) = b (t + n).
Proof.
  intros H [_ G]. rewrite xor_low_xs, H, taps_xs. apply xs_ext. intros j Hj.
  rewrite tb_land, andb_comm, G by exact Hj. reflexivity.
Qed.

Lemma holds_next n reg b t : 0 < n -> holds n reg b t -> holds n (reg_next n reg (b (t + n))) b (t + 1).
Proof.
  intros Hn [L G]. split; [apply reg_next_lt; assumption|]. intros j Hj.
  rewrite tb_reg_next_lt by assumption. destruct (Nat.ltb_spec (S j) n).
  - rewrite G by assumption. f_equal. lia.
  - destruct (Nat.eqb_spec j (n - 1)); [|lia]. simpl. f_equal. lia.
Qed.

Lemma rx_feed_snoc r l b : rx_feed r (l ++ [b]) = rx_bit (rx_feed r l) b.
Proof. unfold rx_feed. rewrite fold_left_app. reflexivity. Qed.

Lemma rx_feed_app r l m : rx_feed r (l ++ m) = rx_feed (rx_feed r l) m.
Proof. unfold rx_feed. apply fold_left_app. Qed.

Section Rx.
Variables (n : nat) (p : N) (b : nat -> bool) (r0 : rx).
Hypothesis Hn : 1 <= n <= 16.
Hypothesis Hb : prbs_seq n p b.
Hypothesis R1 : rx_reglen r0 = n.
Hypothesis R2 : rx_pol r0 = p.
Hypothesis R3 : (rx_reg r0 < 2 ^ N.of_nat n)%N.
Hypothesis R4 : rx_locked r0 = false.
Hypothesis R5 : rx_ok_run r0 = 0.

Definition Acq (m : nat) (r : rx) : Prop :=
  rx_reglen r = n /\ rx_pol r = p /\ (rx_reg r < 2 ^ N.of_nat n)%N /\ rx_nerr r = rx_nerr r0 /\
  if m <? n then
    rx_locked r = false /\ rx_ok_run r <= m /\ rx_nbits r = rx_nbits r0 /\
    forall j, j < m -> tb (rx_reg r) (n - m + j) = b j
  else
    holds n (rx_reg r) b (m - n) /\
    if rx_locked r then
      rx_err_run r = 0 /\ 21 <= m /\
      (rx_nbits r0 + N.of_nat (m - (n + 21)) <= rx_nbits r <= rx_nbits r0 + N.of_nat (m - 21))%N
    else m - n <= rx_ok_run r /\ rx_ok_run r <= m /\ rx_ok_run r <= 20 /\ rx_nbits r = rx_nbits r0.

Lemma acq_step m r : Acq m r -> Acq (S m) (rx_bit r (b m)).
Proof.
  intros (A1 & A2 & A3 & A4 & A5).
  destruct (Nat.ltb_spec m n) as [Hm|Hm].
  - destruct A5 as (B1 & B2 & B3 & B4). unfold rx_bit. rewrite B1. cbn [negb].
    set (ok := if Bool.eqb (b m) _ then _ else _).
    assert (OK : ok <= S m) by (unfold ok; destruct (Bool.eqb _ _); lia).
    destruct (Nat.ltb_spec 20 ok); [lia|].
    unfold Acq. cbn [rx_reglen rx_pol rx_reg rx_nerr rx_locked rx_ok_run rx_nbits rx_err_run].
    rewrite A1. split; [reflexivity|]. split; [exact A2|].
    split; [apply reg_next_lt; [lia|exact A3]|]. split; [exact A4|].
    assert (BB : forall j, j < S m -> tb (reg_next n (rx_reg r) (b m)) (n - S m + j) = b j).
    { intros j Hj. rewrite tb_reg_next_lt by (exact A3 || lia).
      destruct (Nat.ltb_spec (S (n - S m + j)) n).
      - rewrite <- B4 by lia. f_equal. lia.
      - destruct (Nat.eqb_spec (n - S m + j) (n - 1)); [|lia]. simpl. f_equal. lia. }
    destruct (Nat.ltb_spec (S m) n).
    + auto.
    + assert (S m = n) by lia. split; [split|].
      * apply reg_next_lt; [lia|exact A3].
      * intros j Hj. specialize (BB j ltac:(lia)). replace (n - S m + j) with j in BB by lia.
        rewrite BB. f_equal. lia.
      * repeat split; lia.
  - destruct A5 as (Hh & B).
    pose proof (holds_pred n p (rx_reg r) b (m - n) Hb Hh) as Hs.
    replace (m - n + n) with m in Hs by lia.
    pose proof (holds_next n (rx_reg r) b (m - n) ltac:(lia) Hh) as Hx.
    replace (m - n + n) with m in Hx by lia. replace (m - n + 1) with (S m - n) in Hx by lia.
    unfold rx_bit. rewrite A1, A2, Hs, eqb_reflx.
    destruct (rx_locked r) eqn:EL; cbn [negb].
    + destruct B as (B1 & B2 & B3). unfold Acq.
      cbn [rx_reglen rx_pol rx_reg rx_nerr rx_locked rx_ok_run rx_nbits rx_err_run].
      split; [reflexivity|]. split; [reflexivity|].
      split; [apply (proj1 Hx)|]. split; [exact A4|].
      destruct (Nat.ltb_spec (S m) n); [lia|]. split; [exact Hx|]. simpl negb. cbv iota.
      split; [reflexivity|]. split; [lia|]. lia.
    + destruct B as (B1 & B2 & B3 & B4). unfold Acq.
      cbn [rx_reglen rx_pol rx_reg rx_nerr rx_locked rx_ok_run rx_nbits rx_err_run].
      split; [reflexivity|]. split; [reflexivity|].
      split; [apply (proj1 Hx)|]. split; [exact A4|].
      destruct (Nat.ltb_spec (S m) n); [lia|]. split; [exact Hx|].
      destruct (Nat.ltb_spec 20 (rx_ok_run r + 1)).
      * split; [reflexivity|]. split; lia.
      * repeat split; lia.
Qed.

Lemma acq_all m : Acq m (rx_feed r0 (map b (seq 0 m))).
Proof.
  induction m as [|m IH].
  - unfold Acq. simpl. destruct (Nat.ltb_spec 0 n); [|lia].
    split; [exact R1|]. split; [exact R2|]. split; [exact R3|]. split; [reflexivity|].
    split; [exact R4|]. split; [lia|]. split; [reflexivity|]. lia.
  - rewrite seq_S, map_app. cbn [map Nat.add]. rewrite rx_feed_snoc. apply acq_step, IH.
Qed.

Lemma acquire m : n + 21 <= m ->
  let r := rx_feed r0 (map b (seq 0 m)) in
  rx_locked r = true /\ rx_nerr r = rx_nerr r0 /\ rx_err_run r = 0 /\
  rx_reglen r = n /\ rx_pol r = p /\ holds n (rx_reg r) b (m - n) /\
  (rx_nbits r0 + N.of_nat (m - (n + 21)) <= rx_nbits r <= rx_nbits r0 + N.of_nat (m - 21))%N.
Proof.
  intros Hm r. destruct (acq_all m) as (A1 & A2 & A3 & A4 & A5). fold r in A1, A2, A3, A4, A5.
  destruct (Nat.ltb_spec m n); [lia|]. destruct A5 as (Hh & B).
  destruct (rx_locked r) eqn:EL; [|lia]. destruct B as (B1 & B2 & B3).
  repeat (split; [first [assumption|reflexivity]|]). exact B3.
Qed.
End Rx.

(** Locked and in sync: errors are counted one by one, and the lock is kept as
    long as no more than 5 consecutive bits are wrong. *)
Lemma locked_count n p b : 0 < n -> prbs_seq n p b -> forall l r t,
  rx_reglen r = n -> rx_pol r = p -> rx_locked r = true -> holds n (rx_reg r) b t ->
  no_run 5 (rx_err_run r) l (map b (seq (t + n) (length l))) = true ->
  let r' := rx_feed r l in
  rx_locked r' = true /\ rx_reglen r' = n /\ rx_pol r' = p /\ holds n (rx_reg r') b (t + length l) /\
  rx_nbits r' = (rx_nbits r + N.of_nat (length l))%N /\
  rx_nerr r' = (rx_nerr r + N.of_nat (ndiff l (map b (seq (t + n) (length l)))))%N.
Proof.
  intros Hn Hb. induction l as [|x l IH]; intros r t A1 A2 A3 Hh Hr r'.
  - unfold r'. simpl. rewrite Nat.add_0_r, !N.add_0_r. repeat (split; [assumption|]). split; reflexivity.
  - cbn [length seq map no_run] in Hr. apply andb_true_iff in Hr. destruct Hr as [Hr1 Hr2].
    pose proof (holds_pred n p (rx_reg r) b t Hb Hh) as Hs.
    pose proof (holds_next n (rx_reg r) b t Hn Hh) as Hx.
    set (r1 := rx_bit r x).
    assert (E : r' = rx_feed r1 l) by reflexivity.
    assert (F : rx_reglen r1 = n /\ rx_pol r1 = p /\ rx_locked r1 = true /\ holds n (rx_reg r1) b (t + 1) /\
      rx_err_run r1 = (if Bool.eqb x (b (t + n)) then 0 else rx_err_run r + 1) /\
      rx_nbits r1 = (rx_nbits r + 1)%N /\
      rx_nerr r1 = (rx_nerr r + N.of_nat (if Bool.eqb x (b (t + n)%nat) then 0 else 1)%nat)%N).
    { unfold r1, rx_bit. rewrite A1, A2, A3, Hs. cbn [negb rx_reglen rx_pol rx_reg rx_nerr rx_locked rx_ok_run rx_nbits rx_err_run].
      apply Nat.leb_le in Hr1.
      split; [reflexivity|]. split; [reflexivity|]. split; [|split; [exact Hx|]].
      - destruct (Nat.ltb_spec 5 (if Bool.eqb x (b (t + n)) then 0 else rx_err_run r + 1)); [lia|reflexivity].
      - destruct (Bool.eqb x (b (t + n))); repeat split; try reflexivity; lia. }
    destruct F as (F1 & F2 & F3 & F4 & F5 & F6 & F7).
    replace (S (t + n)) with (t + 1 + n) in Hr2 by lia.
    rewrite <- F5 in Hr2.
    destruct (IH r1 (t + 1) F1 F2 F3 F4 Hr2) as (G1 & G2 & G3 & G4 & G5 & G6).
    rewrite E. split; [exact G1|]. split; [exact G2|]. split; [exact G3|].
    split; [replace (t + length (x :: l)) with (t + 1 + length l) by (simpl; lia); exact G4|].
    cbn [length seq map ndiff]. replace (S (t + n)) with (t + 1 + n) by lia.
    split; [rewrite G5, F6; lia|]. rewrite G6, F7. lia.
Qed.

(** Six consecutive wrong bits unlock the receiver. *)
Lemma locked_loses n p b : 0 < n -> prbs_seq n p b -> forall k r t,
  rx_reglen r = n -> rx_pol r = p -> rx_locked r = true -> holds n (rx_reg r) b t ->
  k + rx_err_run r = 5 ->
  let r' := rx_feed r (map (fun i => negb (b i)) (seq (t + n) (S k))) in
  rx_locked r' = false /\ rx_ok_run r' = 0 /\ rx_reglen r' = n /\ rx_pol r' = p /\
  (rx_reg r' < 2 ^ N.of_nat n)%N.
Proof.
  intros Hn Hb. induction k as [|k IH]; intros r t A1 A2 A3 Hh He r';
    pose proof (holds_pred n p (rx_reg r) b t Hb Hh) as Hs;
    pose proof (holds_next n (rx_reg r) b t Hn Hh) as Hx;
    assert (NE : Bool.eqb (negb (b (t + n))) (b (t + n)) = false) by (destruct (b (t + n)); reflexivity).
  - unfold r'. cbn [seq map]. unfold rx_feed. cbn [fold_left]. unfold rx_bit. rewrite A1, A2, A3, Hs, NE.
    cbn [negb rx_reglen rx_pol rx_reg rx_nerr rx_locked rx_ok_run rx_nbits rx_err_run].
    destruct (Nat.ltb_spec 5 (rx_err_run r + 1)); [|lia]. repeat split. apply Hx.
  - set (r1 := rx_bit r (negb (b (t + n)))).
    assert (F : rx_reglen r1 = n /\ rx_pol r1 = p /\ rx_locked r1 = true /\ holds n (rx_reg r1) b (t + 1) /\
                rx_err_run r1 = rx_err_run r + 1).
    { unfold r1, rx_bit. rewrite A1, A2, A3, Hs, NE.
      cbn [negb rx_reglen rx_pol rx_reg rx_nerr rx_locked rx_ok_run rx_nbits rx_err_run].
      destruct (Nat.ltb_spec 5 (rx_err_run r + 1)); [lia|]. split; [reflexivity|]. split; [reflexivity|].
      split; [reflexivity|]. split; [exact Hx|reflexivity]. }
    destruct F as (F1 & F2 & F3 & F4 & F5).
    specialize (IH r1 (t + 1) F1 F2 F3 F4 ltac:(lia)). replace (t + 1 + n) with (S (t + n)) in IH by lia.
    exact IH.
Qed.

Lemma rx_step_feed r s l : shows s l -> rx_step r s = Ok (rx_feed r l).
Proof.
  intros [L G]. unfold rx_step. rewrite L.
  assert (A : forall k, k <= length l ->
    loop k (fun i r => let* b := bs_get s i in Ok (rx_bit r b)) r = Ok (rx_feed r (firstn k l))).
  { induction k as [|k IH]; intros Hk; [reflexivity|].
    rewrite loop_S, IH by lia. cbn [bind]. rewrite G by lia. cbn [bind].
    rewrite <- rx_feed_snoc. do 2 f_equal.
    clear -Hk. revert k Hk. induction l as [|a t IH]; intros [|k] Hk; simpl in *; try lia; [reflexivity|].
    f_equal. apply IH. lia. }
  rewrite A by lia. rewrite firstn_all. reflexivity.
Qed.

Lemma rx_configure_ok n : 1 <= n <= 16 -> rx_configure n = Ok (mkrx n 1 (tabpol n) false 0 0 0 0).
Proof.
  intros H. unfold rx_configure. destruct (Nat.ltb_spec 16 n); [lia|]. rewrite pol_prim_ok by exact H. reflexivity.
Qed.

(** End to end. *)
Lemma link n m ps g k : 1 <= n <= 16 -> (g < 2 ^ N.of_nat n)%N -> n + 21 <= k ->
  exists s g' r r', gen_step (mkcfg n (tabpol n) g ps m) (bs_empty, g) k = Ok (s, g') /\
    rx_configure n = Ok r /\ rx_step r s = Ok r' /\
    rx_locked r' = true /\ rx_nerr r' = 0%N.
Proof.
  intros Hn Hg Hk. destruct (tabpol_ok n Hn) as [Hp _]. set (c := mkcfg n (tabpol n) g ps m).
  destruct (gen_step_spec c k bs_empty g) as (s & E & W & B); [cbn; lia|exact WF_empty|].
  change (bits bs_empty) with (@nil bool) in B. cbn [app] in B.
  exists s, (gen_state c g k), (mkrx n 1 (tabpol n) false 0 0 0 0).
  eexists. split; [exact E|]. split; [apply rx_configure_ok; exact Hn|].
  split; [apply rx_step_feed; apply WF_shows; exact W|]. rewrite B.
  pose proof (gen_prbs c g ltac:(cbn; lia) Hp Hg) as Q.
  destruct (acquire n (tabpol n) _ (mkrx n 1 (tabpol n) false 0 0 0 0) Hn Q eq_refl eq_refl
     (one_lt n Hn) eq_refl eq_refl k Hk) as (A1 & A2 & _).
  split; [exact A1|exact A2].
Qed.

(** Default configuration of the generator. *)
Lemma default_ok n : 1 <= n <= 16 -> exists c, gen_configure n = Ok (c, 64023%N) /\ reglen c = n /\ pol c = tabpol n /\
  sortie c = POIDS_FAIBLE /\ (0 < gen_state c 64023 (16 - n) < 2 ^ N.of_nat n)%N.
Proof.
  revert n. apply in_1_16. intros n H.
  assert (A : forallb (fun n => match gen_configure n with Ok (c, r) =>
     (r =? 64023)%N && (reglen c =? n) && (pol c =? tabpol n)%N &&
     match sortie c with POIDS_FAIBLE => true | _ => false end &&
     (0 <? gen_state c r (16 - n))%N && (gen_state c r (16 - n) <? 2 ^ N.of_nat n)%N
     | _ => false end) (seq 1 16) = true) by (vm_compute; reflexivity).
  rewrite forallb_forall in A. specialize (A n H).
  destruct (gen_configure n) as [[c r]| | |]; try discriminate. exists c.
  rewrite !andb_true_iff in A. destruct A as (((((A1 & A2) & A3) & A4) & A5) & A6).
  apply N.eqb_eq in A1. subst r. apply Nat.eqb_eq in A2. apply N.eqb_eq in A3.
  apply N.ltb_lt in A5, A6. destruct (sortie c) eqn:E; try discriminate. auto 10.
Qed.

(** Statements of the properties file. *)
Lemma mls_states n p : 1 <= n <= 16 -> pol_prim (Z.of_nat n) = Ok p ->
  let c := mkcfg n p 1 0 POIDS_FAIBLE in
  gen_state c 1 (2 ^ n - 1) = 1%N /\
  forall r, (0 < r < 2 ^ N.of_nat n)%N ->
    exists t, t < 2 ^ n - 1 /\ gen_state c 1 t = r /\
      forall t', t' < 2 ^ n - 1 -> gen_state c 1 t' = r -> t' = t.
Proof.
  intros Hn Hp c. rewrite pol_prim_ok in Hp by exact Hn. injection Hp as <-.
  split; [apply (table_period n Hn)|]. intros r Hr. destruct (visit n Hn r Hr) as (t & Ht & E).
  exists t. split; [exact Ht|]. split; [exact E|]. intros t' Ht' E'.
  apply (S_inj_lt n Hn); [exact Ht'|exact Ht|]. etransitivity; [exact E'|symmetry; exact E].
Qed.

Lemma mls_windows' n s l w : 1 <= n <= 16 -> code_mls n = Ok s -> shows s l -> length w = n ->
  (exists j, nth j w false = true) ->
  exists t, t < length l /\ (forall j, j < n -> nth ((t + j) mod length l) l false = nth j w false) /\
  forall t', t' < length l -> (forall j, j < n -> nth ((t' + j) mod length l) l false = nth j w false) -> t' = t.
Proof.
  intros Hn E S Lw Hw. destruct (code_mls_spec n Hn) as (s' & E' & S').
  assert (s' = s) by congruence. subst s'.
  assert (L : l = map (mls_bit n) (seq 0 (2 ^ n - 1))).
  { destruct S as [L1 G1], S' as [L2 G2]. apply (list_ext false); [congruence|].
    intros i Hi.
    specialize (G2 i ltac:(congruence)). specialize (G1 i Hi). congruence. }
  assert (Ll : length l = 2 ^ n - 1) by (rewrite L, map_length, seq_length; reflexivity).
  pose proof (P_pos n Hn) as HP. cbv zeta in HP.
  assert (V : forall i, nth (i mod length l) l false = mls_bit n i).
  { intros i. rewrite Ll. rewrite <- (mls_mod n i Hn). rewrite L.
    assert (i mod (2 ^ n - 1) < 2 ^ n - 1) by (apply Nat.mod_upper_bound; lia).
    rewrite nth_indep with (d' := mls_bit n 0) by (rewrite map_length, seq_length; lia).
    rewrite map_nth, seq_nth by lia. reflexivity. }
  destruct (mls_windows n w Hn Lw Hw) as (t & Ht & A & B). exists t.
  split; [lia|]. split.
  - intros j Hj. rewrite V. apply A, Hj.
  - intros t' Ht' H'. apply B; [lia|]. intros j Hj. rewrite <- V. apply H', Hj.
Qed.

Lemma rx_clean n p b r m : pol_prim (Z.of_nat n) = Ok p -> prbs_seq n p b ->
  rx_configure n = Ok r -> n + 21 <= m ->
  rx_locked (rx_feed r (map b (seq 0 m))) = true /\ rx_nerr (rx_feed r (map b (seq 0 m))) = 0%N /\
  (N.of_nat (m - (n + 21)) <= rx_nbits (rx_feed r (map b (seq 0 m))) <= N.of_nat (m - 21))%N.
Proof.
  intros Hp Hb Hr Hm.
  assert (Hn : 1 <= n <= 16).
  { unfold pol_prim in Hp. destruct (Z.leb_spec (Z.of_nat n) 0), (Z.leb_spec 17 (Z.of_nat n)); try discriminate. lia. }
  rewrite pol_prim_ok in Hp by exact Hn. injection Hp as <-.
  rewrite rx_configure_ok in Hr by exact Hn. injection Hr as <-.
  destruct (acquire n (tabpol n) b (mkrx n 1 (tabpol n) false 0 0 0 0) Hn Hb eq_refl eq_refl
     (one_lt n Hn) eq_refl eq_refl m Hm) as (A1 & A2 & _ & _ & _ & _ & A3).
  split; [exact A1|]. split; [exact A2|]. exact A3.
Qed.

Lemma rx_noise n p b r m l : pol_prim (Z.of_nat n) = Ok p -> prbs_seq n p b ->
  rx_configure n = Ok r -> n + 21 <= m ->
  no_run 5 0 l (map b (seq m (length l))) = true ->
  let r1 := rx_feed r (map b (seq 0 m)) in
  let r2 := rx_feed r1 l in
  rx_locked r2 = true /\ rx_nerr r2 = N.of_nat (ndiff l (map b (seq m (length l)))) /\
  rx_nbits r2 = (rx_nbits r1 + N.of_nat (length l))%N.
Proof.
  intros Hp Hb Hr Hm Hl r1 r2.
  assert (Hn : 1 <= n <= 16).
  { unfold pol_prim in Hp. destruct (Z.leb_spec (Z.of_nat n) 0), (Z.leb_spec 17 (Z.of_nat n)); try discriminate. lia. }
  rewrite pol_prim_ok in Hp by exact Hn. injection Hp as <-.
  rewrite rx_configure_ok in Hr by exact Hn. injection Hr as <-.
  destruct (acquire n (tabpol n) b (mkrx n 1 (tabpol n) false 0 0 0 0) Hn Hb eq_refl eq_refl
     (one_lt n Hn) eq_refl eq_refl m Hm) as (A1 & A2 & A3 & A4 & A5 & A6 & _). fold r1 in A1, A2, A3, A4, A5, A6.
  destruct (locked_count n (tabpol n) b ltac:(lia) Hb l r1 (m - n) A4 A5 A1 A6) as (B1 & B2 & B3 & B4 & B5 & B6).
  { rewrite A3. replace (m - n + n) with m by lia. exact Hl. }
  fold r2 in B1, B5, B6. split; [exact B1|]. split; [|exact B5].
  rewrite B6, A2. cbn [rx_nerr]. replace (m - n + n) with m by lia. reflexivity.
Qed.

Lemma rx_lose_and_reacquire n p b r m b2 m2 : pol_prim (Z.of_nat n) = Ok p -> prbs_seq n p b ->
  prbs_seq n p b2 -> rx_configure n = Ok r -> n + 21 <= m -> n + 21 <= m2 ->
  let r1 := rx_feed r (map b (seq 0 m) ++ map (fun i => negb (b i)) (seq m 6)) in
  let r2 := rx_feed r1 (map b2 (seq 0 m2)) in
  rx_locked r1 = false /\ rx_locked r2 = true /\ rx_nerr r2 = rx_nerr r1.
Proof.
  intros Hp Hb Hb2 Hr Hm Hm2 r1 r2.
  assert (Hn : 1 <= n <= 16).
  { unfold pol_prim in Hp. destruct (Z.leb_spec (Z.of_nat n) 0), (Z.leb_spec 17 (Z.of_nat n)); try discriminate. lia. }
  rewrite pol_prim_ok in Hp by exact Hn. injection Hp as <-.
  rewrite rx_configure_ok in Hr by exact Hn. injection Hr as <-.
  destruct (acquire n (tabpol n) b (mkrx n 1 (tabpol n) false 0 0 0 0) Hn Hb eq_refl eq_refl
     (one_lt n Hn) eq_refl eq_refl m Hm) as (A1 & A2 & A3 & A4 & A5 & A6 & _).
  assert (Hk : 5 + rx_err_run (rx_feed (mkrx n 1 (tabpol n) false 0 0 0 0) (map b (seq 0 m))) = 5)
    by (rewrite A3; reflexivity).
  pose proof (locked_loses n (tabpol n) b ltac:(lia) Hb 5 _ (m - n) A4 A5 A1 A6 Hk) as C.
  cbv zeta in C. replace (m - n + n) with m in C by lia. rewrite <- rx_feed_app in C.
  fold r1 in C. destruct C as (C1 & C2 & C3 & C4 & C5).
  destruct (acquire n (tabpol n) b2 r1 Hn Hb2 C3 C4 C5 C1 C2 m2 Hm2) as (D1 & D2 & _).
  fold r2 in D1, D2. auto.
Qed.

Lemma zero_locks n p r m : pol_prim (Z.of_nat n) = Ok p -> rx_configure n = Ok r -> n + 21 <= m ->
  rx_locked (rx_feed r (repeat false m)) = true /\ rx_nerr (rx_feed r (repeat false m)) = 0%N.
Proof.
  intros Hp Hr Hm. assert (Hb : prbs_seq n p (fun _ => false)).
  { intros t. rewrite taps_xs. rewrite (xs_ext n _ (fun _ => false)); [symmetry; apply xs_false|].
    intros; apply andb_false_r. }
  destruct (rx_clean n p _ r m Hp Hb Hr Hm) as (A & B & _).
  assert (E : map (fun _ : nat => false) (seq 0 m) = repeat false m).
  { generalize 0. clear. induction m as [|m IH]; intros a; simpl; [reflexivity|]. rewrite IH. reflexivity. }
  rewrite E in A, B. auto.
Qed.

Lemma gen_prbs' n p m g ps s k : pol_prim (Z.of_nat n) = Ok p -> (g < 2 ^ N.of_nat n)%N ->
  gen_step (mkcfg n p g ps m) (bs_empty, g) k = Ok s ->
  exists b, prbs_seq n p b /\ shows (fst s) (map b (seq 0 k)).
Proof.
  intros Hp Hg E.
  assert (Hn : 1 <= n <= 16).
  { unfold pol_prim in Hp. destruct (Z.leb_spec (Z.of_nat n) 0), (Z.leb_spec 17 (Z.of_nat n)); try discriminate. lia. }
  rewrite pol_prim_ok in Hp by exact Hn. injection Hp as <-.
  set (c := mkcfg n (tabpol n) g ps m) in *.
  exists (fun t => gen_out c (gen_state c g t)). split.
  - apply (gen_prbs c g); cbn; [lia| |exact Hg]. apply (tabpol_ok n Hn).
  - destruct (gen_step_spec c k bs_empty g) as (s1 & E1 & W1 & B1); [cbn; lia|exact WF_empty|].
    assert (s = (s1, gen_state c g k)) by congruence. subst s. cbn [fst].
    change (bits bs_empty) with (@nil bool) in B1. cbn [app] in B1. rewrite <- B1. apply WF_shows, W1.
Qed.

Lemma gen_step_split c s r a k : WF s -> 0 < reglen c <= 32 ->
  (let* st := gen_step c (s, r) a in gen_step c st k) = gen_step c (s, r) (a + k).
Proof.
  intros W Hc. unfold gen_step. destruct (Nat.eqb_spec (reglen c) 0); [lia|].
  destruct (Nat.ltb_spec 32 (reglen c)); [lia|]. cbn [orb].
  set (body := fun (_ : nat) (st : bitstream * N) => let* bs := bs_push (fst st) (gen_out c (snd st)) in Ok (bs, gen_next c (snd st))).
  induction k as [|k IH].
  - rewrite Nat.add_0_r. destruct (loop a body (s, r)); reflexivity.
  - replace (a + S k) with (S (a + k)) by lia. rewrite loop_S. rewrite <- IH.
    destruct (loop a body (s, r)) as [st| | |]; try reflexivity.
Qed.

Lemma default_gen n : 1 <= n <= 16 -> exists c g, gen_configure n = Ok (c, g) /\
  let g1 := gen_state c g (16 - n) in
  (0 < g1 < 2 ^ N.of_nat n)%N /\
  (forall k, gen_step c (bs_empty, g) (16 - n + k) = let* st := gen_step c (bs_empty, g) (16 - n) in gen_step c st k) /\
  prbs_seq n (pol c) (fun t => gen_out c (gen_state c g (t + (16 - n)))).
Proof.
  intros Hn. destruct (default_ok n Hn) as (c & E & A1 & A2 & A3 & A4).
  exists c, 64023%N. split; [exact E|]. cbv zeta. split; [exact A4|]. split.
  - intros k. symmetry. apply gen_step_split; [exact WF_empty|lia].
  - pose proof (gen_prbs c (gen_state c 64023 (16 - n))) as Q. rewrite A1, A2 in Q.
    specialize (Q ltac:(lia) (proj1 (tabpol_ok n Hn)) (proj2 A4)). rewrite A2.
    intros t. specialize (Q t). rewrite taps_xs in Q |- *.
    assert (F : forall u, gen_state c (gen_state c 64023 (16 - n)) u = gen_state c 64023 (u + (16 - n)))
      by (intros u; symmetry; apply (st_add c)).
    rewrite F in Q. rewrite Q. apply xs_ext. intros j _. rewrite F. reflexivity.
Qed.
