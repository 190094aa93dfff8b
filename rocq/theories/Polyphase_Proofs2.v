(** Proofs for the oversampling FIR filter, the polyphase form and the CIC filter. *)
From Verif Require Import Base BaseLemmas Filters_Model Filters_Spec Filters_Proofs Filters_Proofs2 Polyphase_Model Polyphase_Spec Polyphase_Proofs.
From Coq Require Import ZifyBool ZifyNat Ring.

Lemma nth_concat_grid {A} (F : nat -> nat -> A) R J n d : 0 < R -> n < J * R ->
  nth n (concat (map (fun j => map (F j) (seq 0 R)) (seq 0 J))) d = F (n / R) (n mod R).
Proof.
  intros HR. induction J as [|J IH]; intros Hn; [lia|].
  rewrite seq_S, map_app, concat_app. cbn [map concat Nat.add]. rewrite app_nil_r.
  assert (L : length (concat (map (fun j => map (F j) (seq 0 R)) (seq 0 J))) = J * R).
  { clear. induction J as [|J IH]; [reflexivity|]. rewrite seq_S, map_app, concat_app, app_length, IH. cbn [map concat].
    rewrite app_nil_r, map_length, seq_length. cbn [Nat.mul]. lia. }
  destruct (Nat.lt_ge_cases n (J * R)) as [H|H].
  - rewrite app_nth1 by lia. apply IH. exact H.
  - rewrite app_nth2 by lia. rewrite L. cbn [Nat.mul] in Hn.
    rewrite nth_indep with (d' := F J 0) by (rewrite map_length, seq_length; lia).
    rewrite (map_nth (F J)), seq_nth by lia.
    replace (n / R) with J by (apply (Nat.div_unique _ R J (n - J * R)); lia).
    replace (n mod R) with (n - J * R) by (apply (Nat.mod_unique _ R J (n - J * R)); lia). reflexivity.
Qed.

Section Ups.
Variable K : cring.
Add Ring Ku : (cth K).

Lemma stuff_length R (x : list K) : 0 < R -> length (stuff R x) = length x * R.
Proof.
  intros HR. unfold stuff. induction x as [|v t IH]; [reflexivity|]. cbn [flat_map]. rewrite app_length, IH. cbn [length].
  rewrite repeat_length. cbn [Nat.mul]. lia.
Qed.
Lemma nth_stuff R (x : list K) : 0 < R -> forall n, nth n (stuff R x) c0 = if n mod R =? 0 then nth (n / R) x c0 else c0.
Proof.
  intros HR. induction x as [|v t IH]; intros n.
  - destruct n; cbn [stuff flat_map nth]; destruct (_ =? 0); try reflexivity; destruct (_ / R); reflexivity.
  - change (stuff R (v :: t)) with ((v :: repeat c0 (R - 1)) ++ stuff R t).
    assert (Lr : length (v :: repeat (c0 : K) (R - 1)) = R) by (cbn [length]; rewrite repeat_length; lia).
    destruct (Nat.lt_ge_cases n R) as [H|H].
    + rewrite app_nth1 by lia. rewrite Nat.mod_small, Nat.div_small by exact H. destruct n as [|n]; [reflexivity|].
      cbn [nth Nat.eqb]. apply nth_repeat.
    + rewrite app_nth2 by lia. rewrite Lr, IH.
      replace (n mod R) with ((n - R) mod R) by (replace n with ((n - R) + 1 * R) at 2 by lia; rewrite Nat.mod_add by lia; reflexivity).
      replace (n / R) with (S ((n - R) / R)) by (replace n with ((n - R) + 1 * R) at 2 by lia; rewrite Nat.div_add by lia; lia).
      reflexivity.
Qed.
Lemma sampZ_stuff R (x : list K) z : 0 < R ->
  sampZ (stuff R x) z = if (z mod Z.of_nat R =? 0)%Z then sampZ x (z / Z.of_nat R)%Z else c0.
Proof.
  intros HR. destruct (Z.lt_ge_cases z 0) as [H|H].
  - rewrite sampZ_neg by lia. destruct (z mod Z.of_nat R =? 0)%Z; [|reflexivity]. rewrite sampZ_neg; [reflexivity|].
    apply Z.div_lt_upper_bound; lia.
  - replace z with (Z.of_nat (Z.to_nat z)) by lia. set (n := Z.to_nat z). rewrite <- Nat2Z.inj_mod, <- Nat2Z.inj_div.
    rewrite !sampZ_nat. unfold samp. rewrite nth_stuff by exact HR.
    destruct (Nat.eqb_spec (n mod R) 0), (Z.eqb_spec (Z.of_nat (n mod R)) 0); try lia; reflexivity.
Qed.

Lemma ups_coefs_len (c : list K) R : 0 < R -> length (ups_coefs c R) mod R = 0.
Proof.
  intros HR. unfold ups_coefs. rewrite app_length, map_length, repeat_length.
  pose proof (Nat.mod_upper_bound (length c) R ltac:(lia)). pose proof (Nat.div_mod (length c) R ltac:(lia)) as D.
  destruct (Nat.eq_dec (length c mod R) 0) as [E|E].
  - rewrite E, Nat.sub_0_r, Nat.mod_same, Nat.add_0_r by lia. exact E.
  - rewrite (Nat.mod_small (R - _)) by lia. symmetry. apply (Nat.mod_unique _ R (length c / R + 1) 0); [lia|].
    rewrite Nat.mul_add_distr_l. lia.
Qed.

Lemma fups_init_ok (c : list K) R : 0 < R -> fups_init c R = Ok (mkfups (repeat c0 (length (ups_coefs c R) / R)) 0 (ups_coefs c R) R).
Proof.
  intros HR. unfold fups_init. rewrite imod_ok by exact HR. cbn [bind]. rewrite map_length.
  pose proof (Nat.mod_upper_bound (length c) R ltac:(lia)).
  assert (E : (if length c mod R =? 0 then map (fun v => cmul v (cnat R)) c
    else map (fun v => cmul v (cnat R)) c ++ repeat c0 (R - length c mod R)) = ups_coefs c R).
  { unfold ups_coefs. destruct (Nat.eqb_spec (length c mod R) 0) as [E|E].
    - rewrite E, Nat.sub_0_r, Nat.mod_same by lia. cbn [repeat]. rewrite app_nil_r. reflexivity.
    - rewrite (Nat.mod_small (R - _)) by lia. reflexivity. }
  rewrite E. reflexivity.
Qed.

Definition ups_val (C : list K) (R L : nat) (g : nat -> K) (i : nat) : K :=
  sum L (fun t => cmul (samp C ((R - 1) - i + t * R)) (g t)).

Lemma ups_dot_ok C R fen idx g i : 0 < R -> i < R -> length C = length C / R * R ->
  Win (c0 : K) (length C / R) fen idx g -> ups_dot fen C idx R i = Ok (ups_val C R (length C / R) g i).
Proof.
  intros HR Hi HC (Lf & Hx & G). unfold ups_dot, ups_val. set (L := length C / R) in *.
  set (k1 := L - idx). set (k2 := L - k1).
  assert (B : forall t, t < L -> (R - 1) - i + t * R < length C).
  { intros t Ht. rewrite HC. assert ((t + 1) * R <= L * R) by (apply Nat.mul_le_mono_r; lia).
    rewrite Nat.mul_add_distr_r in H. lia. }
  rewrite (loop_sum2 K k1 _ _ (fun t => g t) (fun t => samp C ((R - 1) - i + t * R))).
  - cbn [bind]. rewrite (loop_sum2 K k2 _ _ (fun t => g (k1 + t)) (fun t => samp C ((R - 1) - i + (k1 + t) * R))).
    + f_equal. replace (sum L) with (sum (K := K) (k1 + k2)) by (f_equal; lia). rewrite sum_split.
      rewrite (sum_ext K k1 (fun t => cmul (samp C _) (g t)) (fun t => cmul (g t) (samp C (R - 1 - i + t * R)))) by (intros; ring).
      rewrite (sum_ext K k2 (fun t => cmul (samp C _) (g (k1 + t))) (fun t => cmul (g (k1 + t)) (samp C (R - 1 - i + (k1 + t) * R)))) by (intros; ring).
      ring.
    + intros t Ht. rewrite (pget_ok _ _ (c0 : K)) by lia. rewrite <- G by lia. rewrite mod_lt2 by lia.
      destruct (Nat.ltb_spec (idx + (k1 + t)) L); [lia|]. do 2 f_equal. lia.
    + intros t Ht. rewrite (pget_ok _ _ (c0 : K)) by (apply B; lia). reflexivity.
  - intros t Ht. rewrite (pget_ok _ _ (c0 : K)) by lia. rewrite <- G by lia. rewrite Nat.mod_small by lia. reflexivity.
  - intros t Ht. rewrite (pget_ok _ _ (c0 : K)) by (apply B; lia). reflexivity.
Qed.

Definition ups_inv (C : list K) (R : nat) (h : list K) (s : fups K) :=
  fu_coefs s = C /\ fu_R s = R /\ HWin K (length C / R) (fu_fen s) (fu_index s) h.

Definition ups_F (C : list K) R (h : list K) (j i : nat) : K :=
  ups_val C R (length C / R) (fun t => sampZ h (Z.of_nat (j + 1) - Z.of_nat (length C / R) + Z.of_nat t)) i.
Definition ups_out (C : list K) (R : nat) (h : list K) : list K :=
  concat (map (fun j => map (ups_F C R h j) (seq 0 R)) (seq 0 (length h))).

Lemma ups_outs_ok C R fen idx g n : 0 < R -> n <= R -> length C = length C / R * R ->
  Win (c0 : K) (length C / R) fen idx g ->
  ups_outs fen C idx R n = Ok (map (ups_val C R (length C / R) g) (seq 0 n)).
Proof.
  intros HR Hn HC W. induction n as [|n IH]; [reflexivity|]. cbn [ups_outs]. rewrite IH by lia. cbn [bind].
  rewrite (ups_dot_ok C R fen idx g n) by (assumption || lia). cbn [bind]. rewrite seq_S, map_app. reflexivity.
Qed.

Lemma ups_val_ext C R L g g' i : (forall t, t < L -> g t = g' t) -> ups_val C R L g i = ups_val C R L g' i.
Proof. intros H. apply sum_ext. intros t Ht. rewrite H by exact Ht. reflexivity. Qed.

Lemma fups_run (c : list K) R blocks s0 : 0 < R -> c <> [] -> fups_init c R = Ok s0 ->
  exists s y, run fups_step s0 blocks = Ok (s, y) /\ length y = length (concat blocks) * R /\
    forall n, n < length y -> samp y n = conv (rev (ups_coefs c R)) (stuff R (concat blocks)) n.
Proof.
  intros HR Hc E0. rewrite fups_init_ok in E0 by exact HR. injection E0 as <-.
  set (C := ups_coefs c R). assert (HC0 : length C mod R = 0) by (apply ups_coefs_len; exact HR).
  assert (HC : length C = length C / R * R) by (pose proof (Nat.div_mod (length C) R ltac:(lia)); rewrite (Nat.mul_comm (length C / R)); lia).
  assert (HL : 0 < length C / R).
  { assert (0 < length C) by (unfold C, ups_coefs; rewrite app_length, map_length; destruct c; [congruence|cbn [length]; lia]).
    destruct (length C / R); lia. }
  destruct (run_hist fups_step (ups_inv C R) (ups_out C R)) with (s := mkfups (repeat (c0 : K) (length C / R)) 0 C R) (blocks := blocks) as (s & E & _).
  - reflexivity.
  - intros h s b HI. unfold fups_step. pose proof HI as (A1 & A2 & W). rewrite A1.
    destruct (Nat.eqb_spec (length C) 0) as [Z|_]; [rewrite Z in HL; rewrite Nat.div_0_l in HL; lia|].
    apply (flat_st_hist fups_sample (ups_inv C R) (ups_out C R)); [|exact HI].
    clear h s b HI A1 A2 W. intros h s a (A1 & A2 & W). pose proof W as (Lf & Hx & G).
    unfold fups_sample. rewrite vset_ok by lia. cbn [bind]. rewrite A1, A2, imod_ok by lia. cbn [bind].
    pose proof (hwin_push K _ _ _ _ a W) as W'. rewrite (ups_outs_ok C R _ _ _ R HR (le_n R) HC W'). cbn [bind].
    do 2 eexists. split; [reflexivity|]. split; [split; [reflexivity|]; split; [reflexivity|exact W']|].
    unfold ups_out. rewrite app_length. cbn [length]. rewrite Nat.add_1_r, seq_S, map_app, concat_app. cbn [map concat].
    rewrite app_nil_r, Nat.add_0_l. f_equal.
    + f_equal. apply map_ext_in. intros j Hj. apply in_seq in Hj. apply map_ext. intros i. apply ups_val_ext.
      intros t Ht. apply sampZ_app_l. lia.
    + apply map_ext. intros i. apply ups_val_ext. intros t Ht. unfold past. rewrite app_length. reflexivity.
  - split; [reflexivity|]. split; [reflexivity|]. apply hwin_init. exact HL.
  - set (x := concat blocks) in *. exists s, (ups_out C R x). split; [exact E|].
    assert (LY : length (ups_out C R x) = length x * R).
    { unfold ups_out. generalize (length x) as J. intros J. induction J as [|J IH]; [reflexivity|].
      rewrite seq_S, map_app, concat_app, app_length, IH. cbn [map concat]. rewrite app_nil_r, map_length, seq_length. cbn [Nat.mul]. lia. }
    split; [exact LY|]. intros n Hn. rewrite LY in Hn. unfold samp at 1, ups_out. rewrite nth_concat_grid by assumption.
    set (j := n / R). set (i := n mod R). assert (Hi : i < R) by (apply Nat.mod_upper_bound; lia).
    assert (Hn' : n = j * R + i) by (unfold i, j; rewrite (Nat.mul_comm (n / R)); apply Nat.div_mod; lia).
    unfold conv. rewrite rev_length, sum_rev. unfold ups_F, ups_val.
    set (L := length C / R) in *.
    rewrite (sum_ext K (length C) _ (fun k => cmul (samp C k) (sampZ (stuff R x) (Z.of_nat n - Z.of_nat (length C) + 1 + Z.of_nat k)))).
    2:{ intros k Hk. f_equal; [|f_equal; lia]. unfold samp. rewrite rev_nth by lia. f_equal. lia. }
    replace (sum (K:=K) (length C)) with (sum (K:=K) (L * R)) by (f_equal; symmetry; exact HC). rewrite sum_mul_split. apply sum_ext. intros t Ht.
    rewrite (sum_single K R _ (R - 1 - i)).
    + f_equal; [unfold samp; f_equal; lia|]. rewrite sampZ_stuff by exact HR.
      assert (P : (Z.of_nat n - Z.of_nat (length C) + 1 + Z.of_nat (t * R + (R - 1 - i)) = (Z.of_nat (j + 1) - Z.of_nat L + Z.of_nat t) * Z.of_nat R)%Z).
      { rewrite HC, Hn'. rewrite !Nat2Z.inj_add, !Nat2Z.inj_mul. rewrite (Nat2Z.inj_sub (R - 1) i), (Nat2Z.inj_sub R 1) by lia. ring. }
      rewrite P, Z.mod_mul, Z.div_mul by lia. reflexivity.
    + lia.
    + intros r Hr Hne. rewrite sampZ_stuff by exact HR.
      assert (P : (Z.of_nat n - Z.of_nat (length C) + 1 + Z.of_nat (t * R + r) = Z.of_nat i + 1 + Z.of_nat r + (Z.of_nat j - Z.of_nat L + Z.of_nat t) * Z.of_nat R)%Z).
      { rewrite HC, Hn'. rewrite !Nat2Z.inj_add, !Nat2Z.inj_mul. ring. }
      rewrite P, Z.mod_add by lia.
      destruct (Z.eqb_spec ((Z.of_nat i + 1 + Z.of_nat r) mod Z.of_nat R) 0) as [C0|_]; [|ring].
      exfalso. apply Z.mod_divide in C0; [|lia]. destruct C0 as [q Hq].
      assert (0 < q)%Z by (apply (Z.mul_pos_cancel_r q (Z.of_nat R)); lia).
      assert (q < 2)%Z by (apply (Z.mul_lt_mono_pos_r (Z.of_nat R)); lia).
      assert (q = 1)%Z by lia. subst q. lia.
Qed.

(** ** Polyphase form *)
Definition pad_to (M : nat) (x : list K) : list K := x ++ repeat c0 ((M - length x mod M) mod M).

Lemma pad_len M (x : list K) : 0 < M -> length (pad_to M x) = (length x + M - 1) / M * M.
Proof.
  intros HM. unfold pad_to. rewrite app_length, repeat_length.
  pose proof (Nat.mod_upper_bound (length x) M ltac:(lia)). pose proof (Nat.div_mod (length x) M ltac:(lia)) as D.
  set (q := length x / M) in *. set (r := length x mod M) in *.
  destruct (Nat.eq_dec r 0) as [E|E].
  - rewrite E, Nat.sub_0_r, Nat.mod_same by lia.
    replace ((length x + M - 1) / M) with q by (apply (Nat.div_unique _ M q (M - 1)); lia). rewrite (Nat.mul_comm q). lia.
  - rewrite (Nat.mod_small (M - r)) by lia.
    replace ((length x + M - 1) / M) with (q + 1) by (apply (Nat.div_unique _ M (q + 1) (r - 1)); [lia|]; rewrite Nat.mul_add_distr_l; lia).
    rewrite Nat.mul_add_distr_r, (Nat.mul_comm q). lia.
Qed.

Lemma forme_ok (x : list K) M : 0 < M -> x <> [] ->
  forme_polyphase x M = Ok (mkmat M ((length x + M - 1) / M) (pad_to M x)).
Proof.
  intros HM Hx. unfold forme_polyphase. rewrite imod_ok by exact HM. cbn [bind].
  destruct (Nat.eqb_spec (length x) 0); [destruct x; [congruence|discriminate]|].
  pose proof (Nat.mod_upper_bound (length x) M ltac:(lia)).
  assert (E : (if length x mod M =? 0 then x else x ++ repeat c0 (M - length x mod M)) = pad_to M x).
  { unfold pad_to. destruct (Nat.eqb_spec (length x mod M) 0) as [E|E].
    - rewrite E, Nat.sub_0_r, Nat.mod_same by lia. cbn [repeat]. rewrite app_nil_r. reflexivity.
    - rewrite (Nat.mod_small (M - _)) by lia. reflexivity. }
  rewrite E, pad_len, Nat.div_mul by lia. reflexivity.
Qed.

Lemma polyphase_roundtrip (x : list K) M : 0 < M -> x <> [] ->
  exists X, forme_polyphase x M = Ok X /\ iforme_polyphase X = x ++ repeat c0 ((M - length x mod M) mod M) /\
    m_rows X = M /\ m_cols X = (length x + M - 1) / M /\
    forall m k, m < M -> k < m_cols X -> m_at X m k = Some (samp x (k * M + m)).
Proof.
  intros HM Hx. rewrite forme_ok by assumption. eexists. split; [reflexivity|].
  unfold iforme_polyphase. cbn [m_rows m_cols m_data]. split.
  - fold (pad_to M x). apply firstn_all2. rewrite pad_len by exact HM. rewrite Nat.mul_comm. lia.
  - split; [reflexivity|]. split; [reflexivity|]. intros m k Hm Hk. unfold m_at. cbn [m_rows m_cols m_data].
    destruct (Nat.ltb_spec m M); [|lia]. destruct (Nat.ltb_spec k ((length x + M - 1) / M)); [|lia]. cbn [andb].
    assert (B : m + k * M < length (pad_to M x)).
    { rewrite pad_len by exact HM. assert ((k + 1) * M <= (length x + M - 1) / M * M) by (apply Nat.mul_le_mono_r; lia).
      rewrite Nat.mul_add_distr_r in H1. lia. }
    rewrite (nth_error_nth' _ (c0 : K) B). f_equal. unfold samp. replace (k * M + m) with (m + k * M) by lia.
    unfold pad_to. destruct (Nat.lt_ge_cases (m + k * M) (length x)).
    + apply app_nth1. exact H1.
    + rewrite app_nth2 by exact H1. rewrite nth_repeat, nth_overflow by exact H1. reflexivity.
Qed.

(** ** CIC *)
Local Open Scope cring_scope.
Definition zneg (f : Z -> K) := forall z, (z < 0)%Z -> f z = 0.
Definition acc (f : Z -> K) (n : Z) : K := sum (Z.to_nat (n + 1)) (fun k => f (Z.of_nat k)).
Fixpoint accN (N : nat) (f : Z -> K) : Z -> K := match N with O => f | S n => accN n (acc f) end.
Definition dR (R : nat) (f : Z -> K) (n : Z) : K := f n - f (n - Z.of_nat R)%Z.
Fixpoint dN (N R : nat) (f : Z -> K) : Z -> K := match N with O => f | S n => dN n R (dR R f) end.

Lemma acc_step f n : zneg f -> acc f n - acc f (n - 1)%Z = f n.
Proof.
  intros Hf. unfold acc. destruct (Z.lt_ge_cases n 0).
  - rewrite Hf by lia. replace (Z.to_nat (n + 1)) with 0%nat by lia. replace (Z.to_nat (n - 1 + 1)) with 0%nat by lia. simpl. ring.
  - replace (Z.to_nat (n + 1)) with (S (Z.to_nat n)) by lia. replace (Z.to_nat (n - 1 + 1)) with (Z.to_nat n) by lia.
    cbn [sum]. replace (Z.of_nat (Z.to_nat n)) with n by lia. ring.
Qed.
Lemma acc_neg f : zneg (acc f).
Proof. intros z Hz. unfold acc. replace (Z.to_nat (z + 1)) with 0%nat by lia. reflexivity. Qed.
Lemma acc_box R f n : zneg f -> dR R (acc f) n = box R f n.
Proof.
  intros Hf. unfold dR, box. induction R as [|R IH].
  - simpl. replace (n - 0)%Z with n by lia. ring.
  - cbn [sum]. rewrite <- IH. rewrite <- (acc_step f (n - Z.of_nat R)) by exact Hf.
    replace (n - Z.of_nat (S R))%Z with (n - Z.of_nat R - 1)%Z by lia. ring.
Qed.
Lemma acc_ext f g n : (forall z, (z <= n)%Z -> f z = g z) -> acc f n = acc g n.
Proof. intros H. apply sum_ext. intros i Hi. apply H. lia. Qed.
Lemma accN_ext N : forall f g n, (forall z, (z <= n)%Z -> f z = g z) -> accN N f n = accN N g n.
Proof.
  induction N as [|N IH]; intros f g n H; cbn [accN]; [apply H; lia|]. apply IH. intros z Hz. apply acc_ext. intros w Hw. apply H. lia.
Qed.
Lemma dN_ext N R : forall f g n, (forall z, (z <= n)%Z -> f z = g z) -> dN N R f n = dN N R g n.
Proof.
  induction N as [|N IH]; intros f g n H; cbn [dN]; [apply H; lia|]. apply IH. intros z Hz. unfold dR. rewrite !H by lia. reflexivity.
Qed.
Lemma dR_neg R f : zneg f -> zneg (dR R f).
Proof. intros Hf z Hz. unfold dR. rewrite !Hf by lia. ring. Qed.
Lemma box_neg R f : zneg f -> zneg (box R f).
Proof. intros Hf z Hz. apply sum_zero. intros i Hi. apply Hf. lia. Qed.
Lemma dN_neg N R : forall f, zneg f -> zneg (dN N R f).
Proof. induction N as [|N IH]; intros f Hf; cbn [dN]; [exact Hf|]. apply IH, dR_neg, Hf. Qed.

Lemma acc_dR R f n : zneg f -> acc (dR R f) n = dR R (acc f) n.
Proof.
  intros Hf. destruct (Z.lt_ge_cases n 0) as [H|H].
  - rewrite acc_neg by exact H. unfold dR. rewrite !acc_neg by lia. ring.
  - replace n with (Z.of_nat (Z.to_nat n)) by lia. generalize (Z.to_nat n) as k. intros k. clear n H.
    assert (G : acc (dR R f) (Z.of_nat k - 1)%Z = dR R (acc f) (Z.of_nat k - 1)%Z -> acc (dR R f) (Z.of_nat k) = dR R (acc f) (Z.of_nat k)).
    { intros E. pose proof (acc_step (dR R f) (Z.of_nat k) (dR_neg R f Hf)) as S1.
      replace (acc (dR R f) (Z.of_nat k)) with (acc (dR R f) (Z.of_nat k) - acc (dR R f) (Z.of_nat k - 1)%Z + acc (dR R f) (Z.of_nat k - 1)%Z) by ring.
      rewrite S1, E. unfold dR at 1 2 3. rewrite <- (acc_step f (Z.of_nat k)) by exact Hf.
      rewrite <- (acc_step f (Z.of_nat k - Z.of_nat R)) by exact Hf.
      replace (Z.of_nat k - Z.of_nat R - 1)%Z with (Z.of_nat k - 1 - Z.of_nat R)%Z by lia. ring. }
    induction k as [|k IH]; apply G.
    + rewrite acc_neg by lia. unfold dR. rewrite !acc_neg by lia. ring.
    + replace (Z.of_nat (S k) - 1)%Z with (Z.of_nat k) by lia. apply IH. intros E. 
      pose proof (acc_step (dR R f) (Z.of_nat k) (dR_neg R f Hf)) as S1.
      replace (acc (dR R f) (Z.of_nat k)) with (acc (dR R f) (Z.of_nat k) - acc (dR R f) (Z.of_nat k - 1)%Z + acc (dR R f) (Z.of_nat k - 1)%Z) by ring.
      rewrite S1, E. unfold dR at 1 2 3. rewrite <- (acc_step f (Z.of_nat k)) by exact Hf.
      rewrite <- (acc_step f (Z.of_nat k - Z.of_nat R)) by exact Hf.
      replace (Z.of_nat k - Z.of_nat R - 1)%Z with (Z.of_nat k - 1 - Z.of_nat R)%Z by lia. ring.
Qed.
Lemma dR_accN R N : forall f n, zneg f -> dR R (accN N f) n = accN N (dR R f) n.
Proof.
  induction N as [|N IH]; intros f n Hf; cbn [accN]; [reflexivity|]. rewrite IH by apply acc_neg. apply accN_ext.
  intros z _. symmetry. apply acc_dR, Hf.
Qed.
Lemma acc_dN R N : forall f n, zneg f -> acc (dN N R f) n = dN N R (acc f) n.
Proof.
  induction N as [|N IH]; intros f n Hf; cbn [dN]; [reflexivity|]. rewrite IH by (apply dR_neg, Hf). apply dN_ext.
  intros z _. apply acc_dR, Hf.
Qed.
Lemma box_ext R (f g : Z -> K) n : (forall z, (z <= n)%Z -> f z = g z) -> box R f n = box R g n.
Proof. intros H. apply sum_ext. intros i _. apply H. lia. Qed.
Lemma box_n_box N R : forall (f : Z -> K) n, box_n N R (box R f) n = box_n (S N) R f n.
Proof.
  induction N as [|N IH]; intros f n; [reflexivity|]. cbn [box_n]. apply box_ext. intros z _. rewrite IH. reflexivity.
Qed.
Lemma dN_accN N R : forall f n, zneg f -> dN N R (accN N f) n = box_n N R f n.
Proof.
  induction N as [|N IH]; intros f n Hf; [reflexivity|]. cbn [dN accN].
  rewrite (dN_ext N R _ (accN N (box R f)) n).
  - rewrite IH by (apply box_neg, Hf). apply box_n_box.
  - intros z _. rewrite dR_accN by apply acc_neg. apply accN_ext. intros w _. apply acc_box, Hf.
Qed.
Lemma accN_dN N R : forall f n, zneg f -> accN N (dN N R f) n = box_n N R f n.
Proof.
  induction N as [|N IH]; intros f n Hf; [reflexivity|]. cbn [dN accN].
  rewrite (accN_ext N _ (dN N R (box R f)) n).
  - rewrite IH by (apply box_neg, Hf). apply box_n_box.
  - intros z _. rewrite acc_dN by (apply dR_neg, Hf). apply dN_ext. intros w _. rewrite acc_dR by exact Hf. apply acc_box, Hf.
Qed.

(** From lists to functions. *)
Lemma sampZ_zneg (x : list K) : zneg (sampZ x).
Proof. intros z Hz. apply sampZ_neg. exact Hz. Qed.
Lemma cumsum_from_nth cs (x : list K) : forall n, (n < length x)%nat -> nth n (cumsum_from cs x) 0 = cs + sum (S n) (samp x).
Proof.
  revert cs. induction x as [|a t IH]; intros cs n Hn; cbn [length] in Hn; [lia|]. destruct n as [|n].
  - cbn [cumsum_from nth sum]. change (samp (a :: t) 0) with a. ring.
  - cbn [cumsum_from nth]. rewrite IH by lia. rewrite (sum_S_l K (S n)). 
    change (fun i => samp (a :: t) (S i)) with (samp t). change (samp (a :: t) 0) with a. ring.
Qed.
Lemma cumsum_length (x : list K) : length (cumsum x) = length x.
Proof. unfold cumsum. generalize (0 : K). induction x as [|a t IH]; intros c; [reflexivity|]. cbn [cumsum_from length]. f_equal. apply IH. Qed.
Lemma sampZ_cumsum (x : list K) z : (z < Z.of_nat (length x))%Z -> sampZ (cumsum x) z = acc (sampZ x) z.
Proof.
  intros Hz. destruct (Z.lt_ge_cases z 0) as [H|H].
  - rewrite sampZ_neg by exact H. symmetry. apply acc_neg. exact H.
  - replace z with (Z.of_nat (Z.to_nat z)) by lia. rewrite sampZ_nat. unfold samp, cumsum. rewrite cumsum_from_nth by lia.
    unfold acc. replace (Z.to_nat (Z.of_nat (Z.to_nat z) + 1)) with (S (Z.to_nat z)) by lia.
    rewrite (sum_ext K _ (samp x) (fun k => sampZ x (Z.of_nat k))); [ring|]. intros i _. symmetry. apply sampZ_nat.
Qed.
Lemma integrate_length N : forall x : list K, length (integrate N x) = length x.
Proof. induction N as [|N IH]; intros x; cbn [integrate]; [reflexivity|]. rewrite IH. apply cumsum_length. Qed.
Lemma sampZ_integrate N : forall (x : list K) z, (z < Z.of_nat (length x))%Z -> sampZ (integrate N x) z = accN N (sampZ x) z.
Proof.
  induction N as [|N IH]; intros x z Hz; cbn [integrate accN]; [reflexivity|]. rewrite IH by (rewrite cumsum_length; exact Hz).
  apply accN_ext. intros w Hw. apply sampZ_cumsum. lia.
Qed.
Lemma diff_aux_length p (x : list K) : length (diff_aux p x) = length x.
Proof. revert p; induction x as [|a t IH]; intros p; [reflexivity|]. cbn [diff_aux length]. f_equal. apply IH. Qed.
Lemma diff_aux_nth (x : list K) : forall p n, (n < length x)%nat ->
  nth n (diff_aux p x) 0 = nth n x 0 - match n with O => p | S m => nth m x 0 end.
Proof.
  induction x as [|a t IH]; intros p n Hn; cbn [length] in Hn; [lia|]. destruct n as [|n]; [reflexivity|].
  cbn [diff_aux nth]. rewrite IH by lia. destruct n; reflexivity.
Qed.
Lemma sampZ_diff0 (x : list K) z : (z < Z.of_nat (length x))%Z -> sampZ (diff_aux 0 x) z = dR 1 (sampZ x) z.
Proof.
  intros Hz. unfold dR. destruct (Z.lt_ge_cases z 0) as [H|H].
  - rewrite !sampZ_neg by lia. ring.
  - replace z with (Z.of_nat (Z.to_nat z)) by lia. set (n := Z.to_nat z). rewrite !sampZ_nat. unfold samp.
    rewrite diff_aux_nth by lia. f_equal. destruct n as [|m].
    + symmetry. apply sampZ_neg. lia.
    + replace (Z.of_nat (S m) - Z.of_nat 1)%Z with (Z.of_nat m) by lia. rewrite sampZ_nat. reflexivity.
Qed.

Lemma combs_ok N : forall x : list K, x <> [] -> exists mem y, combs (repeat 0 N) x = Ok (mem, y) /\ length y = length x /\
  forall z, (z < Z.of_nat (length x))%Z -> sampZ y z = dN N 1 (sampZ x) z.
Proof.
  induction N as [|N IH]; intros x Hx; cbn [repeat combs].
  - do 2 eexists. split; [reflexivity|]. split; [reflexivity|]. reflexivity.
  - cbn [diff bind]. assert (Hl : (0 < length x)%nat) by (destruct x; [congruence|cbn [length]; lia]).
    rewrite (vgetZ_ok x _ (0 : K)) by lia. cbn [bind].
    destruct (IH (diff_aux 0 x)) as (mem & y & E & L & N1).
    { intros C. apply (f_equal (@length _)) in C. rewrite diff_aux_length in C. cbn in C. lia. }
    rewrite E. cbn [bind]. rewrite diff_aux_length in *. do 2 eexists. split; [reflexivity|]. split; [exact L|].
    intros z Hz. rewrite N1 by exact Hz. cbn [dN]. apply dN_ext. intros w Hw. apply sampZ_diff0. lia.
Qed.
Lemma combs_i_ok x0 N : forall x : list K, length x = length x0 -> x <> [] -> exists mem y, combs_i x0 (repeat 0 N) x = Ok (mem, y) /\ length y = length x /\
  forall z, (z < Z.of_nat (length x))%Z -> sampZ y z = dN N 1 (sampZ x) z.
Proof.
  induction N as [|N IH]; intros x Hx0 Hx; cbn [repeat combs_i].
  - do 2 eexists. split; [reflexivity|]. split; [reflexivity|]. reflexivity.
  - cbn [diff bind]. assert (Hl : (0 < length x)%nat) by (destruct x; [congruence|cbn [length]; lia]).
    rewrite (vgetZ_ok x0 _ (0 : K)) by lia. cbn [bind].
    destruct (IH (diff_aux 0 x)) as (mem & y & E & L & N1); [rewrite diff_aux_length; exact Hx0| |].
    { intros C. apply (f_equal (@length _)) in C. rewrite diff_aux_length in C. cbn in C. lia. }
    rewrite E. cbn [bind]. rewrite diff_aux_length in *. do 2 eexists. split; [reflexivity|]. split; [exact L|].
    intros z Hz. rewrite N1 by exact Hz. cbn [dN]. apply dN_ext. intros w Hw. apply sampZ_diff0. lia.
Qed.

Lemma sousech_ok {A} (d : A) (x : list A) R : (0 < R)%nat ->
  sousech x R = Ok (map (fun i => nth (i * R) x d) (seq 0 (length x / R))).
Proof.
  intros HR. unfold sousech. destruct (Nat.eqb_spec R 0); [lia|].
  assert (G : forall l, (forall i, In i l -> (i < length x / R)%nat) ->
    fold_right (fun i acc => let* l := acc in let* v := vget x (i * R) in Ok (v :: l)) (Ok []) l = Ok (map (fun i => nth (i * R) x d) l)).
  { induction l as [|i l IH]; intros H; [reflexivity|]. cbn [fold_right map]. rewrite IH by (intros; apply H; right; assumption). cbn [bind].
    specialize (H i (or_introl eq_refl)).
    assert ((i * R < length x)%nat).
    { apply Nat.lt_le_trans with (length x / R * R)%nat; [apply Nat.mul_lt_mono_pos_r; lia|]. rewrite Nat.mul_comm. apply Nat.mul_div_le. lia. }
    rewrite (vget_ok x _ d) by assumption. reflexivity. }
  apply G. intros i Hi. apply in_seq in Hi. lia.
Qed.

Lemma dN_scale N R : forall (f : Z -> K) m, dN N 1 (fun k => f (k * Z.of_nat R)%Z) m = dN N R f (m * Z.of_nat R)%Z.
Proof.
  induction N as [|N IH]; intros f m; cbn [dN]; [reflexivity|].
  rewrite <- IH. apply dN_ext. intros z _. unfold dR. do 2 f_equal. lia.
Qed.

Lemma cic_decim_ok N R (x : list K) : (0 < R)%nat -> (R <= length x)%nat ->
  exists s y, cic_decim (cic_init N R) x = Ok (s, y) /\ length y = (length x / R)%nat /\
   forall m, (m < length y)%nat -> samp y m = box_n N R (sampZ x) (Z.of_nat (m * R)).
Proof.
  intros HR Hx. unfold cic_decim. cbn [cic_init ci_N ci_R ci_mem]. rewrite (sousech_ok (0 : K)) by exact HR. cbn [bind].
  rewrite integrate_length. set (xd := map _ _).
  assert (Lx : length xd = (length x / R)%nat) by (unfold xd; rewrite map_length, seq_length; reflexivity).
  assert (H0 : (0 < length x / R)%nat) by (apply Nat.div_str_pos; lia).
  destruct (combs_ok N xd) as (mem & y & E & L & NY); [intros C; rewrite C in Lx; cbn in Lx; lia|].
  rewrite E. cbn [bind]. do 2 eexists. split; [reflexivity|]. split; [congruence|]. intros m Hm.
  rewrite <- sampZ_nat, NY by lia. rewrite Nat2Z.inj_mul.
  rewrite (dN_ext N 1 _ (fun k => accN N (sampZ x) (k * Z.of_nat R)%Z)).
  - rewrite dN_scale. apply dN_accN, sampZ_zneg.
  - intros z Hz. destruct (Z.lt_ge_cases z 0) as [H|H].
    + rewrite sampZ_neg by exact H.
      assert (AN : forall N f, zneg f -> zneg (accN N f)) by (clear; induction N; intros f Hf; cbn [accN]; [exact Hf|apply IHN, acc_neg]).
      symmetry. apply AN; [apply sampZ_zneg|]. apply Z.mul_neg_pos; lia.
    + replace z with (Z.of_nat (Z.to_nat z)) in * by lia. set (k := Z.to_nat z) in *. rewrite sampZ_nat. unfold samp, xd.
      rewrite nth_indep with (d' := nth (0 * R) (integrate N x) 0) by (rewrite map_length, seq_length; lia).
      rewrite (map_nth (fun i => nth (i * R) (integrate N x) 0)), seq_nth by lia. cbn [Nat.add].
      rewrite <- Nat2Z.inj_mul.
      assert ((k * R < length x)%nat).
      { apply Nat.lt_le_trans with (length x / R * R)%nat; [apply Nat.mul_lt_mono_pos_r; lia|]. rewrite Nat.mul_comm. apply Nat.mul_div_le. lia. }
      rewrite <- sampZ_integrate by lia. rewrite sampZ_nat. reflexivity.
Qed.

Lemma surech_ok (x : list K) R : (0 < R)%nat -> surech x R = Ok (stuff R x).
Proof.
  intros HR. unfold surech.
  assert (G : forall n, (n <= length x)%nat -> exists u, loop n (fun i y => let* v := vget x i in vset y (i * R) v) (repeat 0 (length x * R)) = Ok u /\
     length u = (length x * R)%nat /\ forall k, nth k u 0 = if ((k mod R =? 0) && (k / R <? n))%nat then nth (k / R) x 0 else (0 : K)).
  { induction n as [|n IH]; intros Hn.
    - eexists. split; [reflexivity|]. split; [apply repeat_length|]. intros k. rewrite andb_false_r. apply nth_repeat.
    - destruct IH as (u & E & L & N); [lia|]. rewrite loop_S, E. cbn [bind]. rewrite (vget_ok x n (0 : K)) by lia. cbn [bind].
      assert ((n * R < length x * R)%nat) by (apply Nat.mul_lt_mono_pos_r; lia).
      rewrite vset_ok by lia. eexists. split; [reflexivity|]. split; [rewrite upd_length; exact L|]. intros k. rewrite nth_upd, N.
      pose proof (Nat.div_mod k R ltac:(lia)) as D. pose proof (Nat.mod_upper_bound k R ltac:(lia)).
      destruct (Nat.eqb_spec (n * R) k) as [<-|Hne].
      + rewrite Nat.mod_mul, Nat.div_mul by lia. destruct (Nat.ltb_spec n (S n)); [|lia]. rewrite L.
        destruct (Nat.ltb_spec (n * R) (length x * R)); [|lia]. rewrite ?Nat.eqb_refl. reflexivity.
      + cbn [andb].
        destruct (Nat.eqb_spec (k mod R) 0) as [Z|Z]; cbn [andb]; [|reflexivity].
        assert ((k / R)%nat <> n) by (intros C; apply Hne; rewrite D, Z, C; lia).
        destruct (Nat.ltb_spec (k / R) n), (Nat.ltb_spec (k / R) (S n)); try lia; reflexivity. }
  destruct (G (length x) (le_n _)) as (u & E & L & N). rewrite E. f_equal.
  apply (list_ext (0 : K)); [rewrite stuff_length by exact HR; exact L|]. intros k Hk. rewrite N, nth_stuff by exact HR.
  destruct (k mod R =? 0)%nat; cbn [andb]; [|reflexivity]. destruct (Nat.ltb_spec (k / R) (length x)); [reflexivity|].
  symmetry. apply nth_overflow. exact H.
Qed.

Lemma cic_interp_ok N R (x : list K) : (0 < R)%nat -> x <> [] ->
  exists s y, cic_interp (cic_init N R) x = Ok (s, y) /\ length y = (length x * R)%nat /\
   forall n, (n < length y)%nat -> samp y n = box_n N R (sampZ (stuff R x)) (Z.of_nat n).
Proof.
  intros HR Hx. unfold cic_interp. cbn [cic_init ci_N ci_R ci_mem].
  destruct (combs_i_ok x N x eq_refl Hx) as (mem & xi & E & L & NX). rewrite E. cbn [bind].
  rewrite surech_ok by exact HR. cbn [bind]. do 2 eexists. split; [reflexivity|].
  rewrite integrate_length, stuff_length, L by exact HR. split; [reflexivity|]. intros n Hn.
  rewrite <- sampZ_nat, sampZ_integrate by (rewrite stuff_length, L by exact HR; lia).
  rewrite <- accN_dN by apply sampZ_zneg. apply accN_ext. intros z Hz.
  rewrite sampZ_stuff by exact HR.
  assert (DS : forall N f (r : Z), (0 <= r < Z.of_nat R)%Z -> forall q, 
    dN N R f (q * Z.of_nat R + r)%Z = dN N 1 (fun k => f (k * Z.of_nat R + r)%Z) q).
  { clear. induction N as [|N IH]; intros f r Hr q; cbn [dN]; [reflexivity|]. rewrite IH by exact Hr. apply dN_ext. intros z _. unfold dR.
    do 2 f_equal. lia. }
  pose proof (Z.div_mod z (Z.of_nat R) ltac:(lia)) as D. pose proof (Z.mod_pos_bound z (Z.of_nat R) ltac:(lia)) as B.
  set (q := (z / Z.of_nat R)%Z) in *. set (r := (z mod Z.of_nat R)%Z) in *.
  replace z with (q * Z.of_nat R + r)%Z by lia. rewrite DS by exact B.
  destruct (Z.eqb_spec r 0) as [Hr|Hr].
  - assert (q < Z.of_nat (length x))%Z by (apply (Z.mul_lt_mono_pos_r (Z.of_nat R)); lia).
    rewrite NX by lia. apply dN_ext. intros k _. rewrite sampZ_stuff by exact HR. rewrite Hr, Z.add_0_r, Z.mod_mul, Z.div_mul by lia. reflexivity.
  - assert (Z0 : forall N g w, (forall k, g k = 0 :> K) -> dN N 1 g w = 0).
    { clear. induction N as [|N IH]; intros g w Hg; cbn [dN]; [apply Hg|]. apply IH. intros k. unfold dR. rewrite !Hg. ring. }
    symmetry. apply Z0. intros k. rewrite sampZ_stuff by exact HR. rewrite Z.add_comm, Z.mod_add by lia. rewrite Z.mod_small by lia.
    destruct (Z.eqb_spec r 0); [lia|reflexivity].
Qed.
End Ups.

Section Extra.
Context (K : cring).
Add Ring Kring3 : (cth K).
Lemma decim_fir_palindrome_iff (h : list K) R : 0 < R -> h <> [] ->
  (h = rev h <->
   forall blocks, exists s y, run rif_decim_step (fdec_init h R) blocks = Ok (s, y) /\
    length y = length (concat blocks) / R /\
    forall m, m < length y -> samp y m = conv h (concat blocks) ((m + 1) * R - 1)).
Proof.
  intros HR Hc. split; [intros P blocks; apply decim_fir_palindrome; assumption|]. intros H.
  set (n := length h). assert (Hn : 0 < n) by (unfold n; destruct h; [congruence|cbn [length]; lia]).
  apply (list_ext (c0 : K)); [symmetry; apply rev_length|]. intros k Hk. rewrite rev_nth by exact Hk.
  fold n. fold n in Hk.
  (* impulse at position p of a signal of n * R samples *)
  set (p := n * R - 1 - (n - 1 - k)). assert (Hnr : n <= n * R) by (destruct R; [lia|]; rewrite Nat.mul_succ_r; lia).
  set (x := repeat (c0 : K) p ++ [c1] ++ repeat c0 (n - 1 - k)).
  assert (Lx : length x = n * R) by (unfold x, p; rewrite !app_length, !repeat_length; cbn [length]; lia).
  assert (X : forall z, sampZ x z = if (z =? Z.of_nat p)%Z then c1 else c0).
  { intros z. destruct (Z.eqb_spec z (Z.of_nat p)) as [->|Hne].
    - rewrite sampZ_nat. unfold samp, x. rewrite app_nth2; rewrite repeat_length; [|lia]. rewrite Nat.sub_diag. reflexivity.
    - destruct (Z.lt_ge_cases z 0); [apply sampZ_neg; lia|]. replace z with (Z.of_nat (Z.to_nat z)) by lia.
      rewrite sampZ_nat. unfold samp, x. destruct (Nat.lt_ge_cases (Z.to_nat z) p).
      + rewrite app_nth1 by (rewrite repeat_length; lia). apply nth_repeat.
      + rewrite app_nth2; rewrite repeat_length; [|lia]. cbn [app].
        destruct (Z.to_nat z - p) as [|q] eqn:Q; [lia|]. cbn [nth]. apply nth_repeat. }
  destruct (H [x]) as (s & y & E & L & N). destruct (decim_fir_run K h R [x] HR Hc) as (s' & y' & E' & L' & N').
  rewrite E in E'. injection E' as _ <-. cbn [concat] in *. rewrite app_nil_r in *.
  rewrite Lx, Nat.div_mul in L by lia. specialize (N (n - 1) ltac:(lia)). specialize (N' (n - 1) ltac:(lia)).
  rewrite N' in N. fold n in N. replace ((n - 1 + 1) * R) with (n * R) in N by (f_equal; lia).
  unfold conv in N. fold n in N.
  rewrite (sum_single K n _ k) in N.
  - rewrite (sum_single K n _ (n - 1 - k)) in N.
    + rewrite !X in N. fold (samp h k). replace (n - S k) with (n - 1 - k) by lia. fold (samp h (n - 1 - k)).
      destruct (Z.eqb_spec (Z.of_nat (n * R) - Z.of_nat n + Z.of_nat k) (Z.of_nat p)); [|unfold p in *; lia].
      destruct (Z.eqb_spec (Z.of_nat (n * R - 1) - Z.of_nat (n - 1 - k)) (Z.of_nat p)); [|unfold p in *; lia].
      replace (samp h k) with (cmul (samp h k) c1) by ring. rewrite N. ring.
    + lia.
    + intros i Hi Hne. rewrite X. destruct (Z.eqb_spec (Z.of_nat (n * R - 1) - Z.of_nat i) (Z.of_nat p)); [unfold p in *; lia|ring].
  - exact Hk.
  - intros i Hi Hne. rewrite X. destruct (Z.eqb_spec (Z.of_nat (n * R) - Z.of_nat n + Z.of_nat i) (Z.of_nat p)); [unfold p in *; lia|ring].
Qed.

Lemma design_hb_bad (half : K) des n blocks :
  n mod 4 = 1 -> 5 <= n -> (forall q, length (des q) = q) ->
  exists h s y, design_hb half des n = Ok h /\ run (hb_step half) (fdec_init h 2) blocks = Ok (s, y) /\
    forall m, m < length y -> samp y m =
      let v := sampZ (concat blocks) (Z.of_nat ((m + 1) * 2) - Z.of_nat n + Z.of_nat (n / 2)) in
      cadd (cmul half v) (cmul half v).
Proof.
  intros Hn H5 Hd. destruct (design_hb_odd_zero K half des n Hn H5 Hd) as (h & E & L & C & Z).
  assert (Hc : h <> []) by (intros ->; cbn in L; lia).
  destruct (hb_run_any K half h blocks Hc) as (s & y & R & Ly & N). exists h, s, y.
  split; [exact E|]. split; [exact R|]. intros m Hm. rewrite N by exact Hm. cbv zeta. rewrite L.
  pose proof (Nat.div_mod n 4 ltac:(lia)) as D. set (q := n / 4) in *.
  assert (H2 : n / 2 = 2 * q) by (symmetry; apply (Nat.div_unique _ 2 (2 * q) 1); lia).
  assert (H3 : (n + 1) / 2 = 2 * q + 1) by (symmetry; apply (Nat.div_unique _ 2 (2 * q + 1) 0); lia).
  f_equal. rewrite H3. rewrite (sum_single K (2 * q + 1) _ q).
  - rewrite <- H2, C. reflexivity.
  - lia.
  - intros i Hi Hne. rewrite Z; [ring|lia| |lia]. rewrite Nat.mul_comm, Nat.mod_mul by lia. reflexivity.
Qed.

Lemma cic_short_block N R (x : list K) : length x < R ->
  forall s y, cic_decim (cic_init (S N) R) x <> Ok (s, y).
Proof.
  intros H s y. unfold cic_decim. cbn [cic_init ci_N ci_R ci_mem]. rewrite (sousech_ok (c0 : K)) by lia. cbn [bind].
  rewrite integrate_length, Nat.div_small by exact H. cbn. discriminate.
Qed.
End Extra.
