(** Proofs about the Levinson recursions (C41). *)
From Coq Require Import Lia Field.
From Verif Require Import Base BaseLemmas Levinson_Model Levinson_Spec.

Section P.
Context {K : cfield}.
Add Ring Kr : (cth K).
Add Field Kf : (fth K).
Open Scope cring_scope.
Notation nth0 l i := (nth i l (c0 (c := K))).

Lemma dot_sum (u v : list K) : length u = length v -> dot u v = sum (length u) (fun j => nth0 u j * nth0 v j).
Proof.
  revert v. induction u as [|a u IH]; intros [|b v] H; try discriminate; [reflexivity|].
  cbn [dot length]. rewrite (sum_S_l K). cbn [nth]. rewrite IH by (cbn in H; lia). reflexivity.
Qed.
Lemma zipw_length f (u v : list K) : length u = length v -> length (zipw f u v) = length u.
Proof. intros H. unfold zipw. rewrite map_length, combine_length, <- H. lia. Qed.
Lemma nth_zipw f (u v : list K) j : length u = length v -> (j < length u)%nat -> nth0 (zipw f u v) j = f (nth0 u j) (nth0 v j).
Proof.
  intros H Hj. unfold zipw. rewrite (nth_indep _ _ ((fun p : K * K => f (fst p) (snd p)) (0, 0))) by (rewrite map_length, combine_length; lia).
  rewrite (map_nth (fun p : K * K => f (fst p) (snd p)) (combine u v) (0, 0) j). rewrite combine_nth by exact H. reflexivity.
Qed.
Lemma nth_skipn' {A} k (l : list A) d j : nth j (skipn k l) d = nth (k + j) l d.
Proof. revert l. induction k as [|k IH]; intros l; [reflexivity|]. destruct l as [|a l]; [destruct j; reflexivity|]. cbn. apply IH. Qed.
Lemma nth_firstn' {A} k (l : list A) d j : (j < k)%nat -> nth j (firstn k l) d = nth j l d.
Proof. revert l j. induction k as [|k IH]; intros l j H; [lia|]. destruct l as [|a l]; [reflexivity|]. destruct j; [reflexivity|]. cbn. apply IH. lia. Qed.

(** ** Linear algebra on rows *)
Lemma mulrow_lin T k a b u v i : mulrow T k (fun j => a * u j + b * v j) i = a * mulrow (K := K) T k u i + b * mulrow T k v i.
Proof.
  unfold mulrow. rewrite <- !(sum_mul_l K), <- (sum_add K). apply sum_ext. intros j _. ring.
Qed.
Lemma mulrow_ext T k u v i : (forall j, (j < k)%nat -> u j = v j) -> mulrow (K := K) T k u i = mulrow T k v i.
Proof. intros H. apply sum_ext. intros j Hj. rewrite H by exact Hj. reflexivity. Qed.
Lemma toeplitz_shift (l c : list K) i j : toeplitz l c (S i) (S j) = toeplitz l c i j.
Proof. reflexivity. Qed.
Lemma definite_sr T n : definite (K := K) T n -> strongly_regular T n.
Proof.
  intros D k Hk v H i Hi.
  set (w := fun j => if (j <? k)%nat then v j else 0).
  assert (W : w i = 0).
  2: { unfold w in W. destruct (Nat.ltb_spec i k); [exact W|lia]. }
  apply D; [|lia]. apply (sum_zero K). intros q Hq. unfold w at 1. destruct (Nat.ltb_spec q k) as [Hqk|Hqk]; [|ring].
  replace (mulrow T n w q) with (mulrow T k v q); [rewrite H by exact Hqk; ring|].
  unfold mulrow. symmetry. rewrite (sum_extend K k n _ Hk) by (intros j Hj; unfold w; destruct (Nat.ltb_spec j k); [lia|ring]).
  apply sum_ext. intros j Hj. unfold w. destruct (Nat.ltb_spec j k); [reflexivity|lia].
Qed.

(** ** Symmetric case *)
Definition sym (r : list K) : nat -> nat -> K := toeplitz r r.
Lemma sym_rev r i q j : (q <= i)%nat -> (j <= i)%nat -> sym r q (i - j) = sym r (i - q) j.
Proof.
  intros Hq Hj. unfold sym, toeplitz. destruct (Nat.leb_spec (i - j) q), (Nat.leb_spec j (i - q)); f_equal; lia.
Qed.
Lemma r_vers_R_sym r i j : r_vers_R r i j = sym r i j.
Proof. unfold r_vers_R, sym, toeplitz, samp. destruct (Nat.leb_spec j i); f_equal; lia. Qed.

Definition inv_r (r : list K) (m : nat) (st : list K * K) : Prop :=
  let (a, al) := st in
  length a = S m /\ nth0 a 0 = 1 /\
  (forall q, (1 <= q <= m)%nat -> mulrow (sym r) (S m) (fun j => nth0 a j) q = 0) /\
  al = mulrow (sym r) (S m) (fun j => nth0 a j) 0.
Lemma inv_r_alpha r m a al : inv_r r m (a, al) -> nonsingular (sym r) (S m) -> al <> 0.
Proof.
  intros (La & A0 & Hq & Hal) NS E. apply (F_1_neq_0 (fth K)). rewrite <- A0. apply (NS (fun j => nth0 a j)); [|lia].
  intros q Hq'. destruct q; [congruence|]. apply Hq. lia.
Qed.
Lemma levr_step_inv r m st : (S m < length r)%nat -> (1 <= m)%nat -> nonsingular (sym r) (S m) -> inv_r r m st -> inv_r r (S m) (levr_step r st (S m)).
Proof.
  intros Hr Hm NS. destruct st as [a al]. intros I. pose proof (inv_r_alpha _ _ _ _ I NS) as Hal0. destruct I as (La & A0 & Hq & Hal).
  unfold levr_step. cbv zeta. replace (S m - 1)%nat with m by lia. set (a1 := firstn m (skipn 1 a)).
  assert (L1 : length a1 = m) by (unfold a1; rewrite firstn_length, skipn_length; lia).
  assert (N1 : forall j, (j < m)%nat -> nth0 a1 j = nth0 a (S j)).
  { intros j Hj. unfold a1. rewrite nth_firstn', nth_skipn' by exact Hj. reflexivity. }
  assert (AO : nth0 a (S m) = 0) by (apply nth_overflow; rewrite La; lia).
  set (s := dot (firstn m (skipn 1 r)) (rev a1) + nth0 r (S m)). set (k := - s / al).
  assert (Es : s = mulrow (sym r) (S (S m)) (fun j => nth0 a j) (S m)).
  { unfold s. rewrite dot_sum by (rewrite rev_length, firstn_length, skipn_length; lia).
    rewrite firstn_length, skipn_length. replace (Nat.min m (length r - 1)) with m by lia.
    unfold mulrow. rewrite (sum_rev K (S (S m))). rewrite (sum_S_l K). cbn [sum Nat.sub].
    rewrite (nth_overflow a) by (rewrite La; lia).
    rewrite Nat.sub_diag, A0.
    rewrite (sum_ext K m _ (fun i => sym r (S m) (m - i) * nth0 a (m - i))).
    - change (sym r (S m) 0) with (samp r (S m)). unfold samp. ring.
    - intros i Hi. rewrite nth_firstn', nth_skipn' by exact Hi. rewrite rev_nth by (rewrite L1; exact Hi). rewrite L1, N1 by lia.
      replace (S (m - S i)) with (m - i)%nat by lia. f_equal. unfold sym, toeplitz.
      destruct (Nat.leb_spec (m - i) (S m)); [|lia]. unfold samp. f_equal. lia. }
  set (a' := nth0 a 0 :: zipw (fun u v => u + k * v) a1 (rev a1) ++ [k]).
  assert (La' : length a' = S (S m)) by (unfold a'; cbn [length]; rewrite app_length, zipw_length by (now rewrite rev_length); rewrite L1; cbn; lia).
  assert (N' : forall j, (j <= S m)%nat -> nth0 a' j = nth0 a j + k * nth0 a (S m - j)).
  { intros j Hj. unfold a'. destruct j as [|j].
    - cbn [nth]. rewrite Nat.sub_0_r, AO. ring.
    - cbn [nth]. assert (Lz : length (zipw (fun u v => u + k * v) a1 (rev a1)) = m) by (rewrite zipw_length; [exact L1|now rewrite rev_length]).
      destruct (Nat.eq_dec j m) as [->|Hne].
      + rewrite app_nth2, Lz, Nat.sub_diag by lia. cbn [nth]. rewrite AO, Nat.sub_diag, A0. ring.
      + rewrite app_nth1 by lia. rewrite nth_zipw by (try rewrite rev_length; lia). rewrite rev_nth by lia. rewrite !N1 by lia. rewrite L1.
        replace (S (m - S j)) with (S m - S j)%nat by lia. reflexivity. }
  assert (Row : forall q, (q <= S m)%nat -> mulrow (sym r) (S (S m)) (fun j => nth0 a' j) q =
    mulrow (sym r) (S (S m)) (fun j => nth0 a j) q + k * mulrow (sym r) (S (S m)) (fun j => nth0 a j) (S m - q)).
  { intros q Hqm. rewrite (mulrow_ext _ _ _ (fun j => 1 * nth0 a j + k * nth0 a (S m - j))) by (intros j Hj; rewrite N' by lia; ring).
    rewrite mulrow_lin. replace (mulrow (sym r) (S (S m)) (fun j => nth0 a (S m - j)) q) with (mulrow (sym r) (S (S m)) (fun j => nth0 a j) (S m - q)); [ring|].
    unfold mulrow. rewrite (sum_rev K (S (S m)) (fun j => sym r q j * _)). apply sum_ext. intros j Hj. replace (S (S m) - 1 - j)%nat with (S m - j)%nat by lia.
    rewrite sym_rev by lia. f_equal. f_equal. lia. }
  assert (Ext : forall q, mulrow (sym r) (S (S m)) (fun j => nth0 a j) q = mulrow (sym r) (S m) (fun j => nth0 a j) q).
  { intros q. unfold mulrow. rewrite (sum_extend K (S m) (S (S m))); [reflexivity|lia|]. intros j Hj. rewrite (nth_overflow a) by (rewrite La; lia). ring. }
  assert (Ek : s + k * al = 0) by (unfold k; field; exact Hal0).
  cbn [inv_r]. fold a'. split; [exact La'|]. split; [unfold a'; cbn [nth]; exact A0|]. split.
  - intros q Hq1. rewrite Row by lia. destruct (Nat.eq_dec q (S m)) as [->|Hne].
    + rewrite <- Es. rewrite Nat.sub_diag, Ext, <- Hal. exact Ek.
    + rewrite !Ext, !Hq by lia. ring.
  - rewrite Row by lia. replace (S m - 0)%nat with (S m) by lia. rewrite <- Es, Ext, <- Hal.
    transitivity (al + k * s - k * (s + k * al)); [ring|]. rewrite Ek. ring.
Qed.
Lemma levr_fold r k : forall m st, (1 <= m)%nat -> (m + k < length r)%nat -> (forall q, (q <= m + k)%nat -> nonsingular (sym r) q) ->
  inv_r r m st -> inv_r r (m + k) (fold_left (levr_step r) (seq (S m) k) st).
Proof.
  induction k as [|k IH]; intros m st Hm Hr NS I; cbn [seq fold_left].
  - now rewrite Nat.add_0_r.
  - replace (m + S k)%nat with (S m + k)%nat by lia. apply IH; try lia; [intros q Hq; apply NS; lia|]. apply levr_step_inv; try lia; auto. apply NS. lia.
Qed.
Lemma levinson_reel_ok r : (2 <= length r)%nat -> strongly_regular (sym r) (length r - 1) ->
  exists a, levinson_reel r = Ok a /\ length a = length r /\ nth0 a 0 = 1 /\
  forall q, (1 <= q < length r)%nat -> mulrow (sym r) (length r) (fun j => nth0 a j) q = 0.
Proof.
  intros Hr SR. destruct r as [|r0 [|r1 t]]; try (cbn in Hr; lia). set (r := r0 :: r1 :: t) in *. unfold levinson_reel. unfold r at 1.
  set (k := - r1 / r0). eexists. split; [reflexivity|].
  assert (R0 : r0 <> 0).
  { intros E. apply (F_1_neq_0 (fth K)). apply (SR 1%nat ltac:(lia) (fun _ => 1)) with (i := 0%nat); [|lia]. intros i Hi.
    assert (i = 0)%nat by lia. subst i. unfold mulrow, sym, toeplitz, samp, r. cbn [sum Nat.leb Nat.sub nth]. rewrite E. ring. }
  assert (I1 : inv_r r 1 ([1; k], r0 * (1 - k * k))).
  { assert (Ek : r1 + r0 * k = 0) by (unfold k; field; exact R0).
    cbn [inv_r]. repeat split.
    - intros q Hq. assert (q = 1)%nat by lia. subst q. unfold mulrow, sym, toeplitz, samp, r. cbn [sum Nat.leb Nat.sub nth].
      transitivity (r1 + r0 * k); [ring|exact Ek].
    - unfold mulrow, sym, toeplitz, samp, r. cbn [sum Nat.leb Nat.sub nth].
      transitivity (r0 + r1 * k - k * (r1 + r0 * k)); [ring|]. rewrite Ek. ring. }
  pose proof (levr_fold r (length r - 2) 1 _ ltac:(lia) ltac:(lia) (fun q Hq => SR q ltac:(lia)) I1) as I.
  replace (1 + (length r - 2))%nat with (length r - 1)%nat in I by lia.
  destruct (fold_left (levr_step r) (seq 2 (length r - 2)) ([1; k], r0 * (1 - k * k))) as [a al]. cbn [fst inv_r] in *.
  destruct I as (La & A0 & Hq & _). replace (S (length r - 1)) with (length r) in * by lia. repeat split; auto. intros q Hq'. apply Hq. lia.
Qed.

(** ** General case *)
Definition delta (i k : nat) : K := if (i =? k)%nat then 1 else 0.
Definition inv_g (l c y : list K) (n m : nat) (st : list K * list K * list K) : Prop :=
  let '(f, b, x) := st in
  length f = m /\ length b = m /\ length x = n /\ (forall j, (m <= j)%nat -> nth0 x j = 0) /\
  forall q, (q < m)%nat ->
    mulrow (toeplitz l c) m (fun j => nth0 f j) q = delta q 0 /\
    mulrow (toeplitz l c) m (fun j => nth0 b j) q = delta q (m - 1) /\
    mulrow (toeplitz l c) m (fun j => nth0 x j) q = nth0 y q.
Lemma lastn_nth k (v : list K) j : (k <= length v)%nat -> (j < k)%nat -> nth0 (lastn k v) j = nth0 v (length v - k + j).
Proof. intros _ _. unfold lastn. apply nth_skipn'. Qed.
Lemma lastn_length k (v : list K) : (k <= length v)%nat -> length (lastn k v) = k.
Proof. intros H. unfold lastn. rewrite skipn_length. lia. Qed.

Lemma lev_step_inv (a0 : K) (l' c' y : list K) n m st : let l := a0 :: l' in let c := a0 :: c' in
  length l = n -> length c = n -> (1 <= m)%nat -> (m < n)%nat ->
  strongly_regular (toeplitz l c) n ->
  inv_g l c y n m st -> inv_g l c y n (S m) (lev_step (rev c') l' y st (S m)).
Proof.
  intros l c Ll Lc Hm Hn SR. destruct st as [[f b] x]. intros (Lf & Lb & Lx & X0 & Hrow).
  assert (Ll' : length l' = (n - 1)%nat) by (cbn in Ll; lia). assert (Lc' : length c' = (n - 1)%nat) by (cbn in Lc; lia).
  set (T := toeplitz l c) in *. unfold lev_step. replace (S m - 1)%nat with m by lia.
  (* the dots with the last column coefficients are rows m of T *)
  assert (Dc : forall v : list K, length v = m -> dot (lastn m (rev c')) v = mulrow T m (fun j => nth0 v j) m).
  { intros v Lv. rewrite dot_sum by (rewrite lastn_length; [now rewrite Lv|rewrite rev_length; lia]).
    rewrite lastn_length by (rewrite rev_length; lia). unfold mulrow. apply sum_ext. intros j Hj.
    rewrite lastn_nth by (try rewrite rev_length; lia). rewrite rev_length. rewrite rev_nth by lia. f_equal.
    unfold T, toeplitz. destruct (Nat.leb_spec j m); [|lia]. unfold samp, c. destruct (m - j)%nat as [|d] eqn:Ed; [lia|]. cbn [nth]. f_equal. lia. }
  assert (Dl : dot (firstn m l') b = sum m (fun j => samp l (S j) * nth0 b j)).
  { rewrite dot_sum by (rewrite firstn_length; lia). rewrite firstn_length. replace (Nat.min m (length l')) with m by lia.
    apply sum_ext. intros j Hj. rewrite nth_firstn' by exact Hj. reflexivity. }
  set (ef := dot (lastn m (rev c')) f). set (eb := dot (firstn m l') b). set (ex := dot (lastn m (rev c')) (firstn m x)).
  assert (Lfx : length (firstn m x) = m) by (rewrite firstn_length; lia).
  set (fb := f ++ [0]). set (bb := 0 :: b).
  assert (Lfb : length fb = S m) by (unfold fb; rewrite app_length; cbn; lia). assert (Lbb : length bb = S m) by (unfold bb; cbn; lia).
  assert (Nfb : forall j, nth0 fb j = nth0 f j).
  { intros j. unfold fb. destruct (Nat.lt_ge_cases j m); [apply app_nth1; lia|]. rewrite app_nth2, (nth_overflow f) by lia.
    destruct (j - length f)%nat as [|[|?]]; reflexivity. }
  (* rows of the padded vectors *)
  assert (Pad : forall v : nat -> K, v m = 0 -> forall q, mulrow T (S m) v q = mulrow T m v q).
  { intros v Hv q. unfold mulrow. cbn [sum]. rewrite Hv. ring. }
  assert (Rf : forall q, (q < S m)%nat -> mulrow T (S m) (fun j => nth0 fb j) q = if (q =? m)%nat then ef else delta q 0).
  { intros q Hq. rewrite (mulrow_ext _ _ _ (fun j => nth0 f j)) by (intros; apply Nfb). rewrite Pad by (apply nth_overflow; lia).
    destruct (Nat.eqb_spec q m) as [->|H]; [symmetry; apply Dc; exact Lf|apply Hrow; lia]. }
  assert (Rb : forall q, (q < S m)%nat -> mulrow T (S m) (fun j => nth0 bb j) q = match q with O => eb | S q' => delta q' (m - 1) end).
  { intros q Hq. unfold mulrow. rewrite (sum_S_l K). unfold bb. cbn [nth]. destruct q as [|q].
    - unfold eb. rewrite Dl. transitivity (sum m (fun i => T 0%nat (S i) * nth0 b i)); [ring|]. reflexivity.
    - transitivity (sum m (fun i => T q i * nth0 b i)); [rewrite (sum_ext K m _ (fun i => T q i * nth0 b i)); [ring|intros i Hi; reflexivity]|].
      apply Hrow. lia. }
  (* the denominator is not zero *)
  assert (ND : 1 - eb * ef <> 0).
  { intros E. assert (V : forall j, (j < S m)%nat -> 1 * nth0 fb j + (- ef) * nth0 bb j = 0).
    { apply (SR (S m)); [lia|]. intros q Hq. rewrite mulrow_lin, Rf, Rb by exact Hq. destruct (Nat.eqb_spec q m) as [->|H].
      - destruct m as [|m']; [lia|]. unfold delta. replace (S m' - 1)%nat with m' by lia. rewrite Nat.eqb_refl. ring.
      - destruct q as [|q]; unfold delta; cbn [Nat.eqb].
        + transitivity (1 - eb * ef); [ring|exact E].
        + destruct (Nat.eqb_spec q (m - 1)); [lia|ring]. }
    assert (F0 : nth0 f 0 = 0). { rewrite <- Nfb. specialize (V 0%nat ltac:(lia)). unfold bb in V. cbn [nth] in V. transitivity (1 * nth0 fb 0 + - ef * 0); [ring|exact V]. }
    assert (FS : forall j, (j < m - 1)%nat -> nth0 f (S j) = 0).
    { apply (SR (m - 1)%nat ltac:(lia) (fun j => nth0 f (S j))). intros q Hq.
      destruct (Hrow (S q) ltac:(lia)) as [H _]. unfold mulrow in H. replace m with (S (m - 1)) in H at 1 by lia. rewrite (sum_S_l K), F0 in H.
      unfold delta in H. cbn [Nat.eqb] in H. unfold mulrow. etransitivity; [|exact H]. change (fun i : nat => T (S q) (S i) * nth0 f (S i)) with (fun i : nat => T q i * nth0 f (S i)). ring. }
    destruct (Hrow 0%nat ltac:(lia)) as [H _]. unfold delta in H. cbn [Nat.eqb] in H. apply (F_1_neq_0 (fth K)). rewrite <- H. apply (sum_zero K).
    intros j Hj. destruct j as [|j]; [rewrite F0; ring|]. rewrite FS by lia. ring. }
  set (fr := 1 / (1 - eb * ef)). assert (Efr : fr * (1 - eb * ef) = 1) by (unfold fr; field; exact ND).
  set (f' := zipw (fun u v => fr * u - ef * fr * v) fb bb). set (b' := zipw (fun u v => fr * v - eb * fr * u) fb bb).
  assert (Lf' : length f' = S m) by (unfold f'; rewrite zipw_length; lia). assert (Lb' : length b' = S m) by (unfold b'; rewrite zipw_length; lia).
  assert (Rf' : forall q, (q < S m)%nat -> mulrow T (S m) (fun j => nth0 f' j) q = delta q 0).
  { intros q Hq. rewrite (mulrow_ext _ _ _ (fun j => fr * nth0 fb j + (- (ef * fr)) * nth0 bb j)) by (intros j Hj; unfold f'; rewrite nth_zipw by lia; ring).
    rewrite mulrow_lin, Rf, Rb by exact Hq. unfold delta. destruct q as [|q]; cbn [Nat.eqb].
    - destruct m as [|m']; [lia|]. cbn [Nat.eqb]. transitivity (fr * (1 - eb * ef)); [ring|exact Efr].
    - destruct m as [|m']; [lia|]. cbn [Nat.eqb]. replace (S m' - 1)%nat with m' by lia. destruct (q =? m')%nat; ring. }
  assert (Rb' : forall q, (q < S m)%nat -> mulrow T (S m) (fun j => nth0 b' j) q = delta q m).
  { intros q Hq. rewrite (mulrow_ext _ _ _ (fun j => fr * nth0 bb j + (- (eb * fr)) * nth0 fb j)) by (intros j Hj; unfold b'; rewrite nth_zipw by lia; ring).
    rewrite mulrow_lin, Rf, Rb by exact Hq. unfold delta. destruct q as [|q]; cbn [Nat.eqb].
    - destruct m as [|m']; [lia|]. cbn [Nat.eqb]. ring.
    - destruct m as [|m']; [lia|]. cbn [Nat.eqb]. replace (S m' - 1)%nat with m' by lia. destruct (q =? m')%nat; [transitivity (fr * (1 - eb * ef)); [ring|exact Efr]|ring]. }
  set (d := nth0 y m - ex). set (x1 := zipw (fun u v => u + d * v) (firstn (S m) x) b').
  assert (Lx1 : length x1 = S m) by (unfold x1; rewrite zipw_length, firstn_length; [lia|rewrite firstn_length; lia]).
  assert (N1 : forall j, (j < S m)%nat -> nth0 (x1 ++ skipn (S m) x) j = 1 * nth0 x j + d * nth0 b' j).
  { intros j Hj. rewrite app_nth1 by lia. unfold x1. rewrite nth_zipw by (rewrite firstn_length; lia). rewrite nth_firstn' by exact Hj. ring. }
  cbn [inv_g]. split; [exact Lf'|]. split; [exact Lb'|]. split; [rewrite app_length, skipn_length; lia|]. split.
  - intros j Hj. rewrite app_nth2 by lia. rewrite nth_skipn', Lx1. apply X0. lia.
  - intros q Hq. fold T. split; [apply Rf'; exact Hq|]. split; [replace (S m - 1)%nat with m by lia; apply Rb'; exact Hq|].
    rewrite (mulrow_ext _ _ _ (fun j => 1 * nth0 x j + d * nth0 b' j)) by exact N1. rewrite mulrow_lin, Rb' by exact Hq.
    rewrite Pad by (apply X0; lia). unfold delta. destruct (Nat.eqb_spec q m) as [->|Hne].
    + replace (mulrow T m (fun j => nth0 x j) m) with ex; [unfold d; ring|]. unfold ex. rewrite (Dc _ Lfx). apply mulrow_ext. intros j Hj. apply nth_firstn'. exact Hj.
    + destruct (Hrow q ltac:(lia)) as (_ & _ & H). rewrite H. ring.
Qed.
Lemma lev_fold (a0 : K) (l' c' y : list K) n : let l := a0 :: l' in let c := a0 :: c' in length l = n -> length c = n -> strongly_regular (toeplitz l c) n ->
  forall k m st, (1 <= m)%nat -> (m + k <= n)%nat -> inv_g l c y n m st -> inv_g l c y n (m + k) (fold_left (lev_step (rev c') l' y) (seq (S m) k) st).
Proof.
  intros l c Ll Lc SR k. induction k as [|k IH]; intros m st Hm Hk I; cbn [seq fold_left].
  - now rewrite Nat.add_0_r.
  - replace (m + S k)%nat with (S m + k)%nat by lia. apply IH; try lia. apply lev_step_inv; auto. lia.
Qed.
Lemma levinson_ok (eqb : K -> K -> bool) l c y : (forall a b, eqb a b = true <-> a = b) ->
  let n := length l in (1 <= n)%nat -> length c = n -> length y = n -> samp l 0 = samp c 0 -> strongly_regular (toeplitz l c) n ->
  exists x, levinson eqb l c y = Ok x /\ length x = n /\ forall q, (q < n)%nat -> mulrow (toeplitz l c) n (fun j => nth0 x j) q = nth0 y q.
Proof.
  intros Heq n Hn Lc Ly E0 SR. destruct l as [|a0 l']; [cbn in Hn; lia|]. destruct c as [|a c']; [cbn in Lc; unfold n in *; cbn in *; lia|].
  destruct y as [|y0 y']; [unfold n in *; cbn in *; lia|]. unfold samp in E0. cbn [nth] in E0. subst a.
  unfold levinson. fold n. rewrite Lc, Ly, Nat.eqb_refl. cbn [negb]. rewrite (proj2 (Heq a0 a0) eq_refl). cbn [negb].
  eexists. split; [reflexivity|]. set (init := (_, _, _)).
  assert (A0 : a0 <> 0).
  { intros E. apply (F_1_neq_0 (fth K)). apply (SR 1%nat Hn (fun _ => 1)) with (i := 0%nat); [|lia]. intros i Hi.
    assert (i = 0)%nat by lia. subst i. unfold mulrow, toeplitz, samp. cbn [sum Nat.leb Nat.sub nth]. rewrite E. ring. }
  assert (I1 : inv_g (a0 :: l') (a0 :: c') (y0 :: y') n 1 init).
  { unfold init. cbn [inv_g length]. repeat split.
    - rewrite repeat_length. lia.
    - intros j Hj. destruct j; [lia|]. cbn [nth]. destruct (Nat.lt_ge_cases j (n - 1)); [|apply nth_overflow; rewrite repeat_length; lia].
      apply nth_repeat.
    - assert (q = 0)%nat by lia. subst q. unfold mulrow, toeplitz, samp, delta. cbn [sum Nat.leb Nat.sub nth Nat.eqb]. field. exact A0.
    - assert (q = 0)%nat by lia. subst q. unfold mulrow, toeplitz, samp, delta. cbn [sum Nat.leb Nat.sub nth Nat.eqb]. field. exact A0.
    - assert (q = 0)%nat by lia. subst q. unfold mulrow, toeplitz, samp, delta. cbn [sum Nat.leb Nat.sub nth Nat.eqb]. field. exact A0. }
  pose proof (lev_fold a0 l' c' (y0 :: y') n eq_refl Lc SR (n - 1) 1 init ltac:(lia) ltac:(lia) I1) as I.
  replace (1 + (n - 1))%nat with n in I by lia.
  destruct (fold_left (lev_step (rev c') l' (y0 :: y')) (seq 2 (n - 1)) init) as [[f b] x]. cbn [snd inv_g] in *.
  destruct I as (_ & _ & Lx & _ & H). split; [exact Lx|]. intros q Hq. apply H. exact Hq.
Qed.
End P.
