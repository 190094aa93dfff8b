(** Proofs about the Hadamard matrix and the Goertzel filters. *)
From Coq Require Import Field Reals.
From Verif Require Import Base BaseLemmas RField Filters_Model Filters_Spec Filters_Proofs Filters_Proofs2 Polyphase_Model HadGo_Model HadGo_Spec HadGo_Proofs.
Local Open Scope nat_scope.

Lemma idx_inj m i j i' j' : i < m -> i' < m -> i + j * m = i' + j' * m -> i = i' /\ j = j'.
Proof.
  intros Hi Hi' E. assert (j = j').
  { assert (Ej : j = (i + j * m) / m) by (apply (Nat.div_unique _ _ _ i); lia).
    assert (Ej' : j' = (i' + j' * m) / m) by (apply (Nat.div_unique _ _ _ i'); lia). congruence. }
  subst j'. lia.
Qed.
Lemma idx_lt m n i j : i < m -> j < n -> i + j * m < m * n.
Proof. intros Hi Hj. nia. Qed.

Section B.
Context {A : Type} (dv : A).
Lemma set_block_ok (M S : mat A) r0 c0 : length (m_data M) = m_rows M * m_cols M -> length (m_data S) = m_rows S * m_cols S ->
  r0 + m_rows S <= m_rows M -> c0 + m_cols S <= m_cols M ->
  exists d, set_block M r0 c0 S = Ok (mkmat (m_rows M) (m_cols M) d) /\ length d = m_rows M * m_cols M /\
  forall i j, i < m_rows M -> j < m_cols M -> nth (i + j * m_rows M) d dv =
    if ((r0 <=? i) && (i <? r0 + m_rows S) && ((c0 <=? j) && (j <? c0 + m_cols S)))
    then nth ((i - r0) + (j - c0) * m_rows S) (m_data S) dv else nth (i + j * m_rows M) (m_data M) dv.
Proof.
  destruct M as [m n D], S as [a b E]. cbn [m_rows m_cols m_data]. intros LD LE Hr Hc. unfold set_block. cbn [m_rows m_cols m_data].
  destruct (loop_inv0 (fun c d => length d = m * n /\ forall i j, i < m -> j < n -> nth (i + j * m) d dv =
     if ((r0 <=? i) && (i <? r0 + a) && ((c0 <=? j) && (j <? c0 + c))) then nth ((i - r0) + (j - c0) * a) E dv else nth (i + j * m) D dv) b
     (fun c d => loop a (fun r d => let* v := pget E (r + c * a) in
        let k := r0 + r + (c0 + c) * m in if k <? length d then Ok (upd d k v) else UB) d) D) as [d [Ed [Ld Nd]]].
  - split; [exact LD|]. intros i j Hi Hj. replace (c0 + 0) with c0 by lia.
    destruct (Nat.leb_spec c0 j); destruct (Nat.ltb_spec j c0); try lia; cbn [andb]; rewrite ?andb_false_r; reflexivity.
  - intros c d Hcb [Ld Nd].
    destruct (loop_inv0 (fun r d' => length d' = m * n /\ forall i j, i < m -> j < n -> nth (i + j * m) d' dv =
       if ((r0 <=? i) && (i <? r0 + r) && (j =? c0 + c)) then nth ((i - r0) + (j - c0) * a) E dv else nth (i + j * m) d dv) a
       (fun r d => let* v := pget E (r + c * a) in
        let k := r0 + r + (c0 + c) * m in if k <? length d then Ok (upd d k v) else UB) d) as [d' [Ed' [Ld' Nd']]].
    + split; [exact Ld|]. intros i j Hi Hj. replace (r0 + 0) with r0 by lia.
      destruct (Nat.leb_spec r0 i); destruct (Nat.ltb_spec i r0); try lia; reflexivity.
    + intros r d' Hra [Ld' Nd']. unfold pget.
      assert (Kr : r + c * a < length E) by (rewrite LE; apply idx_lt; lia).
      rewrite (nth_error_nth' E dv Kr). cbn [bind]. cbv zeta. rewrite Ld'.
      assert (Kk : r0 + r + (c0 + c) * m < m * n) by (apply (idx_lt m n (r0 + r) (c0 + c)); lia).
      destruct (Nat.ltb_spec (r0 + r + (c0 + c) * m) (m * n)); [|lia]. eexists. split; [reflexivity|].
      rewrite upd_length. split; [exact Ld'|]. intros i j Hi Hj. rewrite nth_upd, Ld'.
      replace (r0 + r + (c0 + c) * m <? m * n) with true by (symmetry; apply Nat.ltb_lt; exact Kk). rewrite andb_true_r.
      destruct (Nat.eqb_spec (r0 + r + (c0 + c) * m) (i + j * m)) as [Eq|Ne].
      * apply idx_inj in Eq; [|lia|exact Hi]. destruct Eq as [<- <-].
        destruct (Nat.leb_spec r0 (r0 + r)); [|lia]. destruct (Nat.ltb_spec (r0 + r) (r0 + (r + 1))); [|lia]. rewrite Nat.eqb_refl. cbn [andb].
        replace (r0 + r - r0) with r by lia. replace (c0 + c - c0) with c by lia. reflexivity.
      * rewrite Nd' by assumption. destruct (Nat.eqb_spec j (c0 + c)) as [->|Hj']; [|rewrite !andb_false_r; reflexivity]. rewrite !andb_true_r.
        destruct (Nat.leb_spec r0 i); cbn [andb]; [|reflexivity].
        destruct (Nat.ltb_spec i (r0 + r)); destruct (Nat.ltb_spec i (r0 + (r + 1))); try reflexivity; try lia.
    + exists d'. split; [exact Ed'|]. split; [exact Ld'|]. intros i j Hi Hj. rewrite Nd', Nd by assumption.
      destruct ((r0 <=? i) && (i <? r0 + a)); cbn [andb]; [|reflexivity].
      destruct (Nat.eqb_spec j (c0 + c)) as [->|Hj'].
      * destruct (Nat.leb_spec c0 (c0 + c)); [|lia]. destruct (Nat.ltb_spec (c0 + c) (c0 + (c + 1))); [|lia]. reflexivity.
      * destruct (Nat.leb_spec c0 j); cbn [andb]; [|reflexivity].
        destruct (Nat.ltb_spec j (c0 + c)); destruct (Nat.ltb_spec j (c0 + (c + 1))); try reflexivity; lia.
  - cbn [bind] in *. rewrite Ed. cbn [bind]. exists d. split; [reflexivity|]. split; [exact Ld|exact Nd].
Qed.
End B.

Section HM.
Context (K : cring).
Add Ring HKr : (cth K).
Lemma hadamard_ok k : forall fuel, k < fuel -> exists d, hadamard (K := K) fuel (2 ^ k) = Ok (mkmat (2 ^ k) (2 ^ k) d) /\
  length d = 2 ^ k * 2 ^ k /\ forall i j, i < 2 ^ k -> j < 2 ^ k -> nth (i + j * 2 ^ k) d c0 = had k i j.
Proof.
  induction k as [|k IH]; intros [|f] Hf; try lia.
  - exists [c1]. split; [reflexivity|]. split; [reflexivity|]. intros i j Hi Hj. cbn [Nat.pow] in *.
    assert (i = 0) by lia. assert (j = 0) by lia. subst. reflexivity.
  - destruct (IH f ltac:(lia)) as [d [E [L N]]].
    pose proof (pow2_pos k) as Hp. replace (2 ^ S k) with (2 * 2 ^ k) by reflexivity. set (h := 2 ^ k) in *.
    cbn [hadamard]. destruct (Nat.eqb_spec (2 * h) 1) as [Q|Q]; [lia|clear Q].
    replace (2 * h / 2) with h by (apply (Nat.div_unique _ _ _ 0); lia). rewrite E. cbn [bind].
    set (n := 2 * h) in *. set (Mp := mkmat h h d).
    destruct (set_block_ok (c0 : K) (mkmat n n (repeat c0 (n * n))) Mp 0 0) as [d1 [E1 [L1 N1]]]; cbn [m_rows m_cols m_data Mp]; try lia; [rewrite repeat_length; reflexivity|].
    rewrite E1. cbn [bind m_rows m_cols].
    destruct (set_block_ok (c0 : K) (mkmat n n d1) Mp h 0) as [d2 [E2 [L2 N2]]]; cbn [m_rows m_cols m_data Mp]; try (unfold n in *; lia); [exact L1|].
    rewrite E2. cbn [bind m_rows m_cols].
    destruct (set_block_ok (c0 : K) (mkmat n n d2) Mp 0 h) as [d3 [E3 [L3 N3]]]; cbn [m_rows m_cols m_data Mp]; try (unfold n in *; lia); [exact L2|].
    rewrite E3. cbn [bind m_rows m_cols].
    destruct (set_block_ok (c0 : K) (mkmat n n d3) (mkmat (m_rows Mp) (m_cols Mp) (map (fun v => copp v) (m_data Mp))) h h) as [d4 [E4 [L4 N4]]];
      cbn [m_rows m_cols m_data Mp]; try (unfold n in *; lia); [exact L3|rewrite map_length; exact L|].
    exists d4. cbn [m_rows m_cols] in E4. split; [exact E4|]. split; [exact L4|]. intros i j Hi Hj.
    cbn [m_rows m_cols m_data Mp] in N1, N2, N3, N4. rewrite N4, N3, N2, N1 by assumption.
    assert (NM : forall r c, r < h -> c < h -> nth (r + c * h) (map (fun v => copp v) d) c0 = copp (had (K := K) k r c)).
    { intros r c Hr Hc. rewrite (nth_indep _ c0 (copp c0)) by (rewrite map_length, L; apply idx_lt; assumption).
      rewrite (map_nth (fun v => copp v)), N by assumption. reflexivity. }
    assert (HH : forall r c, r < h -> had (K := K) (S k) (h + r) c = if Nat.testbit c k then copp (had k r c) else had k r c).
    { intros r c Hr. rewrite had_sym. unfold h. rewrite had_S_high by exact Hr. rewrite (had_sym K k c r). unfold sb. destruct (Nat.testbit c k); ring. }
    assert (HL : forall r c, r < h -> had (K := K) (S k) r c = had k r c).
    { intros r c Hr. rewrite had_sym, had_S_low by exact Hr. apply had_sym. }
    assert (HC : forall r c, c < h -> had (K := K) k r (h + c) = had k r c).
    { intros r c Hc. apply had_mod; [reflexivity|]. fold h. replace (h + c) with (c + 1 * h) by lia. rewrite Nat.mod_add by lia. reflexivity. }
    destruct (Nat.lt_ge_cases i h) as [Ci|Ci]; destruct (Nat.lt_ge_cases j h) as [Cj|Cj].
    + replace (h <=? i) with false by (symmetry; apply Nat.leb_gt; lia). replace (h <=? j) with false by (symmetry; apply Nat.leb_gt; lia).
      rewrite ?andb_false_r. cbn [andb Nat.leb Nat.add]. destruct (Nat.ltb_spec i h); [|lia]. destruct (Nat.ltb_spec j h); [|lia]. cbn [andb].
      rewrite !Nat.sub_0_r, N, HL by assumption. reflexivity.
    + replace (h <=? i) with false by (symmetry; apply Nat.leb_gt; lia). cbn [andb Nat.leb].
      replace (h <=? j) with true by (symmetry; apply Nat.leb_le; lia). cbn [Nat.add].
      destruct (Nat.ltb_spec i h); [|lia]. destruct (Nat.ltb_spec j (h + h)); [|unfold n in *; lia]. cbn [andb].
      rewrite !Nat.sub_0_r, N, HL by lia. rewrite <- (HC i (j - h)) by lia. f_equal. lia.
    + replace (h <=? j) with false by (symmetry; apply Nat.leb_gt; lia). cbn [andb Nat.leb].
      replace (h <=? i) with true by (symmetry; apply Nat.leb_le; lia). cbn [Nat.add].
      rewrite ?andb_false_r. destruct (Nat.ltb_spec i (h + h)); [|unfold n in *; lia]. destruct (Nat.ltb_spec j h); [|lia]. cbn [andb].
      rewrite Nat.sub_0_r, N by lia. replace i with (h + (i - h)) at 2 by lia. rewrite HH by lia. rewrite (bit_low j k) by exact Cj. reflexivity.
    + replace (h <=? j) with true by (symmetry; apply Nat.leb_le; lia). replace (h <=? i) with true by (symmetry; apply Nat.leb_le; lia).
      destruct (Nat.ltb_spec i (h + h)); [|unfold n in *; lia]. destruct (Nat.ltb_spec j (h + h)); [|unfold n in *; lia]. cbn [andb].
      rewrite NM by lia. replace i with (h + (i - h)) at 2 by lia. replace j with (h + (j - h)) at 2 by lia. rewrite HH by lia.
      assert (Bj : Nat.testbit (h + (j - h)) k = true) by (apply (bit_high (j - h) k); fold h; lia). rewrite Bj, HC by lia. reflexivity.
Qed.
End HM.
