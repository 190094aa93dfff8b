From Coq Require Import Reals ZArith Lra Lia Psatz.
From Verif Require Import Base BaseLemmas RField DftSys ComplexSys Rii_Model Filters_Model Zfe_Proofs Filters_Proofs Fest_Model Fest_Proofs Fest_Proofs3 Del_Spec Dtc_Model Dtc_Spec.
Local Open Scope R_scope.

(** ** The erosion *)
Lemma seg_nth (y : list R) i a k : (k < a)%nat -> nth k (firstn a (skipn i y)) 0 = nth (i + k) y 0.
Proof.
  intros H. transitivity (nth k (skipn i y) 0).
  - rewrite <- (firstn_skipn a (skipn i y)) at 2. destruct (Nat.lt_ge_cases k (List.length (firstn a (skipn i y)))) as [L|L]; [rewrite app_nth1 by exact L; reflexivity|].
    rewrite (nth_overflow (firstn _ _)) by exact L. rewrite app_nth2 by exact L. rewrite firstn_length in *. rewrite nth_overflow; [reflexivity|]. rewrite skipn_length. lia.
  - apply nth_skipn'.
Qed.
Lemma div_seg M j s : (0 < M)%nat -> ((j / M = s)%nat <-> (s * M <= j < s * M + M)%nat).
Proof. intros H. pose proof (Nat.div_mod j M ltac:(lia)) as D. pose proof (Nat.mod_upper_bound j M ltac:(lia)) as U. split; [intros <-; lia|]. intros L. symmetry. apply (Nat.div_unique _ _ _ (j - s * M)); lia. Qed.
Lemma div_lt M j s : (0 < M)%nat -> ((j / M < S s)%nat <-> (j / M < s)%nat \/ (s * M <= j < s * M + M)%nat).
Proof. intros H. rewrite <- (div_seg M j s H). lia. Qed.
Definition ero (M : nat) (y : list R) (s : nat) (y2 : list R) : Prop :=
  List.length y2 = List.length y /\
  (forall j, (j < List.length y)%nat -> nth j y2 0 <> 0 -> (j / M < s)%nat /\ nth j y2 0 = nth j y 0 /\ forall k, (k < List.length y)%nat -> (k / M = j / M)%nat -> nth k y 0 <= nth j y 0) /\
  (forall j, (j < List.length y)%nat -> (j / M < s)%nat -> (forall k, (k < List.length y)%nat -> k <> j -> (k / M = j / M)%nat -> nth k y 0 < nth j y 0) -> nth j y2 0 = nth j y 0).
Lemma erosion_ok M y : (0 < M)%nat -> exists y2, erosion M y = Ok y2 /\ ero M y ((List.length y + M - 1) / M) y2.
Proof.
  intros HM. unfold erosion. set (n := List.length y). assert (G : forall s, (s <= (n + M - 1) / M)%nat -> exists y2, loop s (fun s y2 =>
    let i := (s * M)%nat in let seg := firstn (Nat.min M (n - i)) (skipn i y) in
    let* k := index_max seg in let* v := vget seg k in vset y2 (k + i) v) (repeat 0 n) = Ok y2 /\ ero M y s y2).
  { induction s as [|s IH]; intros Hs.
    - exists (repeat 0 n). split; [reflexivity|]. split; [apply repeat_length|]. split; [intros j Hj N; exfalso; apply N; apply nth_repeat|intros j Hj Q; exfalso; exact (Nat.nlt_0_r _ Q)].
    - destruct IH as [y2 [E [L [A B]]]]; [lia|]. rewrite loop_S, E. cbn [bind]. set (i := (s * M)%nat). set (a := Nat.min M (n - i)).
      assert (Hi : (i < n)%nat). { unfold i. pose proof (Nat.mul_div_le (n + M - 1) M ltac:(lia)). assert (M * S s <= n + M - 1)%nat by (etransitivity; [apply Nat.mul_le_mono_l; exact Hs|assumption]). nia. }
      assert (La : List.length (firstn a (skipn i y)) = a) by (rewrite firstn_length, skipn_length; fold n; lia).
      destruct (index_max_ok (firstn a (skipn i y))) as [k [Ek [Lk Mk]]]; [intros Q; rewrite Q in La; cbn in La; lia|]. rewrite Ek. cbn [bind]. rewrite La in *.
      rewrite (vget_nth _ _ 0) by (rewrite La; exact Lk). cbn [bind]. rewrite seg_nth by exact Lk. rewrite vset_ok by (rewrite L; fold n; lia). eexists. split; [reflexivity|]. unfold ero. rewrite upd_length. split; [exact L|].
      assert (Mk' : forall q, (i <= q < i + M)%nat -> (q < n)%nat -> nth q y 0 <= nth (i + k) y 0).
      { intros q Hq Hn. specialize (Mk (q - i)%nat ltac:(lia)). rewrite !seg_nth in Mk by lia. replace (i + (q - i))%nat with q in Mk by lia. exact Mk. }
      assert (Dk : ((i + k) / M = s)%nat) by (apply div_seg; [exact HM|]; fold i; lia).
      split.
      + intros j Hj. rewrite nth_upd. destruct (Nat.eqb_spec (k + i) j) as [Q|Q]; cbn [andb].
        * replace (k + i <? List.length y2)%nat with true by (symmetry; apply Nat.ltb_lt; rewrite L; fold n; lia). intros _. subst j. rewrite (Nat.add_comm k i). rewrite Dk. split; [lia|]. split; [reflexivity|].
          intros q Hq Hd. apply Mk'; [|exact Hq]. apply (div_seg M q s HM) in Hd. fold i in Hd. lia.
        * intros N. destruct (A j Hj N) as [A1 [A2 A3]]. split; [lia|]. split; assumption.
      + intros j Hj Hd HS. rewrite nth_upd. destruct (Nat.eqb_spec (k + i) j) as [Q|Q]; cbn [andb].
        * replace (k + i <? List.length y2)%nat with true by (symmetry; apply Nat.ltb_lt; rewrite L; fold n; lia). subst j. rewrite (Nat.add_comm k i). reflexivity.
        * apply (div_lt M j s HM) in Hd. destruct Hd as [Hd|Hd]; [apply B; assumption|]. exfalso. fold i in Hd. assert (Dj : (j / M = s)%nat) by (apply div_seg; [exact HM|fold i; lia]).
          specialize (HS (i + k)%nat ltac:(fold n; lia) ltac:(lia) ltac:(lia)). pose proof (Mk' j ltac:(lia) Hj). lra. }
  apply G. lia.
Qed.
Lemma trouve_in l t i : In i (trouve_sup l t) <-> (i < List.length l)%nat /\ t < nth i l 0.
Proof.
  unfold trouve_sup. rewrite filter_In, in_seq. destruct (Rlt_dec t (nth i l 0)); split; intros [A B]; (split; [lia|]); [assumption|reflexivity|discriminate|contradiction].
Qed.
Lemma plus_grand_ok M y lst i : plus_grand M y lst i = true <-> forall j, In j lst -> (Z.abs (Z.of_nat i - Z.of_nat j) < Z.of_nat M)%Z -> nth j y 0 <= nth i y 0.
Proof.
  unfold plus_grand. rewrite forallb_forall. split; intros H j Hj.
  - intros L. specialize (H j Hj). destruct (Rlt_dec (nth i y 0) (nth j y 0)); [|lra]. destruct (Z.ltb_spec (Z.abs (Z.of_nat i - Z.of_nat j)) (Z.of_nat M)); [discriminate|lia].
  - specialize (H j Hj). destruct (Rlt_dec (nth i y 0) (nth j y 0)); [|reflexivity]. destruct (Z.ltb_spec (Z.abs (Z.of_nat i - Z.of_nat j)) (Z.of_nat M)); [|reflexivity]. specialize (H ltac:(lia)). lra.
Qed.
Lemma seg_close M i j : (0 < M)%nat -> (i / M = j / M)%nat -> (Z.abs (Z.of_nat i - Z.of_nat j) < Z.of_nat M)%Z.
Proof. intros H E. assert (A := proj1 (div_seg M i (j / M) H) E). assert (B := proj1 (div_seg M j (j / M) H) eq_refl). lia. Qed.
Lemma seq_sorted k : forall a, Sorted.StronglySorted lt (seq a k).
Proof.
  induction k as [|k IH]; intros a; cbn [seq]; [constructor|]. apply Sorted.SSorted_cons; [apply IH|]. apply Forall_forall. intros z Hz. apply in_seq in Hz. lia.
Qed.
(** the peaks selected *)
Lemma selection_ok M seuil y : (0 < M)%nat -> 0 <= seuil -> exists l, selection M seuil y = Ok l /\
  (forall i, In i l -> (i < List.length y)%nat /\ seuil < nth i y 0 /\ (forall k, (k < List.length y)%nat -> (k / M = i / M)%nat -> nth k y 0 <= nth i y 0)) /\
  (forall i j, In i l -> In j l -> (Z.abs (Z.of_nat i - Z.of_nat j) < Z.of_nat M)%Z -> nth i y 0 = nth j y 0) /\
  (forall i, (i < List.length y)%nat -> seuil < nth i y 0 -> (forall j, (j < List.length y)%nat -> j <> i -> (Z.abs (Z.of_nat i - Z.of_nat j) < Z.of_nat M)%Z -> nth j y 0 < nth i y 0) -> In i l) /\
  Sorted.StronglySorted lt l.
Proof.
  intros HM HS. destruct (erosion_ok M y HM) as [y2 [E [L [A B]]]]. unfold selection. rewrite E. cbn [bind]. eexists. split; [reflexivity|].
  assert (IN : forall i, In i (trouve_sup y2 seuil) -> (i < List.length y)%nat /\ seuil < nth i y 0 /\ (forall k, (k < List.length y)%nat -> (k / M = i / M)%nat -> nth k y 0 <= nth i y 0)).
  { intros i Hi. apply trouve_in in Hi. rewrite L in Hi. destruct Hi as [H1 H2]. destruct (A i H1) as [_ [Q R]]; [lra|]. rewrite Q in H2. repeat split; assumption. }
  split; [intros i Hi; apply filter_In in Hi; apply IN; apply Hi|]. split.
  - intros i j Hi Hj HD. apply filter_In in Hi, Hj. destruct Hi as [I1 I2], Hj as [J1 J2]. rewrite plus_grand_ok in I2, J2. apply Rle_antisym; [apply J2; [exact I1|lia]|apply I2; [exact J1|exact HD]].
  - split.
    + intros i Hi Ht HX. apply filter_In. split.
      * apply trouve_in. rewrite L. split; [exact Hi|]. rewrite B; [exact Ht|exact Hi| |].
        -- apply Nat.div_lt_upper_bound; [lia|]. pose proof (Nat.div_mod (List.length y + M - 1) M ltac:(lia)). pose proof (Nat.mod_upper_bound (List.length y + M - 1) M ltac:(lia)). nia.
        -- intros k Hk Nk Dk. apply HX; [exact Hk|exact Nk|]. apply seg_close; [exact HM|lia].
      * apply plus_grand_ok. intros j Hj HD. apply IN in Hj. destruct (Nat.eq_dec j i) as [->|N]; [lra|]. apply Rlt_le. apply HX; [apply Hj|exact N|exact HD].
    + unfold trouve_sup. assert (SS : forall f (l : list nat), Sorted.StronglySorted lt l -> Sorted.StronglySorted lt (filter f l)).
      { intros f l SL. induction SL as [|a l SL IH F]; [constructor|]. cbn [filter]. destruct (f a); [|exact IH]. constructor; [exact IH|]. rewrite Forall_forall in *. intros z Hz. apply filter_In in Hz. apply F, Hz. }
      apply SS, SS. apply seq_sorted.
Qed.
