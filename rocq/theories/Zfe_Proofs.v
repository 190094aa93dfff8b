(** Proofs for C43. *)
From Verif Require Import Base BaseLemmas Filters_Spec Conv_Lemmas Zfe_Model Zfe_Spec.

Lemma loop_inv {S} (I : nat -> S -> Prop) (body : nat -> S -> res S) c : (forall i s, i < c -> I i s -> exists s', body i s = Ok s' /\ I (Datatypes.S i) s') ->
  forall s, I 0%nat s -> exists s', loop c body s = Ok s' /\ I c s'.
Proof.
  intros H s H0. induction c as [|c IH]; [exists s; split; [reflexivity|exact H0]|].
  destruct IH as (s1 & E & I1); [intros; apply H; [lia|assumption]|]. destruct (H c s1 ltac:(lia) I1) as (s2 & E2 & I2).
  exists s2. rewrite loop_S, E. cbn [bind]. split; assumption.
Qed.
Lemma hget {K : cring} (h : list K) k : k < length h -> vget h k = Ok (samp h k).
Proof. intros H. unfold vget, samp. rewrite (nth_error_nth' h c0 H). reflexivity. Qed.

Section P.
Context {K : cring}.
Add Ring Kr : (cth K).
Open Scope cring_scope.
Variables (h : list K) (n : nat).
Notation m := (length h).
Notation rows := (n + m - 1)%nat.
Hypothesis Hm : (0 < m)%nat.
Hypothesis Hn : (m <= n)%nat.

Definition good (P : nat -> nat -> Prop) (F : list K) : Prop :=
  length F = (rows * n)%nat /\ forall i j, (i < rows)%nat -> (j < n)%nat ->
    (P i j -> entry rows F i j = sampZ h (Z.of_nat i - Z.of_nat j)) /\ (~ P i j -> entry rows F i j = 0).
Lemma good_ext P Q F : (forall i j, (i < rows)%nat -> (j < n)%nat -> (P i j <-> Q i j)) -> good P F -> good Q F.
Proof. intros E [L H]. split; [exact L|]. intros i j Hi Hj. destruct (H i j Hi Hj). rewrite <- (E i j Hi Hj). split; assumption. Qed.
Lemma pos_inj i j a b : (i < rows)%nat -> (a < rows)%nat -> (i + j * rows = a + b * rows)%nat -> i = a /\ j = b.
Proof.
  intros Hi Ha E. assert (j = b) as ->; [|lia].
  assert ((i + j * rows) / rows = j)%nat by (rewrite Nat.div_add, Nat.div_small by lia; lia).
  assert ((a + b * rows) / rows = b)%nat by (rewrite Nat.div_add, Nat.div_small by lia; lia). congruence.
Qed.
Lemma write P F a b v : good P F -> (a < rows)%nat -> (b < n)%nat -> v = sampZ h (Z.of_nat a - Z.of_nat b) ->
  exists F', mset rows F a b v = Ok F' /\ good (fun i j => P i j \/ (i = a /\ j = b)) F'.
Proof.
  intros [L H] Ha Hb ->. unfold mset. assert (B : (a + b * rows < length F)%nat) by (rewrite L; nia).
  destruct (Nat.ltb_spec (a + b * rows) (length F)); [|lia]. eexists. split; [reflexivity|]. split; [now rewrite upd_length|].
  intros i j Hi Hj. unfold entry. destruct (Nat.eq_dec (i + j * rows) (a + b * rows)) as [E|E].
  - destruct (pos_inj i j a b Hi Ha E) as [-> ->]. rewrite nth_upd. rewrite Nat.eqb_refl. destruct (Nat.ltb_spec (a + b * rows) (length F)); [|lia]. cbn [andb]. split; [reflexivity|]. intros C. destruct C. right. split; reflexivity.
  - rewrite nth_upd. destruct (Nat.eqb_spec (a + b * rows) (i + j * rows)); [lia|]. cbn [andb]. destruct (H i j Hi Hj) as [H1 H2]. split.
    + intros [C|[-> ->]]; [apply H1; exact C|lia].
    + intros C. apply H2. intros D. apply C. left. exact D.
Qed.
Lemma samp_pos a b : (b <= a)%nat -> samp h (a - b) = sampZ h (Z.of_nat a - Z.of_nat b).
Proof. intros H. unfold samp, sampZ. destruct (Z.ltb_spec (Z.of_nat a - Z.of_nat b) 0); [lia|]. f_equal. lia. Qed.

Lemma zfe_good : exists F, zfe_matrice h n = Ok F /\ good (fun i j => (j <= i)%nat /\ (i < j + m)%nat) F.
Proof.
  unfold zfe_matrice. cbv zeta.
  destruct (loop_inv (fun i F => good (fun a b => (a < i)%nat /\ (b <= a)%nat) F)
    (fun i F => loop (i + 1) (fun k F => let* v := vget h (i - k) in mset rows F i k v) F) m) with (s := repeat (0 : K) (rows * n)) as (F1 & E1 & G1).
  { intros i F Hi G.
    destruct (loop_inv (fun k F => good (fun a b => ((a < i)%nat /\ (b <= a)%nat) \/ (a = i /\ (b < k)%nat)) F)
      (fun k F => let* v := vget h (i - k) in mset rows F i k v) (i + 1)) with (s := F) as (F' & E' & G').
    - intros k F0 Hk G0. rewrite hget by lia. cbn [bind].
      destruct (write _ F0 i k (samp h (i - k)) G0) as (F2 & E2 & G2); [lia|lia|apply samp_pos; lia|].
      exists F2. split; [exact E2|]. eapply good_ext; [|exact G2]. cbn. intros. lia.
    - eapply good_ext; [|exact G]. cbn. intros. lia.
    - exists F'. split; [exact E'|]. eapply good_ext; [|exact G']. cbn. intros. lia. }
  { split; [apply repeat_length|]. intros i j Hi Hj. split; [lia|]. intros _. unfold entry. apply nth_repeat. }
  rewrite E1. cbn [bind].
  destruct (loop_inv (fun i' F => good (fun a b => (a < m + i')%nat /\ (b <= a)%nat /\ (a < b + m)%nat) F)
    (fun i' F => loop m (fun k F => let* v := vget h (m - 1 - k) in mset rows F (m + i') (m + i' + 1 - m + k) v) F) (n - m)) with (s := F1) as (F2 & E2 & G2).
  { intros i F Hi G.
    destruct (loop_inv (fun k F => good (fun a b => ((a < m + i)%nat /\ (b <= a)%nat /\ (a < b + m)%nat) \/ (a = m + i /\ (i + 1 <= b)%nat /\ (b < i + 1 + k)%nat)%nat) F)
      (fun k F => let* v := vget h (m - 1 - k) in mset rows F (m + i) (m + i + 1 - m + k) v) m) with (s := F) as (F' & E' & G').
    - intros k F0 Hk G0. rewrite hget by lia. cbn [bind].
      destruct (write _ F0 (m + i) (m + i + 1 - m + k) (samp h (m - 1 - k)) G0) as (F3 & E3 & G3); [lia|lia| |].
      + rewrite <- samp_pos by lia. f_equal. lia.
      + exists F3. split; [exact E3|]. eapply good_ext; [|exact G3]. cbn. intros. lia.
    - eapply good_ext; [|exact G]. cbn. intros. lia.
    - exists F'. split; [exact E'|]. eapply good_ext; [|exact G']. cbn. intros. lia. }
  { eapply good_ext; [|exact G1]. cbn. intros. lia. }
  rewrite E2. cbn [bind].
  destruct (loop_inv (fun i' F => good (fun a b => (a < n + i')%nat /\ (b <= a)%nat /\ (a < b + m)%nat) F)
    (fun i' F => loop (m - 1 - i') (fun j' F => let* v := vget h (1 + j' + i') in mset rows F (n + i') (n - (1 + j')) v) F) (m - 1)) with (s := F2) as (F3 & E3 & G3).
  { intros i F Hi G.
    destruct (loop_inv (fun k F => good (fun a b => ((a < n + i)%nat /\ (b <= a)%nat /\ (a < b + m)%nat) \/ (a = n + i /\ (n - k <= b)%nat /\ (b < n)%nat)%nat) F)
      (fun k F => let* v := vget h (1 + k + i) in mset rows F (n + i) (n - (1 + k)) v) (m - 1 - i)) with (s := F) as (F' & E' & G').
    - intros k F0 Hk G0. rewrite hget by lia. cbn [bind].
      destruct (write _ F0 (n + i) (n - (1 + k)) (samp h (1 + k + i)) G0) as (F4 & E4 & G4); [lia|lia| |].
      + rewrite <- samp_pos by lia. f_equal. lia.
      + exists F4. split; [exact E4|]. eapply good_ext; [|exact G4]. cbn. intros. lia.
    - eapply good_ext; [|exact G]. cbn. intros. lia.
    - exists F'. split; [exact E'|]. eapply good_ext; [|exact G']. cbn. intros. lia. }
  { eapply good_ext; [|exact G2]. cbn. intros. lia. }
  exists F3. split; [exact E3|]. eapply good_ext; [|exact G3]. cbn. intros. lia.
Qed.
Lemma zfe_entries : exists F, zfe_matrice h n = Ok F /\ length F = (rows * n)%nat /\
  forall i j, (i < rows)%nat -> (j < n)%nat -> entry rows F i j = sampZ h (Z.of_nat i - Z.of_nat j).
Proof.
  destruct zfe_good as (F & E & L & H). exists F. split; [exact E|]. split; [exact L|]. intros i j Hi Hj. destruct (H i j Hi Hj) as [H1 H2].
  destruct (le_lt_dec j i) as [A|A]; [destruct (le_lt_dec (j + m) i) as [B|B]|].
  - rewrite H2 by lia. unfold sampZ. destruct (Z.ltb_spec (Z.of_nat i - Z.of_nat j) 0); [reflexivity|]. rewrite nth_overflow by lia. reflexivity.
  - apply H1. lia.
  - rewrite H2 by lia. unfold sampZ. destruct (Z.ltb_spec (Z.of_nat i - Z.of_nat j) 0); [reflexivity|lia].
Qed.
Lemma mat_vec_conv F g : length g = n -> (forall i j, (i < rows)%nat -> (j < n)%nat -> entry rows F i j = sampZ h (Z.of_nat i - Z.of_nat j)) ->
  forall i, (i < rows)%nat -> mat_vec rows n F g i = conv h g i.
Proof.
  intros L H i Hi. rewrite conv_comm. unfold mat_vec, conv. rewrite L. apply sum_ext. intros j Hj. rewrite H by assumption. ring.
Qed.
End P.
