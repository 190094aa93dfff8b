(** Lemmas about the shared conventions. *)
From Verif Require Import Base.
From Coq Require Import ZifyBool ZifyNat.

Lemma upd_length {A} (l : list A) i v : length (upd l i v) = length l.
Proof. revert i; induction l as [|a t IH]; intros [|i]; simpl; auto. Qed.

Lemma nth_upd {A} (l : list A) i j v d :
  nth j (upd l i v) d = if (i =? j) && (i <? length l) then v else nth j l d.
Proof.
  revert i j; induction l as [|a t IH]; intros i j.
  - rewrite andb_comm. destruct i, j; reflexivity.
  - destruct i as [|i], j as [|j]; simpl; try reflexivity. apply IH.
Qed.

Lemma nth_error_upd {A} (l : list A) i j v :
  nth_error (upd l i v) j = if (i =? j) && (i <? length l) then Some v else nth_error l j.
Proof.
  revert i j; induction l as [|a t IH]; intros i j.
  - rewrite andb_comm. destruct i, j; reflexivity.
  - destruct i as [|i], j as [|j]; simpl; try reflexivity. apply IH.
Qed.

Lemma vget_ok {A} (l : list A) i d : i < length l -> vget l i = Ok (nth i l d).
Proof.
  intros H. unfold vget.
  rewrite (nth_error_nth' l d H). reflexivity.
Qed.

Lemma vget_exc {A} (l : list A) i : length l <= i -> vget l i = Exc.
Proof.
  intros H. unfold vget. apply nth_error_None in H. rewrite H. reflexivity.
Qed.

Lemma vset_ok {A} (l : list A) i v : i < length l -> vset l i v = Ok (upd l i v).
Proof. intros H. unfold vset. apply Nat.ltb_lt in H. rewrite H. reflexivity. Qed.

Lemma vset_exc {A} (l : list A) i v : length l <= i -> vset l i v = Exc.
Proof. intros H. unfold vset. apply Nat.ltb_ge in H. rewrite H. reflexivity. Qed.

Lemma vgetZ_ok {A} (l : list A) i d :
  (0 <= i < Z.of_nat (length l))%Z -> vgetZ l i = Ok (nth (Z.to_nat i) l d).
Proof.
  intros H. unfold vgetZ. destruct (i <? 0)%Z eqn:E; [lia|].
  apply vget_ok. lia.
Qed.

Lemma vsetZ_ok {A} (l : list A) i v :
  (0 <= i < Z.of_nat (length l))%Z -> vsetZ l i v = Ok (upd l (Z.to_nat i) v).
Proof.
  intros H. unfold vsetZ. destruct (i <? 0)%Z eqn:E; [lia|].
  apply vset_ok. lia.
Qed.

(** Extensionality of lists via [nth]. *)
Lemma list_ext {A} (d : A) (l1 l2 : list A) :
  length l1 = length l2 -> (forall i, i < length l1 -> nth i l1 d = nth i l2 d) -> l1 = l2.
Proof. intros. apply (nth_ext l1 l2 d d); assumption. Qed.

(** A [map_st] loop whose invariant is stable runs to [Ok]. *)
Lemma map_st_app {St A B} (f : St -> A -> res (St * B)) s l1 l2 :
  map_st f s (l1 ++ l2) =
  (let* (s1, y1) := map_st f s l1 in
   let* (s2, y2) := map_st f s1 l2 in Ok (s2, y1 ++ y2)).
Proof.
  revert s; induction l1 as [|a t IH]; intros s; simpl.
  - destruct (map_st f s l2) as [[s2 y2]| | |]; reflexivity.
  - destruct (f s a) as [[s1 b]| | |]; simpl; try reflexivity.
    rewrite IH. destruct (map_st f s1 t) as [[s2 y2]| | |]; simpl; try reflexivity.
    destruct (map_st f s2 l2) as [[s3 y3]| | |]; reflexivity.
Qed.

Lemma flat_st_app {St A B} (f : St -> A -> res (St * list B)) s l1 l2 :
  flat_st f s (l1 ++ l2) =
  (let* (s1, y1) := flat_st f s l1 in
   let* (s2, y2) := flat_st f s1 l2 in Ok (s2, y1 ++ y2)).
Proof.
  revert s; induction l1 as [|a t IH]; intros s; simpl.
  - destruct (flat_st f s l2) as [[s2 y2]| | |]; reflexivity.
  - destruct (f s a) as [[s1 b]| | |]; simpl; try reflexivity.
    rewrite IH. destruct (flat_st f s1 t) as [[s2 y2]| | |]; simpl; try reflexivity.
    destruct (flat_st f s2 l2) as [[s3 y3]| | |]; simpl; try reflexivity.
    rewrite app_assoc. reflexivity.
Qed.

(** Feeding blocks to a sample-by-sample filter is feeding their concatenation. *)
Lemma run_map_st {St A B} (f : St -> A -> res (St * B)) s blocks :
  run (map_st f) s blocks = map_st f s (concat blocks).
Proof.
  revert s; induction blocks as [|b bs IH]; intros s; simpl; [reflexivity|].
  rewrite map_st_app.
  destruct (map_st f s b) as [[s1 y1]| | |]; simpl; try reflexivity.
  rewrite IH. reflexivity.
Qed.

Lemma run_flat_st {St A B} (f : St -> A -> res (St * list B)) s blocks :
  run (flat_st f) s blocks = flat_st f s (concat blocks).
Proof.
  revert s; induction blocks as [|b bs IH]; intros s; simpl; [reflexivity|].
  rewrite flat_st_app.
  destruct (flat_st f s b) as [[s1 y1]| | |]; simpl; try reflexivity.
  rewrite IH. reflexivity.
Qed.

(** A generic [run] invariant: outputs and states described by the history. *)
Lemma run_hist {St A B} (step : St -> list A -> res (St * list B))
    (Inv : list A -> St -> Prop) (out : list A -> list B) :
  out [] = [] ->
  (forall h s b, Inv h s -> exists s' y,
      step s b = Ok (s', y) /\ Inv (h ++ b) s' /\ out (h ++ b) = out h ++ y) ->
  forall s blocks, Inv [] s ->
  exists s', run step s blocks = Ok (s', out (concat blocks)) /\ Inv (concat blocks) s'.
Proof.
  intros Hnil Hstep.
  assert (G : forall blocks h s, Inv h s ->
     exists s' y, run step s blocks = Ok (s', y) /\ Inv (h ++ concat blocks) s'
                  /\ out (h ++ concat blocks) = out h ++ y).
  { induction blocks as [|b bs IH]; intros h s HI; simpl.
    - exists s, []. rewrite !app_nil_r. auto.
    - destruct (Hstep h s b HI) as (s1 & y1 & E1 & I1 & O1).
      destruct (IH _ _ I1) as (s2 & y2 & E2 & I2 & O2).
      exists s2, (y1 ++ y2). rewrite E1. simpl. rewrite E2. simpl.
      rewrite app_assoc. rewrite O2, O1, app_assoc. auto. }
  intros s blocks HI.
  destruct (G blocks [] s HI) as (s' & y & E & I & O).
  exists s'. simpl in O. rewrite Hnil in O. simpl in O. subst y. auto.
Qed.

(** Same at sample granularity for [map_st]. *)
Lemma map_st_hist {St A B} (f : St -> A -> res (St * B))
    (Inv : list A -> St -> Prop) (o : list A -> A -> B) (dB : B) (dA : A) :
  (forall h s a, Inv h s -> exists s', f s a = Ok (s', o h a) /\ Inv (h ++ [a]) s') ->
  forall s l, Inv [] s ->
  exists s' y, map_st f s l = Ok (s', y) /\ Inv l s' /\ length y = length l /\
     forall i, i < length l -> nth i y dB = o (firstn i l) (nth i l dA).
Proof.
  intros Hstep.
  assert (G : forall l h s, Inv h s -> exists s' y, map_st f s l = Ok (s', y) /\
     Inv (h ++ l) s' /\ length y = length l /\
     forall i, i < length l -> nth i y dB = o (h ++ firstn i l) (nth i l dA)).
  { induction l as [|a t IH]; intros h s HI; simpl.
    - exists s, []. rewrite app_nil_r. repeat split; auto. intros; lia.
    - destruct (Hstep h s a HI) as (s1 & E1 & I1). rewrite E1. simpl.
      destruct (IH _ _ I1) as (s2 & y & E2 & I2 & L2 & N2). rewrite E2. simpl.
      exists s2, (o h a :: y). split; [reflexivity|].
      rewrite <- app_assoc in I2. simpl in I2. split; [exact I2|].
      split; [simpl; congruence|].
      intros [|i] Hi; simpl.
      + rewrite app_nil_r. reflexivity.
      + rewrite N2 by lia. rewrite <- app_assoc. reflexivity. }
  intros s l HI. destruct (G l [] s HI) as (s' & y & ?). exists s', y. exact H.
Qed.

(** ** Sums *)
Section Sums.
Variable K : cring.
Add Ring Kr : (cth K).
Local Open Scope cring_scope.
Implicit Types f g : nat -> K.

Lemma sum_ext n f g : (forall i, (i < n)%nat -> f i = g i) -> sum n f = sum n g.
Proof.
  induction n as [|n IH]; intros H; simpl; [reflexivity|].
  rewrite IH by (intros; apply H; lia). rewrite H by lia. reflexivity.
Qed.

Lemma sum_zero n f : (forall i, (i < n)%nat -> f i = 0) -> sum n f = 0.
Proof.
  intros H. induction n as [|n IH]; simpl; [reflexivity|].
  rewrite IH by (intros; apply H; lia). rewrite H by lia. ring.
Qed.

Lemma sum_add n f g : sum n (fun i => f i + g i) = sum n f + sum n g.
Proof. induction n as [|n IH]; simpl; [ring|]. rewrite IH. ring. Qed.

Lemma sum_sub n f g : sum n (fun i => f i - g i) = sum n f - sum n g.
Proof. induction n as [|n IH]; simpl; [ring|]. rewrite IH. ring. Qed.

Lemma sum_mul_l n c f : sum n (fun i => c * f i) = c * sum n f.
Proof. induction n as [|n IH]; simpl; [ring|]. rewrite IH. ring. Qed.

Lemma sum_mul_r n c f : sum n (fun i => f i * c) = sum n f * c.
Proof. induction n as [|n IH]; simpl; [ring|]. rewrite IH. ring. Qed.

Lemma sum_split n m f : sum (n + m) f = sum n f + sum m (fun i => f (n + i)%nat).
Proof.
  induction m as [|m IH]; simpl.
  - rewrite Nat.add_0_r. ring.
  - rewrite Nat.add_succ_r. simpl. rewrite IH. ring.
Qed.

Lemma sum_S_l n f : sum (S n) f = f 0%nat + sum n (fun i => f (S i)).
Proof. rewrite (sum_split 1 n). simpl. ring. Qed.

Lemma sum_swap n m (f : nat -> nat -> K) :
  sum n (fun i => sum m (fun j => f i j)) = sum m (fun j => sum n (fun i => f i j)).
Proof.
  induction n as [|n IH]; simpl.
  - symmetry. apply sum_zero. reflexivity.
  - rewrite IH. rewrite <- sum_add. reflexivity.
Qed.

Lemma sum_rev n f : sum n f = sum n (fun i => f (n - 1 - i)%nat).
Proof.
  revert f. induction n as [|n IH]; intros f; [reflexivity|].
  rewrite sum_S_l. simpl. rewrite Nat.sub_0_r.
  replace (n - n)%nat with O by lia. rewrite (IH (fun i => f (S i))).
  rewrite (sum_ext n (fun i => f (n - i)%nat) (fun i => f (S (n - 1 - i)))).
  - ring.
  - intros. f_equal. lia.
Qed.

(** A sum with a single possibly non-zero term. *)
Lemma sum_single n f k :
  (k < n)%nat -> (forall i, (i < n)%nat -> i <> k -> f i = 0) -> sum n f = f k.
Proof.
  intros Hk H. replace n with (k + S (n - k - 1))%nat by lia.
  rewrite sum_split, sum_S_l, (sum_zero k), (sum_zero (n - k - 1)), Nat.add_0_r.
  - ring.
  - intros. apply H; lia.
  - intros. apply H; lia.
Qed.

(** Terms beyond [n] vanish. *)
Lemma sum_extend n m f :
  (n <= m)%nat -> (forall i, (n <= i < m)%nat -> f i = 0) -> sum m f = sum n f.
Proof.
  intros Hn H. replace m with (n + (m - n))%nat by lia.
  rewrite sum_split, (sum_zero (m - n)); [ring|]. intros. apply H. lia.
Qed.

Lemma sum_const n (c : K) : sum n (fun _ => c) = cnat n * c.
Proof. induction n as [|n IH]; simpl; [ring|]. rewrite IH. ring. Qed.

(** Regrouping a sum of n*m terms. *)
Lemma sum_mul_split n m f :
  sum (n * m) f = sum n (fun i => sum m (fun j => f (i * m + j)%nat)).
Proof.
  induction n as [|n IH]; simpl; [reflexivity|].
  rewrite Nat.add_comm, sum_split, IH. f_equal.
Qed.

Lemma cpow_add (x : K) n m : cpow x (n + m) = cpow x n * cpow x m.
Proof. induction n as [|n IH]; simpl; [ring|]. rewrite IH. ring. Qed.

Lemma cpow_mul (x : K) n m : cpow x (n * m) = cpow (cpow x n) m.
Proof.
  induction m as [|m IH]; simpl; [rewrite Nat.mul_0_r; reflexivity|].
  rewrite Nat.mul_succ_r, Nat.add_comm, cpow_add, IH. reflexivity.
Qed.

Lemma cpow_mul_base (x y : K) n : cpow (x * y) n = cpow x n * cpow y n.
Proof. induction n as [|n IH]; simpl; [ring|]. rewrite IH. ring. Qed.

Lemma cpow_1 n : cpow (1 : K) n = 1.
Proof. induction n as [|n IH]; simpl; [reflexivity|]. rewrite IH. ring. Qed.

Lemma cnat_add n m : cnat (K := K) (n + m) = cnat n + cnat m.
Proof. induction n as [|n IH]; simpl; [ring|]. rewrite IH. ring. Qed.

Lemma cnat_mul n m : cnat (K := K) (n * m) = cnat n * cnat m.
Proof. induction n as [|n IH]; simpl; [ring|]. rewrite cnat_add, IH. ring. Qed.

End Sums.

Lemma loop_S {S} n (f : nat -> S -> res S) s :
  loop (Datatypes.S n) f s = bind (loop n f s) (f n).
Proof. reflexivity. Qed.
