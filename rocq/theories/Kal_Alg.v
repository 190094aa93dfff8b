(** Algebra of real matrices seen as functions of two indices; positive definite matrices are invertible. *)
From Coq Require Import List Arith Lia Bool Reals Lra FunctionalExtensionality.
From Verif Require Import Base Kal_Model Kal_Spec.
Local Open Scope R_scope.

(** * Sums *)
Lemma sg_ext n f g : (forall k, (k < n)%nat -> f k = g k) -> sg n f = sg n g.
Proof. induction n as [|n IH]; intros H; cbn; [reflexivity|]. rewrite IH, H by auto; auto. Qed.

Lemma sg_0 n : sg n (fun _ => 0) = 0.
Proof. induction n as [|n IH]; cbn; [|rewrite IH]; lra. Qed.

Lemma sg_zero n f : (forall k, (k < n)%nat -> f k = 0) -> sg n f = 0.
Proof. intros H; rewrite (sg_ext n f (fun _ => 0)) by exact H; apply sg_0. Qed.

Lemma sg_add n f g : sg n (fun k => f k + g k) = sg n f + sg n g.
Proof. induction n as [|n IH]; cbn; [|rewrite IH]; lra. Qed.

Lemma sg_sub n f g : sg n (fun k => f k - g k) = sg n f - sg n g.
Proof. induction n as [|n IH]; cbn; [|rewrite IH]; lra. Qed.

Lemma sg_mul_l n a f : sg n (fun k => a * f k) = a * sg n f.
Proof. induction n as [|n IH]; cbn; [|rewrite IH]; lra. Qed.

Lemma sg_mul_r n a f : sg n (fun k => f k * a) = sg n f * a.
Proof. induction n as [|n IH]; cbn; [|rewrite IH]; lra. Qed.

Lemma sg_swap n m (f : nat -> nat -> R) :
  sg n (fun i => sg m (fun j => f i j)) = sg m (fun j => sg n (fun i => f i j)).
Proof.
  induction n as [|n IH]; cbn.
  - symmetry; apply sg_zero; reflexivity.
  - rewrite IH, sg_add; reflexivity.
Qed.

Lemma sg_delta n i f : (i < n)%nat -> sg n (fun k => (if (i =? k)%nat then 1 else 0) * f k) = f i.
Proof.
  induction n as [|n IH]; intros H; [lia|]. cbn.
  destruct (Nat.eq_dec i n) as [->|E].
  - rewrite Nat.eqb_refl, sg_zero; [lra|].
    intros k Hk; replace (n =? k)%nat with false by (symmetry; apply Nat.eqb_neq; lia); lra.
  - rewrite IH by lia. replace (i =? n)%nat with false by (symmetry; apply Nat.eqb_neq; lia); lra.
Qed.

Lemma sg_S_l n f : sg (S n) f = f 0%nat + sg n (fun k => f (S k)).
Proof. induction n as [|n IH]; [cbn; lra|]. cbn in *; rewrite IH; lra. Qed.

Lemma sg_nonneg n f : (forall k, (k < n)%nat -> 0 <= f k) -> 0 <= sg n f.
Proof.
  induction n as [|n IH]; intros H; cbn; [lra|].
  assert (0 <= sg n f) by (apply IH; intros; apply H; lia). specialize (H n ltac:(lia)); lra.
Qed.

Lemma sg_pos n f k : (forall j, (j < n)%nat -> 0 <= f j) -> (k < n)%nat -> 0 < f k -> 0 < sg n f.
Proof.
  induction n as [|n IH]; intros H Hk Hp; cbn; [lia|].
  assert (0 <= sg n f) by (apply sg_nonneg; intros; apply H; lia).
  assert (0 <= f n) by (apply H; lia).
  destruct (Nat.eq_dec k n) as [->|E]; [lra|].
  assert (0 < sg n f) by (apply IH; [intros; apply H; lia|lia|exact Hp]). lra.
Qed.

(** * Matrices *)
Definition mx := nat -> nat -> R.

Lemma mx_ext (a b : mx) : (forall i j, a i j = b i j) -> a = b.
Proof. intros H; extensionality i; extensionality j; apply H. Qed.

Definition mm (n : nat) (a b : mx) : mx := fun i j => sg n (fun k => a i k * b k j).
Definition ma (a b : mx) : mx := fun i j => a i j + b i j.
Definition ms (a b : mx) : mx := fun i j => a i j - b i j.
Definition mt (a : mx) : mx := fun i j => a j i.
Definition m1 (n : nat) : mx := cut n n (fun i j => if (i =? j)%nat then 1 else 0).
Definition m0 : mx := fun _ _ => 0.

Definition supp (r c : nat) (a : mx) : Prop := forall i j, (r <= i \/ c <= j)%nat -> a i j = 0.

Lemma cut_in r c f i j : (i < r)%nat -> (j < c)%nat -> cut r c f i j = f i j.
Proof.
  intros Hi Hj; unfold cut.
  apply Nat.ltb_lt in Hi; apply Nat.ltb_lt in Hj; rewrite Hi, Hj; reflexivity.
Qed.

Lemma cut_out r c f i j : (r <= i \/ c <= j)%nat -> cut r c f i j = 0.
Proof.
  intros H; unfold cut. destruct (i <? r)%nat eqn:E; [|reflexivity].
  destruct (j <? c)%nat eqn:E2; [|reflexivity]. apply Nat.ltb_lt in E, E2; lia.
Qed.

Lemma cut_supp r c f : supp r c (cut r c f).
Proof. intros i j; apply cut_out. Qed.

Lemma cut_id r c f : supp r c f -> cut r c f = f.
Proof.
  intros H; apply mx_ext; intros i j.
  destruct (Nat.lt_ge_cases i r); [destruct (Nat.lt_ge_cases j c)|].
  - apply cut_in; assumption.
  - rewrite cut_out, H by lia; reflexivity.
  - rewrite cut_out, H by lia; reflexivity.
Qed.

Lemma supp_ext r c (a b : mx) : supp r c a -> supp r c b ->
  (forall i j, (i < r)%nat -> (j < c)%nat -> a i j = b i j) -> a = b.
Proof.
  intros Ha Hb H; apply mx_ext; intros i j.
  destruct (Nat.lt_ge_cases i r); [destruct (Nat.lt_ge_cases j c)|].
  - apply H; assumption.
  - rewrite Ha, Hb by lia; reflexivity.
  - rewrite Ha, Hb by lia; reflexivity.
Qed.

Lemma mm_supp r n c a b : supp r n a -> supp n c b -> supp r c (mm n a b).
Proof.
  intros Ha Hb i j H; apply sg_zero; intros k Hk.
  destruct H; [rewrite Ha by lia|rewrite (Hb k j) by lia]; lra.
Qed.
Lemma ma_supp r c a b : supp r c a -> supp r c b -> supp r c (ma a b).
Proof. intros Ha Hb i j H; unfold ma; rewrite Ha, Hb by assumption; lra. Qed.
Lemma ms_supp r c a b : supp r c a -> supp r c b -> supp r c (ms a b).
Proof. intros Ha Hb i j H; unfold ms; rewrite Ha, Hb by assumption; lra. Qed.
Lemma mt_supp r c a : supp r c a -> supp c r (mt a).
Proof. intros Ha i j H; unfold mt; apply Ha; lia. Qed.
Lemma m1_supp n : supp n n (m1 n).
Proof. apply cut_supp. Qed.
Lemma m0_supp r c : supp r c m0.
Proof. intros i j _; reflexivity. Qed.

Lemma mm_assoc n m a b c : mm n (mm m a b) c = mm m a (mm n b c).
Proof.
  apply mx_ext; intros i j; unfold mm.
  rewrite (sg_ext n _ (fun k => sg m (fun l => a i l * b l k * c k j)))
    by (intros; rewrite <- sg_mul_r; reflexivity).
  rewrite sg_swap; apply sg_ext; intros l _.
  rewrite <- sg_mul_l; apply sg_ext; intros; ring.
Qed.

Lemma mm_ma_l n a b c : mm n (ma a b) c = ma (mm n a c) (mm n b c).
Proof. apply mx_ext; intros; unfold mm, ma; rewrite <- sg_add; apply sg_ext; intros; ring. Qed.
Lemma mm_ma_r n a b c : mm n a (ma b c) = ma (mm n a b) (mm n a c).
Proof. apply mx_ext; intros; unfold mm, ma; rewrite <- sg_add; apply sg_ext; intros; ring. Qed.
Lemma mm_ms_l n a b c : mm n (ms a b) c = ms (mm n a c) (mm n b c).
Proof. apply mx_ext; intros; unfold mm, ms; rewrite <- sg_sub; apply sg_ext; intros; ring. Qed.
Lemma mm_ms_r n a b c : mm n a (ms b c) = ms (mm n a b) (mm n a c).
Proof. apply mx_ext; intros; unfold mm, ms; rewrite <- sg_sub; apply sg_ext; intros; ring. Qed.
Lemma mt_mm n a b : mt (mm n a b) = mm n (mt b) (mt a).
Proof. apply mx_ext; intros; unfold mm, mt; apply sg_ext; intros; ring. Qed.
Lemma mt_ma a b : mt (ma a b) = ma (mt a) (mt b).
Proof. reflexivity. Qed.
Lemma mt_ms a b : mt (ms a b) = ms (mt a) (mt b).
Proof. reflexivity. Qed.
Lemma mt_mt a : mt (mt a) = a.
Proof. reflexivity. Qed.
Lemma mt_m1 n : mt (m1 n) = m1 n.
Proof.
  apply mx_ext; intros i j; unfold mt, m1, cut.
  rewrite (andb_comm (j <? n)%nat), (Nat.eqb_sym j i); reflexivity.
Qed.

Lemma mm_1_l r c a : supp r c a -> mm r (m1 r) a = a.
Proof.
  intros H; apply (supp_ext r c); [apply mm_supp; [apply m1_supp|exact H]|exact H|].
  intros i j Hi Hj; unfold mm.
  rewrite (sg_ext r _ (fun k => (if (i =? k)%nat then 1 else 0) * a k j)).
  - apply (sg_delta r i (fun k => a k j)); exact Hi.
  - intros k Hk; unfold m1; rewrite cut_in by assumption; reflexivity.
Qed.

Lemma mm_1_r r c a : supp r c a -> mm c a (m1 c) = a.
Proof.
  intros H. apply mt_supp in H. apply (mm_1_l c r) in H.
  apply (f_equal mt) in H. rewrite mt_mm, mt_mt, mt_m1 in H. exact H.
Qed.

(** * Quadratic forms *)
Definition qf (n : nat) (a : mx) (v : nat -> R) : R := sg n (fun i => sg n (fun j => v i * a i j * v j)).

Definition symm (a : mx) : Prop := mt a = a.
Definition psd (n : nat) (a : mx) : Prop := symm a /\ forall v, 0 <= qf n a v.
Definition pd (n : nat) (a : mx) : Prop :=
  symm a /\ forall v, (exists i, (i < n)%nat /\ v i <> 0) -> 0 < qf n a v.

Lemma qf_ma n a b v : qf n (ma a b) v = qf n a v + qf n b v.
Proof.
  unfold qf, ma. rewrite <- sg_add; apply sg_ext; intros i _.
  rewrite <- sg_add; apply sg_ext; intros; ring.
Qed.

(** The form of [m a m^T] at v is the form of a at m^T v. *)
Lemma qf_cong r n m a v :
  qf r (mm n m (mm n a (mt m))) v = qf n a (fun k => sg r (fun i => m i k * v i)).
Proof.
  unfold qf, mm, mt.
  transitivity (sg r (fun i => sg r (fun j => sg n (fun k => sg n (fun l => v i * m i k * a k l * (m j l * v j)))))).
  { apply sg_ext; intros i _; apply sg_ext; intros j _.
    rewrite <- sg_mul_l, <- sg_mul_r. apply sg_ext; intros k _.
    rewrite <- !sg_mul_l, <- sg_mul_r. apply sg_ext; intros; ring. }
  transitivity (sg n (fun k => sg n (fun l => sg r (fun i => sg r (fun j => v i * m i k * a k l * (m j l * v j)))))).
  { transitivity (sg r (fun i => sg n (fun k => sg n (fun l => sg r (fun j => v i * m i k * a k l * (m j l * v j)))))).
    { apply sg_ext; intros i _. rewrite sg_swap. apply sg_ext; intros k _. apply sg_swap. }
    rewrite sg_swap. apply sg_ext; intros k _. apply sg_swap. }
  apply sg_ext; intros k _; apply sg_ext; intros l _.
  rewrite <- sg_mul_r, <- sg_mul_r. apply sg_ext; intros i _.
  rewrite <- sg_mul_l. apply sg_ext; intros; ring.
Qed.

Lemma symm_ma a b : symm a -> symm b -> symm (ma a b).
Proof. unfold symm; intros Ha Hb; rewrite mt_ma, Ha, Hb; reflexivity. Qed.

Lemma symm_cong n m a : symm a -> symm (mm n m (mm n a (mt m))).
Proof. unfold symm; intros Ha. rewrite !mt_mm, mt_mt, Ha, mm_assoc; reflexivity. Qed.

Lemma psd_cong r n m a : psd n a -> psd r (mm n m (mm n a (mt m))).
Proof.
  intros [Hs H]; split; [apply symm_cong; exact Hs|].
  intros v; rewrite qf_cong; apply H.
Qed.

Lemma psd_ma n a b : psd n a -> psd n b -> psd n (ma a b).
Proof.
  intros [Sa Ha] [Sb Hb]; split; [apply symm_ma; assumption|].
  intros v; rewrite qf_ma; specialize (Ha v); specialize (Hb v); lra.
Qed.

Lemma pd_ma n a b : psd n a -> pd n b -> pd n (ma a b).
Proof.
  intros [Sa Ha] [Sb Hb]; split; [apply symm_ma; assumption|].
  intros v Hv; rewrite qf_ma; specialize (Ha v); specialize (Hb v Hv); lra.
Qed.

Lemma pd_psd n a : pd n a -> psd n a.
Proof.
  intros [S H]; split; [exact S|]. intros v.
  assert (D : (exists i, (i < n)%nat /\ v i <> 0) \/ forall i, (i < n)%nat -> v i = 0).
  { clear; induction n as [|n IH]; [right; intros; lia|].
    destruct IH as [[i [Hi Hv]]|IH]; [left; exists i; split; [lia|exact Hv]|].
    destruct (Req_EM_T (v n) 0) as [E|E]; [|left; exists n; split; [lia|exact E]].
    right; intros i Hi; destruct (Nat.eq_dec i n) as [->|]; [exact E|apply IH; lia]. }
  destruct D as [D|D]; [left; apply H; exact D|right].
  symmetry; apply sg_zero; intros i Hi; apply sg_zero; intros j Hj; rewrite (D i Hi); ring.
Qed.

(** A positive definite matrix is invertible (elimination of the first row and column). *)
Lemma pd_right n : forall a, pd n a -> exists b, symm b /\
  (forall i j, (i < n)%nat -> (j < n)%nat -> sg n (fun k => a i k * b k j) = if (i =? j)%nat then 1 else 0).
Proof.
  induction n as [|n IH]; intros a [Sa Pa].
  - exists m0; split; [reflexivity|intros; lia].
  - assert (sym : forall i j, a i j = a j i) by (intros i j; change (mt a j i = a j i); rewrite Sa; reflexivity).
    set (p := a 0%nat 0%nat).
    assert (Hp : 0 < p).
    { specialize (Pa (fun i => if (i =? 0)%nat then 1 else 0)).
      assert (E : qf (S n) a (fun i => if (i =? 0)%nat then 1 else 0) = p).
      { unfold qf. rewrite sg_S_l, sg_S_l, sg_zero; [|intros; cbn; ring].
        rewrite sg_zero; [cbn; unfold p; ring|].
        intros k _; apply sg_zero; intros; cbn; ring. }
      rewrite E in Pa; apply Pa. exists 0%nat; split; [lia|cbn; lra]. }
    set (a' := fun i j => a (S i) (S j) - a (S i) 0%nat * a 0%nat (S j) / p).
    destruct (IH a') as (b' & Sb & Hb).
    { split.
      - apply mx_ext; intros i j; unfold mt, a'. rewrite (sym (S j) (S i)), (sym (S j) 0%nat), (sym 0%nat (S i)).
        field; lra.
      - intros v (i & Hi & Hv).
        set (t := sg n (fun j => a 0%nat (S j) * v j)).
        set (w := fun i => match i with O => - t / p | S i' => v i' end).
        assert (E : qf n a' v = qf (S n) a w).
        { unfold qf. rewrite (sg_S_l n), (sg_S_l n).
          change (w 0%nat) with (- t / p). change (a 0%nat 0%nat) with p.
          rewrite (sg_ext n (fun k => - t / p * a 0%nat (S k) * w (S k)) (fun k => (- t / p) * (a 0%nat (S k) * v k)))
            by (intros; cbn; ring).
          rewrite sg_mul_l. change (sg n (fun k => a 0%nat (S k) * v k)) with t.
          rewrite (sg_ext n (fun k => sg (S n) (fun j => w (S k) * a (S k) j * w j))
                     (fun k => v k * a (S k) 0%nat * (- t / p) + sg n (fun j => v k * a (S k) (S j) * v j)))
            by (intros; rewrite sg_S_l; reflexivity).
          rewrite sg_add.
          rewrite (sg_ext n (fun k => v k * a (S k) 0%nat * (- t / p)) (fun k => (- t / p) * (a 0%nat (S k) * v k)))
            by (intros; rewrite (sym (S k) 0%nat); ring).
          rewrite sg_mul_l. change (sg n (fun k => a 0%nat (S k) * v k)) with t.
          unfold a'.
          rewrite (sg_ext n _ (fun i => sg n (fun j => v i * a (S i) (S j) * v j)
             - (a 0%nat (S i) * v i) * (t / p))).
          2:{ intros k _. unfold t, Rdiv. rewrite <- sg_mul_r, <- sg_mul_l, <- sg_sub.
              apply sg_ext; intros j _. rewrite (sym (S k) 0%nat). ring. }
          rewrite sg_sub, sg_mul_r. change (sg n (fun k => a 0%nat (S k) * v k)) with t.
          field; lra. }
        rewrite E; apply Pa. exists (S i); split; [lia|exact Hv]. }
    assert (symb : forall i j, b' i j = b' j i) by (intros i j; change (mt b' j i = b' j i); rewrite Sb; reflexivity).
    set (c := fun i => sg n (fun k => b' i k * a (S k) 0%nat)).
    set (b := fun i j => match i, j with
              | O, O => / p + sg n (fun k => a 0%nat (S k) * c k) / (p * p)
              | O, S j => - c j / p
              | S i, O => - c i / p
              | S i, S j => b' i j end).
    assert (Hc : forall i, (i < n)%nat -> sg n (fun k => a' i k * c k) = a (S i) 0%nat).
    { intros i Hi. unfold c.
      rewrite (sg_ext n _ (fun k => sg n (fun l => a' i k * b' k l * a (S l) 0%nat)))
        by (intros; rewrite <- sg_mul_l; apply sg_ext; intros; ring).
      rewrite sg_swap.
      rewrite (sg_ext n _ (fun l => (if (i =? l)%nat then 1 else 0) * a (S l) 0%nat)).
      - apply (sg_delta n i (fun l => a (S l) 0%nat) Hi).
      - intros l Hl; rewrite <- (Hb i l Hi Hl), sg_mul_r; reflexivity. }
    assert (Hc2 : forall i, (i < n)%nat ->
      sg n (fun k => a (S i) (S k) * c k)
      = a (S i) 0%nat + a (S i) 0%nat / p * sg n (fun k => a 0%nat (S k) * c k)).
    { intros i Hi. rewrite <- (Hc i Hi), <- sg_mul_l.
      rewrite (Hc i Hi) at 1.
      assert (X : sg n (fun k => a (S i) (S k) * c k)
        = sg n (fun k => a' i k * c k) + sg n (fun k => a (S i) 0%nat / p * (a 0%nat (S k) * c k))).
      { rewrite <- sg_add; apply sg_ext; intros; unfold a'; field; lra. }
      rewrite X, (Hc i Hi). reflexivity. }
    exists b; split.
    + apply mx_ext; intros [|i] [|j]; unfold mt, b; try reflexivity. apply symb.
    + intros i j Hi Hj. rewrite sg_S_l.
      destruct i as [|i], j as [|j]; cbn [Nat.eqb]; unfold b; cbv beta iota.
      * change (a 0%nat 0%nat) with p.
        rewrite (sg_ext n (fun k => a 0%nat (S k) * (- c k / p)) (fun k => (a 0%nat (S k) * c k) * (- / p))) by (intros; unfold Rdiv; ring).
        rewrite sg_mul_r. field; lra.
      * change (a 0%nat 0%nat) with p.
        assert (X : sg n (fun k => a 0%nat (S k) * b' k j) = c j).
        { unfold c; apply sg_ext; intros k _. rewrite (sym 0%nat (S k)), (symb k j); ring. }
        rewrite X; field; lra.
      * rewrite (sg_ext n (fun k => a (S i) (S k) * (- c k / p)) (fun k => (a (S i) (S k) * c k) * (- / p))) by (intros; unfold Rdiv; ring).
        rewrite sg_mul_r, (Hc2 i) by lia. field; lra.
      * rewrite <- (Hb i j) by lia. unfold a'.
        rewrite (sg_ext n (fun k => (a (S i) (S k) - a (S i) 0%nat * a 0%nat (S k) / p) * b' k j)
          (fun k => a (S i) (S k) * b' k j - a (S i) 0%nat / p * (a 0%nat (S k) * b' k j)))
          by (intros; field; lra).
        rewrite sg_sub, sg_mul_l.
        assert (X : sg n (fun k => a 0%nat (S k) * b' k j) = c j).
        { unfold c; apply sg_ext; intros k _. rewrite (sym 0%nat (S k)), (symb k j); ring. }
        rewrite X; field; lra.
Qed.

Lemma pd_inverse n a : pd n a -> exists b, inverse_of n a b.
Proof.
  intros H. destruct (pd_right n a H) as (b & Sb & Hb). exists b; split; [exact Hb|].
  intros i j Hi Hj. rewrite (Nat.eqb_sym i j). rewrite <- (Hb j i Hj Hi).
  apply sg_ext; intros k _. destruct H as [Sa _].
  assert (E1 : b i k = b k i) by (change (mt b k i = b k i); rewrite Sb; reflexivity).
  assert (E2 : a k j = a j k) by (change (mt a j k = a j k); rewrite Sa; reflexivity).
  rewrite E1, E2; ring.
Qed.

Lemma inverts_right inv n a : inverts inv -> (exists b, inverse_of n a b) -> supp n n a ->
  mm n (cut n n (inv n a)) a = m1 n.
Proof.
  intros Hi [b Hb] Ha. apply (supp_ext n n).
  - apply mm_supp; [apply cut_supp|exact Ha].
  - apply m1_supp.
  - intros i j Li Lj. unfold mm, m1. rewrite cut_in by assumption.
    rewrite <- (proj2 Hb i j Li Lj). apply sg_ext; intros k Lk.
    rewrite cut_in by assumption. rewrite (Hi n a b Hb) by assumption. reflexivity.
Qed.
