(** Algebra of convolutions. *)
From Verif Require Import Base BaseLemmas Filters_Spec.

Section C.
Variable K : cring.
Add Ring Kr : (cth K).
Local Open Scope cring_scope.
Implicit Types f g h : nat -> K.

(** causal convolution of sequences *)
Definition cv f g (n : nat) : K := sum (S n) (fun k => f k * g (n - k)%nat).
Lemma cv_ext f f' g g' n : (forall i, (i <= n)%nat -> f i = f' i) -> (forall i, (i <= n)%nat -> g i = g' i) -> cv f g n = cv f' g' n.
Proof. intros A B. unfold cv. apply sum_ext. intros i Hi. rewrite A, B by lia. reflexivity. Qed.
Lemma cv_comm f g n : cv f g n = cv g f n.
Proof.
  unfold cv. rewrite sum_rev. apply sum_ext. intros i Hi. replace (S n - 1 - i)%nat with (n - i)%nat by lia.
  replace (n - (n - i))%nat with i by lia. ring.
Qed.
(** sum over a triangle *)
Lemma sum_tri (F : nat -> nat -> K) n : sum n (fun i => sum (S i) (fun j => F i j)) = sum n (fun j => sum (n - j) (fun d => F (j + d)%nat j)).
Proof.
  induction n as [|n IH]; [reflexivity|].
  assert (SS : forall m (G : nat -> K), sum (S m) G = sum m G + G m) by reflexivity.
  rewrite !(SS n). rewrite IH.
  rewrite (sum_ext K n (fun j => sum (S n - j) (fun d => F (j + d)%nat j)) (fun j => sum (n - j) (fun d => F (j + d)%nat j) + F n j)).
  - rewrite (sum_add K n (fun j => sum (n - j) (fun d => F (j + d)%nat j)) (fun j => F n j)). replace (S n - n)%nat with 1%nat by lia. rewrite (SS 0%nat). rewrite Nat.add_0_r. cbn [sum]. ring.
  - intros j Hj. replace (S n - j)%nat with (S (n - j)) by lia. rewrite SS. replace (j + (n - j))%nat with n by lia. reflexivity.
Qed.
Lemma cv_assoc f g h n : cv (cv f g) h n = cv f (cv g h) n.
Proof.
  unfold cv at 1. rewrite (sum_ext K (S n) _ (fun i => sum (S i) (fun j => f j * g (i - j)%nat * h (n - i)%nat))).
  - rewrite (sum_tri (fun i j => f j * g (i - j)%nat * h (n - i)%nat)). unfold cv at 1. apply sum_ext. intros j Hj.
    rewrite <- sum_mul_l || idtac. unfold cv. replace (S n - j)%nat with (S (n - j)) by lia.
    rewrite <- (sum_mul_l K). apply sum_ext. intros d Hd. replace (j + d - j)%nat with d by lia. replace (n - (j + d))%nat with (n - j - d)%nat by lia. ring.
  - intros i Hi. unfold cv. rewrite <- sum_mul_r. reflexivity.
Qed.
Lemma conv_cv (h x : list K) n : conv h x n = cv (samp h) (samp x) n.
Proof.
  unfold conv, cv. transitivity (sum (length h + S n) (fun k => samp h k * sampZ x (Z.of_nat n - Z.of_nat k))).
  - symmetry. apply sum_extend; [lia|]. intros i Hi. unfold samp at 1. rewrite nth_overflow by lia. ring.
  - rewrite (sum_extend K (S n) (length h + S n)); [|lia|].
    + apply sum_ext. intros i Hi. unfold sampZ. destruct (Z.ltb_spec (Z.of_nat n - Z.of_nat i) 0); [lia|]. unfold samp. do 2 f_equal. lia.
    + intros i Hi. unfold sampZ. destruct (Z.ltb_spec (Z.of_nat n - Z.of_nat i) 0); [ring|lia].
Qed.
Lemma conv_comm (h x : list K) n : conv h x n = conv x h n.
Proof. rewrite !conv_cv. apply cv_comm. Qed.
(** filtering by h1 the output of h2 (over the same duration) is filtering by the product *)
Lemma conv_conv (h1 h2 h12 x y : list K) : (forall k, samp h12 k = conv h1 h2 k) -> length y = length x -> (forall k, (k < length x)%nat -> samp y k = conv h2 x k) ->
  forall n, (n < length x)%nat -> conv h12 x n = conv h1 y n.
Proof.
  intros H L Hy n Hn. rewrite !conv_cv. transitivity (cv (cv (samp h1) (samp h2)) (samp x) n).
  - apply cv_ext; [|reflexivity]. intros i _. rewrite H. apply conv_cv.
  - rewrite cv_assoc. apply cv_ext; [reflexivity|]. intros i Hi. rewrite Hy by lia. symmetry. apply conv_cv.
Qed.
Lemma conv_beyond (h x : list K) n : (length h + length x <= S n)%nat -> conv h x n = 0.
Proof.
  intros H. unfold conv. apply sum_zero. intros k Hk. unfold sampZ. destruct (Z.ltb_spec (Z.of_nat n - Z.of_nat k) 0); [ring|].
  rewrite nth_overflow by lia. ring.
Qed.
End C.
