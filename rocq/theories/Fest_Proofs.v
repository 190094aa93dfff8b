From Coq Require Import Reals ZArith Lra Lia Field Psatz.
From Verif Require Import Base BaseLemmas RField DftSys ComplexSys Rii_Model Biq_Proofs Biq_Props But_Proofs Fourier_Model Fourier_Spec Fourier_Props Fest_Model Fest_Spec.
Local Open Scope R_scope.

(** ** index_max *)
Lemma imax_spec l : forall i best v, (best < i)%nat ->
  let k := imax_from l i best v in
  ((k = best /\ (forall j, (j < List.length l)%nat -> nth j l 0 <= v)) \/
   (i <= k < i + List.length l)%nat /\ v < nth (k - i) l 0 /\ (forall j, (j < List.length l)%nat -> nth j l 0 <= nth (k - i) l 0)).
Proof.
  induction l as [|a t IH]; intros i best v Hb; cbn -[Nat.sub]; [left; split; [reflexivity|intros; lia]|].
  destruct (Rlt_dec v a) as [L|L].
  - destruct (IH (S i) i a ltac:(lia)) as [[E H]|[E [E2 H]]].
    + rewrite E. right. replace (i - i)%nat with 0%nat by lia. split; [lia|]. split; [exact L|].
      intros [|j] Hj; [lra|]. apply H. lia.
    + right. set (k := imax_from t (S i) i a) in *. replace (k - i)%nat with (S (k - S i)) by lia. split; [lia|]. split; [lra|].
      intros [|j] Hj; [lra|]. apply H. lia.
  - destruct (IH (S i) best v ltac:(lia)) as [[E H]|[E [E2 H]]].
    + left. split; [exact E|]. intros [|j] Hj; [lra|]. apply H. lia.
    + right. set (k := imax_from t (S i) best v) in *. replace (k - i)%nat with (S (k - S i)) by lia. split; [lia|]. split; [lra|].
      intros [|j] Hj; [lra|]. apply H. lia.
Qed.
Lemma index_max_ok l : l <> [] -> exists k, index_max l = Ok k /\ (k < List.length l)%nat /\ forall j, (j < List.length l)%nat -> nth j l 0 <= nth k l 0.
Proof.
  destruct l as [|a t]; [easy|]. intros _. eexists. split; [reflexivity|].
  destruct (imax_spec t 1 0 a ltac:(lia)) as [[E H]|[E [E2 H]]].
  - rewrite E. cbn. split; [lia|]. intros [|j] Hj; [lra|]. apply H. lia.
  - set (k := imax_from t 1 0 a) in *. replace k with (S (k - 1)) at 1 by lia. replace k with (S (k - 1)) by lia. cbn -[Nat.sub]. split; [lia|].
    intros [|j] Hj; [lra|]. apply H. lia.
Qed.
(** the largest element, when it is strictly the largest, is the one found *)
Lemma index_max_unique l k : (k < List.length l)%nat -> (forall j, (j < List.length l)%nat -> j <> k -> nth j l 0 < nth k l 0) -> index_max l = Ok k.
Proof.
  intros Hk H. destruct (index_max_ok l) as [k' [E [Hk' H']]]; [destruct l; [cbn in Hk; lia|easy]|].
  rewrite E. f_equal. destruct (Nat.eq_dec k' k) as [|N]; [assumption|]. specialize (H k' Hk' N). specialize (H' k Hk). lra.
Qed.

(** ** Bins of a tone *)
Lemma tone_length A f N : List.length (tone A f N) = N.
Proof. unfold tone. rewrite map_length. apply seq_length. Qed.
Lemma tone_samp A f N j : (j < N)%nat -> samp (tone A f N) j = (A * eit (2 * PI * f * INR j))%K.
Proof. intros H. unfold samp, tone. rewrite nth_indep with (d' := (A * eit (2 * PI * f * INR 0))%K) by (rewrite map_length, seq_length; exact H).
  rewrite (map_nth (fun j => (A * eit (2 * PI * f * INR j))%K)). rewrite seq_nth by exact H. reflexivity. Qed.

Section G.
  Add Field Cf : (fth Cfield).
  Lemma geo (z : Cfield) n : ((z - 1) * sum n (cpow z) = cpow z n - 1)%K.
  Proof. induction n as [|n IH]; cbn [sum cpow]; [ring|]. replace ((z - 1) * (sum n (cpow z) + cpow z n))%K with ((z - 1) * sum n (cpow z) + (z - 1) * cpow z n)%K by ring. rewrite IH. ring. Qed.
  Lemma sum_mul (a : Cfield) n g : sum n (fun j => (a * g j)%K) = (a * sum n g)%K.
  Proof. induction n as [|n IH]; cbn [sum]; [ring|]. rewrite IH. ring. Qed.
End G.
Lemma sum_ones n : sum n (cpow (c1 : Cfield)) = re (INR n).
Proof.
  induction n as [|n IH]; [reflexivity|]. cbn [sum]. rewrite IH, S_INR.
  assert (E : forall m, cpow (c1 : Cfield) m = c1).
  { induction m as [|m IHm]; [reflexivity|]. cbn [cpow]. rewrite IHm. apply C_ext; cbn; ring. }
  rewrite E. apply C_ext; cbn; ring.
Qed.

Definition zeta (f : R) (N k : nat) : Cfield := eit (2 * PI * (f - INR k / INR N)).
Lemma tone_bin junk A f N : (0 < N <= 2 ^ 29)%nat -> exists X, fft (F := Complex) junk (tone A f N) = Ok X /\ List.length X = N /\
  forall k, (k < N)%nat -> (samp X k * re (sqrt (INR N)) = A * sum N (cpow (zeta f N k)))%K.
Proof.
  intros HN. destruct (C24_fft_complex junk (tone A f N)) as [X [E [L H]]]; [rewrite tone_length; exact HN|].
  exists X. split; [exact E|]. rewrite tone_length in *. split; [exact L|]. intros k Hk. rewrite H by exact Hk.
  assert (S0 : 0 < INR N) by (apply lt_0_INR; lia).
  assert (Q : sqrt (INR N) <> 0) by (apply Rgt_not_eq, sqrt_lt_R0, S0).
  change ((sqrt (INR N), 0) : Complex) with (re (sqrt (INR N))).
  rewrite <- (sum_mul A). pose proof (re_ne _ Q) as Nz.
  match goal with |- (?s / ?r * ?r)%K = ?t => replace t with s end.
  { change (car Complex) with (car Cfield) in *. match goal with |- (?s / ?r * ?r)%K = _ => generalize dependent r; generalize s end. intros s0 r Nr. 
    assert (forall (s r : Cfield), r <> c0 -> (s / r * r)%K = s) as W. { clear. intros s r Nr. pose proof (fth Cfield) as FT. destruct FT as [RT _ DT IT]. rewrite DT. 
      destruct RT. rewrite <- Rmul_assoc. rewrite (IT r Nr). rewrite Rmul_comm. apply Rmul_1_l. }
    apply W, Nr. }
  apply sum_ext. intros j Hj. rewrite tone_samp by exact Hj. change (dfd Complex) with Cfield. unfold zeta. rewrite eit_pow.
  replace (INR j * (2 * PI * (f - INR k / INR N))) with (2 * PI * f * INR j + - (2 * PI * INR (j * k) / INR N)).
  2:{ rewrite mult_INR. field. lra. }
  rewrite eit_add. match goal with |- (A * ?a * ?b)%K = _ => transitivity (A * (a * b))%K; [apply C_ext; cbn; ring|] end. f_equal. f_equal.
  unfold eit. rewrite cos_neg, sin_neg. reflexivity.
Qed.
