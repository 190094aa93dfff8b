(** A monic polynomial function with as many distinct roots as its degree is the product of its linear factors. *)
From Verif Require Import Base BaseLemmas Poly_Model Poly_Spec Poly_Proofs Tf_Proofs.
Local Open Scope cring_scope.
Lemma NoDup_app_iff_ {B} (l : list B) (a : B) : NoDup (l ++ [a]) <-> NoDup l /\ (forall x, In x l -> x <> a).
Proof.
  induction l as [|b l IH]; cbn.
  - split; [intros _; split; [constructor|tauto]|intros _; constructor; [tauto|constructor]].
  - split.
    + intros H. inversion H as [|? ? N1 N2]. subst. apply IH in N2. destruct N2 as [N2 N3]. split; [constructor; [intros I; apply N1; apply in_or_app; tauto|exact N2]|].
      intros x [-> |I]; [intros ->; apply N1; apply in_or_app; cbn; tauto|exact (N3 x I)].
    + intros [N H]. inversion N as [|? ? N1 N2]. subst. constructor.
      * intros I. apply in_app_or in I. destruct I as [I|[I|[]]]; [exact (N1 I)|]. apply (H b (or_introl eq_refl)). symmetry. exact I.
      * apply IH. split; [exact N2|]. intros x I. apply H. tauto.
Qed.
Section Factor.
  Context {K : cfield}.
  Add Field Kf : (fth K).
  (** polynomial functions of degree < n; monic ones of degree n *)
  Definition lowdeg (n : nat) (f : K -> K) : Prop := exists c, length c = n /\ forall x, f x = pval c x.
  Definition monic (n : nat) (f : K -> K) : Prop := exists c, length c = n /\ forall x, f x = pval c x + cpow x n.
  Lemma add_head_length (l s : list K) : (length s <= length l)%nat -> length (add_head l s) = length l.
  Proof. revert s. induction l as [|a l IH]; intros [|b s] H; cbn in *; try reflexivity; try lia. rewrite IH by lia. reflexivity. Qed.
  Lemma add_coefs_length (a b : list K) : length (add_coefs a b) = Nat.max (length a) (length b).
  Proof. unfold add_coefs. destruct (Nat.leb_spec (length b) (length a)); rewrite add_head_length by lia; lia. Qed.
  Lemma lowdeg_ext n f g : (forall x, f x = g x) -> lowdeg n f -> lowdeg n g.
  Proof. intros H (c & L & E). exists c. split; [exact L|]. intros x. rewrite <- H. apply E. Qed.
  Lemma monic_ext n f g : (forall x, f x = g x) -> monic n f -> monic n g.
  Proof. intros H (c & L & E). exists c. split; [exact L|]. intros x. rewrite <- H. apply E. Qed.
  Lemma lowdeg_le n m f : (n <= m)%nat -> lowdeg n f -> lowdeg m f.
  Proof. intros H (c & L & E). exists (c ++ repeat 0 (m - n)). split; [rewrite app_length, repeat_length; lia|]. intros x. rewrite pval_app, pval_zeros, E. ring. Qed.
  Lemma lowdeg_add n f g : lowdeg n f -> lowdeg n g -> lowdeg n (fun x => f x + g x).
  Proof. intros (c & L & E) (d & L2 & E2). exists (add_coefs c d). split; [rewrite add_coefs_length; lia|]. intros x. rewrite add_coefs_ok, E, E2. reflexivity. Qed.
  Lemma lowdeg_scale n k f : lowdeg n f -> lowdeg n (fun x => k * f x).
  Proof. intros (c & L & E). exists (map (fun v => v * k) c). split; [rewrite map_length; exact L|]. intros x. rewrite pval_map_mul, E. ring. Qed.
  Lemma lowdeg_x n f : lowdeg n f -> lowdeg (S n) (fun x => x * f x).
  Proof. intros (c & L & E). exists (0 :: c). split; [cbn; lia|]. intros x. rewrite pval_cons, E. ring. Qed.
  Lemma lowdeg_const k : lowdeg 1 (fun _ => k).
  Proof. exists [k]. split; [reflexivity|]. intros x. rewrite pval_cons, pval_nil. ring. Qed.
  Lemma monic_low n f : monic n f -> lowdeg (S n) f.
  Proof. intros (c & L & E). exists (c ++ [1]). split; [rewrite app_length; cbn; lia|]. intros x. rewrite pval_app, E, pval_cons, pval_nil, L. ring. Qed.
  Lemma monic_add n f g : monic n f -> lowdeg n g -> monic n (fun x => f x + g x).
  Proof. intros (c & L & E) (d & L2 & E2). exists (add_coefs c d). split; [rewrite add_coefs_length; lia|]. intros x. rewrite add_coefs_ok, E, E2. ring. Qed.
  Lemma monic_x n f : monic n f -> monic (S n) (fun x => x * f x).
  Proof. intros (c & L & E). exists (0 :: c). split; [cbn; lia|]. intros x. rewrite pval_cons, E. cbn [cpow]. ring. Qed.
  Lemma monic_pow n : monic n (fun x => cpow x n).
  Proof. exists (repeat 0 n). split; [apply repeat_length|]. intros x. rewrite pval_zeros. ring. Qed.
  Lemma lowdeg_mul_pow n m f : lowdeg n f -> lowdeg (m + n) (fun x => cpow x m * f x).
  Proof.
    intros H. induction m as [|m IH]; [apply (lowdeg_ext _ f); [intros x; cbn; ring|exact H]|].
    apply (lowdeg_ext _ (fun x => x * (cpow x m * f x))); [intros x; cbn [cpow]; ring|]. apply lowdeg_x. exact IH.
  Qed.
  Lemma lowdeg_mul n m f g : lowdeg n f -> lowdeg (S m) g -> lowdeg (n + m) (fun x => f x * g x).
  Proof.
    intros (c & L & E). revert n f L E. induction c as [|a c IH]; intros n f L E H.
    - cbn in L. subst n. apply (lowdeg_le 0); [lia|]. exists []. split; [reflexivity|]. intros x. rewrite E, pval_nil. ring.
    - cbn in L. subst n. apply (lowdeg_ext _ (fun x => a * g x + x * (pval c x * g x))).
      + intros x. rewrite E, pval_cons. ring.
      + apply lowdeg_add; [apply lowdeg_scale; apply (lowdeg_le (S m)); [lia|exact H]|].
        apply (lowdeg_x (length c + m)). apply (IH (length c) (pval c)); [reflexivity|reflexivity|exact H].
  Qed.
  Lemma monic_mul n m f g : monic n f -> monic m g -> monic (n + m) (fun x => f x * g x).
  Proof.
    intros (c & L & E) Hg. pose proof (monic_low m g Hg) as Lg. destruct Hg as (d & L2 & E2).
    apply (monic_ext _ (fun x => cpow x (n + m) + (cpow x n * pval d x + pval c x * g x))).
    - intros x. rewrite E, (E2 x), (cpow_add_ K). ring.
    - apply monic_add; [apply monic_pow|]. apply lowdeg_add.
      + apply (lowdeg_mul_pow m n). exists d. split; [exact L2|reflexivity].
      + apply lowdeg_mul; [exists c; split; [exact L|reflexivity]|exact Lg].
  Qed.
  (** division by x - r *)
  Lemma div_low (c : list K) r : exists q, length q = (length c - 1)%nat /\ forall x, pval c x = pval c r + (x - r) * pval q x.
  Proof.
    induction c as [|a t (q & L & E)]; [exists []; split; [reflexivity|intros x; rewrite !pval_nil; ring]|].
    destruct t as [|b t]; [exists []; split; [reflexivity|intros x; rewrite !pval_cons, !pval_nil; ring]|].
    exists (pval (b :: t) r :: q). split; [cbn [length] in *; lia|]. intros x. rewrite (pval_cons K a), (pval_cons K a), (pval_cons K (pval _ _)), (E x). ring.
  Qed.
  Lemma div_pow (r : K) n : exists d : list K, length d = n /\ forall x : K, cpow x (S n) - cpow r (S n) = (x - r) * (pval d x + cpow x n).
  Proof.
    induction n as [|n (d & L & E)].
    - exists []. split; [reflexivity|]. intros x. rewrite pval_nil. cbn [cpow]. ring.
    - exists (cpow r (S n) :: d). split; [cbn; lia|]. intros x. rewrite pval_cons.
      transitivity (x * (cpow x (S n) - cpow r (S n)) + (x - r) * cpow r (S n)); [cbn [cpow]; ring|]. rewrite E. cbn [cpow]. ring.
  Qed.
  Lemma div_monic n f r : monic (S n) f -> f r = 0 -> exists g, monic n g /\ forall x, f x = (x - r) * g x.
  Proof.
    intros (c & L & E) H. destruct (div_low c r) as (q & Lq & Eq). destruct (div_pow r n) as (d & Ld & Ed).
    exists (fun x => pval q x + (pval d x + cpow x n)). split.
    - apply (monic_ext _ (fun x => (pval d x + cpow x n) + pval q x)); [intros x; ring|]. apply monic_add; [exists d; split; [exact Ld|reflexivity]|exists q; split; [lia|reflexivity]].
    - intros x. transitivity (f x - f r); [rewrite H; ring|]. rewrite !E, (Eq x). transitivity ((x - r) * pval q x + (cpow x (S n) - cpow r (S n))); [ring|]. rewrite Ed. ring.
  Qed.
  Hypothesis Kint : forall a b : K, a * b = 0 -> a = 0 \/ b = 0.
  Theorem factor (l : list K) : forall f, NoDup l -> monic (length l) f -> (forall r, In r l -> f r = 0) -> forall x, f x = rprod l x.
  Proof.
    induction l as [|r l IH]; intros f N M H x.
    - destruct M as (c & L & E). destruct c; [|discriminate L]. rewrite E, pval_nil. cbn. ring.
    - inversion N as [|? ? N1 N2]. subst. destruct (div_monic (length l) f r M (H r (or_introl eq_refl))) as (g & Mg & Eg).
      rewrite Eg. cbn [rprod]. f_equal. apply IH; [exact N2|exact Mg|]. intros r' I. pose proof (H r' (or_intror I)) as H'. rewrite Eg in H'.
      apply Kint in H'. destruct H' as [H'|H']; [|exact H']. exfalso. apply N1. replace r with r'; [exact I|]. transitivity (r' - r + r); [ring|]. rewrite H'. ring.
  Qed.
  (** X^n - Y^n *)
  Lemma cpow_ne0 (w : K) n : w <> 0 -> cpow w n <> 0.
  Proof. intros H. induction n as [|n IH]; cbn [cpow]; [apply (one_ne K)|]. intros E. apply Kint in E. tauto. Qed.
  Lemma NoDup_map_seq {B} (f : nat -> B) n : (forall i j, (i < j < n)%nat -> f i <> f j) -> NoDup (map f (seq 0 n)).
  Proof.
    intros H. induction n as [|n IH]; [constructor|]. rewrite seq_S, map_app. cbn [map Nat.add].
    apply NoDup_app_iff_. split; [apply IH; intros; apply H; lia|]. intros x I. apply in_map_iff in I. destruct I as (i & <- & I). apply in_seq in I. apply H. lia.
  Qed.
  Lemma cpow_one n : cpow (1 : K) n = 1.
  Proof. induction n as [|n IH]; cbn [cpow]; [reflexivity|]. rewrite IH. ring. Qed.
  Lemma cpow_mul_l (a b : K) n : cpow (a * b) n = cpow a n * cpow b n.
  Proof. induction n as [|n IH]; cbn [cpow]; [ring|]. rewrite IH. ring. Qed.
  Lemma cpow_cpow (a : K) m n : cpow (cpow a m) n = cpow (cpow a n) m.
  Proof.
    induction m as [|m IH]; cbn [cpow]; [apply cpow_one|]. rewrite cpow_mul_l, IH. reflexivity.
  Qed.
  Lemma pow_diff n (w y x : K) : (1 <= n)%nat -> cpow w n = 1 -> (forall j, (0 < j < n)%nat -> cpow w j <> 1) -> y <> 0 ->
    cpow x n - cpow y n = rprod (map (fun k => y * cpow w k) (seq 0 n)) x.
  Proof.
    intros Hn W P Hy. 
    assert (W0 : w <> 0). { intros E. subst w. destruct n; [lia|]. cbn [cpow] in W. apply (one_ne K). rewrite <- W. ring. }
    rewrite <- (factor (map (fun k => y * cpow w k) (seq 0 n)) (fun x => cpow x n - cpow y n)); [reflexivity| | |].
    - apply NoDup_map_seq. intros i j H E. apply (P (j - i)%nat); [lia|].
      assert (Z : (y * cpow w i) * (cpow w (j - i) - 1) = 0).
      { transitivity (y * (cpow w i * cpow w (j - i)) - y * cpow w i); [ring|]. rewrite <- (cpow_add_ K). replace (i + (j - i))%nat with j by lia. rewrite E. ring. }
      apply Kint in Z. destruct Z as [Z|Z].
      + apply Kint in Z. destruct Z as [Z|Z]; [tauto|]. exfalso. apply (cpow_ne0 w i W0 Z).
      + transitivity (cpow w (j - i) - 1 + 1); [ring|]. rewrite Z. ring.
    - rewrite map_length, seq_length. apply (monic_ext _ (fun x => cpow x n + - cpow y n)); [intros; ring|]. apply monic_add; [apply monic_pow|]. apply (lowdeg_le 1); [lia|apply lowdeg_const].
    - intros r I. apply in_map_iff in I. destruct I as (k & <- & I). rewrite cpow_mul_l, cpow_cpow, W, cpow_one. ring.
  Qed.
End Factor.
