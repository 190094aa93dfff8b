From Coq Require Import Reals Lra Lia.
From Verif Require Import Base BaseLemmas RField DftSys ComplexSys Poly_Model Poly_Spec Poly_Proofs Rii_Model Biq_Spec Biq_Proofs Biq_Props.
Local Open Scope cring_scope.

Section Gen.
  Context {K : cfield}.
  Add Field Kf : (fth K).
  Let n10 : (1 : K) <> 0 := one_ne K.
  Lemma nz_mul (a b : K) : a <> 0 -> b <> 0 -> a * b <> 0.
  Proof. apply mul_ne. Qed.
  Lemma nz_pow (a : K) n : a <> 0 -> cpow a n <> 0.
  Proof. apply (cpow_ne K). Qed.
  Lemma nz_rprod (l : list K) x : (forall r, In r l -> x - r <> 0) -> rprod l x <> 0.
  Proof. induction l as [|a l IH]; intros H; cbn [rprod]; [exact n10|]. apply nz_mul; [apply H; left; reflexivity|apply IH; intros r Hr; apply H; right; exact Hr]. Qed.
  Lemma rprod_in (l : list K) x : rprod l x <> 0 -> forall r, In r l -> x - r <> 0.
  Proof.
    induction l as [|a l IH]; intros H r []; cbn [rprod] in H.
    - subst. intros E. apply H. rewrite E. ring.
    - apply IH; [|assumption]. intros E. apply H. rewrite E. ring.
  Qed.
  Lemma rprod_repeat (r : K) n x : rprod (repeat r n) x = cpow (x - r) n.
  Proof. induction n as [|n IH]; [reflexivity|]. cbn [repeat rprod cpow]. rewrite IH. reflexivity. Qed.
  Lemma fold_mul (k : K) l : forall g, fold_left (fun g r => g * (k - r)) l g = g * rprod l k.
  Proof. induction l as [|a l IH]; intros g; cbn [fold_left rprod]; [ring|]. rewrite IH. ring. Qed.
  Lemma fold_div (k : K) l : (forall r, In r l -> k - r <> 0) -> forall g, fold_left (fun g r => g / (k - r)) l g = g / rprod l k.
  Proof.
    induction l as [|a l IH]; intros H g; cbn [fold_left rprod]; [field; exact n10|]. rewrite IH by (intros r Hr; apply H; right; exact Hr).
    field. split; [apply nz_rprod; intros r Hr; apply H; right; exact Hr|apply H; left; reflexivity].
  Qed.
  (** the bilinear transform *)
  Definition wrp (k : K) (l : list K) : list K := map (fun r => (r + k) / (- r + k)) l.
  Lemma wrp_prod (k z : K) l : z + 1 <> 0 -> (forall r, In r l -> k - r <> 0) ->
    rprod (wrp k l) z * rprod l k = rprod l (k * (z - 1) / (z + 1)) * cpow (z + 1) (length l).
  Proof.
    intros Hz. induction l as [|a l IH]; intros H; cbn [wrp map rprod length cpow]; [ring|].
    assert (Ha : k - a <> 0) by (apply H; left; reflexivity). fold (wrp k l).
    transitivity ((z - (a + k) / (- a + k)) * (k - a) * (rprod (wrp k l) z * rprod l k)); [ring|]. rewrite IH by (intros r Hr; apply H; right; exact Hr).
    field. split; [exact Hz|]. intros E. apply Ha. rewrite <- E. ring.
  Qed.
  Lemma wrp_frac (k z mn md : K) (zs ps : list K) (m1 m2 : nat) : z + 1 <> 0 -> (forall r, In r zs -> k - r <> 0) -> (forall r, In r ps -> k - r <> 0) ->
    (length zs + m1 = length ps + m2)%nat -> md <> 0 -> rprod ps (k * (z - 1) / (z + 1)) <> 0 ->
    mn * (1 * rprod zs k / rprod ps k) * (rprod (wrp k zs) z * cpow (z + 1) m1) / (md * (rprod (wrp k ps) z * cpow (z + 1) m2)) =
    mn * rprod zs (k * (z - 1) / (z + 1)) / (md * rprod ps (k * (z - 1) / (z + 1))).
  Proof.
    intros Hz H1 H2 L Hm Hd. pose proof (wrp_prod k z zs Hz H1) as E1. pose proof (wrp_prod k z ps Hz H2) as E2.
    pose proof (nz_rprod zs k H1) as N1. pose proof (nz_rprod ps k H2) as N2. pose proof (nz_pow _ (length ps) Hz) as N3. pose proof (nz_pow _ m2 Hz) as N4.
    assert (EP : cpow (z + 1) (length zs) * cpow (z + 1) m1 = cpow (z + 1) (length ps) * cpow (z + 1) m2) by (rewrite <- !(cpow_add_ K), L; reflexivity).
    set (a := rprod (wrp k zs) z) in *. set (b := rprod (wrp k ps) z) in *. set (A := rprod zs (k * (z - 1) / (z + 1))) in *. set (B := rprod ps (k * (z - 1) / (z + 1))) in *.
    set (kz := rprod zs k) in *. set (kp := rprod ps k) in *. set (e1 := cpow (z + 1) (length zs)) in *. set (e2 := cpow (z + 1) (length ps)) in *. set (f1 := cpow (z + 1) m1) in *. set (f2 := cpow (z + 1) m2) in *.
    assert (Ea : a = A * e1 / kz). { transitivity (a * kz / kz); [field; exact N1|]. rewrite E1. reflexivity. }
    assert (Eb : b = B * e2 / kp). { transitivity (b * kp / kp); [field; exact N2|]. rewrite E2. reflexivity. }
    clearbody a b A B kz kp e1 e2 f1 f2. subst a b.
    transitivity (mn * A * (e1 * f1) / (md * B * (e2 * f2))); [field; repeat split; assumption|]. rewrite EP. field. repeat split; assumption.
  Qed.
  (** scaling and inversion of the roots *)
  Lemma rprod_scale (w s : K) l : w <> 0 -> rprod (map (fun r => r * w) l) s = cpow w (length l) * rprod l (s / w).
  Proof. intros Hw. induction l as [|a l IH]; cbn [map rprod length cpow]; [ring|]. rewrite IH. field. exact Hw. Qed.
  Lemma rprod_inv (w s : K) l : s <> 0 -> (forall r, In r l -> r <> 0) ->
    rprod (map (fun r => finv r * w) l) s * fold_left (fun x v => x * v) l 1 * cpow (- (1)) (length l) = cpow s (length l) * rprod l (w / s).
  Proof.
    intros Hs. assert (G : forall l g, (fold_left (fun x v => x * v) l g : K) = g * fold_left (fun x v => x * v) l 1).
    { clear l. induction l as [|a l IH]; intros g; cbn [fold_left]; [ring|]. rewrite IH, (IH (1 * a)). ring. }
    induction l as [|a l IH]; intros H; cbn [map rprod length cpow fold_left]; [ring|]. rewrite G. assert (Ha : a <> 0) by (apply H; left; reflexivity).
    transitivity (((s - finv a * w) * - (a)) * (rprod (map (fun r => finv r * w) l) s * fold_left (fun x v => x * v) l 1 * cpow (- (1)) (length l))); [ring|].
    rewrite IH by (intros r Hr; apply H; right; exact Hr). field. split; assumption.
  Qed.
End Gen.
