From Coq Require Import List Arith ZArith Reals String DecimalString Lia Lra.
From Flocq Require Import Core.
From Verif Require Import Base Unit_Model Unit_Spec.
Import ListNotations.
Local Open Scope R_scope.

Definition eps := / 2 ^ 22.
Lemma p10_pos e : 0 < p10 e.
Proof. unfold p10. apply powerRZ_lt. lra. Qed.
Lemma p10_inv e : p10 (- e) * p10 e = 1.
Proof. unfold p10. rewrite <- powerRZ_add by lra. replace (- e + e)%Z with 0%Z by lia. reflexivity. Qed.
Lemma pow10_pos n : 0 < 10 ^ n.
Proof. apply pow_lt. lra. Qed.

(** a nearest integer is at least as near as any other *)
Lemma near_best ch x n : Rabs (IZR (Znearest ch x) - x) <= Rabs (IZR n - x).
Proof.
  pose proof (Znearest_half ch x) as H. rewrite Rabs_minus_sym in H.
  destruct (Z.eq_dec n (Znearest ch x)) as [->|D]; [lra|].
  assert (1 <= Rabs (IZR n - IZR (Znearest ch x))).
  { rewrite <- minus_IZR, <- abs_IZR. apply IZR_le. lia. }
  assert (Rabs (IZR n - IZR (Znearest ch x)) <= Rabs (IZR n - x) + Rabs (IZR (Znearest ch x) - x)).
  { replace (IZR n - IZR (Znearest ch x)) with ((IZR n - x) - (IZR (Znearest ch x) - x)) by ring.
    eapply Rle_trans; [apply Rabs_triang|]. rewrite Rabs_Ropp. lra. }
  lra.
Qed.

Lemma short_iff a i : short a i = true <-> exists n, Rabs (IZR n / 10 ^ i - a) < eps.
Proof.
  unfold short, eps. pose proof (pow10_pos i) as P.
  assert (Q : forall n, Rabs (IZR n / 10 ^ i - a) * 10 ^ i = Rabs (IZR n - a * 10 ^ i)).
  { intros n. rewrite <- (Rabs_pos_eq (10 ^ i)) at 2 by lra. rewrite <- Rabs_mult. f_equal. field. lra. }
  assert (T : 2 * 10 ^ i * / 2 ^ 23 = / 2 ^ 22 * 10 ^ i).
  { change (2 ^ 23) with (2 * 2 ^ 22). field. }
  rewrite T. destruct (Rlt_dec _ _) as [l|l]; split; intros H; try discriminate; auto.
  - exists (ZnearestA (a * 10 ^ i)). apply Rmult_lt_reg_r with (10 ^ i); [lra|]. rewrite Q, Rabs_minus_sym. exact l.
  - exfalso. apply l. destruct H as [n H]. rewrite Rabs_minus_sym.
    eapply Rle_lt_trans; [apply (near_best _ _ n)|]. rewrite <- Q. apply Rmult_lt_compat_r; lra.
Qed.

Lemma find_first {f : nat -> bool} l i : find f l = Some i -> exists a b, l = a ++ i :: b /\ f i = true /\ forall j, In j a -> f j = false.
Proof.
  induction l as [|x l IH]; cbn; [discriminate|]. destruct (f x) eqn:E.
  - intros H. injection H as <-. exists [], l. cbn. intuition.
  - intros H. destruct (IH H) as (a & b & -> & K & L). exists (x :: a), b. cbn. intuition. subst. auto.
Qed.
Lemma ndigits_le a : (ndigits a <= 8)%nat.
Proof.
  unfold ndigits. destruct (find _ _) eqn:F; [|lia]. apply find_some in F. destruct F as [F _]. apply in_seq in F. lia.
Qed.
Lemma eps8 : / 2 * / 10 ^ 8 <= eps.
Proof. unfold eps. rewrite <- Rinv_mult. apply Rinv_le_contravar; [apply pow_lt; lra|]. lra. Qed.
Lemma eps_pos : 0 < eps.
Proof. apply Rinv_0_lt_compat, pow_lt. lra. Qed.
Lemma ndigits_ok a : exists n, Rabs (IZR n / 10 ^ ndigits a - a) <= eps.
Proof.
  unfold ndigits. destruct (find _ _) eqn:F.
  - apply find_some in F. destruct F as [_ F]. apply short_iff in F. destruct F as [k F]. exists k. lra.
  - exists (ZnearestA (a * 10 ^ 8)). apply Rle_trans with (/ 2 * / 10 ^ 8); [|apply eps8].
    pose proof (Znearest_half (Zle_bool 0) (a * 10 ^ 8)) as H. rewrite Rabs_minus_sym in H.
    replace (IZR (ZnearestA (a * 10 ^ 8)) / 10 ^ 8 - a) with ((IZR (ZnearestA (a * 10 ^ 8)) - a * 10 ^ 8) * / 10 ^ 8)
      by (field; apply pow_nonzero; lra).
    rewrite Rabs_mult, (Rabs_pos_eq (/ 10 ^ 8)) by (left; apply Rinv_0_lt_compat, pow_lt; lra).
    apply Rmult_le_compat_r; [left; apply Rinv_0_lt_compat, pow_lt; lra|]. exact H.
Qed.
Lemma ndigits_min a i n : (i < ndigits a)%nat -> eps <= Rabs (IZR n / 10 ^ i - a).
Proof.
  intros H. destruct (Rlt_dec (Rabs (IZR n / 10 ^ i - a)) eps) as [l|l]; [|lra]. exfalso.
  assert (S1 : short a i = true) by (apply short_iff; eauto).
  unfold ndigits in H. destruct (find _ _) eqn:F.
  - destruct (find_first _ _ F) as (x & y & E & _ & L).
    assert (N : nth (length x) (seq 0 8) 0%nat = n0) by (rewrite E, app_nth2, Nat.sub_diag by lia; reflexivity).
    assert (LN : (length x < 8)%nat) by (apply (f_equal (@length nat)) in E; rewrite app_length, seq_length in E; cbn in E; lia).
    rewrite seq_nth in N by lia. cbn in N. subst n0.
    assert (In i x).
    { assert (K : nth i (seq 0 8) 0%nat = i) by (rewrite seq_nth; lia). rewrite E, app_nth1 in K by lia. rewrite <- K. apply nth_In. lia. }
    rewrite (L i) in S1 by auto. discriminate.
  - assert (In i (seq 0 8)) by (apply in_seq; lia). rewrite (find_none _ _ F i) in S1 by auto. discriminate.
Qed.

(** printing with at least the number of digits of ndigits, whatever the sign *)
Lemma print_near ch m d : (ndigits (Rabs m) <= d)%nat -> Rabs (IZR (Znearest ch (m * 10 ^ d)) / 10 ^ d - m) <= eps.
Proof.
  intros L. destruct (ndigits_ok (Rabs m)) as [n H]. pose proof (pow10_pos d) as P.
  set (s := if Rle_dec 0 m then 1%Z else (-1)%Z).
  assert (SM : IZR s * Rabs m = m /\ Rabs (IZR s) = 1).
  { unfold s. destruct (Rle_dec 0 m); [rewrite Rabs_pos_eq by lra|rewrite Rabs_left by lra]; (split; [lra|]);
    [rewrite Rabs_pos_eq by lra|rewrite Rabs_left by lra]; lra. }
  destruct SM as [SM S1].
  pose (z := (s * n * 10 ^ Z.of_nat (d - ndigits (Rabs m)))%Z).
  assert (Z1 : IZR z / 10 ^ d = IZR s * (IZR n / 10 ^ ndigits (Rabs m))).
  { unfold z. rewrite 2 mult_IZR, <- pow_IZR. replace (10 ^ d) with (10 ^ (d - ndigits (Rabs m)) * 10 ^ ndigits (Rabs m)).
    - field. split; apply pow_nonzero; lra.
    - rewrite <- pow_add. f_equal. lia. }
  assert (Q : forall k, Rabs (IZR k / 10 ^ d - m) * 10 ^ d = Rabs (IZR k - m * 10 ^ d)).
  { intros k. rewrite <- (Rabs_pos_eq (10 ^ d)) at 2 by lra. rewrite <- Rabs_mult. f_equal. field. lra. }
  apply Rle_trans with (Rabs (IZR z / 10 ^ d - m)).
  - apply Rmult_le_reg_r with (10 ^ d); [lra|]. rewrite 2 Q. apply near_best.
  - rewrite Z1. rewrite <- SM at 2. rewrite <- Rmult_minus_distr_l, Rabs_mult, S1. lra.
Qed.
Lemma scale_err q m e t : m = t * p10 (- e) -> Rabs (q - m) <= eps -> Rabs (q * p10 e - t) <= eps * p10 e.
Proof.
  intros -> H. pose proof (p10_pos e).
  replace (q * p10 e - t) with ((q - t * p10 (- e)) * p10 e).
  - rewrite Rabs_mult, (Rabs_pos_eq (p10 e)) by lra. apply Rmult_le_compat_r; lra.
  - rewrite Rmult_minus_distr_r, Rmult_assoc, p10_inv. ring.
Qed.

Lemma valeur4_ok t u e d l : (ndigits (Rabs (t * p10 (- e))) <= d)%nat -> valeur4 t u e (Z.of_nat d) = Ok l ->
  lab_suffix l = suffixe u e /\ lab_digits l = d /\ Rabs (read_value l e - t) <= eps * powerRZ 10 e.
Proof.
  intros L. unfold valeur4. destruct (Z.eqb_spec (Z.of_nat d) 0).
  - destruct (_ && _)%bool; [|discriminate]. intros H. injection H as <-. cbn. unfold read_value. cbn [lab_num lab_digits].
    assert (d = 0)%nat by lia. subst d. split; [reflexivity|]. split; [reflexivity|].
    eapply scale_err; [reflexivity|]. pose proof (print_near (Zle_bool 0) (t * p10 (- e)) 0 L) as P. cbn [pow] in *.
    rewrite Rmult_1_r in P. exact P.
  - destruct (Z.ltb_spec (Z.of_nat d) 0); [lia|]. intros HL. injection HL as <-. unfold read_value. cbn [lab_num lab_digits lab_suffix].
    rewrite Nat2Z.id. split; [reflexivity|]. split; [reflexivity|]. eapply scale_err; [reflexivity|]. apply print_near, L.
Qed.

Lemma ltb_t a b : ltb a b = true <-> a < b.
Proof. unfold ltb. destruct (Rlt_dec a b); intuition; discriminate. Qed.
Lemma geb_t a b : geb a b = true <-> b <= a.
Proof. unfold geb. destruct (Rle_dec b a); intuition; discriminate. Qed.
Lemma ltb_f a b : ltb a b = false <-> b <= a.
Proof. unfold ltb. destruct (Rlt_dec a b); intuition; try discriminate; lra. Qed.
Lemma geb_f a b : geb a b = false <-> a < b.
Proof. unfold geb. destruct (Rle_dec b a); intuition; try discriminate; lra. Qed.
Lemma nul_t a : nul a = true <-> a = 0.
Proof. unfold nul. destruct (Req_EM_T a 0); intuition; discriminate. Qed.

Lemma p10m3 : p10 (-3) = / 1000. Proof. unfold p10. change (powerRZ 10 (-3)) with (/ (10 ^ 3)). f_equal. ring. Qed.
Lemma p10m6 : p10 (-6) = / 1000000. Proof. unfold p10. change (powerRZ 10 (-6)) with (/ (10 ^ 6)). f_equal. ring. Qed.
Lemma p10m9 : p10 (-9) = / 1000000000. Proof. unfold p10. change (powerRZ 10 (-9)) with (/ (10 ^ 9)). f_equal. ring. Qed.
Lemma p10p3 : p10 3 = 1000. Proof. unfold p10. change (powerRZ 10 3) with (10 ^ 3). ring. Qed.
Lemma p10p6 : p10 6 = 1000000. Proof. unfold p10. change (powerRZ 10 6) with (10 ^ 6). ring. Qed.
Lemma p10p9 : p10 9 = 1000000000. Proof. unfold p10. change (powerRZ 10 9) with (10 ^ 9). ring. Qed.
Lemma p10z : p10 0 = 1. Proof. reflexivity. Qed.

Lemma scaled_abs t e : Rabs (t * p10 e) = Rabs t * p10 e.
Proof. rewrite Rabs_mult, (Rabs_pos_eq (p10 e)); [reflexivity|]. left. apply p10_pos. Qed.

Lemma nd0 : ndigits 0 = 0%nat.
Proof.
  pose proof (ndigits_min 0 0 0) as H. destruct (ndigits 0) eqn:E; [reflexivity|]. exfalso.
  specialize (H ltac:(lia)). cbn in H. replace (0 / 1 - 0) with 0 in H by field. rewrite Rabs_R0 in H. pose proof eps_pos. lra.
Qed.
Lemma calc_digits t u : snd (calc_expo t u) = ndigits (Rabs (t * p10 (- fst (calc_expo t u)))).
Proof.
  rewrite scaled_abs. unfold calc_expo.
  assert (Z0 : nul t = true -> 0%nat = ndigits (Rabs t * p10 (- 0))).
  { intros H. apply nul_t in H. subst. rewrite Rabs_R0, Rmult_0_l, nd0. reflexivity. }
  assert (Z1 : ndigits (Rabs t) = ndigits (Rabs t * p10 (- 0))) by (cbn [Z.opp]; rewrite p10z, Rmult_1_r; reflexivity).
  repeat match goal with |- context [if ?c then _ else _] => destruct c eqn:? end; cbn [fst snd]; auto.
Qed.

(** the announced power of ten *)
Lemma suffixe_an t u : announces u (suffixe u (fst (calc_expo t u))) (fst (calc_expo t u)).
Proof.
  destruct u as [|c u].
  - set (e := fst _). unfold suffixe. cbn [str_empty]. destruct (Z.eqb_spec e 0) as [->|D]; [apply an_none|].
    cbn [str_empty append]. apply an_exp, D.
  - unfold calc_expo. cbn [str_empty]. 
    repeat match goal with |- context [if ?c then _ else _] => destruct c eqn:? end; cbn [fst suffixe str_empty Z.eqb Pos.eqb];
    match goal with
    | |- announces _ _ 9 => apply (an_unit _ "G")
    | |- announces _ _ 6 => apply (an_unit _ "M")
    | |- announces _ _ 3 => apply (an_unit _ "K")
    | |- announces _ _ 0 => apply (an_unit _ "")
    | |- announces _ _ (-3) => apply (an_unit _ "m")
    | |- announces _ _ (-6) => apply (an_unit _ "u")
    end; try discriminate; cbn; tauto.
Qed.

Lemma calc_unit t u : u <> ""%string -> let e := fst (calc_expo t u) in
  (/ 1000000 <= Rabs t < 1000000000000 -> 1 <= Rabs t / p10 e < 1000) /\
  (Rabs t < / 1000000 -> t <> 0 -> e = (-6)%Z) /\ (1000000000000 <= Rabs t -> e = 9%Z) /\ (t = 0 -> e = 0%Z).
Proof.
  intros U. destruct u as [|c u]; [congruence|]. unfold calc_expo. cbn [str_empty].
  assert (A0 : nul t = true -> Rabs t = 0) by (intros H; apply nul_t in H; subst; apply Rabs_R0).
  assert (A1 : t = 0 -> Rabs t = 0) by (intros ->; apply Rabs_R0).
  assert (A2 : nul t = true -> t = 0) by apply nul_t.
  assert (A3 : nul t = false -> t <> 0) by (intros H E; apply nul_t in E; congruence).
  repeat match goal with |- context [if ?c then _ else _] => destruct c eqn:? end; cbn [fst snd];
  rewrite ?Bool.andb_true_iff, ?Bool.andb_false_iff, ?ltb_t, ?geb_t, ?ltb_f, ?geb_f in *;
  rewrite ?p10m3, ?p10m6, ?p10p3, ?p10p6, ?p10p9, ?p10z in *;
  repeat split; intros; try (exfalso; (intuition lra)); try reflexivity; try lra; try (intuition lra).
Qed.
Lemma ln10 : 0 < ln 10.
Proof. rewrite <- ln_1. apply ln_increasing; lra. Qed.
Lemma ln_le' x y : 0 < x -> x <= y -> ln x <= ln y.
Proof. intros P [H| ->]; [left; apply ln_increasing; lra|lra]. Qed.
Lemma ln_p10 e : ln (p10 e) = IZR e * ln 10.
Proof.
  unfold p10. rewrite powerRZ_Rpower by lra. unfold Rpower. apply ln_exp.
Qed.
Lemma calc_nounit t : let e := fst (calc_expo t "") in
  (/ 10 <= Rabs t \/ t = 0 -> e = 0%Z) /\ (t <> 0 -> Rabs t < / 10 -> 1 <= Rabs t / p10 e < 10).
Proof.
  unfold calc_expo. cbn [str_empty].
  assert (A1 : t = 0 -> Rabs t = 0) by (intros ->; apply Rabs_R0).
  assert (A2 : nul t = true -> t = 0) by apply nul_t.
  assert (A3 : nul t = false -> t <> 0) by (intros H E; apply nul_t in E; congruence).
  repeat match goal with |- context [if ?c then _ else _] => destruct c eqn:? end; cbn [fst snd];
  rewrite ?Bool.andb_true_iff, ?Bool.andb_false_iff, ?ltb_t, ?geb_t, ?ltb_f, ?geb_f in *;
  (split; [intros; try reflexivity; exfalso; intuition lra|]); intros N L; try (exfalso; intuition lra).
  set (e := Zfloor _). pose proof (Rabs_pos_lt t N) as P. pose proof (p10_pos e) as PE. pose proof ln10 as P10.
  pose proof (Zfloor_lb (ln (Rabs t) / ln 10)) as F1. pose proof (Zfloor_ub (ln (Rabs t) / ln 10)) as F2. fold e in F1, F2.
  assert (X : ln (Rabs t) = ln (Rabs t) / ln 10 * ln 10) by (field; lra).
  split.
  - apply Rmult_le_reg_r with (p10 e); [lra|]. unfold Rdiv. rewrite Rmult_assoc, Rinv_l, Rmult_1_l, Rmult_1_r by lra.
    apply Rnot_lt_le. intros Q. apply ln_increasing in Q; [|lra]. rewrite ln_p10, X in Q. apply Rmult_lt_reg_r in Q; lra.
  - apply Rmult_lt_reg_r with (p10 e); [lra|]. unfold Rdiv. rewrite Rmult_assoc, Rinv_l, Rmult_1_r by lra.
    apply Rnot_le_lt. intros Q. replace (10 * p10 e) with (p10 (e + 1)) in Q.
    + apply ln_le' in Q; [|apply p10_pos]. rewrite ln_p10, X, plus_IZR in Q. apply Rmult_le_reg_r in Q; lra.
    + unfold p10. rewrite powerRZ_add by lra. change (powerRZ 10 1) with (10 ^ 1). ring.
Qed.

(** common exponent *)
Lemma fold_max (t0 : R) q (f : R -> nat) n : (n <= fold_left (fun n t => Nat.max n (f t)) q n)%nat /\ forall t, In t q -> (f t <= fold_left (fun n t => Nat.max n (f t)) q n)%nat.
Proof.
  revert n. induction q as [|x q IH]; intros n; cbn; [intuition|]. destruct (IH (Nat.max n (f x))) as [A B].
  split; [lia|]. intros t [->|H]; [lia|auto].
Qed.
Lemma commun_digits tics u t : In t tics -> (ndigits (Rabs (t * p10 (- fst (commun tics u)))) <= snd (commun tics u))%nat.
Proof.
  destruct tics as [|t0 q]; [intros []|]. intros H. rewrite scaled_abs. unfold commun. cbn [fst snd]. set (e := fold_left _ _ 0%Z).
  destruct (fold_max t0 q (fun t => ndigits3 t e) (ndigits3 t0 e)) as [A B]. destruct H as [->|H]; [exact A|exact (B t H)].
Qed.
Lemma commun_an tics u : (u <> ""%string \/ tics <> []) -> exists e, e = fst (commun tics u) /\ announces u (suffixe u e) e.
Proof.
  intros _. eexists. split; [reflexivity|]. 
  assert (Z : announces u (suffixe u 0) 0).
  { destruct u; [apply an_none|]. apply (an_unit _ ""); [discriminate|cbn; tauto]. }
  assert (G : forall l e0, announces u (suffixe u e0) e0 ->
    announces u (suffixe u (fold_left (fun e t => if nul t then e else fst (calc_expo t u)) l e0)) (fold_left (fun e t => if nul t then e else fst (calc_expo t u)) l e0)).
  { induction l; intros e0 H; cbn; [exact H|]. apply IHl. destruct (nul a); [exact H|apply suffixe_an]. }
  destruct tics; [exact Z|]. unfold commun. cbn [fst]. apply G, Z.
Qed.
