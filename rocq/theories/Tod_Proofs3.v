(** Proofs for wavelets: Haar and Daubechies. *)
From Coq Require Import Reals Lra.
From Verif Require Import Base BaseLemmas Filters_Proofs Sig_Proofs Zfe_Proofs Poly_Model Poly_Spec Poly_Proofs RField Tod_Model Tod_Spec Tod_Proofs Tod_Proofs2.
Local Open Scope R_scope.

Ltac eqR := match goal with |- ?a = ?b => change (@eq R a b) end; cbn [cadd cmul csub copp c0 c1 Rring].
Lemma sZ (v : list R) (i : Z) j : i = Z.of_nat j -> sampZ (K := Rring) v i = nth j v 0.
Proof. intros ->. unfold sampZ. destruct (Z.ltb_spec (Z.of_nat j) 0); [lia|]. rewrite Nat2Z.id. reflexivity. Qed.
Lemma lap_1 (c : R) (v : list R) j : lap (K := Rring) [c] 0 v j = c * nth j v 0.
Proof. unfold lap. cbn [length sum]. rewrite (sZ v _ j) by lia. cbn. eqR; ring. Qed.
Lemma lap_back (a b : R) (v : list R) j : lap (K := Rring) [a; b] (-1) v j = (match j with O => 0 | S i => a * nth i v 0 end) + b * nth j v 0.
Proof.
  unfold lap. cbn [length sum]. rewrite (sZ v (Z.of_nat j + -1 + Z.of_nat 1) j) by lia. destruct j as [|i].
  - change (sampZ (K := Rring) v (Z.of_nat 0 + -1 + Z.of_nat 0)) with 0. cbn. eqR; ring.
  - rewrite (sZ v (Z.of_nat (S i) + -1 + Z.of_nat 0) i) by lia. generalize (nth i v 0) (nth (S i) v 0). intros p q. cbn. eqR; ring.
Qed.
Lemma lap_fwd (a : R) (v : list R) j : lap (K := Rring) [-0; a] 0 v j = a * nth (S j) v 0.
Proof. unfold lap. cbn [length sum]. rewrite (sZ v (Z.of_nat j + 0 + Z.of_nat 0) j), (sZ v (Z.of_nat j + 0 + Z.of_nat 1) (S j)) by lia. generalize (nth j v 0) (nth (S j) v 0). intros p q. cbn. eqR; ring. Qed.

Lemma mixed_map {K : cring} (f : K -> K -> K) e (a b : list K) m (g : nat -> K) : length b = m -> (forall j, (j < m)%nat -> f (nth j b c0) (lap (p_coefs (l_pol (e_lau e))) (l_n0 (e_lau e)) a j) = g j) -> mixed f e a b = map g (seq 0 m).
Proof. intros <- H. unfold mixed. apply map_ext_in. intros j Hj. apply in_seq in Hj. apply H. lia. Qed.
Lemma nth_ev (u : list R) m j : (j < m)%nat -> @nth (car Rring) j (evens (K := Rring) u (2 * m)) c0 = nth (2 * j) u 0.
Proof. intros H. apply (evens_nth (K := Rring)). rewrite div2_odd. exact H. Qed.
Lemma nth_od (u : list R) m j : (j < m)%nat -> @nth (car Rring) j (odds (K := Rring) u (2 * m)) c0 = nth (2 * j + 1) u 0.
Proof. intros H. apply (odds_nth (K := Rring)). rewrite div2_even. exact H. Qed.
Lemma len_ev (u : list R) m : length (evens (K := Rring) u (2 * m)) = m.
Proof. rewrite (evens_length (K := Rring)). apply div2_odd. Qed.
Lemma len_od (u : list R) m : length (odds (K := Rring) u (2 * m)) = m.
Proof. rewrite (odds_length (K := Rring)). apply div2_even. Qed.

(** ** Haar *)
Lemma haar_level (u : list R) m : length u = (2 * m)%nat -> level lift_haar u =
  (map (fun j => (nth (2 * j) u 0 + nth (2 * j + 1) u 0) / 2) (seq 0 m), map (fun j => nth (2 * j + 1) u 0 - nth (2 * j) u 0) (seq 0 m)).
Proof.
  intros L. unfold level, lift_haar. cbn [li_steps fold_left]. rewrite !lift_one_eq. unfold one. cbn [e_predict fst snd]. change (@length (car Rring) u = (2 * m)%nat) in L. rewrite L.
  assert (D : mixed (K := Rring) (fun x y => x + y) (mkelem (mklau (p_neg (K := Rring) p_one) 0) true) (evens (K := Rring) u (2 * m)) (odds (K := Rring) u (2 * m)) = map (fun j => nth (2 * j + 1) u 0 - nth (2 * j) u 0) (seq 0 m)).
  { apply (mixed_map (K := Rring)); [apply len_od|]. intros j Hj. etransitivity; [apply f_equal2; [apply nth_od; exact Hj|apply (lap_1 (-1))]|].
    etransitivity; [apply f_equal; apply f_equal; apply (nth_ev u m j Hj)|]. eqR. ring. }
  etransitivity; [apply f_equal2; [apply f_equal2; [exact D|reflexivity]|exact D]|]. f_equal.
  apply (mixed_map (K := Rring)); [apply len_ev|]. intros j Hj. etransitivity; [apply f_equal2; [apply nth_ev; exact Hj|apply (lap_1 (1 * (1 / 2)))]|]. rewrite (nth_map_seq (X := R)) by exact Hj. eqR. field.
Qed.
(** mean of the block j of 2^i samples *)
Definition bmean (u : list R) (i j : nat) : R := sum (K := Rring) (2 ^ i) (fun t => nth (j * 2 ^ i + t) u 0) / 2 ^ i.
Lemma bmean_0 u j : bmean u 0 j = nth j u 0.
Proof. unfold bmean. cbn [Nat.pow sum pow]. rewrite Nat.mul_1_r, Nat.add_0_r. cbn -[nth]. eqR; field. Qed.
Lemma sum_pairs n (f : nat -> R) : sum (K := Rring) (2 * n) f = sum (K := Rring) n (fun t => f (2 * t)%nat + f (2 * t + 1)%nat).
Proof. induction n as [|n IH]; [reflexivity|]. replace (2 * S n)%nat with (S (S (2 * n))) by lia. cbn [sum]. rewrite IH. replace (S (2 * n)) with (2 * n + 1)%nat by lia. cbn. eqR; ring. Qed.
Lemma bmean_S u m i j : ((j + 1) * 2 ^ i <= m)%nat -> bmean (map (fun j => (nth (2 * j) u 0 + nth (2 * j + 1) u 0) / 2) (seq 0 m)) i j = bmean u (S i) j.
Proof.
  intros B. unfold bmean. change (2 ^ S i)%nat with (2 * 2 ^ i)%nat. rewrite sum_pairs. rewrite (sum_ext Rring (2 ^ i) _ (fun t => (nth (j * (2 * 2 ^ i) + 2 * t) u 0 + nth (j * (2 * 2 ^ i) + (2 * t + 1)) u 0) * / 2)%R).
  - etransitivity; [apply f_equal2; [exact (sum_mul_r Rring (2 ^ i) (/ 2) _)|reflexivity]|]. cbn [pow]. generalize (sum (K := Rring) (2 ^ i) (fun i0 => nth (j * (2 * 2 ^ i) + 2 * i0) u 0 + nth (j * (2 * 2 ^ i) + (2 * i0 + 1)) u 0)). intros s. cbn. eqR; field. apply pow_nonzero. lra.
  - intros t Ht. rewrite (nth_map_seq (X := R)) by nia. replace (2 * (j * 2 ^ i + t))%nat with (j * (2 * 2 ^ i) + 2 * t)%nat by lia. rewrite <- Nat.add_assoc. reflexivity.
Qed.
Lemma haar_levels : forall d (u : list R) q, length u = (2 ^ d * q)%nat -> length (levels lift_haar d u) = (2 ^ d * q)%nat /\ (forall j, (j < q)%nat -> nth j (levels lift_haar d u) 0 = bmean u d j) /\
  forall i j, (i < d)%nat -> (j < 2 ^ (d - 1 - i) * q)%nat -> nth (2 ^ (d - 1 - i) * q + j) (levels lift_haar d u) 0 = bmean u i (2 * j + 1) - bmean u i (2 * j).
Proof.
  induction d as [|d IH]; intros u q L.
  - cbn [levels]. split; [exact L|]. split; [intros j Hj; rewrite bmean_0; reflexivity|]. intros; lia.
  - assert (L' : length u = (2 * (2 ^ d * q))%nat) by (rewrite L; cbn [Nat.pow]; lia). cbn [levels]. rewrite (haar_level u _ L'). set (m := (2 ^ d * q)%nat) in *. set (s := map (fun j => (nth (2 * j) u 0 + nth (2 * j + 1) u 0) / 2) (seq 0 m)). set (dd := map _ _).
    assert (Ls : length s = m) by (unfold s; rewrite map_length, seq_length; reflexivity). assert (Ld : length dd = m) by (unfold dd; rewrite map_length, seq_length; reflexivity).
    destruct (IH s q Ls) as (I1 & I2 & I3). fold m in I1. pose (lv := levels lift_haar d s : list R). change (length lv = m) in I1. change (forall j, (j < q)%nat -> nth j lv 0 = bmean s d j) in I2.
    change (forall i j, (i < d)%nat -> (j < 2 ^ (d - 1 - i) * q)%nat -> nth (2 ^ (d - 1 - i) * q + j) lv 0 = bmean s i (2 * j + 1) - bmean s i (2 * j)) in I3.
    change (length (lv ++ dd) = (2 ^ S d * q)%nat /\ (forall j, (j < q)%nat -> nth j (lv ++ dd) 0 = bmean u (S d) j) /\
      forall i j, (i < S d)%nat -> (j < 2 ^ (S d - 1 - i) * q)%nat -> nth (2 ^ (S d - 1 - i) * q + j) (lv ++ dd) 0 = bmean u i (2 * j + 1) - bmean u i (2 * j)).
    clearbody lv. split; [rewrite app_length, Ld, I1; unfold m; cbn [Nat.pow]; lia|]. pose proof (Nat.pow_nonzero 2 d ltac:(lia)) as P. split.
    + intros j Hj. rewrite app_nth1 by (rewrite I1; unfold m; nia). rewrite I2 by exact Hj. apply bmean_S. unfold m. nia.
    + intros i j Hi Hj. destruct (Nat.eq_dec i 0) as [->|E].
      * replace (S d - 1 - 0)%nat with d in * by lia. fold m in Hj |- *. rewrite app_nth2 by lia. replace (m + j - length lv)%nat with j by lia. unfold dd. rewrite (nth_map_seq (X := R)) by exact Hj. rewrite !bmean_0. reflexivity.
      * destruct i as [|i]; [lia|]. replace (S d - 1 - S i)%nat with (d - 1 - i)%nat in * by lia. assert (2 ^ d = 2 ^ i * (2 * 2 ^ (d - 1 - i)))%nat by (replace d with (i + S (d - 1 - i))%nat at 1 by lia; rewrite Nat.pow_add_r; reflexivity).
        rewrite app_nth1 by (rewrite I1; unfold m; pose proof (Nat.pow_nonzero 2 i ltac:(lia)); nia). rewrite I3 by (try exact Hj; lia). unfold s; rewrite (bmean_S u m i (2 * j + 1)), (bmean_S u m i (2 * j)); [reflexivity| |]; unfold m; pose proof (Nat.pow_nonzero 2 i ltac:(lia)); nia.
Qed.

(** ** Daubechies *)
Definition sg (u : list R) (j : nat) : R := nth (2 * j) u 0 + sqrt 3 * nth (2 * j + 1) u 0.
Definition dt (u : list R) (j : nat) : R := nth (2 * j + 1) u 0 + (match j with O => 0 | S i => (2 - sqrt 3) / 4 * sg u i end) - sqrt 3 / 4 * sg u j.
Lemma db2_level (u : list R) m : length u = (2 * m)%nat -> level lift_db2 u =
  (map (fun j => sg u j - (if (S j <? m)%nat then dt u (S j) else 0)) (seq 0 m), map (dt u) (seq 0 m)).
Proof.
  intros L. unfold level, lift_db2. cbn [li_steps fold_left]. rewrite !lift_one_eq. unfold one. cbn [e_predict fst snd]. change (@length (car Rring) u = (2 * m)%nat) in L. rewrite L.
  set (e1 := mkelem (mklau (p_scale (K := Rring) p_one (sqrt 3)) 0) false). set (e2 := mkelem _ true). set (e3 := mkelem (mklau (p_neg (K := Rring) p_z) 0) false).
  assert (A : mixed (K := Rring) (fun x y => x + y) e1 (odds (K := Rring) u (2 * m)) (evens (K := Rring) u (2 * m)) = map (sg u) (seq 0 m)).
  { apply (mixed_map (K := Rring)); [apply len_ev|]. intros j Hj. etransitivity; [apply f_equal2; [apply nth_ev; exact Hj|apply (lap_1 (1 * sqrt 3))]|].
    etransitivity; [apply f_equal; apply f_equal; apply (nth_od u m j Hj)|]. unfold sg. eqR. ring. }
  assert (B : mixed (K := Rring) (fun x y => x + y) e2 (map (sg u) (seq 0 m)) (odds (K := Rring) u (2 * m)) = map (dt u) (seq 0 m)).
  { apply (mixed_map (K := Rring)); [apply len_od|]. intros j Hj. etransitivity; [apply f_equal2; [apply nth_od; exact Hj|apply (lap_back (- (0 * (sqrt 3 / 4)) + - (sqrt 3 - 2) / 4) (- (1 * (sqrt 3 / 4))))]|]. rewrite (nth_map_seq (X := R)) by exact Hj. unfold dt. destruct j as [|i].
    - eqR. field.
    - rewrite (nth_map_seq (X := R)) by lia. eqR. field. }
  etransitivity; [apply f_equal2; [apply f_equal2; [etransitivity; [apply f_equal2; [exact A|reflexivity]|exact B]|exact A]|etransitivity; [apply f_equal2; [exact A|reflexivity]|exact B]]|]. 
  f_equal. apply (mixed_map (K := Rring)); [rewrite map_length, seq_length; reflexivity|]. intros j Hj. etransitivity; [apply f_equal2; [apply (nth_map_seq (X := R)); exact Hj|apply (lap_fwd (-1))]|]. destruct (Nat.ltb_spec (S j) m).
  - rewrite (nth_map_seq (X := R)) by assumption. eqR. ring.
  - rewrite nth_overflow by (rewrite map_length, seq_length; assumption). eqR. ring.
Qed.
(** Daubechies 4-tap filter *)
Definition d4 (i : nat) : R := nth i [(1 + sqrt 3) / (4 * sqrt 2); (3 + sqrt 3) / (4 * sqrt 2); (3 - sqrt 3) / (4 * sqrt 2); (1 - sqrt 3) / (4 * sqrt 2)] 0.
Lemma db2_low u j : (sqrt 3 - 1) / sqrt 2 * (sg u j - dt u (S j)) = d4 0 * nth (2 * j) u 0 + d4 1 * nth (2 * j + 1) u 0 + d4 2 * nth (2 * j + 2) u 0 + d4 3 * nth (2 * j + 3) u 0.
Proof.
  unfold dt, sg, d4. cbn [nth]. replace (2 * S j)%nat with (2 * j + 2)%nat by lia. replace (2 * j + 2 + 1)%nat with (2 * j + 3)%nat by lia.
  set (a := nth (2 * j) u 0). set (b := nth (2 * j + 1) u 0). set (c := nth (2 * j + 2) u 0). set (d := nth (2 * j + 3) u 0). pose proof (sqrt_sqrt 3 ltac:(lra)) as Q. set (s := sqrt 3) in *. assert (0 < sqrt 2) by (apply sqrt_lt_R0; lra). set (r := sqrt 2) in *.
  replace ((s - 1) / r * (a + s * b - (d + (2 - s) / 4 * (a + s * b) - s / 4 * (c + s * d)))) with
    (((2 * s + s * s - 2 - s) * a + (2 * (s * s) + s * s * s - 2 * s - s * s) * b + (s * s - s) * c + ((s * s * s - s * s) - 4 * (s - 1)) * d) / (4 * r)) by (field; lra). rewrite Q. eqR; field. lra.
Qed.
Lemma db2_high u j : dt u (S j) * / ((sqrt 3 - 1) / sqrt 2) = - d4 3 * nth (2 * j) u 0 + d4 2 * nth (2 * j + 1) u 0 - d4 1 * nth (2 * j + 2) u 0 + d4 0 * nth (2 * j + 3) u 0.
Proof.
  unfold dt, sg, d4. cbn [nth]. replace (2 * S j)%nat with (2 * j + 2)%nat by lia. replace (2 * j + 2 + 1)%nat with (2 * j + 3)%nat by lia.
  set (a := nth (2 * j) u 0). set (b := nth (2 * j + 1) u 0). set (c := nth (2 * j + 2) u 0). set (d := nth (2 * j + 3) u 0). pose proof (sqrt_sqrt 3 ltac:(lra)) as Q. assert (S1 : 1 < sqrt 3) by (rewrite <- sqrt_1; apply sqrt_lt_1; lra). pose proof (sqrt_sqrt 2 ltac:(lra)) as Q2. assert (0 < sqrt 2) by (apply sqrt_lt_R0; lra). set (s := sqrt 3) in *. set (r := sqrt 2) in *.
  assert (I : / ((s - 1) / r) = (s + 1) / r). { apply (Rmult_eq_reg_l ((s - 1) / r)); [|apply Rgt_not_eq; apply Rdiv_lt_0_compat; lra]. rewrite Rinv_r by (apply Rgt_not_eq; apply Rdiv_lt_0_compat; lra). replace ((s - 1) / r * ((s + 1) / r)) with ((s * s - 1) / (r * r)) by (field; lra). rewrite Q, Q2. eqR; field. }
  rewrite I. replace ((d + (2 - s) / 4 * (a + s * b) - s / 4 * (c + s * d)) * ((s + 1) / r)) with
    (((2 * s + 2 - s * s - s) * a + (2 * (s * s) + 2 * s - s * s * s - s * s) * b - (s * s + s) * c + (4 * (s + 1) - (s * s * s + s * s)) * d) / (4 * r)) by (field; lra). rewrite Q. eqR; field. lra.
Qed.
Lemma db2_affine u m al be : (forall k, (k < 2 * m)%nat -> nth k u 0 = al + be * INR k) -> forall j, (0 < j < m)%nat -> dt u j = 0.
Proof.
  intros H j Hj. destruct j as [|j]; [lia|]. unfold dt, sg. rewrite !H by lia. replace (2 * S j + 1)%nat with (2 * j + 3)%nat by lia. replace (2 * S j)%nat with (2 * j + 2)%nat by lia. rewrite !plus_INR. set (t := INR (2 * j)). change (INR 1) with 1. replace (INR 2) with 2 by (cbn; ring). replace (INR 3) with 3 by (cbn; ring).
  pose proof (sqrt_sqrt 3 ltac:(lra)) as Q. set (s := sqrt 3) in *. match goal with |- ?l = 0 => replace l with ((3 - s * s) * ((al + be * t) / 2 + be)) by field end. rewrite Q. eqR; ring.
Qed.
