(** Proofs about polynomials. *)
From Coq Require Import Field.
From Verif Require Import Base BaseLemmas Poly_Model Poly_Spec.
Local Open Scope cring_scope.

Section P.
Context (K : cring).
Add Ring PKr : (cth K).

Lemma pval_nil x : pval (K := K) [] x = 0.
Proof. reflexivity. Qed.
Lemma pval_cons (a : K) t x : pval (a :: t) x = a + x * pval t x.
Proof.
  unfold pval. cbn [length]. rewrite sum_S_l, <- (sum_mul_l K (length t) x).
  rewrite (sum_ext K (length t) (fun i => x * (samp t i * cpow x i)) (fun i => samp (a :: t) (S i) * cpow x (S i))).
  - unfold samp at 1. cbn [nth cpow]. ring.
  - intros i _. unfold samp. cbn [nth cpow]. ring.
Qed.
Lemma pval_app (a b : list K) x : pval (a ++ b) x = pval a x + cpow x (length a) * pval b x.
Proof.
  induction a as [|c a IH]; [cbn [app length cpow]; rewrite pval_nil; ring|].
  cbn [app length cpow]. rewrite !pval_cons, IH. ring.
Qed.
Lemma pval_zeros n x : pval (K := K) (repeat 0 n) x = 0.
Proof. induction n as [|n IH]; [reflexivity|]. cbn [repeat]. rewrite pval_cons, IH. ring. Qed.
Lemma pval_map_mul (c : list K) s x : pval (map (fun v => v * s) c) x = pval c x * s.
Proof. induction c as [|a c IH]; [cbn [map app rev length cpow Nat.sub]; rewrite ?pval_cons, ?pval_nil; ring|]. cbn [map]. rewrite !pval_cons, IH. ring. Qed.
Lemma pval_map_neg (c : list K) x : pval (map (fun v => - v) c) x = - pval c x.
Proof. induction c as [|a c IH]; [cbn [map app rev length cpow Nat.sub]; rewrite ?pval_cons, ?pval_nil; ring|]. cbn [map]. rewrite !pval_cons, IH. ring. Qed.
Lemma add_head_ok : forall (l s : list K) x, (length s <= length l)%nat -> pval (add_head l s) x = pval l x + pval s x.
Proof.
  induction l as [|a l IH]; intros [|b s] x H; cbn [length] in H; try lia; cbn [add_head]; rewrite ?pval_nil; try ring.
  rewrite !pval_cons, IH by lia. ring.
Qed.
Lemma add_coefs_ok (a b : list K) x : pval (add_coefs a b) x = pval a x + pval b x.
Proof.
  unfold add_coefs. destruct (Nat.leb_spec (length b) (length a)).
  - apply add_head_ok. lia.
  - rewrite add_head_ok by lia. ring.
Qed.
Lemma mul_coefs_ok (init a b : list K) x : pval (mul_coefs init a b) x = pval init x + pval a x * pval b x.
Proof.
  unfold mul_coefs.
  assert (G : forall b k init, pval (fold_left (fun r kb => add_coefs r (repeat 0 (fst kb) ++ map (fun v => v * snd kb) a)) (combine (seq k (length b)) b) init) x
     = pval init x + pval a x * (cpow x k * pval b x)).
  { clear. induction b as [|c b IH]; intros k init; cbn [length seq combine fold_left]; [rewrite pval_nil; ring|].
    rewrite IH. cbn [fst snd]. rewrite add_coefs_ok, pval_app, pval_zeros, repeat_length, pval_map_mul, pval_cons. cbn [cpow]. ring. }
  rewrite G. cbn [cpow]. ring.
Qed.
Lemma rprod_fold (r : list K) x : forall acc, fold_left (fun r c => r * (x - c)) r acc = acc * rprod r x.
Proof. induction r as [|a r IH]; intros acc; cbn [fold_left rprod]; [ring|]. rewrite IH. ring. Qed.
Lemma rprod_app (a b : list K) x : rprod (a ++ b) x = rprod a x * rprod b x.
Proof. induction a as [|c a IH]; cbn [app rprod]; [ring|]. rewrite IH. ring. Qed.

Lemma horner_ok (p : poly K) x : p_horner p x = value p x.
Proof.
  unfold p_horner, value. destruct (p_roots p); [apply rprod_fold|]. generalize (p_coefs p). clear p. intros c.
  assert (G : forall t acc, fold_left (fun r c => r * x + c) t acc = pval (rev t) x + cpow x (length t) * acc).
  { induction t as [|d t IH]; intros acc; cbn [fold_left rev length cpow]; [rewrite pval_nil; ring|].
    rewrite IH, pval_app, rev_length. rewrite pval_cons, pval_nil. ring. }
  rewrite <- (rev_involutive c) at 2. destruct (rev c) as [|d t]; [reflexivity|].
  rewrite G. cbn [rev]. rewrite pval_app, rev_length, pval_cons, pval_nil. ring.
Qed.
Lemma vers_coefs_roots (p : poly K) : p_roots (p_vers_coefs p) = false.
Proof. unfold p_vers_coefs. destruct (p_roots p) eqn:E; [reflexivity|exact E]. Qed.
Lemma vers_coefs_ok (p : poly K) x : value (p_vers_coefs p) x = value p x.
Proof.
  unfold p_vers_coefs. destruct (p_roots p) eqn:E; [|reflexivity]. unfold value. cbn [p_of p_roots p_coefs]. rewrite E, pval_map_mul.
  assert (G : forall r c, pval (fold_left (fun c r => mul_coefs [] c [- r; 1]) r c) x = pval c x * rprod r x).
  { induction r as [|a r IH]; intros c; cbn [fold_left rprod]; [ring|]. rewrite IH, mul_coefs_ok, !pval_cons, !pval_nil. ring. }
  rewrite G, pval_cons, pval_nil. ring.
Qed.
Lemma vers_pval (p : poly K) x : pval (p_coefs (p_vers_coefs p)) x = value p x.
Proof. rewrite <- vers_coefs_ok. unfold value. rewrite vers_coefs_roots. reflexivity. Qed.
Lemma value_of (c : list K) x : value (p_of c) x = pval c x.
Proof. reflexivity. Qed.
Lemma add_ok (p q : poly K) x : value (p_add p q) x = value p x + value q x.
Proof. unfold p_add. rewrite value_of, add_coefs_ok, !vers_pval. reflexivity. Qed.
Lemma addc_ok (p : poly K) s x : value (p_addc p s) x = value p x + s.
Proof.
  unfold p_addc. cbv zeta. rewrite <- (vers_coefs_ok p). unfold value. cbn [p_roots p_coefs]. rewrite vers_coefs_roots.
  destruct (p_coefs (p_vers_coefs p)) as [|a t]; rewrite ?pval_cons, ?pval_nil; ring.
Qed.
Lemma neg_ok (p : poly K) x : value (p_neg p) x = - value p x.
Proof. unfold p_neg, value. destruct (p_roots p) eqn:E; cbn [p_roots p_coefs p_mlt]; [ring|apply pval_map_neg]. Qed.
Lemma sub_ok (p q : poly K) x : value (p_sub p q) x = value p x - value q x.
Proof. unfold p_sub. rewrite add_ok, neg_ok. ring. Qed.
Lemma scale_ok (p : poly K) s x : value (p_scale p s) x = value p x * s.
Proof. unfold p_scale, value. destruct (p_roots p) eqn:E; cbn [p_of p_roots p_coefs p_mlt]; [ring|apply pval_map_mul]. Qed.
(** the product, with the additive 1 of the roots * coefficients case *)
Lemma mul_gen (p q : poly K) x : value (p_mul p q) x = value p x * value q x + (if p_roots p && negb (p_roots q) then 1 else 0).
Proof.
  unfold p_mul. destruct (p_roots p && p_roots q) eqn:E.
  - apply andb_prop in E. destruct E as [E1 E2]. rewrite E1, E2. unfold value. cbn [p_roots p_coefs p_mlt andb negb]. rewrite E1, E2, rprod_app. ring.
  - cbv zeta. rewrite <- (vers_pval q).
    assert (E' : p_roots p && negb (p_roots q) = p_roots p) by (destruct (p_roots p), (p_roots q); try discriminate; reflexivity).
    rewrite E'. destruct (p_coefs (p_vers_coefs q)) as [|b0 b].
    + unfold value at 1. cbn [p_roots p_coefs p_mlt rprod]. rewrite pval_nil. destruct (p_roots p); ring.
    + rewrite value_of, mul_coefs_ok, !vers_pval. rewrite pval_cons. unfold value at 1. cbn [p_roots p_coefs p_mlt rprod]. rewrite pval_nil.
      destruct (p_roots p); ring.
Qed.
Lemma mul_ok (p q : poly K) x : fits p q -> value (p_mul p q) x = value p x * value q x.
Proof.
  intros H. rewrite mul_gen. unfold fits in H. destruct (p_roots p); [rewrite H by reflexivity|]; cbn [andb negb]; ring.
Qed.
Lemma mul_mode_coefs (p q : poly K) : p_roots p = false -> p_roots (p_mul p q) = false.
Proof. intros H. unfold p_mul. rewrite H. cbn [andb]. destruct (p_coefs (p_vers_coefs q)); reflexivity. Qed.
Lemma mul_mode_roots (p q : poly K) : p_roots p = true -> p_roots q = true -> p_roots (p_mul p q) = true.
Proof. intros H1 H2. unfold p_mul. rewrite H1, H2. reflexivity. Qed.
Lemma mul_mode_same (p q : poly K) : p_roots p = p_roots q -> p_roots (p_mul p q) = p_roots p.
Proof. intros E. destruct (p_roots p) eqn:E'; [apply mul_mode_roots; congruence|apply mul_mode_coefs; exact E']. Qed.
Lemma cpow_comm_S (a : K) n : cpow a (S n) = cpow a n * a.
Proof. cbn [cpow]. ring. Qed.
Lemma pow_ok (p : poly K) e x : value (p_pow p e) x = cpow (value p x) e.
Proof.
  destruct e as [|e]; [unfold p_pow, p_one; rewrite value_of, pval_cons, pval_nil; cbn [cpow]; ring|].
  unfold p_pow. destruct (p_roots p) eqn:E.
  - unfold value. rewrite E. cbn [p_roots p_coefs p_mlt]. generalize (S e). intros n. induction n as [|n IH]; [cbn; ring|].
    cbn [repeat concat cpow]. rewrite rprod_app. transitivity (p_mlt p * rprod (p_coefs p) x * (cpow (p_mlt p) n * rprod (concat (repeat (p_coefs p) n)) x)); [ring|].
    rewrite IH. ring.
  - generalize (S e). intros n.
    assert (G : p_roots (Nat.iter n (fun r => p_mul r p) (p_of [1])) = false /\ value (Nat.iter n (fun r => p_mul r p) (p_of [1])) x = cpow (value p x) n).
    { induction n as [|n [IH1 IH2]]; [split; [reflexivity|]; cbn [Nat.iter nat_rect]; rewrite value_of, pval_cons, pval_nil; cbn [cpow]; ring|].
      change (Nat.iter (S n) (fun r => p_mul r p) (p_of [1])) with (p_mul (Nat.iter n (fun r => p_mul r p) (p_of [1])) p). split.
      - apply mul_mode_coefs. exact IH1.
      - rewrite mul_ok; [rewrite IH2; cbn [cpow]; ring|]. intros Q. congruence. }
    apply G.
Qed.
Lemma shift_ok (p : poly K) i x : p_roots p = false -> value (p_shift p i) x = cpow x i * value p x.
Proof. intros E. unfold p_shift, value. rewrite E. cbn [p_of p_roots p_coefs]. rewrite pval_app, pval_zeros, repeat_length. ring. Qed.
(** A polynomial is determined by vers_coefs: degree *)
Lemma rev_pval (a : list K) x y : x * y = 1 -> a <> [] -> pval (rev a) x = cpow x (length a - 1) * pval a y.
Proof.
  intros E. induction a as [|c a IH]; [congruence|]. intros _. cbn [rev length]. rewrite pval_app, rev_length, !pval_cons, pval_nil.
  destruct a as [|d a]; [cbn [map app rev length cpow Nat.sub]; rewrite ?pval_cons, ?pval_nil; ring|].
  rewrite IH by congruence. cbn [length]. replace (S (S (length a)) - 1)%nat with (S (length a)) by lia. replace (S (length a) - 1)%nat with (length a) by lia.
  cbn [cpow]. transitivity (x * y * (cpow x (length a) * pval (d :: a) y) + x * cpow x (length a) * c); [rewrite E; ring|ring].
Qed.
End P.

Section F.
Context (K : cfield).
Add Field PKf : (fth K).
Lemma fhorner_ok (f : frat K) x : f_horner f x = fvalue f x.
Proof. unfold f_horner, fvalue. rewrite !horner_ok. reflexivity. Qed.
Lemma one_ne : (1 : K) <> 0.
Proof. apply (F_1_neq_0 (fth K)). Qed.
Lemma value_one x : value (K := K) p_one x = 1.
Proof. unfold p_one. rewrite value_of, pval_cons, pval_nil. ring. Qed.
Lemma value_z x : value (K := K) p_z x = x.
Proof. unfold p_z. rewrite value_of, !pval_cons, pval_nil. ring. Qed.
Lemma mul_ne (a b : K) : a <> 0 -> b <> 0 -> a * b <> 0.
Proof. intros Ha Hb E. apply Hb. transitivity (finv a * (a * b)); [field; exact Ha|rewrite E; ring]. Qed.
Lemma fadd_ok (f g : frat K) x : fits (f_num f) (f_den g) -> fits (f_num g) (f_den f) -> fits (f_den f) (f_den g) ->
  value (f_den f) x <> 0 -> value (f_den g) x <> 0 -> fvalue (f_add f g) x = fvalue f x + fvalue g x.
Proof. intros H1 H2 H3 N1 N2. unfold fvalue, f_add. cbn [f_num f_den]. rewrite add_ok, !mul_ok by assumption. field. auto. Qed.
Lemma fneg_ok (f : frat K) x : fvalue (f_neg f) x = - fvalue f x.
Proof. unfold fvalue, f_neg. cbn [f_num f_den]. rewrite neg_ok, !(Fdiv_def (fth K)). ring. Qed.
Lemma neg_mode (p : poly K) : p_roots (p_neg p) = p_roots p.
Proof. unfold p_neg. destruct (p_roots p) eqn:E; reflexivity. Qed.
Lemma fsub_ok (f g : frat K) x : fits (f_num f) (f_den g) -> fits (f_num g) (f_den f) -> fits (f_den f) (f_den g) ->
  value (f_den f) x <> 0 -> value (f_den g) x <> 0 -> fvalue (f_sub f g) x = fvalue f x - fvalue g x.
Proof.
  intros H1 H2 H3 N1 N2. unfold f_sub. rewrite fadd_ok; try assumption.
  - rewrite fneg_ok. ring.
  - unfold fits in *. cbn [f_neg f_num]. rewrite neg_mode. exact H2.
Qed.
Lemma fmul_ok (f g : frat K) x : fits (f_num f) (f_num g) -> fits (f_den f) (f_den g) ->
  value (f_den f) x <> 0 -> value (f_den g) x <> 0 -> fvalue (f_mul f g) x = fvalue f x * fvalue g x.
Proof. intros H1 H2 N1 N2. unfold fvalue, f_mul. cbn [f_num f_den]. rewrite !mul_ok by assumption. field. auto. Qed.
Lemma fscale_ok (f : frat K) s x : fvalue (f_scale f s) x = fvalue f x * s.
Proof. unfold fvalue, f_scale. cbn [f_num f_den]. rewrite scale_ok, !(Fdiv_def (fth K)). ring. Qed.
Lemma faddc_ok (f : frat K) s x : value (f_den f) x <> 0 -> fvalue (f_addc f s) x = fvalue f x + s.
Proof. intros N. unfold fvalue, f_addc. cbn [f_num f_den]. rewrite add_ok, scale_ok. field. exact N. Qed.
Lemma finv_ok (f : frat K) x : value (f_num f) x <> 0 -> value (f_den f) x <> 0 -> fvalue (f_inv f) x = 1 / fvalue f x.
Proof. intros N1 N2. unfold fvalue, f_inv. cbn [f_num f_den]. field. auto. Qed.
Lemma fpow_ok (f : frat K) n x : value (f_den f) x <> 0 -> fvalue (f_pow f n) x = cpow (fvalue f x) n.
Proof.
  intros N. destruct n as [|n].
  { cbn [f_pow cpow]. unfold fvalue, f_un. cbn [f_num f_den]. rewrite !value_one. field. apply one_ne. }
  assert (G : p_roots (f_num (f_pow f (S n))) = p_roots (f_num f) /\ p_roots (f_den (f_pow f (S n))) = p_roots (f_den f) /\
    value (f_den (f_pow f (S n))) x <> 0 /\ fvalue (f_pow f (S n)) x = cpow (fvalue f x) (S n)).
  { induction n as [|n [I1 [I2 [I3 I4]]]].
    - cbn [f_pow cpow]. repeat split; try assumption. ring.
    - change (f_pow f (S (S n))) with (f_mul (f_pow f (S n)) f).
      cbn [f_mul f_num f_den]. rewrite !mul_mode_same by congruence. rewrite I1, I2.
      assert (F1 : fits (f_num (f_pow f (S n))) (f_num f)) by (unfold fits; congruence).
      assert (F2 : fits (f_den (f_pow f (S n))) (f_den f)) by (unfold fits; congruence).
      split; [reflexivity|]. split; [reflexivity|]. split.
      + rewrite mul_ok by exact F2. apply mul_ne; assumption.
      + rewrite fmul_ok by assumption. rewrite I4. cbn [cpow]. ring. }
  apply G.
Qed.
Lemma cpow_ne (a : K) n : a <> 0 -> cpow a n <> 0.
Proof. intros H. induction n as [|n IH]; cbn [cpow]; [apply one_ne|]. apply mul_ne; assumption. Qed.
(** simplifier *)
Section Z.
Context (isz : K -> bool) (Hz : forall v, isz v = true -> v = 0).
Lemma nuls_pval (c : list K) m x : (m <= nb_nuls isz c)%nat -> pval c x = cpow x m * pval (skipn m c) x.
Proof.
  revert m. induction c as [|a c IH]; intros [|m] H; cbn [nb_nuls skipn cpow] in *; try lia; try (ring).
  destruct (isz a) eqn:E; [|lia]. apply Hz in E. subst a. rewrite pval_cons, (IH m) by lia. ring.
Qed.
Lemma nuls_rprod (c : list K) m x : (m <= nb_nuls isz c)%nat -> rprod c x = cpow x m * rprod (skipn m c) x.
Proof.
  revert m. induction c as [|a c IH]; intros [|m] H; cbn [nb_nuls skipn cpow] in *; try lia; try (ring).
  destruct (isz a) eqn:E; [|lia]. apply Hz in E. subst a. cbn [rprod]. rewrite (IH m) by lia. ring.
Qed.
Lemma drop_ok (p : poly K) m x : (m <= nb_nuls isz (p_coefs p))%nat -> value p x = cpow x m * value (drop_coefs m p) x.
Proof.
  intros H. unfold value, drop_coefs. cbn [p_roots p_coefs p_mlt]. destruct (p_roots p).
  - rewrite (nuls_rprod _ m) by exact H. ring.
  - apply nuls_pval. exact H.
Qed.
Lemma simplifier_ok (f : frat K) x : x <> 0 -> value (f_den f) x <> 0 -> fvalue (f_simplifier isz f) x = fvalue f x.
Proof.
  intros Hx N. unfold f_simplifier. destruct (p_roots (f_num f)); [reflexivity|]. cbv zeta.
  set (m := Nat.min _ _). unfold fvalue. cbn [f_num f_den].
  pose proof (drop_ok (f_num f) m x ltac:(unfold m; lia)) as E1. pose proof (drop_ok (f_den f) m x ltac:(unfold m; lia)) as E2.
  rewrite E1, E2. pose proof (cpow_ne x m Hx) as Hm. field. split; [|exact Hm].
  intros Q. apply N. rewrite E2, Q. ring.
Qed.
Lemma fdiv_ok (f g : frat K) x : fits (f_num f) (f_den g) -> fits (f_den f) (f_num g) -> x <> 0 ->
  value (f_den f) x <> 0 -> value (f_den g) x <> 0 -> value (f_num g) x <> 0 -> fvalue (f_div isz f g) x = fvalue f x / fvalue g x.
Proof.
  intros H1 H2 Hx N1 N2 N3. unfold f_div. rewrite simplifier_ok; [|exact Hx|cbn [f_den]; rewrite mul_ok by exact H2; apply mul_ne; assumption].
  unfold fvalue. cbn [f_num f_den]. rewrite !mul_ok by assumption. field. auto.
Qed.
End Z.
(** z -> 1/z *)
Lemma pval_nonempty (c : list K) x : pval c x <> 0 -> c <> [].
Proof. intros H ->. apply H. reflexivity. Qed.
Lemma cpow_add_ (a : K) n m : cpow a (n + m) = cpow a n * cpow a m.
Proof. induction n as [|n IH]; cbn [Nat.add cpow]; [ring|]. rewrite IH. ring. Qed.
Lemma inv_z_ok (f : frat K) x : x <> 0 -> let a := p_coefs (p_vers_coefs (f_num f)) in let b := p_coefs (p_vers_coefs (f_den f)) in
  a <> [] -> (length a <= length b + 1)%nat -> (length b <= length a + 1)%nat -> value (f_den f) (finv x) <> 0 ->
  fvalue (f_inv_z f) x = fvalue f (finv x).
Proof.
  intros Hx a b Ha L1 L2 N.
  assert (Hb : b <> []) by (apply (pval_nonempty b (finv x)); unfold b; rewrite vers_pval; exact N).
  assert (Ex : x * finv x = 1) by (field; exact Hx).
  unfold fvalue. rewrite <- (vers_pval K (f_num f)), <- (vers_pval K (f_den f)). unfold f_inv_z. fold a. fold b. cbv zeta.
  assert (Nb : pval b (finv x) <> 0) by (unfold b; rewrite vers_pval; exact N).
  assert (Pa := rev_pval K a x (finv x) Ex Ha). assert (Pb := rev_pval K b x (finv x) Ex Hb).
  assert (FT : forall p, fits (p_of (rev p)) (p_z (K := K))) by (intros p Q; discriminate Q).
  assert (la : (0 < length a)%nat) by (destruct a; [congruence|cbn; lia]).
  assert (lb : (0 < length b)%nat) by (destruct b; [congruence|cbn; lia]).
  destruct (Nat.ltb_spec (length b) (length a)); [|destruct (Nat.ltb_spec (length a) (length b))].
  - replace (length a - length b)%nat with 1%nat by lia. cbn [f_num f_den].
    rewrite pow_ok, mul_ok, !value_of, value_z by apply FT. rewrite Pa, Pb. replace (length a - 1)%nat with (S (length b - 1)) by lia. cbn [cpow].
    pose proof (cpow_ne x (length b - 1) Hx). field. auto.
  - replace (length b - length a)%nat with 1%nat by lia. cbn [f_num f_den].
    rewrite pow_ok, mul_ok, !value_of, value_z by apply FT. rewrite Pa, Pb. replace (length b - 1)%nat with (S (length a - 1)) by lia. cbn [cpow].
    pose proof (cpow_ne x (length a - 1) Hx). field. auto.
  - cbn [f_num f_den]. rewrite !value_of. rewrite Pa, Pb. replace (length b) with (length a) by lia.
    pose proof (cpow_ne x (length a - 1) Hx). field. auto.
Qed.
Lemma transfer_pval (a : list K) z : transfer a z = pval a (finv z).
Proof. reflexivity. Qed.
Lemma rif_ok (a : list K) z : a <> [] -> z <> 0 -> exists f, f_rif a = Ok f /\ fvalue f z = transfer a z.
Proof.
  intros Ha Hz'. destruct a as [|c a']; [congruence|]. set (a := c :: a') in *. exists (mkfrat (p_of (rev a)) (p_of (repeat 0 (length a - 1) ++ [1]))). split; [reflexivity|].
  unfold fvalue. cbn [f_num f_den]. rewrite !value_of, transfer_pval. rewrite (rev_pval K a z (finv z)); [|field; exact Hz'|exact Ha].
  rewrite pval_app, pval_zeros, repeat_length, pval_cons, pval_nil. pose proof (cpow_ne z (length a - 1) Hz'). field. auto.
Qed.
Lemma rii_ok (a b : list K) z : a <> [] -> (length a <= length b + 1)%nat -> (length b <= length a + 1)%nat -> z <> 0 -> transfer b z <> 0 ->
  exists f, f_rii a b = Ok f /\ fvalue f z = transfer a z / transfer b z.
Proof.
  intros Ha L1 L2 Hz' Nb. pose proof (pval_nonempty b (finv z) Nb) as Hb. exists (f_inv_z (mkfrat (p_of a) (p_of b))). split.
  - destruct a; [congruence|]. destruct b; [congruence|]. reflexivity.
  - rewrite inv_z_ok; try assumption. reflexivity.
Qed.
Lemma coefs_rif_ok (isz : K -> bool) (Hz' : isz 0 = true) (a : list K) : a <> [] -> exists f, f_rif a = Ok f /\ f_coefs_rif isz f = Ok a.
Proof.
  intros Ha. destruct a as [|c a']; [congruence|]. set (a := c :: a') in *. exists (mkfrat (p_of (rev a)) (p_of (repeat 0 (length a - 1) ++ [1]))). split; [reflexivity|].
  unfold f_coefs_rif, f_est_rif. cbn [f_num f_den p_of p_coefs]. rewrite removelast_last, last_last.
  replace (1 - 1 : K) with (0 : K) by ring. rewrite Hz', andb_true_r.
  assert (E : forallb isz (repeat 0 (length a - 1)) = true). { induction (length a - 1)%nat as [|n IH]; [reflexivity|]. cbn [repeat forallb]. rewrite Hz'. exact IH. }
  rewrite E, rev_involutive. reflexivity.
Qed.
End F.
