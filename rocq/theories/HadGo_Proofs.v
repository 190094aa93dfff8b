(** Proofs about the Hadamard transform. *)
From Coq Require Import Field.
From Verif Require Import Base BaseLemmas Filters_Model Polyphase_Model HadGo_Model HadGo_Spec.
Local Open Scope cring_scope.

Lemma loop_inv0 {S} (P : nat -> S -> Prop) n (body : nat -> S -> res S) s :
  P 0%nat s -> (forall i s, (i < n)%nat -> P i s -> exists s', body i s = Ok s' /\ P (i + 1)%nat s') ->
  exists s', loop n body s = Ok s' /\ P n s'.
Proof.
  intros H0 Hs. induction n as [|n IH]; [exists s; split; [reflexivity|exact H0]|].
  destruct IH as [s1 [E1 P1]]; [intros i t Hi; apply Hs; lia|]. cbn [loop]. rewrite E1. cbn [bind].
  destruct (Hs n s1 ltac:(lia) P1) as [s2 [E2 P2]]. exists s2. split; [exact E2|]. replace (Datatypes.S n) with (n + 1)%nat by lia. exact P2.
Qed.

(** ** Binary digits *)
Lemma common_ones_ext k i j i' j' : (forall t, (t < k)%nat -> Nat.testbit i t = Nat.testbit i' t) ->
  (forall t, (t < k)%nat -> Nat.testbit j t = Nat.testbit j' t) -> common_ones k i j = common_ones k i' j'.
Proof. induction k as [|k IH]; intros Hi Hj; [reflexivity|]. cbn [common_ones]. rewrite IH, Hi, Hj by (auto; lia). reflexivity. Qed.
Lemma common_ones_mod k i j : common_ones k i j = common_ones k (i mod 2 ^ k) (j mod 2 ^ k).
Proof. apply common_ones_ext; intros t Ht; symmetry; apply Nat.mod_pow2_bits_low; exact Ht. Qed.
Lemma common_ones_sym k i j : common_ones k i j = common_ones k j i.
Proof. induction k as [|k IH]; [reflexivity|]. cbn [common_ones]. rewrite IH, andb_comm. reflexivity. Qed.
Lemma pow2_pos k : (0 < 2 ^ k)%nat.
Proof. pose proof (Nat.pow_nonzero 2 k). lia. Qed.
Lemma bit_div i k : Nat.testbit i k = Nat.odd (i / 2 ^ k).
Proof.
  rewrite Nat.testbit_odd, Nat.shiftr_div_pow2. reflexivity.
Qed.
Lemma bit_low t k : (t < 2 ^ k)%nat -> Nat.testbit t k = false.
Proof. intros H. rewrite bit_div, Nat.div_small by exact H. reflexivity. Qed.
Lemma bit_high t k : (t < 2 ^ k)%nat -> Nat.testbit (2 ^ k + t) k = true.
Proof.
  intros H. rewrite bit_div. replace (2 ^ k + t)%nat with (t + 1 * 2 ^ k)%nat by lia. rewrite Nat.div_add, Nat.div_small by lia. reflexivity.
Qed.

Section H.
Context (K : cring).
Add Ring Kr : (cth K).
Lemma had_mod k i j i' j' : (i mod 2 ^ k = i' mod 2 ^ k)%nat -> (j mod 2 ^ k = j' mod 2 ^ k)%nat -> had (K := K) k i j = had k i' j'.
Proof. intros Hi Hj. unfold had. rewrite common_ones_mod, (common_ones_mod k i'), Hi, Hj. reflexivity. Qed.
Lemma had_sym k i j : had (K := K) k i j = had k j i.
Proof. unfold had. rewrite common_ones_sym. reflexivity. Qed.
Definition sb (b : bool) : K := if b then - (1) else 1.
Lemma had_S k i j : had (K := K) (S k) i j = had k i j * sb (Nat.testbit i k && Nat.testbit j k).
Proof.
  unfold had, sb. cbn [common_ones]. rewrite (cpow_add K). f_equal. destruct (_ && _); cbn [cpow]; ring.
Qed.
Lemma had_S_low k i t : (t < 2 ^ k)%nat -> had (K := K) (S k) i t = had k i t.
Proof. intros H. rewrite had_S, (bit_low t k H), andb_false_r. unfold sb. ring. Qed.
Lemma had_S_high k i t : (t < 2 ^ k)%nat -> had (K := K) (S k) i (2 ^ k + t) = had k i t * sb (Nat.testbit i k).
Proof.
  intros H. rewrite had_S, (bit_high t k H), andb_true_r. f_equal. apply had_mod; [reflexivity|].
  replace (2 ^ k + t)%nat with (t + 1 * 2 ^ k)%nat by lia. apply Nat.mod_add. pose proof (pow2_pos k). lia.
Qed.
Lemma had_ortho k : forall i l, (i < 2 ^ k)%nat -> (l < 2 ^ k)%nat ->
  sum (2 ^ k) (fun j => had k i j * had k j l) = (if (i =? l)%nat then cnat (2 ^ k) else 0) :> K.
Proof.
  induction k as [|k IH]; intros i l Hi Hl.
  - cbn [Nat.pow] in *. assert (i = 0%nat) by lia. assert (l = 0%nat) by lia. subst. cbn. ring.
  - pose proof (pow2_pos k) as Hp. set (h := (2 ^ k)%nat) in *.
    replace (2 ^ S k)%nat with (h + h)%nat in * by (unfold h; cbn [Nat.pow]; lia).
    rewrite (sum_split K).
    rewrite (sum_ext K h (fun j => had (S k) i j * had (S k) j l) (fun j => had k (i mod h) j * had k j (l mod h))).
    2:{ intros j Hj. rewrite (had_sym (S k) j l), !had_S_low, (had_sym k l j) by exact Hj. f_equal; apply had_mod; fold h; rewrite ?Nat.mod_mod by lia; reflexivity. }
    rewrite (sum_ext K h (fun j => had (S k) i (h + j)%nat * had (S k) (h + j)%nat l)
               (fun j => had k (i mod h) j * had k j (l mod h) * (sb (Nat.testbit i k) * sb (Nat.testbit l k)))).
    2:{ intros j Hj. rewrite (had_sym (S k) _ l). unfold h. rewrite !had_S_high, (had_sym k l j) by exact Hj.
        rewrite (had_mod k i j (i mod 2 ^ k) j), (had_mod k j l j (l mod 2 ^ k)) by (fold h; rewrite ?Nat.mod_mod by lia; reflexivity). ring. }
    rewrite (sum_mul_r K), IH by (apply Nat.mod_upper_bound; lia).
    pose proof (Nat.div_mod i h ltac:(lia)) as Di. pose proof (Nat.div_mod l h ltac:(lia)) as Dl.
    rewrite !bit_div. fold h.
    assert (Qi : (i / h < 2)%nat) by (apply Nat.div_lt_upper_bound; lia).
    assert (Ql : (l / h < 2)%nat) by (apply Nat.div_lt_upper_bound; lia).
    destruct (Nat.eqb_spec (i mod h) (l mod h)) as [E|E].
    + destruct (i / h)%nat as [|[|q]] eqn:E1; [| |lia]; destruct (l / h)%nat as [|[|q']] eqn:E2; try lia;
        cbn [Nat.odd negb Nat.even sb]; (destruct (Nat.eqb_spec i l); [|]); try (exfalso; lia); rewrite ?(cnat_add K); ring.
    + destruct (Nat.eqb_spec i l) as [->|_]; [congruence|]. ring.
Qed.

(** ** One pass *)
Lemma samp_upd (l : list K) i v j : (i < length l)%nat -> samp (upd l i v) j = if (j =? i)%nat then v else samp l j.
Proof.
  intros H. unfold samp. rewrite nth_upd, (Nat.eqb_sym j i). apply Nat.ltb_lt in H. rewrite H, andb_true_r. reflexivity.
Qed.
Definition pass_at (h : nat) (y : list K) (i : nat) : K :=
  if Nat.odd (i / h) then samp y (i - h) - samp y i else samp y i + samp y (i + h).
Lemma pass_ok h B (y : list K) : (0 < h)%nat -> length y = (2 * h * B)%nat -> exists y', fwht_pass h y = Ok y' /\
  length y' = length y /\ forall i, (i < length y)%nat -> samp y' i = pass_at h y i.
Proof.
  intros Hh L. unfold fwht_pass. cbv zeta. rewrite L.
  replace ((2 * h * B + 2 * h - 1) / (2 * h))%nat with B.
  2:{ apply (Nat.div_unique _ _ B (2 * h - 1)); lia. }
  destruct (loop_inv0 (fun b Y => length Y = length y /\ forall i, (i < length y)%nat ->
     samp Y i = if (i <? 2 * h * b)%nat then pass_at h y i else samp y i) B
     (fun b Y => loop h (fun t Y => let* x1 := vget Y (2 * h * b + t) in let* y1 := vget Y (2 * h * b + t + h) in
        let* Y := vset Y (2 * h * b + t) (x1 + y1) in vset Y (2 * h * b + t + h) (x1 - y1)) Y) y) as [y' [E [L' N]]].
  - split; [reflexivity|]. intros i Hi. rewrite Nat.mul_0_r. reflexivity.
  - intros b Y Hb [LY NY]. set (H := (2 * h * b)%nat) in *.
    assert (HB : (H + 2 * h <= 2 * h * B)%nat) by (unfold H; nia).
    destruct (loop_inv0 (fun t Z => length Z = length y /\ forall i, (i < length y)%nat ->
       samp Z i = if ((i <? H + t) || ((H + h <=? i) && (i <? H + h + t)))%nat then pass_at h y i else samp y i) h
       (fun t Y => let* x1 := vget Y (H + t) in let* y1 := vget Y (H + t + h) in
          let* Y := vset Y (H + t) (x1 + y1) in vset Y (H + t + h) (x1 - y1)) Y) as [Z [EZ [LZ NZ]]].
    + split; [exact LY|]. intros i Hi. rewrite NY by exact Hi.
      destruct (Nat.ltb_spec i H); destruct (Nat.ltb_spec i (H + 0)); try lia; cbn [orb]; [reflexivity|].
      destruct (Nat.leb_spec (H + h) i); destruct (Nat.ltb_spec i (H + h + 0)); try lia; reflexivity.
    + intros t Z Ht [LZ NZ].
      rewrite (vget_ok Z (H + t) c0), (vget_ok Z (H + t + h) c0) by lia. cbn [bind].
      rewrite vset_ok by lia. cbn [bind]. rewrite vset_ok by (rewrite upd_length; lia). eexists. split; [reflexivity|].
      rewrite !upd_length. split; [exact LZ|]. intros i Hi.
      rewrite samp_upd by (rewrite upd_length; lia). rewrite samp_upd by lia.
      fold (samp Z (H + t)). fold (samp Z (H + t + h)). rewrite (NZ (H + t)%nat), (NZ (H + t + h)%nat) by lia.
      destruct (Nat.ltb_spec (H + t) (H + t)); [lia|]. destruct (Nat.leb_spec (H + h) (H + t)); [lia|]. cbn [orb andb].
      destruct (Nat.ltb_spec (H + t + h) (H + t)); [lia|]. destruct (Nat.ltb_spec (H + t + h) (H + h + t)); [lia|]. rewrite andb_false_r. cbn [orb].
      assert (D1 : ((H + t) / h = 2 * b)%nat) by (symmetry; apply (Nat.div_unique _ _ _ t); [exact Ht|unfold H; lia]).
      assert (D2 : ((H + t + h) / h = 2 * b + 1)%nat) by (symmetry; apply (Nat.div_unique _ _ _ t); [exact Ht|unfold H; lia]).
      destruct (Nat.eqb_spec i (H + t + h)) as [->|N1].
      { destruct (Nat.ltb_spec (H + t + h) (H + (t + 1))); [lia|]. destruct (Nat.leb_spec (H + h) (H + t + h)); [|lia].
        destruct (Nat.ltb_spec (H + t + h) (H + h + (t + 1))); [|lia]. cbn [orb andb]. unfold pass_at. rewrite D2.
        replace (Nat.odd (2 * b + 1)) with true by (rewrite Nat.odd_add, Nat.odd_mul; reflexivity).
        replace (H + t + h - h)%nat with (H + t)%nat by lia. reflexivity. }
      destruct (Nat.eqb_spec i (H + t)) as [->|N2].
      { destruct (Nat.ltb_spec (H + t) (H + (t + 1))); [|lia]. cbn [orb]. unfold pass_at. rewrite D1.
        replace (Nat.odd (2 * b)) with false by (rewrite Nat.odd_mul; reflexivity). reflexivity. }
      rewrite NZ by exact Hi.
      destruct (Nat.ltb_spec i (H + t)); destruct (Nat.ltb_spec i (H + (t + 1))); try lia; cbn [orb]; [reflexivity|].
      destruct (Nat.leb_spec (H + h) i); cbn [andb]; [|reflexivity].
      destruct (Nat.ltb_spec i (H + h + t)); destruct (Nat.ltb_spec i (H + h + (t + 1))); try lia; reflexivity.
    + exists Z. split; [exact EZ|]. split; [exact LZ|]. intros i Hi. rewrite NZ by exact Hi.
      replace (2 * h * (b + 1))%nat with (H + 2 * h)%nat by (unfold H; lia).
      destruct (Nat.ltb_spec i (H + h)); cbn [orb]; destruct (Nat.ltb_spec i (H + 2 * h)); try lia; try reflexivity.
      * destruct (Nat.leb_spec (H + h) i); [|lia]. destruct (Nat.ltb_spec i (H + h + h)); [reflexivity|lia].
      * destruct (Nat.ltb_spec i (H + h + h)); [lia|]. rewrite andb_false_r. reflexivity.
  - exists y'. split; [exact E|]. split; [lia|]. intros i Hi. rewrite N by lia.
    destruct (Nat.ltb_spec i (2 * h * B)); [reflexivity|lia].
Qed.
End H.

Section F.
Context (K : cfield) (c2 : cnat (K := K) 2 <> 0).
Add Ring Fr : (cth K).
Add Field Ff : (fth K).
Lemma cnat_pow2 p : cnat (K := K) (2 ^ p) = cpow (cnat 2) p.
Proof. induction p as [|p IH]; [cbn; ring|]. cbn [Nat.pow cpow]. rewrite <- IH, <- (cnat_mul K). f_equal. Qed.
Lemma cnat_pow2_ne p : cnat (K := K) (2 ^ p) <> 0.
Proof.
  rewrite cnat_pow2. induction p as [|p IH]; [cbn; apply (F_1_neq_0 (fth K))|]. cbn [cpow]. intros C. apply IH.
  transitivity (finv (cnat 2) * (cnat 2 * cpow (cnat 2) p) : K); [field; exact c2|rewrite C; ring].
Qed.
Definition fw (x : list K) (p i : nat) : K :=
  sum (2 ^ p) (fun t => had p i t * samp x (i / 2 ^ p * 2 ^ p + t)) / cnat (2 ^ p).
Lemma half_pow p : finv (cnat (K := K) (2 ^ S p)) = finv (cnat 2) * finv (cnat (2 ^ p)).
Proof.
  replace (2 ^ S p)%nat with (2 * 2 ^ p)%nat by reflexivity. rewrite (cnat_mul K). field. split; [apply cnat_pow2_ne|exact c2].
Qed.
Lemma div_mul (a b : K) : a / b = a * finv b.
Proof. apply (Fdiv_def (fth K)). Qed.
Lemma fw_step (x : list K) p i (y : list K) : (forall j, samp y j = fw x p j \/ (length y <= j)%nat) -> (i < length y)%nat ->
  (Nat.odd (i / 2 ^ p) = false -> i + 2 ^ p < length y)%nat ->
  pass_at K (2 ^ p) y i / cnat 2 = fw x (S p) i.
Proof.
  intros Hy Hi Hhi. pose proof (pow2_pos p) as Hp.
  assert (Hj : forall j, (j < length y)%nat -> samp y j = fw x p j) by (intros j Hj; destruct (Hy j); [assumption|lia]).
  unfold fw at 1. rewrite div_mul, (div_mul _ (cnat (2 ^ S p))), half_pow.
  set (h := (2 ^ p)%nat) in *. replace (2 ^ S p)%nat with (h + h)%nat by (unfold h; cbn [Nat.pow]; lia).
  rewrite (sum_split K).
  pose proof (Nat.div_mod i h ltac:(lia)) as Di. pose proof (Nat.mod_upper_bound i h ltac:(lia)) as Mi.
  assert (D2 : (i / (h + h) = i / h / 2)%nat) by (rewrite Nat.div_div by lia; f_equal; lia).
  rewrite (sum_ext K h (fun t => had (S p) i t * _) (fun t => had p i t * samp x (i / (h + h) * (h + h) + t))) by (intros t Ht; rewrite had_S_low by exact Ht; reflexivity).
  rewrite (sum_ext K h (fun t => had (S p) i (h + t)%nat * _) (fun t => had p i t * samp x (i / (h + h) * (h + h) + h + t) * sb K (Nat.testbit i p))).
  2:{ intros t Ht. unfold h. rewrite had_S_high by exact Ht. fold h. rewrite Nat.add_assoc. ring. }
  rewrite (sum_mul_r K), bit_div. fold h. unfold pass_at.
  pose proof (Nat.div_mod (i / h) 2 ltac:(lia)) as Dq. pose proof (Nat.mod_upper_bound (i / h) 2 ltac:(lia)) as Mq.
  rewrite D2. set (q := (i / h)%nat) in *.
  destruct (Nat.odd q) eqn:Od.
  - assert (Q1 : (q mod 2 = 1)%nat). { apply Nat.odd_spec in Od. destruct Od as [m Hm]. rewrite Hm. replace (2 * m + 1)%nat with (1 + m * 2)%nat by lia. rewrite Nat.mod_add by lia. reflexivity. }
    assert (Hq : q = (2 * (q / 2) + 1)%nat) by lia. set (z := (q / 2)%nat) in *. clearbody z.
    assert (Hhz : (h * q = 2 * (h * z) + h)%nat) by (rewrite Hq; ring).
    rewrite (Hj (i - h)%nat), (Hj i) by lia. unfold fw. fold h.
    assert (Dm : ((i - h) / h = q - 1)%nat) by (symmetry; apply (Nat.div_unique _ _ _ (i mod h)); [exact Mi|rewrite Nat.mul_sub_distr_l; lia]).
    assert (Mm : ((i - h) mod h = i mod h)%nat) by (symmetry; apply (Nat.mod_unique _ _ (q - 1)); [exact Mi|rewrite Nat.mul_sub_distr_l; lia]).
    rewrite Dm. fold q. rewrite (sum_ext K h (fun t => had p (i - h) t * _) (fun t => had p i t * samp x (z * (h + h) + t))).
    2:{ intros t Ht. f_equal; [apply had_mod; fold h; [exact Mm|reflexivity]|]. f_equal. nia. }
    rewrite (sum_ext K h (fun t => had p i t * samp x (q * h + t)%nat) (fun t => had p i t * samp x (z * (h + h) + h + t))).
    2:{ intros t Ht. do 2 f_equal. nia. }
    unfold sb. rewrite !div_mul. ring.
  - assert (Q0 : (q mod 2 = 0)%nat). { rewrite <- Nat.negb_even in Od. apply negb_false_iff, Nat.even_spec in Od. destruct Od as [m Hm]. rewrite Hm, Nat.mul_comm. apply Nat.mod_mul. lia. }
    assert (Hq : q = (2 * (q / 2))%nat) by lia. set (z := (q / 2)%nat) in *. clearbody z.
    assert (Hhz : (h * q = 2 * (h * z))%nat) by (rewrite Hq; ring).
    rewrite (Hj (i + h)%nat), (Hj i) by (auto; lia). unfold fw. fold h.
    assert (Dm : ((i + h) / h = q + 1)%nat) by (symmetry; apply (Nat.div_unique _ _ _ (i mod h)); [exact Mi|rewrite Nat.mul_add_distr_l; lia]).
    assert (Mm : ((i + h) mod h = i mod h)%nat) by (symmetry; apply (Nat.mod_unique _ _ (q + 1)); [exact Mi|rewrite Nat.mul_add_distr_l; lia]).
    rewrite Dm. fold q. rewrite (sum_ext K h (fun t => had p (i + h) t * _) (fun t => had p i t * samp x (z * (h + h) + h + t))).
    2:{ intros t Ht. f_equal; [apply had_mod; fold h; [exact Mm|reflexivity]|]. f_equal. nia. }
    rewrite (sum_ext K h (fun t => had p i t * samp x (q * h + t)%nat) (fun t => had p i t * samp x (z * (h + h) + t))).
    2:{ intros t Ht. do 2 f_equal. nia. }
    unfold sb. rewrite !div_mul. ring.
Qed.
Lemma fwht_loop_ok (x : list K) k : length x = (2 ^ k)%nat -> forall d fuel p y, (p + d = k)%nat -> (d < fuel)%nat -> length y = length x ->
  (forall i, (i < length x)%nat -> samp y i = fw x p i) ->
  exists y', fwht_loop fuel (2 ^ p) y = Ok y' /\ length y' = length x /\ forall i, (i < length x)%nat -> samp y' i = fw x k i.
Proof.
  intros Lx. induction d as [|d IH]; intros fuel p y Hp Hf Ly Hy; (destruct fuel as [|f]; [lia|]); cbn [fwht_loop].
  - assert (p = k) by lia. subst p. replace (2 ^ k <? length y)%nat with false by (symmetry; apply Nat.ltb_ge; lia).
    exists y. split; [reflexivity|]. split; [exact Ly|exact Hy].
  - pose proof (pow2_pos p) as P0. pose proof (Nat.pow_lt_mono_r 2 p k ltac:(lia) ltac:(lia)) as Hlt.
    destruct (Nat.ltb_spec (2 ^ p) (length y)) as [_|C]; [|lia].
    assert (LB : length y = (2 * 2 ^ p * 2 ^ d)%nat).
    { rewrite Ly, Lx. replace k with (S p + d)%nat by lia. rewrite Nat.pow_add_r. cbn [Nat.pow]. lia. }
    destruct (pass_ok K (2 ^ p) (2 ^ d) y P0 LB) as [y1 [E1 [L1 N1]]]. rewrite E1. cbn [bind].
    change (2 * 2 ^ p)%nat with (2 ^ S p)%nat in *.
    destruct (IH f (S p) (map (fun v => v / cnat 2) y1)) as [y' R]; try lia; [rewrite map_length; lia| |exists y'; exact R].
    intros i Hi. unfold samp. rewrite nth_indep with (d' := 0 / cnat 2) by (rewrite map_length; lia).
    rewrite (map_nth (fun v => v / cnat 2)). fold (samp y1 i). rewrite N1 by lia.
    apply (fw_step x p i y); [|lia|].
    + intros j. destruct (Nat.lt_ge_cases j (length y)); [left; apply Hy; lia|right; assumption].
    + intros Od. rewrite LB in *. set (h := (2 ^ p)%nat) in *.
      replace (2 ^ S p)%nat with (2 * h)%nat in * by reflexivity.
      pose proof (Nat.div_mod i h ltac:(lia)) as Di. pose proof (Nat.mod_upper_bound i h ltac:(lia)) as Mi.
      set (q := (i / h)%nat) in *. rewrite <- Nat.negb_even in Od. apply negb_false_iff, Nat.even_spec in Od. destruct Od as [m Hm].
      assert (m < 2 ^ d)%nat by nia. nia.
Qed.
Lemma fw_0 x i : fw x 0 i = samp x i.
Proof.
  unfold fw. cbn [Nat.pow sum]. rewrite Nat.div_1_r, Nat.mul_1_r, Nat.add_0_r. unfold had. cbn [common_ones cpow cnat]. field.
  apply (F_1_neq_0 (fth K)).
Qed.
Lemma fwht_ok (x : list K) k : length x = (2 ^ k)%nat -> exists y, fwht x = Ok y /\ length y = length x /\
  forall i, (i < length x)%nat -> samp y i = sum (length x) (fun j => had k i j * samp x j) / cnat (length x).
Proof.
  intros Lx. unfold fwht. pose proof (Nat.pow_gt_lin_r 2 k ltac:(lia)) as G.
  destruct (fwht_loop_ok x k Lx k (S (length x)) 0 x) as [y [E [L N]]]; try lia.
  { intros i Hi. symmetry. apply fw_0. }
  exists y. split; [exact E|]. split; [exact L|]. intros i Hi. rewrite N by exact Hi. unfold fw. rewrite <- Lx.
  rewrite Nat.div_small by exact Hi. f_equal.
Qed.
Lemma fwht_twice (x : list K) k : length x = (2 ^ k)%nat -> exists y z, fwht x = Ok y /\ fwht y = Ok z /\ length z = length x /\
  forall i, (i < length x)%nat -> samp z i = samp x i / cnat (length x).
Proof.
  intros Lx. destruct (fwht_ok x k Lx) as [y [E [L N]]]. destruct (fwht_ok y k ltac:(lia)) as [z [E2 [L2 N2]]].
  exists y, z. split; [exact E|]. split; [exact E2|]. split; [lia|]. intros i Hi. rewrite N2 by lia. rewrite L.
  assert (Nn : cnat (K := K) (length x) <> 0) by (rewrite Lx; apply cnat_pow2_ne).
  rewrite (sum_ext K (length x) _ (fun j => sum (length x) (fun l => had k i j * had k j l * samp x l * finv (cnat (length x))))).
  2:{ intros j Hj. rewrite N by exact Hj. rewrite div_mul, <- (sum_mul_r K), <- (sum_mul_l K). apply sum_ext. intros l _. ring. }
  rewrite (sum_swap K).
  rewrite (sum_ext K (length x) _ (fun l => (if (i =? l)%nat then cnat (length x) else 0) * samp x l * finv (cnat (length x)))).
  2:{ intros l Hl. rewrite Lx in *. rewrite (sum_mul_r K), (sum_mul_r K), had_ortho by assumption. reflexivity. }
  rewrite (sum_single K (length x) _ i Hi).
  - rewrite Nat.eqb_refl. field. exact Nn.
  - intros j Hj Hne. destruct (Nat.eqb_spec i j); [congruence|]. ring.
Qed.
End F.
