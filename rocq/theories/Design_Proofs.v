(** Proofs about filter design. *)
From Coq Require Import Field Lia.
From Verif Require Import Base BaseLemmas OField Zfe_Proofs Filters_Model Filters_Spec Filters_Proofs Conv_Lemmas Poly_Model Poly_Spec Poly_Proofs Design_Model Design_Spec.

Section Ring.
  Variable K : cring.
  Add Ring Kr : (cth K).
  Local Open Scope cring_scope.
  Lemma filtrer_ok (h x : list K) : h <> [] -> exists y, filtrer_rif h x = Ok y /\ length y = length x /\ forall n, (n < length x)%nat -> samp y n = conv h x n.
  Proof.
    intros H. unfold filtrer_rif, fir_step. replace (length (fir_coefs (fir_init h)) =? 0)%nat with false by (destruct h; [congruence|reflexivity]).
    destruct (fir_map K h x H) as (s & y & E & _ & L & V). exists y. rewrite E. cbn [bind snd]. auto.
  Qed.
  Lemma samp_app_zeros (h : list K) n k : samp (h ++ repeat 0 n) k = samp h k.
  Proof.
    unfold samp. destruct (Nat.lt_ge_cases k (length h)); [apply app_nth1; assumption|]. rewrite app_nth2, (nth_overflow h) by assumption. apply nth_repeat.
  Qed.
  Lemma samp_over (h : list K) k : (length h <= k)%nat -> samp h k = 0.
  Proof. apply nth_overflow. Qed.
  Lemma prod_ok (h1 h2 : list K) : h1 <> [] -> exists h, design_rif_prod h1 h2 = Ok h /\ (length h = length h1 + length h2 - 1)%nat /\ forall k, samp h k = conv h1 h2 k.
  Proof.
    intros H. unfold design_rif_prod. destruct h1 as [|a h1]; [congruence|]. set (g := a :: h1) in *.
    destruct (filtrer_ok g (h2 ++ repeat 0 (length g - 1)) H) as (y & E & L & V). exists y. rewrite app_length, repeat_length in L, V.
    assert (0 < length g)%nat by (cbn; lia). split; [exact E|]. split; [lia|]. intros k.
    destruct (Nat.lt_ge_cases k (length h2 + (length g - 1))) as [B|B].
    - rewrite V by exact B. rewrite !conv_cv. apply cv_ext; intros; [reflexivity|apply samp_app_zeros].
    - rewrite samp_over by lia. symmetry. apply conv_beyond. lia.
  Qed.
  Lemma prod_cascade (h1 h2 h x : list K) : h1 <> [] -> h2 <> [] -> design_rif_prod h1 h2 = Ok h ->
    exists u y, filtrer_rif h2 x = Ok u /\ filtrer_rif h1 u = Ok y /\ filtrer_rif h x = Ok y.
  Proof.
    intros H1 H2 E. destruct (prod_ok h1 h2 H1) as (h' & E' & L & V). replace h' with h in * by congruence.
    destruct (filtrer_ok h2 x H2) as (u & Eu & Lu & Vu). destruct (filtrer_ok h1 u H1) as (y & Ey & Ly & Vy).
    assert (Hh : h <> []) by (intros ->; destruct h1, h2; cbn in L; try congruence; lia).
    destruct (filtrer_ok h x Hh) as (y' & Ey' & Ly' & Vy'). exists u, y. split; [exact Eu|]. split; [exact Ey|]. rewrite Ey'. f_equal.
    apply (list_ext (0 : K)); [lia|]. intros i Hi. change (samp y' i = samp y i). rewrite Vy', Vy by lia.
    apply (conv_conv K h1 h2 h x u V Lu Vu). lia.
  Qed.
  Lemma pval_N (h : list K) w N : (length h <= N)%nat -> pval h w = sum N (fun k => samp h k * cpow w k).
  Proof. intros H. unfold pval. symmetry. apply sum_extend; [exact H|]. intros i Hi. rewrite samp_over by lia. ring. Qed.
  Lemma prod_pval (h1 h2 h : list K) w : (length h <= length h1 + length h2)%nat -> (forall k, samp h k = conv h1 h2 k) -> pval h w = pval h1 w * pval h2 w.
  Proof.
    intros L V. set (N := (length h1 + length h2)%nat). rewrite (pval_N h w N) by exact L.
    rewrite (sum_ext K N _ (fun i => sum (S i) (fun j => samp h1 j * samp h2 (i - j) * cpow w i))).
    2:{ intros i _. rewrite V, conv_cv. unfold cv. rewrite <- sum_mul_r. reflexivity. }
    rewrite sum_tri. rewrite (pval_N h1 w N) by lia. rewrite <- sum_mul_r. apply sum_ext. intros j Hj.
    destruct (Nat.lt_ge_cases j (length h1)) as [B|B].
    - rewrite (pval_N h2 w (N - j)) by lia. rewrite <- sum_mul_l. apply sum_ext. intros d _. replace (j + d - j)%nat with d by lia. rewrite cpow_add. ring.
    - rewrite (samp_over h1 j) by exact B. rewrite sum_zero; [ring|]. intros; ring.
  Qed.
  (** zero-phase filtering *)
  Lemma samp_rev (l : list K) i : (i < length l)%nat -> samp (rev l) i = samp l (length l - 1 - i).
  Proof. intros H. unfold samp. rewrite rev_nth by exact H. f_equal. lia. Qed.
  Lemma filtfilt_ok (h x : list K) : h <> [] -> exists u y, filtrer_rif h x = Ok u /\ filtfilt h x = Ok y /\ length u = length x /\ length y = length x /\
    forall n, (n < length x)%nat -> samp y n = sum (length x - n) (fun j => samp h j * samp u (n + j)).
  Proof.
    intros H. destruct (filtrer_ok h x H) as (u & E & L & V). destruct (filtrer_ok h (rev u) H) as (z & Ez & Lz & Vz). rewrite rev_length in Lz, Vz.
    exists u, (rev z). split; [exact E|]. split; [unfold filtfilt; rewrite E; cbn [bind]; rewrite Ez; reflexivity|]. split; [exact L|]. split; [rewrite rev_length; lia|].
    intros n Hn. rewrite samp_rev by lia. rewrite Vz by lia. rewrite conv_cv. unfold cv. replace (S (length z - 1 - n)) with (length x - n)%nat by lia.
    apply sum_ext. intros j Hj. rewrite samp_rev by lia. do 2 f_equal. lia.
  Qed.
  Lemma sum_tri_up (F : nat -> nat -> K) N : sum N (fun n => sum (N - n) (fun j => F n (n + j)%nat)) = sum N (fun m => sum (S m) (fun n => F n m)).
  Proof. symmetry. rewrite (sum_tri K (fun m n => F n m)). reflexivity. Qed.
  Lemma filtfilt_dot (h v x : list K) hv y : h <> [] -> length v = length x -> filtrer_rif h v = Ok hv -> filtfilt h x = Ok y ->
    exists hx, filtrer_rif h x = Ok hx /\ dot v y = dot hv hx.
  Proof.
    intros H L Ev Ey. destruct (filtfilt_ok h x H) as (u & y' & Eu & Ey' & Lu & Ly & Vy). replace y' with y in * by congruence.
    destruct (filtrer_ok h v H) as (w & Ew & Lw & Vw). replace w with hv in * by congruence. exists u. split; [exact Eu|].
    unfold dot. rewrite Lw, L. rewrite (sum_ext K (length x) _ (fun n => sum (length x - n) (fun j => samp v n * samp h (n + j - n) * samp u (n + j)))).
    - rewrite (sum_tri_up (fun n m => samp v n * samp h (m - n) * samp u m)). apply sum_ext. intros m Hm. rewrite Vw by lia. rewrite conv_comm, conv_cv. unfold cv. rewrite <- sum_mul_r. apply sum_ext. intros; ring.
    - intros n Hn. rewrite Vy by exact Hn. rewrite <- sum_mul_l. apply sum_ext. intros j Hj. replace (n + j - n)%nat with j by lia. ring.
  Qed.
  (** alternating signs *)
  Lemma alt_S k : alt (K := K) (S k) = - alt k.
  Proof. unfold alt. rewrite Nat.odd_succ, <- Nat.negb_odd. destruct (Nat.odd k); cbn [negb]; ring. Qed.
  Lemma alt_add a b : alt (K := K) (a + b) = alt a * alt b.
  Proof. unfold alt. rewrite Nat.odd_add. destruct (Nat.odd a), (Nat.odd b); cbn [xorb]; ring. Qed.
  Lemma alt_sq k : alt (K := K) k * alt k = 1.
  Proof. unfold alt. destruct (Nat.odd k); ring. Qed.
  Lemma alternate_length (x : list K) : length (alternate x) = length x.
  Proof. unfold alternate. rewrite map_length, seq_length. reflexivity. Qed.
  Lemma alternate_samp (x : list K) k : samp (alternate x) k = alt k * samp x k.
  Proof.
    unfold alternate. destruct (Nat.lt_ge_cases k (length x)) as [H|H].
    - unfold samp at 1. rewrite nth_indep with (d' := (fun k => alt k * samp x k) 0%nat) by (rewrite map_length, seq_length; exact H).
      rewrite (map_nth (fun k => alt k * samp x k)), seq_nth by exact H. reflexivity.
    - rewrite (samp_over x) by exact H. rewrite samp_over by (rewrite map_length, seq_length; exact H). ring.
  Qed.
  Lemma alternate_twice (x : list K) : alternate (alternate x) = x.
  Proof.
    apply (list_ext (0 : K)); [rewrite !alternate_length; reflexivity|]. intros i _. change (samp (alternate (alternate x)) i = samp x i).
    rewrite !alternate_samp. transitivity (alt (K := K) i * alt i * samp x i); [ring|]. rewrite alt_sq. ring.
  Qed.
  Lemma alternate_conv (h x : list K) n : conv (alternate h) (alternate x) n = alt n * conv h x n.
  Proof.
    rewrite !conv_cv. unfold cv. rewrite <- sum_mul_l. apply sum_ext. intros k Hk. rewrite !alternate_samp.
    replace n with (k + (n - k))%nat at 3 by lia. rewrite alt_add. ring.
  Qed.
  Lemma alt_pow (w : K) k : cpow (- w) k = alt k * cpow w k.
  Proof. induction k as [|k IH]; [cbn; unfold alt; cbn; ring|]. cbn [cpow]. rewrite IH, alt_S. ring. Qed.
  Lemma alternate_pval (h : list K) w : pval (alternate h) w = pval h (- w).
  Proof. unfold pval. rewrite alternate_length. apply sum_ext. intros k _. rewrite alternate_samp, alt_pow. ring. Qed.
End Ring.

Section Ordered.
  Variable F : ofield.
  Add Ring Fr : (cth F).
  Add Field Ff : (fth F).
  Local Open Scope cring_scope.
  Implicit Types h x y : list F.
  Lemma osq_ge (a : F) : ole 0 (a * a).
  Proof.
    destruct (oltb 0 a) eqn:E1; [apply ole_olt; apply (o_mul F _ _ E1 E1)|]. destruct (oltb a 0) eqn:E2.
    - apply ole_olt. apply (olt_sub F a 0) in E2. pose proof (o_mul F _ _ E2 E2) as M. replace ((0 - a) * (0 - a)) with (a * a) in M by ring. exact M.
    - rewrite <- (o_tri F _ _ E1 E2). replace (0 * 0) with (0 : F) by ring. apply ole_refl.
  Qed.
  Lemma ole_add0 (a b : F) : ole 0 a -> ole 0 b -> ole 0 (a + b).
  Proof.
    intros Ha Hb. destruct (oltb 0 a) eqn:E1.
    - destruct (oltb 0 b) eqn:E2; [apply ole_olt; apply opos_add; assumption|]. rewrite <- (o_tri F _ _ E2 Hb). replace (a + 0) with a by ring. exact Ha.
    - rewrite <- (o_tri F _ _ E1 Ha). replace (0 + b) with b by ring. exact Hb.
  Qed.
  Lemma olt_ole_add (a b : F) : olt 0 a -> ole 0 b -> olt 0 (a + b).
  Proof.
    intros Ha Hb. destruct (oltb 0 b) eqn:E2; [apply opos_add; assumption|]. rewrite <- (o_tri F _ _ E2 Hb). replace (a + 0) with a by ring. exact Ha.
  Qed.
  Lemma osum_ge n (f : nat -> F) : (forall i, (i < n)%nat -> ole 0 (f i)) -> ole 0 (sum n f).
  Proof. induction n as [|n IH]; intros H; cbn [sum]; [apply ole_refl|]. apply ole_add0; [apply IH; intros; apply H; lia|apply H; lia]. Qed.
  Lemma osum_pos n (f : nat -> F) k : (k < n)%nat -> (forall i, (i < n)%nat -> ole 0 (f i)) -> olt 0 (f k) -> olt 0 (sum n f).
  Proof.
    induction n as [|n IH]; intros Hk H P; [lia|]. cbn [sum]. destruct (Nat.eq_dec k n) as [->|N].
    - rewrite (Radd_comm (cth F)). apply olt_ole_add; [exact P|]. apply osum_ge. intros; apply H; lia.
    - apply olt_ole_add; [apply IH; [lia|intros; apply H; lia|exact P]|apply H; lia].
  Qed.
  Lemma energy_ge x : ole 0 (energy x).
  Proof. apply osum_ge. intros. apply osq_ge. Qed.
  Lemma osq_pos (a : F) : a <> 0 -> olt 0 (a * a).
  Proof.
    intros H. pose proof (osq_ge a) as G. unfold olt. destruct (oltb 0 (a * a)) eqn:E; [reflexivity|]. exfalso. apply H.
    pose proof (o_tri F _ _ E G) as Z. destruct (oltb 0 a) eqn:E1; [pose proof (o_mul F _ _ E1 E1); congruence|]. destruct (oltb a 0) eqn:E2; [|symmetry; apply o_tri; assumption].
    apply (olt_sub F a 0) in E2. pose proof (o_mul F _ _ E2 E2) as M. replace ((0 - a) * (0 - a)) with (a * a) in M by ring. congruence.
  Qed.
  Lemma energy_pos x k : samp x k <> 0 -> olt 0 (energy x).
  Proof.
    intros H. assert (k < length x)%nat by (apply Nat.lt_nge; intros G; apply H; apply nth_overflow; exact G).
    unfold energy. apply (osum_pos _ _ k); [assumption|intros; apply osq_ge|]. apply osq_pos. exact H.
  Qed.
  Lemma vsub_length x y : length x = length y -> length (vsub x y) = length x.
  Proof. intros H. unfold vsub. rewrite map_length, combine_length. lia. Qed.
  Lemma vsub_samp : forall x y, length x = length y -> forall k, samp (vsub x y) k = samp x k - samp y k.
  Proof.
    unfold samp, vsub. induction x as [|a x IH]; intros [|b y] L k; try discriminate L.
    - destruct k; cbn; ring.
    - destruct k; cbn [combine map nth fst snd]; [reflexivity|]. apply IH. cbn in L. lia.
  Qed.
  Lemma vneg_samp x k : samp (vneg x) k = - samp x k.
  Proof.
    unfold samp, vneg. destruct (Nat.lt_ge_cases k (length x)) as [H|H].
    - rewrite nth_indep with (d' := - (0 : F)) by (rewrite map_length; exact H). apply (map_nth (fun v => - v)).
    - rewrite !nth_overflow by (try rewrite map_length; exact H). ring.
  Qed.
  Lemma energy_ext x y : length x = length y -> (forall k, (k < length x)%nat -> samp x k * samp x k = samp y k * samp y k) -> energy x = energy y.
  Proof. intros L H. unfold energy. rewrite <- L. apply sum_ext. exact H. Qed.
  Lemma energy_rev x : energy (rev x) = energy x.
  Proof.
    unfold energy. rewrite rev_length. rewrite sum_rev. apply sum_ext. intros i Hi. rewrite samp_rev by lia. replace (length x - 1 - (length x - 1 - i))%nat with i by lia. reflexivity.
  Qed.
  Lemma tol2_pos : olt (0 : F) tol2.
  Proof.
    unfold tol2. apply odiv_pos; [apply o1_pos|]. set (t := cnat 10 : F). assert (P : olt 0 t) by apply ocnat_pos.
    assert (G : forall n, olt 0 (cpow t n)) by (induction n; cbn [cpow]; [apply o1_pos|apply o_mul; assumption]). apply G.
  Qed.
  Lemma ole_mul0 (a b : F) : ole 0 a -> ole 0 b -> ole 0 (a * b).
  Proof.
    intros Ha Hb. destruct (oltb 0 a) eqn:E1; [|rewrite <- (o_tri F _ _ E1 Ha); replace (0 * b) with (0 : F) by ring; apply ole_refl].
    destruct (oltb 0 b) eqn:E2; [apply ole_olt; apply o_mul; assumption|]. rewrite <- (o_tri F _ _ E2 Hb); replace (a * 0) with (0 : F) by ring; apply ole_refl.
  Qed.
  Lemma approx_zero x y : energy (vsub x y) = 0 -> est_approx x y = true.
  Proof.
    intros E. unfold est_approx. rewrite E. unfold oleb. pose proof (ole_mul0 _ _ (ole_olt F _ _ tol2_pos) (energy_ge x)) as A. pose proof (ole_mul0 _ _ (ole_olt F _ _ tol2_pos) (energy_ge y)) as B.
    unfold ole in A, B. rewrite A, B. reflexivity.
  Qed.
  Lemma energy_zero x : (forall k, (k < length x)%nat -> samp x k = 0) -> energy x = 0.
  Proof. intros H. unfold energy. apply sum_zero. intros i Hi. rewrite H by exact Hi. ring. Qed.
  Lemma type_sym h : symmetric h -> type_rif h = if Nat.odd (length h) then 1%Z else 2%Z.
  Proof.
    intros S. unfold type_rif. rewrite approx_zero; [reflexivity|]. apply energy_zero. intros k Hk. rewrite vsub_length, rev_length in Hk by apply rev_length.
    rewrite vsub_samp by apply rev_length. rewrite samp_rev by exact Hk. rewrite (S k Hk). ring.
  Qed.
  Lemma cpow_big n : ole (1 : F) (cpow (cnat 10) n).
  Proof.
    induction n as [|n IH]; cbn [cpow]; [apply ole_refl|]. eapply ole_trans; [exact IH|].
    assert (P : olt 0 (cpow (cnat 10 : F) n)) by (eapply olt_le_trans; [apply o1_pos|exact IH]).
    apply ole_olt. apply olt_sub. replace (cnat 10 * cpow (cnat 10) n - cpow (cnat 10) n) with ((cnat 9 : F) * cpow (cnat 10) n) by (cbn [cnat]; ring).
    apply o_mul; [apply ocnat_pos|exact P].
  Qed.
  Lemma type_antisym h : antisymmetric h -> (exists k, samp h k <> 0) -> type_rif h = if Nat.odd (length h) then 3%Z else 4%Z.
  Proof.
    intros S [k0 Hk0]. unfold type_rif.
    assert (N : est_approx (rev h) h = false).
    { unfold est_approx. assert (E : energy (vsub (rev h) h) = (1 + 1) * (1 + 1) * energy h).
      { unfold energy. rewrite vsub_length, rev_length by apply rev_length. rewrite <- sum_mul_l. apply sum_ext. intros i Hi.
        rewrite vsub_samp by apply rev_length. rewrite samp_rev by exact Hi. rewrite (S i Hi). ring. }
      rewrite E, energy_rev. replace (oleb _ _) with false; [reflexivity|]. symmetry. unfold oleb. apply Bool.negb_false_iff.
      apply olt_sub. assert (P : olt 0 (energy h)) by (apply (energy_pos h k0 Hk0)).
      replace ((1 + 1) * (1 + 1) * energy h - tol2 * energy h) with (((1 + 1) * (1 + 1) - tol2) * energy h) by ring. apply o_mul; [|exact P].
      unfold tol2. set (d := cpow (cnat 10 : F) 10). assert (D : ole 1 d) by apply cpow_big. assert (Dp : olt 0 d) by (eapply olt_le_trans; [apply o1_pos|exact D]).
      assert (Dn : d <> 0) by (apply opos_ne; exact Dp). replace ((1 + 1) * (1 + 1) - 1 / d) with ((1 + (1 + 1) + (d - 1) / d) : F) by (field; exact Dn).
      assert (Q : ole 0 ((d - 1) / d)).
      { destruct (oltb 1 d) eqn:E1; [apply ole_olt; apply odiv_pos; [apply (olt_sub F 1 d); exact E1|exact Dp]|]. pose proof (o_tri F _ _ E1 D) as E2. rewrite <- E2.
        replace ((1 - 1) / 1) with (0 : F) by (field; apply (F_1_neq_0 (fth F))). apply ole_refl. }
      apply olt_ole_add; [|exact Q]. apply opos_add; [apply o1_pos|]. apply opos_add; apply o1_pos. }
    rewrite N, approx_zero; [reflexivity|]. apply energy_zero. intros k Hk. rewrite vsub_length, rev_length in Hk by (rewrite rev_length; symmetry; apply map_length).
    rewrite vsub_samp by (rewrite rev_length; symmetry; apply map_length). rewrite samp_rev by exact Hk. rewrite (S k Hk), vneg_samp. ring.
  Qed.
  (** spectral reversal *)
  Lemma neg_odd_ok h : exists g, neg_odd (length h) h = Ok g /\ g = alternate h.
  Proof.
    unfold neg_odd. destruct (loop_inv (fun i g => length g = length h /\ forall k, samp g k = if (k <? i)%nat then alt k * samp h k else samp h k)
      (fun k g => if Nat.odd k then let* v := vget g k in vset g k (- v) else Ok g) (length h)) with (s := h) as (g & E & L & V).
    - intros i g Hi [L V]. unfold alt. destruct (Nat.odd i) eqn:O.
      + rewrite (vget_ok g i (0 : F)) by lia. cbn [bind]. rewrite vset_ok by lia. eexists; split; [reflexivity|]. rewrite upd_length. split; [exact L|].
        intros k. unfold samp at 1. rewrite nth_upd. fold (samp g k). destruct (Nat.eqb_spec i k) as [<-|N]; cbn [andb].
        * replace (i <? length g)%nat with true by (symmetry; apply Nat.ltb_lt; lia). change (nth i g 0) with (samp g i). rewrite V. rewrite (proj2 (Nat.ltb_ge i i)) by lia.
          rewrite (proj2 (Nat.ltb_lt i (S i))) by lia. rewrite O. ring.
        * rewrite V. unfold alt. destruct (Nat.ltb_spec k i), (Nat.ltb_spec k (S i)); try lia; reflexivity.
      + eexists; split; [reflexivity|]. split; [exact L|]. intros k. rewrite V. destruct (Nat.ltb_spec k i) as [A|A], (Nat.ltb_spec k (S i)) as [B|B]; try lia; try reflexivity.
        replace k with i by lia. rewrite O. ring.
    - split; [reflexivity|]. intros k. reflexivity.
    - exists g. split; [exact E|]. apply (list_ext (0 : F)); [rewrite alternate_length; exact L|]. intros i Hi. change (samp g i = samp (alternate h) i). rewrite alternate_samp, V.
      rewrite (proj2 (Nat.ltb_lt i (length h))) by lia. reflexivity.
  Qed.
  Lemma alt_rev n k : Nat.odd n = true -> (k < n)%nat -> alt (K := F) (n - 1 - k) = alt k.
  Proof.
    intros O H. assert (E : alt (K := F) (n - 1 - k + k) = 1).
    { replace (n - 1 - k + k)%nat with (n - 1)%nat by lia. unfold alt. destruct n as [|n]; [discriminate O|]. replace (S n - 1)%nat with n by lia. rewrite Nat.odd_succ, <- Nat.negb_odd in O. destruct (Nat.odd n); [discriminate O|reflexivity]. }
    rewrite alt_add in E. transitivity (alt (K := F) (n - 1 - k) * (alt k * alt k)); [rewrite alt_sq; ring|]. transitivity (alt (K := F) (n - 1 - k) * alt k * alt k); [ring|]. rewrite E. ring.
  Qed.
  Lemma type1_odd h : type_rif h = 1%Z -> Nat.odd (length h) = true /\ est_approx (rev h) h = true.
  Proof. unfold type_rif. destruct (est_approx (rev h) h), (est_approx (rev h) (vneg h)), (Nat.odd (length h)); intros H; try discriminate H; split; reflexivity. Qed.
  Lemma energy_alt h : energy (alternate h) = energy h.
  Proof.
    apply energy_ext; [apply alternate_length|]. intros k _. rewrite alternate_samp. transitivity (alt (K := F) k * alt k * (samp h k * samp h k)); [ring|]. rewrite alt_sq. ring.
  Qed.
  Lemma type1_alternate h : type_rif h = 1%Z -> type_rif (alternate h) = 1%Z.
  Proof.
    intros H. destruct (type1_odd h H) as [O A]. unfold type_rif. rewrite alternate_length, O.
    replace (est_approx (rev (alternate h)) (alternate h)) with (est_approx (rev h) h); [rewrite A; reflexivity|].
    unfold est_approx. rewrite !energy_rev, energy_alt. replace (energy (vsub (rev (alternate h)) (alternate h))) with (energy (vsub (rev h) h)); [reflexivity|].
    apply energy_ext.
    - rewrite !vsub_length by apply rev_length. rewrite !rev_length, alternate_length. reflexivity.
    - rewrite vsub_length, rev_length by apply rev_length. intros k Hk. rewrite !vsub_samp by apply rev_length. rewrite !samp_rev by (rewrite ?alternate_length; exact Hk).
      rewrite alternate_length, !alternate_samp, (alt_rev _ k O Hk).
      transitivity (alt (K := F) k * alt k * ((samp h (length h - 1 - k) - samp h k) * (samp h (length h - 1 - k) - samp h k))); [rewrite alt_sq; ring|ring].
  Qed.
  (** spectral inversion *)
  Lemma is_ok h : type_rif h = 1%Z -> exists g, design_rif_pb2ph_is h = Ok g /\ length g = length h /\
    forall k, samp g k = (if (k =? (length h - 1) / 2)%nat then 1 else 0) - samp h k.
  Proof.
    intros H. destruct (type1_odd h H) as [O _]. assert (L : (0 < length h)%nat) by (destruct h; [discriminate O|cbn; lia]).
    assert (M : ((length h - 1) / 2 < length h)%nat) by (apply Nat.div_lt_upper_bound; lia).
    unfold design_rif_pb2ph_is. rewrite H. cbn [Z.eqb Pos.eqb]. rewrite (vget_ok _ _ (0 : F)) by (unfold vneg; rewrite map_length; exact M). cbn [bind].
    rewrite vset_ok by (unfold vneg; rewrite map_length; exact M). eexists; split; [reflexivity|]. rewrite upd_length. unfold vneg at 1. rewrite map_length. split; [reflexivity|].
    intros k. unfold samp at 1. rewrite nth_upd. fold (samp (vneg h) k). rewrite Nat.eqb_sym. destruct (Nat.eqb_spec k ((length h - 1) / 2)) as [->|N]; cbn [andb].
    - replace (_ <? _)%nat with true by (symmetry; apply Nat.ltb_lt; unfold vneg; rewrite map_length; exact M). change (nth ?i (vneg h) 0) with (samp (vneg h) i). rewrite vneg_samp. ring.
    - rewrite vneg_samp. ring.
  Qed.
End Ordered.

Section Rational.
  Variable K : cfield.
  Add Ring Kr2 : (cth K).
  Add Field Kf2 : (fth K).
  Local Open Scope cring_scope.
  Variable isz : K -> bool.
  Hypothesis Hz : forall v, isz v = true -> v = 0.
  Lemma den_z x : value (f_den (f_z : frat K)) x = 1.
  Proof. apply value_one. Qed.
  Lemma val_z x : fvalue (f_z : frat K) x = x.
  Proof. unfold fvalue. rewrite den_z. cbn [f_num f_z]. rewrite value_z. field. apply (F_1_neq_0 (fth K)). Qed.
  Lemma n10 : (1 : K) <> 0.
  Proof. apply (F_1_neq_0 (fth K)). Qed.
  (** a quadratic z^2 - a z + b built with the operators *)
  Definition quad (a b : K) : frat K := f_addc (f_sub (f_mul f_z f_z) (f_scale f_z a)) b.
  Lemma quad_den a b x : value (f_den (quad a b)) x = 1.
  Proof.
    unfold quad, f_addc, f_sub, f_add, f_mul, f_scale, f_neg. cbn [f_den f_num f_z].
    rewrite !mul_ok by (intros H; discriminate H). rewrite value_one. ring.
  Qed.
  Lemma quad_val a b x : fvalue (quad a b) x = x * x - a * x + b.
  Proof.
    unfold quad. rewrite faddc_ok, fsub_ok, fmul_ok, fscale_ok, !val_z; try (intros H; discriminate H); try (rewrite den_z; exact n10); try ring.
    - cbn [f_den f_mul f_z]. rewrite mul_ok by (intros H; discriminate H). rewrite value_one. replace (1 * 1) with (1 : K) by ring. exact n10.
    - pose proof (quad_den a b x) as Q. unfold quad in Q. cbn [f_addc f_den] in Q. rewrite Q. exact n10.
  Qed.
  Lemma num_of_val (f : frat K) x : value (f_den f) x = 1 -> value (f_num f) x = fvalue f x.
  Proof. intros H. unfold fvalue. rewrite H. field. exact n10. Qed.
  Lemma notch_val c r x : x <> 0 -> x * x - (1 + 1) * r * c * x + r * r <> 0 ->
    fvalue (notch_frat isz c r) x = r * ((x * x - (1 + 1) * c * x + 1) / (x * x - (1 + 1) * r * c * x + r * r)).
  Proof.
    intros Hx H. unfold notch_frat. fold (quad ((1 + 1) * c) 1). fold (quad ((1 + 1) * r * c) (r * r)). rewrite fscale_ok, (fdiv_ok K isz Hz); rewrite ?quad_val.
    - field. exact H.
    - intros E; discriminate E.
    - intros E; discriminate E.
    - exact Hx.
    - rewrite quad_den. exact n10.
    - rewrite quad_den. exact n10.
    - rewrite num_of_val by apply quad_den. rewrite quad_val. exact H.
  Qed.
  Lemma lin_val a x : fvalue (f_subc (f_z : frat K) a) x = x - a.
  Proof. unfold f_subc. rewrite faddc_ok by (rewrite den_z; exact n10). rewrite val_z. ring. Qed.
  Lemma dc_val r x : x <> 0 -> x <> r -> fvalue (dc_frat isz r) x = r * ((x - 1) / (x - r)).
  Proof.
    intros Hx H. assert (N : x - r <> 0) by (intros E; apply H; transitivity (x - r + r); [ring|]; rewrite E; ring).
    unfold dc_frat. rewrite fscale_ok, (fdiv_ok K isz Hz); rewrite ?lin_val.
    - field. exact N.
    - intros E; discriminate E.
    - intros E; discriminate E.
    - exact Hx.
    - change (value (p_one : poly K) x <> 0). rewrite value_one. exact n10.
    - change (value (p_one : poly K) x <> 0). rewrite value_one. exact n10.
    - rewrite num_of_val by (apply (value_one K)). rewrite lin_val. exact N.
  Qed.
  Lemma lexp_val g x : x <> 0 -> x <> 1 - g -> fvalue (lexp_frat isz g) x = g * x / (x - (1 - g)).
  Proof.
    intros Hx H. assert (N : x - (1 - g) <> 0) by (intros E; apply H; transitivity (x - (1 - g) + (1 - g)); [ring|]; rewrite E; ring).
    unfold lexp_frat. rewrite (fdiv_ok K isz Hz); rewrite ?lin_val, ?fscale_ok, ?val_z.
    - field. exact N.
    - intros E; discriminate E.
    - intros E; discriminate E.
    - exact Hx.
    - rewrite den_z. exact n10.
    - change (value (p_one : poly K) x <> 0). rewrite value_one. exact n10.
    - rewrite num_of_val by (apply (value_one K)). rewrite lin_val. exact N.
  Qed.
  (** evaluation at a rational function *)
  Lemma const_val a x : fvalue (f_const a : frat K) x = a.
  Proof. unfold fvalue, f_const. cbn [f_num f_den]. rewrite scale_ok, value_one. field. exact n10. Qed.
  Lemma zinv_val x : x <> 0 -> fvalue (f_zinv : frat K) x = finv x.
  Proof. intros H. unfold fvalue, f_zinv. cbn [f_num f_den]. rewrite value_one, value_z. field. exact H. Qed.
  Definition plain (f : frat K) := p_roots (f_num f) = false /\ p_roots (f_den f) = false.
  Lemma horner_fold x : x <> 0 -> forall t (r : frat K), plain r -> value (f_den r) x <> 0 ->
    let f := fold_left (fun r c => f_add (f_mul r f_zinv) (f_const c)) t r in
    plain f /\ value (f_den f) x <> 0 /\ fvalue f x = fold_left (fun v c => v * finv x + c) t (fvalue r x).
  Proof.
    intros Hx. induction t as [|c t IH]; intros r [P1 P2] D f; [subst f; cbn; repeat split; assumption|]. subst f. cbn [fold_left].
    assert (D1 : value (f_den (f_mul r f_zinv)) x <> 0).
    { cbn [f_mul f_den f_zinv]. rewrite mul_ok by (intros E; rewrite P2 in E; discriminate E). rewrite value_z. apply mul_ne; assumption. }
    assert (DC : value (f_den (f_const c : frat K)) x <> 0) by (cbn [f_const f_den]; rewrite value_one; exact n10).
    assert (M1 : p_roots (f_num (f_mul r f_zinv)) = false) by (cbn [f_mul f_num]; apply mul_mode_coefs; exact P1).
    assert (M2 : p_roots (f_den (f_mul r f_zinv)) = false) by (cbn [f_mul f_den]; apply mul_mode_coefs; exact P2).
    destruct (IH (f_add (f_mul r f_zinv) (f_const c))) as (A & B & E).
    - split; [reflexivity|]. cbn [f_add f_den]. apply mul_mode_coefs. exact M2.
    - cbn [f_add f_den]. rewrite mul_ok by (intros E; rewrite M2 in E; discriminate E). apply mul_ne; assumption.
    - split; [exact A|]. split; [exact B|]. rewrite E. f_equal.
      rewrite fadd_ok, fmul_ok, zinv_val, const_val; try assumption; try reflexivity.
      + intros G. rewrite P1 in G. discriminate G.
      + intros G. rewrite P2 in G. discriminate G.
      + cbn [f_zinv f_den]. rewrite value_z. exact Hx.
      + intros G. rewrite M1 in G. discriminate G.
      + intros G. discriminate G.
      + intros G. rewrite M2 in G. discriminate G.
  Qed.
  Lemma horner_frat_val (a : list K) x : x <> 0 -> let f := p_horner_frat a f_zinv in
    plain f /\ value (f_den f) x <> 0 /\ fvalue f x = transfer a x.
  Proof.
    intros Hx f. rewrite transfer_pval. assert (HH : pval a (finv x) = p_horner (p_of a) (finv x)) by (rewrite horner_ok; reflexivity).
    rewrite HH. unfold p_horner. cbn [p_roots p_of p_coefs]. subst f. unfold p_horner_frat. destruct (rev a) as [|c t].
    - split; [split; reflexivity|]. split; [cbn [f_const f_den]; rewrite value_one; exact n10|apply const_val].
    - destruct (horner_fold x Hx t (f_const c)) as (A & B & E); [split; reflexivity|cbn [f_const f_den]; rewrite value_one; exact n10|].
      split; [exact A|]. split; [exact B|]. rewrite E, const_val. reflexivity.
  Qed.
  Lemma mg_val k x : x <> 0 -> fvalue (design_mg isz k) x = transfer (repeat (1 / cnat k) k) x.
  Proof.
    intros Hx. unfold design_mg. destruct (horner_frat_val (repeat (1 / cnat k) k) x Hx) as ((P1 & P2) & D & E).
    destruct (horner_frat_val [1] x Hx) as ((Q1 & Q2) & D' & E').
    assert (T1 : transfer [1] x = (1 : K)) by (unfold transfer, samp; cbn; ring).
    rewrite (fdiv_ok K isz Hz); try assumption.
    - rewrite E, E', T1. field. exact n10.
    - intros G. rewrite P1 in G. discriminate G.
    - intros G. rewrite P2 in G. discriminate G.
    - intros G. pose proof E' as E2. unfold fvalue in E2. rewrite G, T1 in E2. apply n10. rewrite <- E2. field. exact D'.
  Qed.
End Rational.

Section Phase.
  Variable K : cfield.
  Add Ring Kr3 : (cth K).
  Add Field Kf3 : (fth K).
  Local Open Scope cring_scope.
  Lemma inv_inv (z : K) : z <> 0 -> finv (finv z) = z.
  Proof. intros H. field. split; [exact H|apply (F_1_neq_0 (fth K))]. Qed.
  Lemma sym_rev (h : list K) : symmetric h -> rev h = h.
  Proof.
    intros S. apply (list_ext (0 : K)); [apply rev_length|]. intros i Hi. rewrite rev_length in Hi. change (samp (rev h) i = samp h i). rewrite samp_rev by exact Hi. apply S. exact Hi.
  Qed.
  Lemma antisym_rev (h : list K) : antisymmetric h -> rev h = map (fun v => - v) h.
  Proof.
    intros S. apply (list_ext (0 : K)); [rewrite map_length; apply rev_length|]. intros i Hi. rewrite rev_length in Hi. change (samp (rev h) i = nth i (map (fun v => - v) h) 0).
    rewrite samp_rev by exact Hi. rewrite nth_indep with (d' := - (0 : K)) by (rewrite map_length; exact Hi). rewrite (map_nth (fun v => - v)). apply S. exact Hi.
  Qed.
  Lemma phase_ok (h : list K) z : z <> 0 -> h <> [] ->
    (symmetric h -> transfer h z = cpow (finv z) (length h - 1) * transfer h (finv z)) /\
    (antisymmetric h -> transfer h z = - (cpow (finv z) (length h - 1) * transfer h (finv z))).
  Proof.
    intros Hz Hh. rewrite !transfer_pval, (inv_inv z Hz).
    assert (P : pval (rev h) (finv z) = cpow (finv z) (length h - 1) * pval h z) by (apply rev_pval; [field; exact Hz|exact Hh]).
    split; intros S.
    - rewrite (sym_rev h S) in P. exact P.
    - rewrite (antisym_rev h S), pval_map_neg in P. rewrite <- P. ring.
  Qed.
End Phase.
Section Misc.
  Variable K : cring.
  Add Ring Kr4 : (cth K).
  Local Open Scope cring_scope.
  Lemma sub_mul_distr (a b c : K) : (a - b) * c = a * c - b * c.
  Proof. ring. Qed.
  Lemma mul_0_l (a : K) : 0 * a = 0.
  Proof. ring. Qed.
End Misc.
