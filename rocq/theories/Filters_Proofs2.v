(** Proofs for the real-time filters, continued: moving average, rational
    filter, decimator, re-packetizer, second-order sections. *)
From Verif Require Import Base BaseLemmas Filters_Model Filters_Spec Filters_Proofs.
From Coq Require Import ZifyBool ZifyNat Ring Field.

(** ** Steps that process concatenated blocks like successive blocks *)
Definition additive {St A B} (step : St -> list A -> res (St * list B)) : Prop :=
  (forall s, step s [] = Ok (s, [])) /\
  forall s a b, step s (a ++ b) =
    (let* (s1, y1) := step s a in let* (s2, y2) := step s1 b in Ok (s2, y1 ++ y2)).

Lemma additive_run {St A B} (step : St -> list A -> res (St * list B)) : additive step ->
  forall blocks s, run step s blocks = step s (concat blocks).
Proof.
  intros [H0 H]. induction blocks as [|b bs IH]; intros s; cbn [run concat]; [symmetry; apply H0|].
  rewrite H. destruct (step s b) as [[s1 y1]| | |]; cbn [bind]; try reflexivity.
  rewrite IH. reflexivity.
Qed.

Lemma map_st_additive {St A B} (f : St -> A -> res (St * B)) : additive (map_st f).
Proof. split; [reflexivity|]. intros s a b. apply map_st_app. Qed.

Lemma map_st_keeps {St A B X} (f : St -> A -> res (St * B)) (p : St -> X) :
  (forall s a s' b, f s a = Ok (s', b) -> p s' = p s) ->
  forall l s s' y, map_st f s l = Ok (s', y) -> p s' = p s.
Proof.
  intros Hf. induction l as [|a t IH]; intros s s' y H; cbn [map_st] in H; [injection H as <- _; reflexivity|].
  destruct (f s a) as [[s1 b1]| | |] eqn:E1; cbn [bind] in H; try discriminate.
  destruct (map_st f s1 t) as [[s2 b2]| | |] eqn:E2; cbn [bind] in H; try discriminate.
  injection H as <- _. rewrite (IH _ _ _ E2). exact (Hf _ _ _ _ E1).
Qed.

(** ** Decimator *)
Lemma decim_loop_ok {A} (d : A) x R ny : 0 < R -> forall fuel i y,
  length x - i < fuel -> length y + (length x - i + R - 1) / R <= ny ->
  let m := (length x - i + R - 1) / R in
  decim_loop fuel x R ny (Z.of_nat i) y
  = Ok (Z.of_nat (i + m * R), y ++ map (fun t => nth (i + t * R) x d) (seq 0 m)).
Proof.
  intros HR. induction fuel as [|f IH]; intros i y Hf Hy m; [lia|]. cbn [decim_loop].
  destruct (Z.ltb_spec (Z.of_nat i) (Z.of_nat (length x))) as [Hi|Hi].
  - assert (Hm : m = S ((length x - (i + R) + R - 1) / R)).
    { unfold m. destruct (Nat.le_gt_cases (i + R) (length x)) as [H|H].
      - replace (length x - i + R - 1) with (1 * R + (length x - (i + R) + R - 1)) by lia.
        rewrite Nat.div_add_l by lia. reflexivity.
      - replace (length x - (i + R) + R - 1) with (R - 1) by lia. rewrite (Nat.div_small (R - 1)) by lia.
        replace (length x - i + R - 1) with (1 * R + (length x - i - 1)) by lia.
        rewrite Nat.div_add_l by lia. rewrite Nat.div_small by lia. reflexivity. }
    assert (Hy' : length y + m <= ny) by exact Hy. clear Hy. rewrite Hm in Hy'. clearbody m.
    specialize (IH (i + R)). cbv zeta in IH. set (m' := (length x - (i + R) + R - 1) / R) in *. clearbody m'. destruct (Nat.leb_spec ny (length y)) as [Hny|Hny]; [lia|].
    rewrite (vgetZ_ok x _ d) by lia. rewrite Nat2Z.id. cbn [bind].
    replace (Z.of_nat i + Z.of_nat R)%Z with (Z.of_nat (i + R)) by lia.
    rewrite IH; [|lia|rewrite app_length; cbn [length]; lia].
    rewrite Hm. f_equal. f_equal; [lia|].
    cbn [seq map]. rewrite <- app_assoc. cbn [app]. replace (i + 0 * R) with i by lia. do 2 f_equal.
    rewrite <- seq_shift, map_map. apply map_ext. intros t. f_equal. lia.
  - assert (Hm : m = 0) by (unfold m; replace (length x - i) with 0 by lia; apply Nat.div_small; lia).
    rewrite Hm. cbn [seq map]. rewrite app_nil_r, Nat.add_0_r. reflexivity.
Qed.

Lemma seq_add M m : seq M m = map (fun t => M + t) (seq 0 m).
Proof.
  revert M. induction m as [|m IH]; intros M; [reflexivity|]. cbn [seq map]. f_equal; [lia|].
  rewrite (IH (S M)). rewrite <- seq_shift, map_map. apply map_ext. intros; lia.
Qed.

Lemma every_length {A} R (d : A) l : length (every R d l) = (length l + R - 1) / R.
Proof. unfold every. rewrite map_length, seq_length. reflexivity. Qed.

Lemma ceil_bounds n R : 0 < R -> n <= (n + R - 1) / R * R < n + R.
Proof.
  intros HR. pose proof (Nat.div_mod (n + R - 1) R ltac:(lia)) as D.
  pose proof (Nat.mod_upper_bound (n + R - 1) R ltac:(lia)). nia.
Qed.

Lemma decim_run {A} (d : A) R blocks : 0 < R ->
  exists s, run decim_step (decim_init R) blocks = Ok (s, every R d (concat blocks)).
Proof.
  intros HR.
  destruct (run_hist (decim_step (A := A))
    (fun h s => dc_R s = R /\ dc_cnt s = Z.of_nat ((length h + R - 1) / R * R - length h)) (every R d))
    with (s := decim_init R) (blocks := blocks) as (s & E & _).
  - unfold every. cbn [length]. rewrite Nat.add_0_l. rewrite Nat.div_small by lia. reflexivity.
  - intros h s b (A1 & A2). unfold decim_step. rewrite A1, A2.
    destruct (Z.eqb_spec (Z.of_nat R) 0) as [C|_]; [lia|].
    pose proof (ceil_bounds (length h) R HR) as B. set (M := (length h + R - 1) / R) in *.
    set (cnt := M * R - length h) in *.
    assert (NY : Z.to_nat (Z.quot (Z.of_nat (length b) + Z.of_nat R - 1 - Z.of_nat cnt) (Z.of_nat R))
                 = (length b - cnt + R - 1) / R).
    { rewrite Z.quot_div_nonneg by lia. rewrite Z2Nat.inj_div by lia. rewrite Nat2Z.id.
      destruct (Nat.le_gt_cases cnt (length b)).
      - f_equal. lia.
      - rewrite !Nat.div_small by lia. reflexivity. }
    rewrite NY. rewrite (decim_loop_ok d b R _ HR); [|lia|cbn [length]; lia]. cbn [bind app].
    rewrite map_length, seq_length, Nat.eqb_refl. do 2 eexists. split; [reflexivity|].
    set (m := (length b - cnt + R - 1) / R).
    assert (HM : (length (h ++ b) + R - 1) / R = M + m).
    { rewrite app_length. unfold m. destruct (Nat.le_gt_cases cnt (length b)).
      - replace (length h + length b + R - 1) with (M * R + (length b - cnt + R - 1)) by lia.
        rewrite Nat.div_add_l by lia. reflexivity.
      - rewrite (Nat.div_small (length b - cnt + R - 1)) by lia.
        replace (length h + length b + R - 1) with (M * R + (R - 1 - (cnt - length b))) by lia.
        rewrite Nat.div_add_l by lia. rewrite Nat.div_small by lia. lia. }
    split.
    + cbn [dc_R dc_cnt]. split; [reflexivity|]. rewrite HM.
      pose proof (ceil_bounds (length (h ++ b)) R HR) as B2. rewrite HM in B2. rewrite app_length in *. lia.
    + unfold every. rewrite HM. fold M. rewrite seq_app, map_app. f_equal.
      * apply map_ext_in. intros t Ht. apply in_seq in Ht. apply app_nth1.
        assert (t * R <= (M - 1) * R) by (apply Nat.mul_le_mono_r; lia).
        assert ((M - 1) * R + R = M * R) by (destruct M; [lia|]; cbn [Nat.mul]; rewrite Nat.sub_1_r; cbn [Nat.pred]; lia). lia.
      * rewrite Nat.add_0_l.
        replace (seq M m) with (map (fun t => M + t) (seq 0 m)).
        2:{ symmetry. apply seq_add. }
        rewrite map_map. apply map_ext. intros t. rewrite Nat.mul_add_distr_r. rewrite app_nth2 by lia. f_equal. lia.
  - split; [reflexivity|]. cbn [dc_cnt decim_init length]. rewrite Nat.add_0_l, Nat.div_small by lia. reflexivity.
  - exists s. exact E.
Qed.

Lemma skipn_plus {A} a b (l : list A) : skipn a (skipn b l) = skipn (b + a) l.
Proof.
  revert l. induction b as [|b IH]; intros l; [reflexivity|]. destruct l; cbn [skipn Nat.add]; [apply skipn_nil|apply IH].
Qed.

(** ** Re-packetizer *)
Section Tampon.
Context {A : Type}.
Implicit Types l x w p h b : list A.

Lemma packets_short N l : length l < N -> packets N l = [].
Proof. intros H. unfold packets. rewrite Nat.div_small by exact H. reflexivity. Qed.
Lemma remainder_short N l : length l < N -> remainder N l = l.
Proof. intros H. unfold remainder. rewrite Nat.div_small by exact H. reflexivity. Qed.

Lemma packets_cons N p l : 0 < N -> length p = N -> packets N (p ++ l) = p :: packets N l.
Proof.
  intros HN Hp. unfold packets. rewrite app_length, Hp.
  replace (N + length l) with (1 * N + length l) by lia. rewrite Nat.div_add_l by lia.
  cbn [Nat.add seq map]. f_equal.
  - cbn [Nat.mul skipn]. rewrite firstn_app, Hp, Nat.sub_diag. cbn [firstn]. rewrite app_nil_r.
    rewrite <- Hp. apply firstn_all.
  - rewrite <- seq_shift, map_map. apply map_ext. intros m. f_equal.
    rewrite skipn_app, Hp. rewrite (skipn_all2 p) by (rewrite Hp; cbn [Nat.mul]; lia). cbn [app]. f_equal. cbn [Nat.mul]. lia.
Qed.
Lemma remainder_cons N p l : 0 < N -> length p = N -> remainder N (p ++ l) = remainder N l.
Proof.
  intros HN Hp. unfold remainder. rewrite app_length, Hp.
  replace (N + length l) with (1 * N + length l) by lia. rewrite Nat.div_add_l by lia.
  set (q := length l / N). clearbody q. rewrite skipn_app, Hp, (skipn_all2 p) by (rewrite Hp; lia). cbn [app]. f_equal. lia.
Qed.
Lemma split_ind (N : nat) (P : list A -> Prop) : 0 < N ->
  (forall l, length l < N -> P l) ->
  (forall p l, length p = N -> P l -> P (p ++ l)) -> forall l, P l.
Proof.
  intros HN H1 H2 l. remember (length l) as n eqn:E. revert l E.
  induction n as [n IH] using lt_wf_ind. intros l E. destruct (Nat.lt_ge_cases n N) as [H|H].
  - apply H1. lia.
  - rewrite <- (firstn_skipn N l). apply H2; [rewrite firstn_length; lia|].
    apply (IH (n - N)); [lia|]. rewrite skipn_length. lia.
Qed.
Lemma packets_app N h b : 0 < N -> packets N (h ++ b) = packets N h ++ packets N (remainder N h ++ b).
Proof.
  intros HN. revert h. apply (split_ind N); [exact HN| |].
  - intros l Hl. rewrite (packets_short N l), (remainder_short N l) by exact Hl. reflexivity.
  - intros p l Hp IH. rewrite <- app_assoc, packets_cons, (packets_cons N p l), remainder_cons, IH by assumption. reflexivity.
Qed.
Lemma remainder_app N h b : 0 < N -> remainder N (h ++ b) = remainder N (remainder N h ++ b).
Proof.
  intros HN. revert h. apply (split_ind N); [exact HN| |].
  - intros l Hl. rewrite (remainder_short N l) by exact Hl. reflexivity.
  - intros p l Hp IH. rewrite <- app_assoc, remainder_cons, (remainder_cons N p l), IH by assumption. reflexivity.
Qed.
Lemma remainder_lt N l : 0 < N -> length (remainder N l) < N.
Proof.
  intros HN. revert l. apply (split_ind N); [exact HN| |].
  - intros l Hl. rewrite remainder_short by exact Hl. exact Hl.
  - intros p l Hp IH. rewrite remainder_cons by assumption. exact IH.
Qed.
Lemma packets_remainder N l : 0 < N -> concat (packets N l) ++ remainder N l = l.
Proof.
  intros HN. revert l. apply (split_ind N); [exact HN| |].
  - intros l Hl. rewrite packets_short, remainder_short by exact Hl. reflexivity.
  - intros p l Hp IH. rewrite packets_cons, remainder_cons by assumption. cbn [concat].
    rewrite <- app_assoc, IH. reflexivity.
Qed.
Lemma packets_all N l p : 0 < N -> In p (packets N l) -> length p = N.
Proof.
  intros HN H. unfold packets in H. apply in_map_iff in H. destruct H as (m & <- & Hm). apply in_seq in Hm.
  rewrite firstn_length, skipn_length. pose proof (Nat.div_mod (length l) N ltac:(lia)). nia.
Qed.

Definition tinv N w (s : tampon A) := tp_N s = N /\ tp_windex s = length w /\ length w < N /\
  length (tp_buf s) = N /\ firstn (length w) (tp_buf s) = w.

Lemma tampon_loop_ok N x : 0 < N -> forall fuel s w i cb, tinv N w s -> i <= length x -> length x - i < fuel ->
  exists s', tampon_loop fuel s x i cb = Ok (s', cb ++ packets N (w ++ skipn i x)) /\
             tinv N (remainder N (w ++ skipn i x)) s'.
Proof.
  intros HN. induction fuel as [|f IH]; intros s w i cb HI Hi Hf; [lia|]. cbn [tampon_loop].
  pose proof HI as (T1 & T2 & T3 & T4 & T5).
  destruct (Nat.ltb_spec i (length x)) as [H|H].
  - rewrite T1, T2. cbv zeta.
    destruct (Nat.leb_spec N (length w + length x - i)) as [Hn|Hn].
    + rewrite Nat.eqb_refl. set (q := N - length w).
      unfold seg. destruct (Nat.leb_spec (i + q) (length x)); [|lia]. cbn [bind].
      assert (Lv : length (firstn q (skipn i x)) = q) by (rewrite firstn_length, skipn_length; lia).
      unfold set_seg. rewrite Lv, T4. destruct (Nat.leb_spec (length w + q) N); [|lia]. cbn [bind].
      rewrite T5. rewrite (skipn_all2 (tp_buf s)) by lia. rewrite app_nil_r.
      set (p := w ++ firstn q (skipn i x)).
      assert (Lp : length p = N) by (unfold p; rewrite app_length; lia).
      assert (EX : w ++ skipn i x = p ++ skipn (i + q) x).
      { unfold p. rewrite <- app_assoc. f_equal. rewrite <- (firstn_skipn q (skipn i x)) at 1. f_equal.
        rewrite skipn_plus. f_equal. }
      rewrite EX, packets_cons, remainder_cons by assumption.
      destruct (IH (mktampon N 0 p) [] (i + q) (cb ++ [p])) as (s' & E & I').
      * unfold tinv. cbn. repeat split; lia || exact Lp.
      * lia.
      * lia.
      * exists s'. rewrite E. cbn [app] in *. rewrite <- app_assoc. split; [reflexivity|exact I'].
    + destruct (Nat.eqb_spec (length w + length x - i) N) as [C|_]; [lia|].
      replace (length w + length x - i - length w) with (length x - i) by lia.
      unfold seg. destruct (Nat.leb_spec (i + (length x - i)) (length x)); [|lia]. cbn [bind].
      rewrite (firstn_all2 (skipn i x)) by (rewrite skipn_length; lia).
      unfold set_seg. rewrite skipn_length, T4. destruct (Nat.leb_spec (length w + (length x - i)) N); [|lia]. cbn [bind].
      rewrite T5. replace (i + (length x - i)) with (length x) by lia.
      set (w' := w ++ skipn i x).
      assert (Lw : length w' = length w + length x - i) by (unfold w'; rewrite app_length, skipn_length; lia).
      match goal with |- exists _, tampon_loop f ?st x (length x) cb = _ /\ _ =>
        destruct (IH st w' (length x) cb) as (s' & E & I') end.
      * unfold tinv. cbn [tp_N tp_windex tp_buf]. split; [reflexivity|]. split; [lia|]. split; [lia|]. split.
        -- rewrite !app_length, !skipn_length. lia.
        -- rewrite app_assoc. fold w'. rewrite firstn_app, Nat.sub_diag. cbn [firstn]. rewrite app_nil_r. apply firstn_all.
      * lia.
      * lia.
      * exists s'. rewrite E. rewrite skipn_all in *. rewrite app_nil_r in *. split; [reflexivity|exact I'].
  - exists s. rewrite (skipn_all2 x) by lia. rewrite app_nil_r, packets_short, remainder_short by exact T3.
    rewrite app_nil_r. split; [reflexivity|]. exact HI.
Qed.

Definition tampon_call (junk : A) (s : tampon A) (x : list A) := tampon_step junk (S (length x)) s x.

Definition tampI N (h : list A) (s : tampon A) := (tinv N (remainder N h) s) \/ (s = mktampon N 0 [] /\ remainder N h = []).
Lemma tampI_init N : 0 < N -> tampI N [] (tampon_init N).
Proof. intros HN. right. split; [reflexivity|]. apply remainder_short. exact HN. Qed.
Lemma tampon_call_ok junk N h s b : 0 < N -> tampI N h s ->
  exists s' y, tampon_call junk s b = Ok (s', y) /\ tampI N (h ++ b) s' /\ packets N (h ++ b) = packets N h ++ y.
Proof.
  intros HN HI. unfold tampI in *. unfold tampon_call, tampon_step.
  destruct ((tp_windex s =? 0) && (length b =? tp_N s)) eqn:EC.
  + apply andb_true_iff in EC. destruct EC as [E1 E2]. apply Nat.eqb_eq in E1, E2.
    assert (R0 : remainder N h = [] /\ tp_N s = N).
    { destruct HI as [(T1 & T2 & _)|(-> & T)]; [|auto]. split; [|exact T1].
      destruct (remainder N h); [reflexivity|simpl in T2; lia]. }
    destruct R0 as [R0 RN]. exists s, [b]. split; [reflexivity|].
    rewrite packets_app, remainder_app, R0 by exact HN. cbn [app].
    replace (packets N b) with [b].
    2:{ rewrite <- (app_nil_r b) at 2. rewrite packets_cons, packets_short by (cbn [length]; lia). reflexivity. }
    replace (remainder N b) with (@nil A).
    2:{ rewrite <- (app_nil_r b). rewrite remainder_cons, remainder_short by (cbn [length]; lia). reflexivity. }
    split; [|reflexivity]. rewrite R0 in HI. exact HI.
  + clear EC.
    assert (HI' : tinv N (remainder N h)
      (if (length (tp_buf s) =? 0) && (0 <? tp_N s) then mktampon (tp_N s) (tp_windex s) (repeat junk (tp_N s)) else s)).
    { destruct HI as [HI|(-> & ->)].
      - pose proof HI as (T1 & T2 & T3 & T4 & T5). destruct (Nat.eqb_spec (length (tp_buf s)) 0); [lia|]. exact HI.
      - cbn [tp_buf tp_N tp_windex length]. destruct (Nat.ltb_spec 0 N); [|lia]. cbn [Nat.eqb andb].
        unfold tinv. cbn. repeat split; try lia. apply repeat_length. }
    destruct (tampon_loop_ok N b HN (S (length b)) _ _ 0 [] HI') as (s' & E' & I'); [lia|lia|].
    exists s', (packets N (remainder N h ++ b)). cbn [skipn app] in *. split; [exact E'|].
    split; [left; rewrite remainder_app by exact HN; exact I'|]. apply packets_app. exact HN.
Qed.
Lemma tampon_run junk N blocks : 0 < N ->
  exists s, run (tampon_call junk) (tampon_init N) blocks = Ok (s, packets N (concat blocks)) /\
    tp_windex s = length (remainder N (concat blocks)) /\
    firstn (tp_windex s) (tp_buf s) = remainder N (concat blocks).
Proof.
  intros HN.
  destruct (run_hist (tampon_call junk)
    (tampI N) (packets N))
    with (s := tampon_init (A := A) N) (blocks := blocks) as (s & E & I).
  - apply packets_short. exact HN.
  - intros h s b HI. apply tampon_call_ok; assumption.
  - apply tampI_init. exact HN.
  - exists s. split; [exact E|]. destruct I as [(T1 & T2 & T3 & T4 & T5)|(-> & ->)].
    + split; [exact T2|]. rewrite T2. exact T5.
    + split; reflexivity.
Qed.

Lemma tampon_zero_diverges junk x : x <> [] -> forall fuel, tampon_step junk fuel (tampon_init (A := A) 0) x = Diverge.
Proof.
  intros Hx fuel. unfold tampon_step. cbn [tp_windex tp_N tp_buf tampon_init].
  destruct x as [|a t]; [congruence|]. cbn [length Nat.eqb andb Nat.ltb Nat.leb].
  assert (G : forall fuel cb, tampon_loop fuel (mktampon 0 0 []) (a :: t) 0 cb = Diverge).
  { induction fuel0 as [|f IH]; intros cb; [reflexivity|]. cbn [tampon_loop length tp_N tp_windex tp_buf].
    destruct (Nat.ltb_spec 0 (S (length t))); [|lia]. cbn. apply IH. }
  apply G.
Qed.
End Tampon.

(** ** Field part *)
Section Field1.
Variable K : cfield.
Add Ring Kr : (cth K).
Add Field Kf : (fth K).
Local Open Scope cring_scope.
Local Open Scope nat_scope.

Lemma mg_run k (blocks : list (list K)) : 0 < k ->
  exists s y, run mg_step (mg_init k) blocks = Ok (s, y) /\
    length y = length (concat blocks) /\
    forall n, n < length y -> samp y n =
      fdiv (sum k (fun i => sampZ (concat blocks) (Z.of_nat n - Z.of_nat i))) (cnat k).
Proof.
  intros Hk.
  assert (E0 : forall blocks (s : mg K) h, mg_inv_ K k (fdiv c1 (cnat k)) h s ->
     run mg_step s blocks = run (map_st mg_sample) s blocks).
  { induction blocks0 as [|b bs IH]; intros s h HI; [reflexivity|]. cbn [run].
    assert (D : mg_step s b = map_st mg_sample s b).
    { unfold mg_step. destruct HI as ((L & _) & _). rewrite L. destruct (Nat.eqb_spec k 0); [lia|reflexivity]. }
    rewrite D.
    assert (P : forall l h (s : mg K), mg_inv_ K k (fdiv c1 (cnat k)) h s -> exists s' y, map_st mg_sample s l = Ok (s', y) /\ mg_inv_ K k (fdiv c1 (cnat k)) (h ++ l) s').
    { induction l as [|a t IHl]; intros h0 s0 H0; cbn [map_st].
      - exists s0, []. rewrite app_nil_r. auto.
      - destruct (mg_sample_ok K k (fdiv c1 (cnat k)) h0 s0 a Hk H0) as (s1 & E1 & I1). rewrite E1. cbn [bind].
        destruct (IHl _ _ I1) as (s2 & y2 & E2 & I2). rewrite E2. cbn [bind]. do 2 eexists. split; [reflexivity|].
        rewrite <- app_assoc in I2. exact I2. }
    destruct (P b h s HI) as (s1 & y1 & E1 & I1). rewrite E1. cbn [bind]. rewrite (IH _ _ I1). reflexivity. }
  assert (I0 : mg_inv_ K k (fdiv c1 (cnat k)) [] (mg_init k)).
  { split; [apply hwin_init; exact Hk|]. split; [reflexivity|]. cbn [mg_acc mg_init]. symmetry. apply sum_zero.
    intros i Hi. apply past_nil. exact Hi. }
  rewrite (E0 _ _ [] I0), run_map_st.
  destruct (map_st_hist (mg_sample (K := K)) (mg_inv_ K k (fdiv c1 (cnat k)))
     (fun h a => cmul (sum k (fun i => sampZ (h ++ [a]) (Z.of_nat (length h) - Z.of_nat i))) (fdiv c1 (cnat k))) (c0 : K) (c0 : K))
    with (s := mg_init (K := K) k) (l := concat blocks) as (s & y & E & _ & L & N).
  - intros h s a HI. apply mg_sample_ok; assumption.
  - exact I0.
  - exists s, y. split; [exact E|]. split; [exact L|]. intros n Hn. unfold samp. rewrite N by lia.
    rewrite (Fdiv_def (fth K)), (Fdiv_def (fth K) (sum _ _)).
    replace (cmul c1 (finv (cnat k))) with (finv (cnat (K:=K) k)) by ring. f_equal.
    apply sum_ext. intros i Hi. rewrite <- firstn_S_nth by lia. rewrite firstn_length.
    replace (Nat.min n (length (concat blocks))) with n by lia. apply sampZ_firstn. lia.
Qed.

(** Rational filter. *)
Lemma conv_app (c x y : list K) n : n < length x -> conv c (x ++ y) n = conv c x n.
Proof. intros H. unfold conv. apply sum_ext. intros k _. f_equal. apply sampZ_app_l. lia. Qed.

Definition ninv (num hx : list K) (s : iir K) :=
  ii_num s = num /\ HWin K (length num) (ii_wndx s) (ii_index s) hx.
Definition dinv (den yh : list K) (s : iir K) :=
  ii_den s = den /\
  Win (c0 : K) (length den - 1) (ii_wndy s) (ii_indexy s)
    (fun i => sampZ yh (Z.of_nat (length yh) - 1 - Z.of_nat i)).

Lemma num_sample_ok num hx s a : 0 < length num -> ninv num hx s ->
  exists s', iir_num_sample s a = Ok (s', conv num (hx ++ [a]) (length hx)) /\ ninv num (hx ++ [a]) s' /\
    ii_den s' = ii_den s /\ ii_wndy s' = ii_wndy s /\ ii_indexy s' = ii_indexy s.
Proof.
  intros Hc (A1 & W). pose proof W as (L & I & G). unfold iir_num_sample. rewrite vset_ok by lia. cbn [bind].
  rewrite A1, imod_ok by lia. cbn [bind]. pose proof (hwin_push K _ _ _ _ a W) as W'.
  rewrite (circ_dot_ok K _ _ _ _ W'). cbn [bind]. rewrite conv_past. eexists. split; [reflexivity|].
  split; [split; [reflexivity|exact W']|]. auto.
Qed.

Lemma num_map num : 0 < length num -> forall b hx s, ninv num hx s ->
  exists s' v, map_st iir_num_sample s b = Ok (s', v) /\ ninv num (hx ++ b) s' /\
    ii_den s' = ii_den s /\ ii_wndy s' = ii_wndy s /\ ii_indexy s' = ii_indexy s /\
    length v = length b /\ forall n, n < length b -> samp v n = conv num (hx ++ b) (length hx + n).
Proof.
  intros Hc. induction b as [|a t IH]; intros hx s HI; cbn [map_st].
  - exists s, []. rewrite app_nil_r. split; [reflexivity|]. split; [exact HI|].
    do 4 (split; [reflexivity|]). cbn [length]. lia.
  - destruct (num_sample_ok num hx s a Hc HI) as (s1 & E1 & I1 & B1 & B2 & B3). rewrite E1. cbn [bind].
    destruct (IH _ _ I1) as (s2 & v & E2 & I2 & C1 & C2 & C3 & L & N). rewrite E2. cbn [bind].
    do 2 eexists. split; [reflexivity|]. rewrite <- app_assoc in I2. split; [exact I2|].
    split; [congruence|]. split; [congruence|]. split; [congruence|]. split; [simpl; congruence|].
    intros [|n] Hn.
    + rewrite Nat.add_0_r. change (a :: t) with ([a] ++ t). rewrite app_assoc.
      rewrite (conv_app num (hx ++ [a]) t) by (rewrite app_length; cbn [length]; lia). reflexivity.
    + match goal with |- samp (?q :: v) (S n) = _ => change (samp (q :: v) (S n)) with (samp v n) end.
      rewrite N by (simpl in Hn; lia). rewrite <- app_assoc, app_length. cbn [app length]. f_equal. lia.
Qed.

Lemma loop_sub n (F : nat -> res K) (f : nat -> K) (s0 : K) : (forall i, i < n -> F i = Ok (f i)) ->
  loop n (fun i s => let* v := F i in Ok (csub s v)) s0 = Ok (csub s0 (sum n f)).
Proof.
  induction n as [|n IH]; intros H; [simpl; f_equal; ring|].
  rewrite loop_S, IH by (intros; apply H; lia). cbn [bind]. rewrite H by lia. cbn [bind sum]. f_equal. ring.
Qed.

Lemma den_sample_ok den yh s v : 2 <= length den -> samp den 0 <> c0 -> dinv den yh s ->
  exists s' y, iir_den_sample s v = Ok (s', y) /\ dinv den (yh ++ [y]) s' /\
    ii_num s' = ii_num s /\ ii_wndx s' = ii_wndx s /\ ii_index s' = ii_index s /\
    conv den (yh ++ [y]) (length yh) = v.
Proof.
  intros Hd H0 (A1 & W). pose proof W as (L & I & G). unfold iir_den_sample. rewrite A1.
  set (ky := length den - 1) in *. set (k1 := ky - ii_indexy s). set (k2 := ky - k1).
  set (g := fun i => sampZ yh (Z.of_nat (length yh) - 1 - Z.of_nat i)) in *.
  assert (G' : forall i, i < ky -> nth ((ii_indexy s + i) mod ky) (ii_wndy s) c0 = g i) by exact G.
  assert (E1 : forall s0, loop k1 (fun i a => let* w := pget (ii_wndy s) (ii_indexy s + i) in
      let* d := pget den (1 + i) in Ok (csub a (cmul w d))) s0
      = Ok (csub s0 (sum k1 (fun i => cmul (g i) (samp den (1 + i)))))).
  { intros s0. rewrite <- (loop_sub k1 (fun i => let* w := pget (ii_wndy s) (ii_indexy s + i) in
      let* d := pget den (1 + i) in Ok (cmul w d))).
    - generalize k1 as q. clear. induction q as [|m IH]; [reflexivity|]. rewrite !loop_S, IH.
      match goal with |- bind ?q _ = bind ?q _ => destruct q; cbn [bind]; [|reflexivity..] end.
      destruct (pget (ii_wndy s) (ii_indexy s + m)); cbn [bind]; try reflexivity.
      destruct (pget den (1 + m)); cbn [bind]; reflexivity.
    - intros i Hi1. rewrite (pget_ok _ _ (c0 : K)) by lia. cbn [bind].
      rewrite (pget_ok _ _ (c0 : K)) by lia. cbn [bind]. rewrite <- G' by lia.
      rewrite Nat.mod_small by lia. reflexivity. }
  assert (E2 : forall s0, loop k2 (fun i a => let* w := pget (ii_wndy s) i in
      let* d := pget den (1 + k1 + i) in Ok (csub a (cmul w d))) s0
      = Ok (csub s0 (sum k2 (fun i => cmul (g (k1 + i)) (samp den (1 + (k1 + i))))))).
  { intros s0. rewrite <- (loop_sub k2 (fun i => let* w := pget (ii_wndy s) i in
      let* d := pget den (1 + k1 + i) in Ok (cmul w d))).
    - generalize k2 as q. clear. induction q as [|m IH]; [reflexivity|]. rewrite !loop_S, IH.
      match goal with |- bind ?q _ = bind ?q _ => destruct q; cbn [bind]; [|reflexivity..] end.
      destruct (pget (ii_wndy s) m); cbn [bind]; try reflexivity.
      destruct (pget den (1 + k1 + m)); cbn [bind]; reflexivity.
    - intros i Hi1. rewrite (pget_ok _ _ (c0 : K)) by lia. cbn [bind].
      rewrite (pget_ok _ _ (c0 : K)) by lia. cbn [bind]. rewrite <- G' by lia.
      rewrite mod_lt2 by lia. destruct (Nat.ltb_spec (ii_indexy s + (k1 + i)) ky); [lia|].
      unfold samp. do 2 f_equal; f_equal; lia. }
  cbv zeta. rewrite E1. cbn [bind]. rewrite E2. cbn [bind]. rewrite (vget_ok den 0 (c0 : K)) by lia. cbn [bind].
  rewrite imod_ok by lia. cbn [bind]. fold ky in L. pose proof (Nat.mod_upper_bound (ii_indexy s + ky - 1) ky ltac:(lia)).
  rewrite vset_ok by lia. cbn [bind].
  match goal with |- context [fdiv ?p ?q] => set (y := fdiv p q) end.
  exists (mkiir (ii_num s) den (ii_wndx s) (ii_index s) (upd (ii_wndy s) ((ii_indexy s + ky - 1) mod ky) y) ((ii_indexy s + ky - 1) mod ky)), y.
  split; [reflexivity|]. cbn [ii_num ii_wndx ii_index]. split; [|do 3 (split; [reflexivity|])].
  - split; [reflexivity|]. cbn [ii_wndy ii_indexy]. fold ky.
    eapply win_ext; [|apply (win_cons (c0 : K)); exact W]. intros i Hi. cbv beta.
    rewrite sampZ_snoc, app_length. cbn [length].
    destruct (Nat.eqb_spec i 0), (Z.eqb_spec (Z.of_nat (length yh + 1) - 1 - Z.of_nat i) (Z.of_nat (length yh))); try lia; [reflexivity|].
    unfold g. f_equal. lia.
  - unfold conv. replace (length den) with (S ky) by lia. rewrite sum_S_l.
    rewrite (sum_ext _ ky _ (fun i => cmul (g i) (samp den (1 + i)))).
    + rewrite sampZ_snoc. destruct (Z.eqb_spec (Z.of_nat (length yh) - Z.of_nat 0) (Z.of_nat (length yh))); [|lia].
      replace ky with (k1 + k2) by lia. rewrite sum_split. unfold y. change (nth 0 den c0) with (samp den 0).
      field. exact H0.
    + intros i Hi. rewrite sampZ_snoc. destruct (Z.eqb_spec (Z.of_nat (length yh) - Z.of_nat (S i)) (Z.of_nat (length yh))); [lia|].
      unfold g. replace (Z.of_nat (length yh) - Z.of_nat (S i))%Z with (Z.of_nat (length yh) - 1 - Z.of_nat i)%Z by lia.
      cbn [Nat.add]. ring.
Qed.

Lemma den_map den : 2 <= length den -> samp den 0 <> c0 -> forall v yh s, dinv den yh s ->
  exists s' y, map_st iir_den_sample s v = Ok (s', y) /\ dinv den (yh ++ y) s' /\
    ii_num s' = ii_num s /\ ii_wndx s' = ii_wndx s /\ ii_index s' = ii_index s /\
    length y = length v /\ forall n, n < length v -> conv den (yh ++ y) (length yh + n) = samp v n.
Proof.
  intros Hd H0. induction v as [|a t IH]; intros yh s HI; cbn [map_st].
  - exists s, []. rewrite app_nil_r. split; [reflexivity|]. split; [exact HI|].
    do 4 (split; [reflexivity|]). cbn [length]. lia.
  - destruct (den_sample_ok den yh s a Hd H0 HI) as (s1 & y1 & E1 & I1 & B1 & B2 & B3 & C). rewrite E1. cbn [bind].
    destruct (IH _ _ I1) as (s2 & y & E2 & I2 & C1 & C2 & C3 & L & N). rewrite E2. cbn [bind].
    exists s2, (y1 :: y). split; [reflexivity|]. rewrite <- app_assoc in I2. split; [exact I2|].
    split; [congruence|]. split; [congruence|]. split; [congruence|]. split; [simpl; congruence|].
    intros [|n] Hn.
    + rewrite Nat.add_0_r. change (y1 :: y) with ([y1] ++ y). rewrite app_assoc.
      rewrite (conv_app den (yh ++ [y1]) y) by (rewrite app_length; cbn [length]; lia). exact C.
    + change (samp (a :: t) (S n)) with (samp t n). rewrite <- N by (simpl in Hn; lia).
      rewrite <- app_assoc, app_length. cbn [app length]. f_equal. lia.
Qed.

Lemma iir_run num den (blocks : list (list K)) : 0 < length num -> 2 <= length den -> samp den 0 <> c0 ->
  exists s y, run iir_step (iir_init num den) blocks = Ok (s, y) /\
    diff_eq num den (concat blocks) y.
Proof.
  intros Hn Hd H0.
  assert (G : forall blocks hx yh s, length hx = length yh -> ninv num hx s -> dinv den yh s ->
    exists s' y, run iir_step s blocks = Ok (s', y) /\ length y = length (concat blocks) /\
      forall n, n < length y -> conv den (yh ++ y) (length yh + n) = conv num (hx ++ concat blocks) (length hx + n)).
  { induction blocks0 as [|b bs IH]; intros hx yh s Hl NI DI; cbn [run concat].
    - exists s, []. split; [reflexivity|]. split; [reflexivity|]. cbn [length]. lia.
    - unfold iir_step at 1. destruct (num_map num Hn b hx s NI) as (s1 & v & E1 & I1 & B1 & B2 & B3 & L1 & N1).
      rewrite E1. cbn [bind]. assert (DI1 : dinv den yh s1) by (destruct DI as (D1 & D2); split; [congruence|]; rewrite B2, B3; exact D2).
      destruct (den_map den Hd H0 v yh s1 DI1) as (s2 & y1 & E2 & I2 & C1 & C2 & C3 & L2 & N2).
      rewrite E2. cbn [bind].
      assert (NI2 : ninv num (hx ++ b) s2) by (destruct I1 as (D1 & D2); split; [congruence|]; rewrite C2, C3; exact D2).
      destruct (IH (hx ++ b) (yh ++ y1) s2) as (s3 & y2 & E3 & L3 & N3); [rewrite !app_length; lia|exact NI2|exact I2|].
      rewrite E3. cbn [bind]. exists s3, (y1 ++ y2). split; [reflexivity|]. split; [rewrite !app_length; lia|].
      intros n Hn'. rewrite app_length in Hn'. destruct (Nat.lt_ge_cases n (length y1)) as [H|H].
      + rewrite !app_assoc. rewrite (conv_app den (yh ++ y1)), (conv_app num (hx ++ b)) by (rewrite app_length; lia).
        rewrite N2 by lia. apply N1. lia.
      + specialize (N3 (n - length y1) ltac:(lia)). rewrite <- !app_assoc, !app_length in N3.
        replace (length yh + length y1 + (n - length y1)) with (length yh + n) in N3 by lia.
        replace (length hx + length b + (n - length y1)) with (length hx + n) in N3 by lia. exact N3. }
  destruct (G blocks [] [] (iir_init num den)) as (s & y & E & L & N).
  - reflexivity.
  - split; [reflexivity|]. apply hwin_init. exact Hn.
  - split; [reflexivity|]. cbn [ii_wndy ii_indexy iir_init]. eapply win_ext; [|apply (win_init (c0 : K)); lia].
    intros i Hi. symmetry. apply sampZ_neg. cbn [length]. lia.
  - exists s, y. split; [exact E|]. split; [exact L|]. intros n Hn'. cbn [app length Nat.add] in N. apply N. lia.
Qed.

Lemma diff_eq_unique (b a x y y' : list K) : a <> [] -> samp a 0 <> c0 -> diff_eq b a x y -> diff_eq b a x y' -> y = y'.
Proof.
  intros Ha H0 (L & E) (L' & E'). apply (list_ext (c0 : K)); [lia|]. intros i. 
  induction i as [i IH] using lt_wf_ind. intros Hi.
  assert (EQ : conv a y i = conv a y' i) by (rewrite E, E' by lia; reflexivity).
  unfold conv in EQ. destruct (length a) as [|m] eqn:La; [destruct a; [congruence|discriminate]|].
  rewrite !sum_S_l in EQ.
  rewrite (sum_ext _ m (fun i0 => cmul (samp a (S i0)) (sampZ y (Z.of_nat i - Z.of_nat (S i0))))
             (fun i0 => cmul (samp a (S i0)) (sampZ y' (Z.of_nat i - Z.of_nat (S i0))))) in EQ.
  - replace (Z.of_nat i - Z.of_nat 0)%Z with (Z.of_nat i) in EQ by lia. rewrite !sampZ_nat in EQ.
    change (nth i y c0) with (samp y i). change (nth i y' c0) with (samp y' i).
    set (S0 := sum m _) in EQ.
    assert (EQ2 : cmul (samp a 0) (samp y i) = cmul (samp a 0) (samp y' i)).
    { replace (cmul (samp a 0) (samp y i)) with (csub (cadd (cmul (samp a 0) (samp y i)) S0) S0) by ring.
      rewrite EQ. ring. }
    replace (samp y i) with (fdiv (cmul (samp a 0) (samp y i)) (samp a 0)) by (field; exact H0).
    rewrite EQ2. field. exact H0.
  - intros k Hk. f_equal. destruct (Z.ltb_spec (Z.of_nat i - Z.of_nat (S k)) 0) as [C|C].
    + rewrite !sampZ_neg by lia. reflexivity.
    + replace (Z.of_nat i - Z.of_nat (S k))%Z with (Z.of_nat (i - S k)) by lia. rewrite !sampZ_nat. apply IH; lia.
Qed.

(** A constant denominator: the index of the empty output window is reduced modulo 0. *)
Lemma iir_const_den num (d0 : K) b t blocks : 0 < length num ->
  run iir_step (iir_init num [d0]) ((b :: t) :: blocks) = UB.
Proof.
  intros Hn. cbn [run]. unfold iir_step at 1.
  destruct (num_map num Hn (b :: t) [] (iir_init num [d0])) as (s1 & v & E1 & I1 & B1 & B2 & B3 & L1 & N1).
  { split; [reflexivity|]. apply hwin_init. exact Hn. }
  rewrite E1. cbn [bind]. destruct v as [|v0 vt]; [discriminate|]. cbn [map_st].
  unfold iir_den_sample at 1. rewrite B1, B2, B3. reflexivity.
Qed.
End Field1.
