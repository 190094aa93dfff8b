(** Proofs for the decimating / oversampling FIR filters. *)
From Verif Require Import Base BaseLemmas Filters_Model Filters_Spec Filters_Proofs Filters_Proofs2 Polyphase_Model Polyphase_Spec.
From Coq Require Import ZifyBool ZifyNat Ring.

Lemma flat_st_hist {St A B} (f : St -> A -> res (St * list B)) (I : list A -> St -> Prop) (OUT : list A -> list B) :
  (forall h s a, I h s -> exists s' o, f s a = Ok (s', o) /\ I (h ++ [a]) s' /\ OUT (h ++ [a]) = OUT h ++ o) ->
  forall l h s, I h s -> exists s' o, flat_st f s l = Ok (s', o) /\ I (h ++ l) s' /\ OUT (h ++ l) = OUT h ++ o.
Proof.
  intros H. induction l as [|a t IH]; intros h s HI; cbn [flat_st].
  - exists s, []. rewrite !app_nil_r. auto.
  - destruct (H h s a HI) as (s1 & o1 & E1 & I1 & O1). rewrite E1. cbn [bind].
    destruct (IH _ _ I1) as (s2 & o2 & E2 & I2 & O2). rewrite E2. cbn [bind].
    rewrite <- app_assoc in I2, O2. cbn [app] in I2, O2.
    do 2 eexists. split; [reflexivity|]. split; [exact I2|]. rewrite O2, O1, app_assoc. reflexivity.
Qed.

Section Poly.
Variable K : cring.
Add Ring Kp : (cth K).

(** Values of the samples [k] taps back, from the oldest. *)
Lemma past_sampZ k h i : past K k h i = sampZ h (Z.of_nat (length h) - Z.of_nat k + Z.of_nat i).
Proof. reflexivity. Qed.

Lemma loop_sum2 n (F G : nat -> res K) f g s0 :
  (forall i, i < n -> F i = Ok (f i)) -> (forall i, i < n -> G i = Ok (g i)) ->
  loop n (fun i s => let* a := F i in let* b := G i in Ok (cadd s (cmul a b))) s0
  = Ok (cadd s0 (sum n (fun i => cmul (f i) (g i)))).
Proof.
  induction n as [|n IH]; intros HF HG; [simpl; f_equal; ring|].
  rewrite loop_S, IH; [|intros; apply HF; lia|intros; apply HG; lia]. cbn [bind].
  rewrite HF, HG by lia. cbn [bind sum]. f_equal. ring.
Qed.

(** A dot product of the window and the coefficients, given by a function of
    the window seen from its oldest sample. *)
Definition dot_spec (dot : list K -> list K -> nat -> res K) (c : list K) (v : (nat -> K) -> K) : Prop :=
  (forall fen idx g, Win (c0 : K) (length c) fen idx g -> dot fen c idx = Ok (v g)) /\
  (forall g g', (forall i, i < length c -> g i = g' i) -> v g = v g').

Lemma corr_dot_ok (c : list K) : dot_spec corr_dot c (fun g => sum (length c) (fun k => cmul (samp c k) (g k))).
Proof.
  split.
  - intros fen idx g (L & Hi & G). unfold corr_dot. set (k := length c) in *.
    set (k1 := k - idx). set (k2 := k - k1).
    rewrite (loop_sum2 k1 _ _ (fun i => g i) (fun i => samp c i)).
    + cbn [bind]. rewrite (loop_sum2 k2 _ _ (fun i => g (k1 + i)) (fun i => samp c (k1 + i))).
      * f_equal. replace (sum k) with (sum (K := K) (k1 + k2)) by (f_equal; lia). rewrite sum_split.
        transitivity (cadd (sum k1 (fun i => cmul (g i) (samp c i))) (sum k2 (fun i => cmul (g (k1 + i)) (samp c (k1 + i))))); [ring|].
        f_equal; apply sum_ext; intros; ring.
      * intros i Hk. rewrite (pget_ok _ _ (c0 : K)) by lia. rewrite <- G by lia. rewrite mod_lt2 by lia.
        destruct (Nat.ltb_spec (idx + (k1 + i)) k); [lia|]. do 2 f_equal. lia.
      * intros i Hk. rewrite (pget_ok _ _ (c0 : K)) by lia. reflexivity.
    + intros i Hk. rewrite (pget_ok _ _ (c0 : K)) by lia. rewrite <- G by lia. rewrite Nat.mod_small by lia. reflexivity.
    + intros i Hk. rewrite (pget_ok _ _ (c0 : K)) by lia. reflexivity.
  - intros g g' H. apply sum_ext. intros i Hi. rewrite H by exact Hi. reflexivity.
Qed.

Lemma hb_dot_ok (half : K) (c : list K) : c <> [] -> dot_spec (hb_dot half) c
  (fun g => cadd (sum ((length c + 1) / 2) (fun t => cmul (samp c (2 * t)) (g (2 * t)))) (cmul half (g (length c / 2)))).
Proof.
  intros Hc. assert (Hl : 0 < length c) by (destruct c; [congruence|simpl; lia]). split.
  - intros fen idx g (L & Hi & G). unfold hb_dot. set (k := length c) in *.
    set (k1 := k - idx). set (k2 := k - k1). set (t1 := (k1 + 1) / 2).
    assert (B1 : k1 <= 2 * t1 <= k1 + 1) by (unfold t1; pose proof (Nat.div_mod (k1 + 1) 2 ltac:(lia)); pose proof (Nat.mod_upper_bound (k1 + 1) 2 ltac:(lia)); lia).
    set (i0 := 2 * t1 - k1). set (t2 := (k2 - i0 + 1) / 2).
    assert (B2 : k2 - i0 <= 2 * t2 <= k2 - i0 + 1) by (unfold t2; pose proof (Nat.div_mod (k2 - i0 + 1) 2 ltac:(lia)); pose proof (Nat.mod_upper_bound (k2 - i0 + 1) 2 ltac:(lia)); lia).
    assert (B3 : (k + 1) / 2 = t1 + t2) by (pose proof (Nat.div_mod (k + 1) 2 ltac:(lia)); pose proof (Nat.mod_upper_bound (k + 1) 2 ltac:(lia)); lia).
    cbv zeta. fold k1 k2 t1 i0 t2.
    rewrite (loop_sum2 t1 _ _ (fun t => g (2 * t)) (fun t => samp c (2 * t))).
    + cbn [bind]. rewrite (loop_sum2 t2 _ _ (fun t => g (2 * (t1 + t))) (fun t => samp c (2 * (t1 + t)))).
      * cbn [bind]. rewrite imod_ok by lia. cbn [bind].
        assert (Hm : k / 2 < k) by (apply Nat.div_lt; lia).
        pose proof (Nat.mod_upper_bound (idx + k / 2) k ltac:(lia)) as Hu.
        rewrite (vget_ok fen _ (c0 : K)) by lia. cbn [bind]. rewrite G by exact Hm.
        f_equal. f_equal. rewrite B3, sum_split.
        transitivity (cadd (sum t1 (fun t => cmul (g (2 * t)) (samp c (2 * t)))) (sum t2 (fun t => cmul (g (2 * (t1 + t))) (samp c (2 * (t1 + t)))))); [ring|].
        f_equal; apply sum_ext; intros; ring.
      * intros t Ht. rewrite (pget_ok _ _ (c0 : K)) by lia. rewrite <- G by lia. rewrite mod_lt2 by lia.
        destruct (Nat.ltb_spec (idx + 2 * (t1 + t)) k); [lia|]. do 2 f_equal. lia.
      * intros t Ht. rewrite (pget_ok _ _ (c0 : K)) by lia. unfold samp. do 2 f_equal. lia.
    + intros t Ht. rewrite (pget_ok _ _ (c0 : K)) by lia. rewrite <- G by lia. rewrite Nat.mod_small by lia. reflexivity.
    + intros t Ht. rewrite (pget_ok _ _ (c0 : K)) by lia. reflexivity.
  - intros g g' H. pose proof (Nat.div_mod (length c + 1) 2 ltac:(lia)). pose proof (Nat.mod_upper_bound (length c + 1) 2 ltac:(lia)).
    f_equal.
    + apply sum_ext. intros t Ht. rewrite H by lia. reflexivity.
    + rewrite H by (apply Nat.div_lt; lia). reflexivity.
Qed.

(** Output of a decimating filter as a function of the whole input. *)
Definition dec_out (c : list K) (v : (nat -> K) -> K) (R : nat) (h : list K) : list K :=
  map (fun m => v (fun i => sampZ h (Z.of_nat ((m + 1) * R) - Z.of_nat (length c) + Z.of_nat i))) (seq 0 (length h / R)).

Definition dec_inv (c : list K) (R : nat) (h : list K) (s : fdec K) : Prop :=
  fd_coefs s = c /\ fd_R s = R /\ fd_cnt s = length h mod R /\ HWin K (length c) (fd_fen s) (fd_index s) h.

Lemma fdec_sample_ok dot c v R h s a : 0 < R -> c <> [] -> dot_spec dot c v -> dec_inv c R h s ->
  exists s' o, fdec_sample dot s a = Ok (s', o) /\ dec_inv c R (h ++ [a]) s' /\
    dec_out c v R (h ++ [a]) = dec_out c v R h ++ o.
Proof.
  intros HR Hc (D1 & D2) (A1 & A2 & A3 & W). assert (Hl : 0 < length c) by (destruct c; [congruence|simpl; lia]).
  pose proof W as (L & I & G). unfold fdec_sample. rewrite vset_ok by lia. cbn [bind].
  rewrite A1, imod_ok by lia. cbn [bind]. pose proof (hwin_push K _ _ _ _ a W) as W'. rewrite A2, A3.
  pose proof (Nat.div_mod (length h) R ltac:(lia)) as DM. pose proof (Nat.mod_upper_bound (length h) R ltac:(lia)) as MU.
  set (q := length h / R) in *. set (r := length h mod R) in *.
  assert (OLD : map (fun m => v (fun i => sampZ (h ++ [a]) (Z.of_nat ((m + 1) * R) - Z.of_nat (length c) + Z.of_nat i))) (seq 0 q)
     = dec_out c v R h).
  { unfold dec_out. fold q. apply map_ext_in. intros m Hm. apply in_seq in Hm. apply D2. intros i Hi.
    apply sampZ_app_l. assert ((m + 1) * R <= q * R) by (apply Nat.mul_le_mono_r; lia). lia. }
  assert (QR : R * q = q * R) by apply Nat.mul_comm.
  destruct (Nat.ltb_spec r (R - 1)) as [H|H].
  - assert (Q' : length (h ++ [a]) / R = q).
    { rewrite app_length. cbn [length]. symmetry. apply (Nat.div_unique _ R q (r + 1)); lia. }
    assert (M' : length (h ++ [a]) mod R = r + 1).
    { rewrite app_length. cbn [length]. symmetry. apply (Nat.mod_unique _ R q (r + 1)); lia. }
    do 2 eexists. split; [reflexivity|]. split.
    + unfold dec_inv. cbn [fd_coefs fd_R fd_cnt fd_fen fd_index]. do 2 (split; [reflexivity|]). split; [lia|exact W'].
    + rewrite app_nil_r. unfold dec_out at 1. rewrite Q'. exact OLD.
  - assert (Q' : length (h ++ [a]) / R = S q).
    { rewrite app_length. cbn [length]. symmetry. apply (Nat.div_unique _ R (S q) 0); [lia|]. rewrite Nat.mul_succ_r. lia. }
    assert (M' : length (h ++ [a]) mod R = 0).
    { rewrite app_length. cbn [length]. symmetry. apply (Nat.mod_unique _ R (S q) 0); [lia|]. rewrite Nat.mul_succ_r. lia. }
    rewrite (D1 _ _ _ W'). cbn [bind]. do 2 eexists. split; [reflexivity|]. split.
    + unfold dec_inv. cbn [fd_coefs fd_R fd_cnt fd_fen fd_index]. do 2 (split; [reflexivity|]). split; [lia|exact W'].
    + unfold dec_out at 1. rewrite Q'. rewrite seq_S, map_app, OLD. cbn [map Nat.add]. do 2 f_equal. apply D2. intros i Hi.
      unfold past. f_equal. rewrite app_length. cbn [length].
      replace ((q + 1) * R) with (length h + 1) by (rewrite Nat.mul_add_distr_r, Nat.mul_1_l; lia). lia.
Qed.

Lemma fdec_run dot c v R blocks : 0 < R -> c <> [] -> dot_spec dot c v ->
  exists s, run (fdec_step dot) (fdec_init c R) blocks = Ok (s, dec_out c v R (concat blocks)).
Proof.
  intros HR Hc D. assert (Hl : 0 < length c) by (destruct c; [congruence|simpl; lia]).
  destruct (run_hist (fdec_step dot) (dec_inv c R) (dec_out c v R)) with (s := fdec_init c R) (blocks := blocks) as (s & E & _).
  - unfold dec_out. cbn [length]. rewrite Nat.div_small by lia. reflexivity.
  - intros h s b HI. unfold fdec_step. pose proof HI as (A1 & A2 & A3 & W). rewrite A1, A2.
    destruct (Nat.eqb_spec (length c) 0); [lia|]. destruct (Nat.eqb_spec R 0); [lia|].
    destruct (flat_st_hist (fdec_sample dot) (dec_inv c R) (dec_out c v R)) with (l := b) (h := h) (s := s) as (s' & o & E & I' & O).
    + intros. apply fdec_sample_ok; assumption.
    + exact HI.
    + rewrite E. cbn [bind].
      assert (LO : length o = (length b + fd_cnt s) / R).
      { apply (f_equal (@length _)) in O. rewrite app_length in O. unfold dec_out in O. rewrite !map_length, !seq_length in O.
        rewrite app_length in O. rewrite A3. pose proof (Nat.div_mod (length h) R ltac:(lia)) as DM.
        replace (length h + length b) with (length h / R * R + (length b + length h mod R)) in O
          by (rewrite (Nat.mul_comm (length h / R)); lia).
        rewrite Nat.div_add_l in O by lia. set (u := (length b + length h mod R) / R) in *. clearbody u.
        set (w := length h / R) in *. clearbody w. lia. }
      rewrite LO, Nat.eqb_refl. do 2 eexists. split; [reflexivity|]. split; assumption.
  - unfold dec_inv, fdec_init. cbn. do 2 (split; [reflexivity|]). split; [rewrite Nat.mod_0_l; lia|]. apply hwin_init. exact Hl.
  - exists s. exact E.
Qed.

Lemma dec_out_nth c v R h m : m < length h / R ->
  samp (dec_out c v R h) m = v (fun i => sampZ h (Z.of_nat ((m + 1) * R) - Z.of_nat (length c) + Z.of_nat i)).
Proof.
  intros Hm. unfold samp, dec_out. 
  set (F := fun m => v (fun i => sampZ h (Z.of_nat ((m + 1) * R) - Z.of_nat (length c) + Z.of_nat i))).
  rewrite nth_indep with (d' := F 0) by (rewrite map_length, seq_length; exact Hm).
  rewrite (map_nth F), seq_nth by exact Hm. reflexivity.
Qed.

Lemma decim_fir_run (h : list K) R blocks : 0 < R -> h <> [] ->
  exists s y, run rif_decim_step (fdec_init h R) blocks = Ok (s, y) /\
    length y = length (concat blocks) / R /\
    forall m, m < length y -> samp y m =
      sum (length h) (fun k => cmul (samp h k) (sampZ (concat blocks) (Z.of_nat ((m + 1) * R) - Z.of_nat (length h) + Z.of_nat k))).
Proof.
  intros HR Hc. destruct (fdec_run corr_dot h _ R blocks HR Hc (corr_dot_ok h)) as (s & E).
  exists s. eexists. split; [exact E|]. unfold dec_out at 1. rewrite map_length, seq_length. split; [reflexivity|].
  intros m Hm. rewrite dec_out_nth; [reflexivity|]. unfold dec_out in Hm. rewrite map_length, seq_length in Hm. exact Hm.
Qed.

Lemma corr_conv (h x : list K) N : h = rev h ->
  sum (length h) (fun k => cmul (samp h k) (sampZ x (Z.of_nat N - Z.of_nat (length h) + Z.of_nat k)))
  = sum (length h) (fun k => cmul (samp h k) (sampZ x (Z.of_nat N - 1 - Z.of_nat k))).
Proof.
  intros P. rewrite sum_rev. apply sum_ext. intros k Hk. f_equal.
  - rewrite P at 1. unfold samp. rewrite rev_nth by lia. f_equal. lia.
  - f_equal. lia.
Qed.

Lemma decim_fir_palindrome (h : list K) R blocks : 0 < R -> h <> [] -> h = rev h ->
  exists s y, run rif_decim_step (fdec_init h R) blocks = Ok (s, y) /\
    length y = length (concat blocks) / R /\
    forall m, m < length y -> samp y m = conv h (concat blocks) ((m + 1) * R - 1).
Proof.
  intros HR Hc P. destruct (decim_fir_run h R blocks HR Hc) as (s & y & E & L & N). exists s, y.
  split; [exact E|]. split; [exact L|]. intros m Hm. rewrite N by exact Hm. rewrite corr_conv by exact P.
  unfold conv. apply sum_ext. intros k Hk. do 2 f_equal.
  assert (1 <= (m + 1) * R) by (rewrite Nat.mul_add_distr_r; lia). lia.
Qed.

(** ** Half-band *)
Lemma sum_even_odd n (f : nat -> K) : sum n f = cadd (sum ((n + 1) / 2) (fun t => f (2 * t))) (sum (n / 2) (fun t => f (2 * t + 1))).
Proof.
  assert (H : forall q, sum (2 * q) f = cadd (sum q (fun t => f (2 * t))) (sum q (fun t => f (2 * t + 1)))).
  { induction q as [|q IH]; [simpl; ring|]. replace (2 * S q) with (S (S (2 * q))) by lia. cbn [sum]. rewrite IH.
    replace (S (2 * q)) with (2 * q + 1) by lia. ring. }
  pose proof (Nat.div_mod n 2 ltac:(lia)) as D. pose proof (Nat.mod_upper_bound n 2 ltac:(lia)) as U.
  set (q := n / 2) in *. destruct (Nat.eq_dec (n mod 2) 0) as [Z|Z].
  - assert (E : (n + 1) / 2 = q) by (symmetry; apply (Nat.div_unique _ 2 q 1); lia).
    rewrite E. replace n with (2 * q) by lia. apply H.
  - assert (E : (n + 1) / 2 = S q) by (symmetry; apply (Nat.div_unique _ 2 (S q) 0); lia).
    rewrite E. replace n with (S (2 * q)) by lia. cbn [sum]. rewrite H. ring.
Qed.

Lemma hb_value half (h : list K) g : half_band half h ->
  cadd (sum ((length h + 1) / 2) (fun t => cmul (samp h (2 * t)) (g (2 * t)))) (cmul half (g (length h / 2)))
  = sum (length h) (fun k => cmul (samp h k) (g k)).
Proof.
  intros (M & C & Z). rewrite (sum_even_odd (length h)). f_equal.
  pose proof (Nat.div_mod (length h / 2) 2 ltac:(lia)) as D1. pose proof (Nat.div_mod (length h) 2 ltac:(lia)) as D2.
  pose proof (Nat.mod_upper_bound (length h) 2 ltac:(lia)) as U. rewrite M in D1.
  set (q := length h / 2) in *. set (p := q / 2) in *.
  rewrite (sum_single _ q _ p).
  - replace (2 * p + 1) with q by lia. rewrite C. reflexivity.
  - lia.
  - intros t Ht Hne. rewrite Z; [ring|lia| |lia].
    rewrite Nat.add_comm, Nat.mul_comm, Nat.mod_add by lia. reflexivity.
Qed.

Lemma hb_run half (h : list K) blocks : half_band half h ->
  exists s y, run (hb_step half) (fdec_init h 2) blocks = Ok (s, y) /\
    length y = length (concat blocks) / 2 /\
    forall m, m < length y -> samp y m =
      sum (length h) (fun k => cmul (samp h k) (sampZ (concat blocks) (Z.of_nat ((m + 1) * 2) - Z.of_nat (length h) + Z.of_nat k))).
Proof.
  intros HB. assert (Hc : h <> []) by (intros ->; destruct HB as (M & _); discriminate).
  destruct (fdec_run (hb_dot half) h _ 2 blocks ltac:(lia) Hc (hb_dot_ok half h Hc)) as (s & E).
  exists s. eexists. split; [exact E|]. unfold dec_out at 1. rewrite map_length, seq_length. split; [reflexivity|].
  intros m Hm. unfold dec_out in Hm. rewrite map_length, seq_length in Hm. rewrite dec_out_nth by exact Hm.
  apply (hb_value half h (fun i => sampZ (concat blocks) (Z.of_nat ((m + 1) * 2) - Z.of_nat (length h) + Z.of_nat i))). exact HB.
Qed.

(** Half-band = decimating FIR filter with the same taps. *)
Lemma hb_same_as_decim half (h : list K) blocks : half_band half h ->
  exists s s' y, run (hb_step half) (fdec_init h 2) blocks = Ok (s, y) /\
     run rif_decim_step (fdec_init h 2) blocks = Ok (s', y).
Proof.
  intros HB. assert (Hc : h <> []) by (intros ->; destruct HB as (M & _); discriminate).
  destruct (hb_run half h blocks HB) as (s & y & E & L & N).
  destruct (decim_fir_run h 2 blocks ltac:(lia) Hc) as (s' & y' & E' & L' & N').
  exists s, s', y. split; [exact E|]. replace y with y'; [exact E'|].
  apply (list_ext (c0 : K)); [congruence|]. intros i Hi. change (samp y' i = samp y i). rewrite N', N by lia. reflexivity.
Qed.

(** Any filter: what the half-band code computes. *)
Lemma hb_run_any half (h : list K) blocks : h <> [] ->
  exists s y, run (hb_step half) (fdec_init h 2) blocks = Ok (s, y) /\
    length y = length (concat blocks) / 2 /\
    forall m, m < length y -> 
      let w i := sampZ (concat blocks) (Z.of_nat ((m + 1) * 2) - Z.of_nat (length h) + Z.of_nat i) in
      samp y m = cadd (sum ((length h + 1) / 2) (fun t => cmul (samp h (2 * t)) (w (2 * t)))) (cmul half (w (length h / 2))).
Proof.
  intros Hc. destruct (fdec_run (hb_dot half) h _ 2 blocks ltac:(lia) Hc (hb_dot_ok half h Hc)) as (s & E).
  exists s. eexists. split; [exact E|]. unfold dec_out at 1. rewrite map_length, seq_length. split; [reflexivity|].
  intros m Hm. unfold dec_out in Hm. rewrite map_length, seq_length in Hm. rewrite dec_out_nth by exact Hm. reflexivity.
Qed.

(** Layout of the half-band design. *)
Lemma hb_layout_ok half (g : list K) n : n mod 2 = 1 -> length g = (n - 1) / 2 + 1 ->
  exists h, hb_layout half g n = Ok h /\ length h = n /\
    forall k, k < n -> samp h k = if k =? (n - 1) / 2 then half else if k mod 2 =? 1 then c0 else cmul half (samp g (k / 2)).
Proof.
  intros Hn Hg. unfold hb_layout. set (m := (n - 1) / 2) in *.
  set (F := fun k => if k =? m then half else if k mod 2 =? 1 then c0 else cmul half (samp g (k / 2))).
  assert (E : forall l, (forall k, In k l -> k < n) -> fold_right (fun k acc => let* l := acc in
     if k =? m then Ok (half :: l) else if k mod 2 =? 1 then Ok (c0 :: l)
     else let* v := vget g (k / 2) in Ok (cmul half v :: l)) (Ok []) l = Ok (map F l)).
  { induction l as [|k l IH]; intros Hl; [reflexivity|]. cbn [fold_right map]. rewrite IH by (intros; apply Hl; right; assumption).
    cbn [bind]. change (F k) with (if k =? m then half else if k mod 2 =? 1 then c0 else cmul half (samp g (k / 2))). destruct (k =? m); [reflexivity|]. destruct (k mod 2 =? 1); [reflexivity|].
    specialize (Hl k (or_introl eq_refl)).
    assert (k / 2 <= m) by (pose proof (Nat.div_mod n 2 ltac:(lia)) as D; unfold m; apply Nat.div_le_mono; lia).
    rewrite (vget_ok g _ (c0 : K)) by lia. reflexivity. }
  rewrite E by (intros k Hk; apply in_seq in Hk; lia). eexists. split; [reflexivity|].
  rewrite map_length, seq_length. split; [reflexivity|]. intros k Hk. unfold samp at 1.
  rewrite nth_indep with (d' := F 0) by (rewrite map_length, seq_length; exact Hk). rewrite (map_nth F), seq_nth by exact Hk. reflexivity.
Qed.

Lemma design_hb_good half des n : n mod 4 = 3 -> (forall q, length (des q) = q) ->
  exists h, design_hb half des n = Ok h /\ length h = n /\ half_band (half : K) h.
Proof.
  intros Hn Hd. pose proof (Nat.div_mod n 4 ltac:(lia)) as D. set (q := n / 4) in *.
  assert (M2 : n mod 2 = 1) by (symmetry; apply (Nat.mod_unique _ 2 (2 * q + 1) 1); lia).
  assert (H2 : n / 2 = 2 * q + 1) by (symmetry; apply (Nat.div_unique _ 2 (2 * q + 1) 1); lia).
  assert (M : (n - 1) / 2 = 2 * q + 1) by (symmetry; apply (Nat.div_unique _ 2 (2 * q + 1) 0); lia).
  assert (MO : (2 * q + 1) mod 2 = 1) by (symmetry; apply (Nat.mod_unique _ 2 q 1); lia).
  unfold design_hb. rewrite M2, M, MO. cbn [Nat.eqb]. rewrite Hd, Nat.eqb_refl. cbn [negb].
  destruct (hb_layout_ok half (des (2 * q + 1 + 1)) n M2) as (h & E & L & N); [rewrite Hd, M; reflexivity|].
  rewrite E. cbn [bind]. exists h. split; [reflexivity|]. split; [exact L|].
  unfold half_band. rewrite L, H2. split; [exact MO|]. split.
  - rewrite N by lia. rewrite M, Nat.eqb_refl. reflexivity.
  - intros k Hk Ho Hne. rewrite N by exact Hk. rewrite M. destruct (Nat.eqb_spec k (2 * q + 1)); [lia|].
    rewrite Ho. reflexivity.
Qed.

Lemma design_hb_odd_zero half des n : n mod 4 = 1 -> 5 <= n -> (forall q, length (des q) = q) ->
  exists h, design_hb half des n = Ok h /\ length h = n /\ samp h (n / 2) = (half : K) /\
    forall k, k < n -> k mod 2 = 0 -> k <> n / 2 -> samp h k = c0.
Proof.
  intros Hn H5 Hd. pose proof (Nat.div_mod n 4 ltac:(lia)) as D. set (q := n / 4) in *.
  assert (Hq : 1 <= q) by lia.
  assert (M2 : n mod 2 = 1) by (symmetry; apply (Nat.mod_unique _ 2 (2 * q) 1); lia).
  assert (H2 : n / 2 = 2 * q) by (symmetry; apply (Nat.div_unique _ 2 (2 * q) 1); lia).
  assert (M : (n - 1) / 2 = 2 * q) by (symmetry; apply (Nat.div_unique _ 2 (2 * q) 0); lia).
  assert (MO : (2 * q) mod 2 = 0) by (rewrite Nat.mul_comm; apply Nat.mod_mul; lia).
  unfold design_hb. rewrite M2, M, MO. cbn [Nat.eqb]. rewrite Hd, Nat.eqb_refl. cbn [negb].
  assert (M2' : (n - 2) mod 2 = 1) by (symmetry; apply (Nat.mod_unique _ 2 (2 * q - 1) 1); lia).
  assert (M' : (n - 2 - 1) / 2 = 2 * q - 1) by (symmetry; apply (Nat.div_unique _ 2 (2 * q - 1) 0); lia).
  destruct (hb_layout_ok half (des (2 * q - 1 + 1)) (n - 2) M2') as (h & E & L & N); [rewrite Hd, M'; reflexivity|].
  rewrite E. cbn [bind]. exists ((c0 :: h) ++ [c0]). split; [reflexivity|].
  split; [rewrite app_length; cbn [length]; lia|]. rewrite H2.
  assert (S1 : forall k, 0 < k < n - 1 -> samp ((c0 :: h) ++ [c0]) k = samp h (k - 1)).
  { intros k Hk. unfold samp. rewrite app_nth1 by (cbn [length]; lia). destruct k as [|k]; [lia|]. cbn [nth].
    f_equal. lia. }
  split.
  - rewrite S1 by lia. rewrite N by lia. rewrite M', Nat.eqb_refl. reflexivity.
  - intros k Hk He Hne. destruct (Nat.eq_dec k 0) as [->|Hk0]; [reflexivity|].
    destruct (Nat.eq_dec k (n - 1)) as [->|Hk1].
    + unfold samp. rewrite app_nth2 by (cbn [length]; lia). cbn [length]. replace (n - 1 - S (length h)) with 0 by lia. reflexivity.
    + rewrite S1 by lia. rewrite N by lia. rewrite M'. destruct (Nat.eqb_spec (k - 1) (2 * q - 1)); [lia|].
      pose proof (Nat.div_mod k 2 ltac:(lia)) as Dk. rewrite He in Dk.
      assert (O : (k - 1) mod 2 = 1) by (symmetry; apply (Nat.mod_unique _ 2 (k / 2 - 1) 1); lia). rewrite O. reflexivity.
Qed.
End Poly.
