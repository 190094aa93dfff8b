(** Proofs for symbol mapping, differential coding, Barker codes. *)
From Verif Require Import Base BaseLemmas BitStream_Model BitStream_Spec BitStream_Proofs
  TeleBits_Model TeleBits_Spec.
From Coq Require Import ZifyBool ZifyNat.

Lemma shows_get s l i : shows s l -> i < length l -> bs_get s i = Ok (nth i l false).
Proof. intros [_ G] H. apply G. exact H. Qed.

(** ** symmap *)

Lemma bits_val_app l m : bits_val (l ++ m) = (bits_val l + 2 ^ Z.of_nat (length l) * bits_val m)%Z.
Proof.
  induction l as [|b t IH]; [simpl; lia|].
  cbn [app bits_val length]. rewrite IH, Nat2Z.inj_succ, Z.pow_succ_r by lia. lia.
Qed.

Lemma bits_val_range l : (0 <= bits_val l < 2 ^ Z.of_nat (length l))%Z.
Proof.
  induction l as [|b t IH]; [simpl; lia|].
  cbn [bits_val length]. rewrite Nat2Z.inj_succ, Z.pow_succ_r by lia. destruct b; lia.
Qed.

Lemma group_length l k i : length (group l k i) = Nat.min k (length l - i * k).
Proof. unfold group. rewrite firstn_length, skipn_length. reflexivity. Qed.

Lemma nth_skipn_ {A} (l : list A) n j d : nth j (skipn n l) d = nth (n + j) l d.
Proof.
  revert l; induction n as [|n IH]; intros l; [reflexivity|].
  destruct l as [|a t]; simpl; [destruct j; reflexivity|apply IH].
Qed.

Lemma nth_firstn_ {A} (l : list A) n j d : j < n -> nth j (firstn n l) d = nth j l d.
Proof.
  revert n j; induction l as [|a t IH]; intros n j H; [rewrite firstn_nil; reflexivity|].
  destruct n as [|n]; [lia|]. destruct j as [|j]; [reflexivity|]. simpl. apply IH. lia.
Qed.

Lemma firstn_snoc {A} (l : list A) j d : j < length l -> firstn (j + 1) l = firstn j l ++ [nth j l d].
Proof.
  revert j; induction l as [|a t IH]; intros [|j] H; simpl in *; try lia; auto.
  rewrite IH by lia. reflexivity.
Qed.

Lemma nth_group l k i j : j < k -> nth j (group l k i) false = nth (i * k + j) l false.
Proof. intros H. unfold group. rewrite nth_firstn_ by exact H. apply nth_skipn_. Qed.

Lemma symmap_inner_spec x l k i : shows x l -> 0 < k <= 30 ->
  forall fuel j, fuel = k - j -> j <= length (group l k i) ->
  symmap_inner x (length l) k i fuel j (2 ^ Z.of_nat j)%Z (bits_val (firstn j (group l k i)))
  = Ok (bits_val (group l k i)).
Proof.
  intros S Hk. pose proof (group_length l k i) as GL.
  induction fuel as [|f IH]; intros j Hf Hj; cbn [symmap_inner].
  - rewrite firstn_all2 by lia. reflexivity.
  - destruct (Nat.ltb_spec j k) as [Hjk|Hjk]; [|rewrite firstn_all2 by lia; reflexivity].
    destruct (Nat.ltb_spec (i * k + j) (length l)) as [Hn|Hn]; simpl andb; cbv iota.
    + rewrite (shows_get x l _ S Hn). cbn [bind].
      assert (P : (2 ^ Z.of_nat j * 2 <= 2 ^ 30)%Z).
      { rewrite Z.mul_comm, <- Z.pow_succ_r by lia. apply Z.pow_le_mono_r; lia. }
      destruct (Z.leb_spec (2 ^ 31) (2 ^ Z.of_nat j * 2)) as [HU|HU].
      { exfalso. assert (2 ^ 30 < 2 ^ 31)%Z by reflexivity. lia. }
      replace (2 ^ Z.of_nat j * 2)%Z with (2 ^ Z.of_nat (j + 1))%Z
        by (rewrite Nat2Z.inj_add, Z.pow_add_r by lia; reflexivity).
      rewrite <- (IH (j + 1)); [|lia|lia]. f_equal.
      rewrite (firstn_snoc _ j false) by lia. rewrite bits_val_app, firstn_length.
      replace (Nat.min j (length (group l k i))) with j by lia.
      rewrite nth_group by lia.
      cbn [bits_val]. unfold b2z. destruct (nth (i * k + j) l false); lia.
    + f_equal. f_equal. apply firstn_all2. lia.
Qed.

Lemma loop_snoc {A} n (f : nat -> res A) (g : nat -> A) :
  (forall i, i < n -> f i = Ok (g i)) ->
  loop n (fun i y => let* v := f i in Ok (y ++ [v])) [] = Ok (map g (seq 0 n)).
Proof.
  induction n as [|n IH]; intros H; [reflexivity|].
  rewrite !loop_S. rewrite IH by (intros; apply H; lia). cbn [bind].
  rewrite H by lia. cbn [bind]. rewrite seq_S, map_app. reflexivity.
Qed.

Lemma symmap_spec x l k : shows x l -> 0 < k <= 30 ->
  symmap x (Z.of_nat k) = Ok (map (fun i => bits_val (group l k i)) (seq 0 (ngroups (length l) k))).
Proof.
  intros S Hk. unfold symmap.
  destruct (Z.leb_spec (Z.of_nat k) 0); [lia|]. rewrite Nat2Z.id.
  destruct S as [L G]. rewrite L.
  apply (loop_snoc _ (fun i => symmap_inner x (length l) k i k 0 1 0)).
  intros i _. pose proof (symmap_inner_spec x l k i (conj L G) Hk k 0) as H1.
  simpl in H1. apply H1; lia.
Qed.

Lemma symmap_exc x k : (k <= 0)%Z -> symmap x k = Exc.
Proof. intros H. unfold symmap. destruct (Z.leb_spec k 0); [reflexivity|lia]. Qed.

(** ** symdemap *)

Lemma land1_testbit v j : negb (Z.eqb (Z.land (Z.shiftr v j) 1) 0) = Z.testbit (Z.shiftr v j) 0.
Proof.
  change 1%Z with (Z.ones 1). rewrite Z.land_ones by lia. change (2 ^ 1)%Z with 2%Z.
  rewrite Zmod_odd, <- Z.bit0_odd. destruct (Z.testbit (Z.shiftr v j) 0); reflexivity.
Qed.

Lemma symdemap_wf x k s : WF s -> k <= 32 ->
  exists s', symdemap s x k = Ok s' /\ WF s' /\ (clean s -> clean s') /\
    bits s' = bits s ++ concat (map (fun v => int_bits v k) x).
Proof.
  intros W Hk. unfold symdemap.
  assert (G : forall n, n <= length x -> exists s',
    loop n (fun i bs => loop k (fun j bs => let* v := vget x i in
      if 32 <=? j then UB else
      bs_push bs (negb (Z.eqb (Z.land (Z.shiftr v (Z.of_nat j)) 1) 0))) bs) s = Ok s' /\ WF s' /\
     (clean s -> clean s') /\
     bits s' = bits s ++ concat (map (fun v => int_bits v k) (firstn n x))).
  { induction n as [|n IH]; intros Hn.
    - exists s. split; [reflexivity|]. split; [exact W|]. split; [auto|]. simpl. rewrite app_nil_r. reflexivity.
    - destruct IH as (s1 & E1 & W1 & C1 & B1); [lia|]. rewrite !loop_S. rewrite E1. cbn [bind].
      set (v := nth n x 0%Z).
      assert (V : vget x n = Ok v) by (apply vget_ok; lia).
      destruct (push_loop k (fun j => Ok (Z.testbit v (Z.of_nat j))) (fun j => Z.testbit v (Z.of_nat j)) s1)
        as (s2 & E2 & W2 & B2 & _ & C2); [reflexivity|exact W1|].
      exists s2. split; [|split; [exact W2|split; [auto|]]].
      + rewrite <- E2. clear - V Hk.
        assert (A : forall m, m <= k -> loop m
          (fun j bs => let* v0 := vget x n in if 32 <=? j then UB else
             bs_push bs (negb (Z.eqb (Z.land (Z.shiftr v0 (Z.of_nat j)) 1) 0))) s1
          = loop m (fun i r => let* b := Ok (Z.testbit v (Z.of_nat i)) in bs_push r b) s1).
        { induction m as [|m IHm]; intros Hm; [reflexivity|]. rewrite !loop_S. rewrite IHm by lia.
          match goal with |- bind ?q _ = bind ?q _ => destruct q; cbn [bind]; [|reflexivity..] end.
          rewrite V. cbn [bind]. destruct (Nat.leb_spec 32 m); [lia|].
          rewrite land1_testbit, Z.shiftr_spec by lia. rewrite Z.add_0_l. reflexivity. }
        apply A. lia.
      + rewrite B2, B1. replace (S n) with (n + 1) by lia.
        rewrite (firstn_snoc _ n 0%Z) by lia. rewrite map_app, concat_app, <- app_assoc.
        simpl. rewrite app_nil_r. reflexivity. }
  destruct (G (length x)) as (s' & H); [lia|]. rewrite firstn_all in H. exists s'. exact H.
Qed.

Lemma int_bits_length v k : length (int_bits v k) = k.
Proof. unfold int_bits. rewrite map_length, seq_length. reflexivity. Qed.

Lemma nth_int_bits v k j : j < k -> nth j (int_bits v k) false = Z.testbit v (Z.of_nat j).
Proof.
  intros H. unfold int_bits.
  rewrite nth_indep with (d' := Z.testbit v (Z.of_nat 0)) by (rewrite map_length, seq_length; lia).
  rewrite (map_nth (fun j => Z.testbit v (Z.of_nat j))), seq_nth by lia. reflexivity.
Qed.

Lemma bits_val_testbit l j : Z.testbit (bits_val l) (Z.of_nat j) = nth j l false.
Proof.
  revert j; induction l as [|b t IH]; intros j.
  - simpl. rewrite Z.bits_0. destruct j; reflexivity.
  - cbn [bits_val]. destruct j as [|j].
    + simpl nth. rewrite Z.add_comm. destruct b.
      * apply Z.testbit_odd_0.
      * rewrite Z.add_0_r. apply Z.testbit_even_0.
    + simpl nth. rewrite <- IH, Nat2Z.inj_succ. rewrite Z.add_comm. destruct b.
      * apply Z.testbit_odd_succ. lia.
      * rewrite Z.add_0_r. apply Z.testbit_even_succ. lia.
Qed.

Lemma int_bits_val l k : length l <= k -> int_bits (bits_val l) k = l ++ repeat false (k - length l).
Proof.
  intros H. apply (list_ext false).
  - rewrite int_bits_length, app_length, repeat_length. lia.
  - intros i Hi. rewrite int_bits_length in Hi. rewrite nth_int_bits by lia.
    rewrite bits_val_testbit. destruct (Nat.lt_ge_cases i (length l)).
    + rewrite app_nth1 by lia. reflexivity.
    + rewrite app_nth2 by lia. rewrite nth_repeat, nth_overflow by lia. reflexivity.
Qed.

Lemma bits_val_int v k : (0 <= v < 2 ^ Z.of_nat k)%Z -> bits_val (int_bits v k) = v.
Proof.
  intros H. apply Z.bits_inj'. intros n Hn.
  replace n with (Z.of_nat (Z.to_nat n)) by lia. rewrite bits_val_testbit.
  destruct (Nat.lt_ge_cases (Z.to_nat n) k) as [H1|H1].
  - apply nth_int_bits. exact H1.
  - rewrite nth_overflow by (rewrite int_bits_length; lia).
    destruct (Z.eq_dec v 0) as [->|V]; [rewrite Z.bits_0; reflexivity|].
    symmetry. apply Z.bits_above_log2; [lia|]. apply Z.log2_lt_pow2; [lia|].
    apply Z.lt_le_trans with (2 ^ Z.of_nat k)%Z; [lia|]. apply Z.pow_le_mono_r; lia.
Qed.

(** Concatenating the groups gives back the stream. *)
Lemma ngroups_bounds n k : 0 < k -> n <= ngroups n k * k < n + k.
Proof.
  intros Hk. unfold ngroups.
  pose proof (Nat.div_mod (n + k - 1) k ltac:(lia)) as D.
  pose proof (Nat.mod_upper_bound (n + k - 1) k ltac:(lia)) as U. nia.
Qed.

Lemma concat_groups l k m : 0 < k ->
  concat (map (fun i => int_bits (bits_val (group l k i)) k) (seq 0 m))
  = firstn (m * k) l ++ repeat false (m * k - length l).
Proof.
  intros Hk. induction m as [|m IH]; [reflexivity|].
  rewrite seq_S, map_app, concat_app, IH. simpl concat. rewrite app_nil_r.
  rewrite int_bits_val by (rewrite group_length; lia). rewrite group_length. cbn [Nat.add].
  apply (list_ext false).
  - rewrite !app_length, !firstn_length, !repeat_length, group_length. nia.
  - intros i Hi. unfold group.
    assert (F : forall q, nth i (firstn q l ++ repeat false (q - length l)) false
                = if i <? q then nth i l false else false).
    { intros q. destruct (Nat.ltb_spec i q) as [H|H].
      - destruct (Nat.lt_ge_cases i (length l)).
        + rewrite app_nth1 by (rewrite firstn_length; lia). apply nth_firstn_. lia.
        + rewrite app_nth2 by (rewrite firstn_length; lia). rewrite nth_repeat.
          rewrite nth_overflow by lia. reflexivity.
      - apply nth_overflow. rewrite app_length, firstn_length, repeat_length. lia. }
    rewrite F.
    destruct (Nat.lt_ge_cases i (m * k)) as [H|H].
    + rewrite app_nth1 by (rewrite app_length, firstn_length, repeat_length; lia).
      rewrite F. destruct (Nat.ltb_spec i (m * k)); [|lia].
      destruct (Nat.ltb_spec i (S m * k)); [reflexivity|nia].
    + rewrite app_nth2 by (rewrite app_length, firstn_length, repeat_length; lia).
      replace (length (firstn (m * k) l ++ repeat false (m * k - length l))) with (m * k)
        by (rewrite app_length, firstn_length, repeat_length; lia).
      destruct (Nat.ltb_spec i (S m * k)) as [H2|H2].
      * destruct (Nat.lt_ge_cases i (length l)) as [H3|H3].
        -- rewrite app_nth1 by (rewrite firstn_length, skipn_length; nia).
           rewrite nth_firstn_ by nia. rewrite nth_skipn_. f_equal. lia.
        -- rewrite app_nth2 by (rewrite firstn_length, skipn_length; nia).
           rewrite nth_repeat. rewrite nth_overflow by lia. reflexivity.
      * apply nth_overflow. rewrite app_length, firstn_length, skipn_length, repeat_length. nia.
Qed.

(** Round trips at the API level. *)
Lemma symmap_then_demap p l s q l0 s0 k :
  prog_ok p -> denote p = Some l -> exec p = Ok s ->
  prog_ok q -> denote q = Some l0 -> exec q = Ok s0 -> 0 < k <= 30 ->
  exists y s1, symmap s (Z.of_nat k) = Ok y /\ symdemap s0 y k = Ok s1 /\
    length y = ngroups (length l) k /\
    (forall v, In v y -> (0 <= v < 2 ^ Z.of_nat k)%Z) /\
    shows s1 (l0 ++ l ++ repeat false (ngroups (length l) k * k - length l)).
Proof.
  intros P D E Pq Dq Eq Hk.
  destruct (exec_wf p l s P D E) as [W B]. destruct (exec_wf q l0 s0 Pq Dq Eq) as [W0 B0].
  assert (S : shows s l) by (rewrite <- B; apply WF_shows, W).
  rewrite (symmap_spec s l k S Hk). eexists.
  destruct (symdemap_wf (map (fun i => bits_val (group l k i)) (seq 0 (ngroups (length l) k))) k s0 W0)
    as (s1 & E1 & W1 & _ & B1); [lia|].
  exists s1. split; [reflexivity|]. split; [exact E1|]. split; [|split].
  - rewrite map_length, seq_length. reflexivity.
  - intros v Hv. apply in_map_iff in Hv. destruct Hv as (i & <- & _).
    pose proof (bits_val_range (group l k i)) as R. rewrite group_length in R.
    split; [lia|]. apply Z.lt_le_trans with (1 := proj2 R). apply Z.pow_le_mono_r; lia.
  - replace (l0 ++ l ++ _) with (bits s1); [apply WF_shows, W1|].
    rewrite B1, B0, map_map. f_equal. rewrite concat_groups by lia. f_equal.
    apply firstn_all2. pose proof (ngroups_bounds (length l) k ltac:(lia)). lia.
Qed.

Lemma nth_concat_const {A} (ll : list (list A)) k i j d : (forall x, In x ll -> length x = k) ->
  i < length ll -> j < k -> nth (i * k + j) (concat ll) d = nth j (nth i ll []) d.
Proof.
  revert i; induction ll as [|x t IH]; intros i H Hi Hj; simpl in *; [lia|].
  destruct i as [|i].
  - rewrite app_nth1; [reflexivity|]. rewrite (H x) by auto. lia.
  - assert (Lx : length x = k) by (apply H; auto).
    rewrite app_nth2 by nia. rewrite Lx. replace (S i * k + j - k) with (i * k + j) by nia.
    apply IH; auto. lia.
Qed.

Lemma concat_const_length {A} (ll : list (list A)) k : (forall x, In x ll -> length x = k) ->
  length (concat ll) = length ll * k.
Proof.
  induction ll as [|x t IH]; intros H; simpl; [reflexivity|].
  rewrite app_length, IH, (H x); auto; [left; reflexivity|]. intros; apply H; right; assumption.
Qed.

Lemma demap_then_symmap y k : 0 < k <= 30 -> (forall v, In v y -> (0 <= v < 2 ^ Z.of_nat k)%Z) ->
  exists s, symdemap bs_empty y k = Ok s /\ bs_lon s = length y * k /\ symmap s (Z.of_nat k) = Ok y.
Proof.
  intros Hk Hy. destruct (symdemap_wf y k bs_empty WF_empty) as (s & E & W & _ & B); [lia|].
  change (bits bs_empty) with (@nil bool) in B. cbn [app] in B.
  assert (LL : length (bits s) = length y * k).
  { rewrite B, (concat_const_length _ k), map_length; [reflexivity|].
    intros x Hx. apply in_map_iff in Hx. destruct Hx as (v & <- & _). apply int_bits_length. }
  exists s. split; [exact E|]. split; [rewrite <- LL; symmetry; apply bits_length|].
  rewrite (symmap_spec s (bits s) k (WF_shows s W) Hk). f_equal.
  assert (N : ngroups (length (bits s)) k = length y).
  { rewrite LL. unfold ngroups. symmetry. apply Nat.div_unique with (r := k - 1); nia. }
  rewrite N. apply (list_ext 0%Z); [rewrite map_length, seq_length; reflexivity|].
  intros i Hi. rewrite map_length, seq_length in Hi.
  rewrite nth_indep with (d' := bits_val (group (bits s) k 0)) by (rewrite map_length, seq_length; lia).
  rewrite (map_nth (fun i => bits_val (group (bits s) k i))), seq_nth by lia. cbn [Nat.add].
  rewrite <- (bits_val_int (nth i y 0%Z) k) by (apply Hy, nth_In; lia). f_equal.
  apply (list_ext false).
  - rewrite group_length, int_bits_length, LL. nia.
  - intros j Hj. rewrite group_length in Hj. unfold group.
    rewrite nth_firstn_, nth_skipn_ by lia. rewrite B.
    rewrite (nth_concat_const _ k); [| |rewrite map_length; lia|lia].
    + rewrite nth_indep with (d' := int_bits 0%Z k) by (rewrite map_length; lia).
      rewrite (map_nth (fun v => int_bits v k)). reflexivity.
    + intros x Hx. apply in_map_iff in Hx. destruct Hx as (v & <- & _). apply int_bits_length.
Qed.

(** ** Differential coding *)

Lemma denc_length p l : length (denc p l) = length l.
Proof. revert p; induction l as [|b t IH]; intros p; simpl; [reflexivity|]. rewrite IH. reflexivity. Qed.

Lemma last_indep {A} (a : A) l d d' : last (a :: l) d = last (a :: l) d'.
Proof. revert a; induction l as [|b t IH]; intros a; [reflexivity|]. exact (IH b). Qed.

Lemma denc_snoc p l b : denc p (l ++ [b]) = denc p l ++ [xorb b (last (denc p l) p)].
Proof.
  revert p; induction l as [|a t IH]; intros p; [reflexivity|].
  cbn [app denc]. cbv zeta. rewrite IH. cbn [app]. f_equal. f_equal. f_equal. f_equal.
  destruct t as [|c u]; [reflexivity|]. cbn [denc]. cbv zeta.
  transitivity (last (xorb c (xorb a p) :: denc (xorb c (xorb a p)) u) p); [apply last_indep|reflexivity].
Qed.

Lemma diff_encode_wf x l s : shows x l -> WF s ->
  exists s', diff_encode s x = Ok s' /\ WF s' /\ bits s' = bits s ++ denc false l.
Proof.
  intros [L G] W. unfold diff_encode. rewrite L.
  assert (A : forall n, n <= length l -> exists s',
    loop n (fun i st => let* bi := bs_get x i in
      let bo := xorb (snd st) bi in let* y' := bs_push (fst st) bo in Ok (y', bo)) (s, false)
    = Ok (s', last (denc false (firstn n l)) false) /\ WF s' /\
    bits s' = bits s ++ denc false (firstn n l)).
  { induction n as [|n IH]; intros Hn.
    - exists s. simpl. rewrite app_nil_r. auto.
    - destruct IH as (s1 & E1 & W1 & B1); [lia|]. rewrite !loop_S. rewrite E1. cbn [bind fst snd].
      rewrite G by lia. cbn [bind].
      replace (S n) with (n + 1) by lia. rewrite (firstn_snoc l n false) by lia.
      rewrite denc_snoc, last_last, xorb_comm.
      destruct (bs_push_spec s1 (xorb (nth n l false) (last (denc false (firstn n l)) false)) W1)
        as (s2 & E2 & W2 & B2 & _).
      rewrite E2. cbn [bind]. exists s2. split; [reflexivity|]. split; [exact W2|].
      rewrite B2, B1, <- app_assoc. reflexivity. }
  cbv zeta in *. destruct (A (length l)) as (s' & E & W' & B'); [lia|]. rewrite E. cbn [bind fst].
  rewrite firstn_all in B'. exists s'. auto.
Qed.

(** What diff_decode really produces. *)
Definition ddec_code (l : list bool) : list bool :=
  match l with
  | [] => []
  | a :: _ => map (fun i => xorb (nth i (a :: l) false) (nth i l false)) (seq 0 (length l - 1))
  end.

Lemma diff_decode_wf x l s : shows x l -> WF s ->
  exists s', diff_decode s x = Ok s' /\ WF s' /\ bits s' = bits s ++ ddec_code l.
Proof.
  intros [L G] W. unfold diff_decode. rewrite L.
  destruct l as [|a t]; [exists s; simpl; rewrite app_nil_r; auto|].
  set (l := a :: t) in *. destruct (Nat.eqb_spec (length l) 0) as [Z|_]; [discriminate|].
  rewrite G by (simpl; lia). cbn [bind]. change (nth 0 l false) with a.
  assert (A : forall n, n <= length l - 1 -> exists s',
    loop n (fun i st => let* bi := bs_get x i in
      let bo := xorb (snd st) bi in let* y' := bs_push (fst st) bo in Ok (y', bi)) (s, a)
    = Ok (s', nth n (a :: l) false) /\ WF s' /\
    bits s' = bits s ++ map (fun i => xorb (nth i (a :: l) false) (nth i l false)) (seq 0 n)).
  { induction n as [|n IH]; intros Hn.
    - exists s. simpl. rewrite app_nil_r. auto.
    - destruct IH as (s1 & E1 & W1 & B1); [lia|]. rewrite !loop_S. rewrite E1. cbn [bind fst snd].
      rewrite G by lia. cbn [bind].
      destruct (bs_push_spec s1 (xorb (nth n (a :: l) false) (nth n l false)) W1)
        as (s2 & E2 & W2 & B2 & _).
      rewrite E2. cbn [bind]. exists s2. split; [reflexivity|]. split; [exact W2|].
      rewrite B2, B1, seq_S, map_app, app_assoc. reflexivity. }
  cbv zeta in *. destruct (A (length l - 1)) as (s' & E & W' & B'); [lia|]. rewrite E. cbn [bind fst].
  exists s'. auto.
Qed.

Lemma ddec_length l : length (ddec l) = length l - 1.
Proof.
  induction l as [|a t IH]; [reflexivity|]. destruct t as [|b u]; [reflexivity|].
  cbn [ddec length] in *. rewrite IH. lia.
Qed.

Lemma nth_ddec l i : i + 1 < length l -> nth i (ddec l) false = xorb (nth (i + 1) l false) (nth i l false).
Proof.
  revert i; induction l as [|a t IH]; intros i Hi; simpl in Hi; [lia|].
  destruct t as [|b u]; simpl in Hi; [lia|].
  destruct i as [|i]; [reflexivity|]. cbn [ddec]. simpl nth at 1. rewrite IH by (simpl; lia). reflexivity.
Qed.

(** In words: a leading zero, then the documented output without its last bit. *)
Lemma ddec_code_eq l : 2 <= length l -> ddec_code l = false :: removelast (ddec l).
Proof.
  intros H. destruct l as [|a t]; [simpl in H; lia|]. set (l := a :: t) in *.
  unfold ddec_code. fold l.
  change (match l with [] => [] | a :: _ =>
     map (fun i => xorb (nth i (a :: l) false) (nth i l false)) (seq 0 (length l - 1)) end)
   with (map (fun i => xorb (nth i (a :: l) false) (nth i l false)) (seq 0 (length l - 1))).
  assert (RL : length (removelast (ddec l)) = length l - 2).
  { rewrite removelast_firstn_len, firstn_length, ddec_length. lia. }
  apply (list_ext false).
  - rewrite map_length, seq_length. cbn [length]. rewrite RL. lia.
  - intros i Hi. rewrite map_length, seq_length in Hi.
    rewrite nth_indep with (d' := xorb (nth 0 (a :: l) false) (nth 0 l false))
      by (rewrite map_length, seq_length; lia).
    rewrite (map_nth (fun i => xorb (nth i (a :: l) false) (nth i l false))), seq_nth by lia.
    cbn [Nat.add]. destruct i as [|i].
    + simpl. apply xorb_nilpotent.
    + change (nth (S i) (false :: removelast (ddec l)) false) with (nth i (removelast (ddec l)) false).
      change (nth (S i) (a :: l) false) with (nth i l false).
      rewrite removelast_firstn_len. rewrite nth_firstn_ by (rewrite (ddec_length l); lia).
      rewrite nth_ddec by lia. rewrite Nat.add_1_r. apply xorb_comm.
Qed.

(** The documented law on lists. *)
Lemma ddec_denc b p l : ddec (denc p (b :: l)) = l.
Proof.
  revert b p; induction l as [|c t IH]; intros b p; [reflexivity|].
  cbn [denc]. cbn [ddec]. f_equal.
  - rewrite xorb_assoc, xorb_nilpotent, xorb_false_r. reflexivity.
  - specialize (IH c (xorb b p)). cbn [denc] in IH. exact IH.
Qed.

Lemma encode_prog p l s q l0 s0 : prog_ok p -> denote p = Some l -> exec p = Ok s ->
  prog_ok q -> denote q = Some l0 -> exec q = Ok s0 ->
  exists s', diff_encode s0 s = Ok s' /\ shows s' (l0 ++ denc false l).
Proof.
  intros P D E Pq Dq Eq.
  destruct (exec_wf p l s P D E) as [W B]. destruct (exec_wf q l0 s0 Pq Dq Eq) as [W0 B0].
  pose proof (WF_shows s W) as S. rewrite B in S.
  destruct (diff_encode_wf s l s0 S W0) as (s' & E' & W' & B').
  exists s'. split; [exact E'|]. rewrite <- B0, <- B'. apply WF_shows, W'.
Qed.

Lemma decode_prog p l s q l0 s0 : prog_ok p -> denote p = Some l -> exec p = Ok s ->
  prog_ok q -> denote q = Some l0 -> exec q = Ok s0 ->
  exists s', diff_decode s0 s = Ok s' /\
    shows s' (l0 ++ if length l <? 2 then [] else false :: removelast (ddec l)).
Proof.
  intros P D E Pq Dq Eq.
  destruct (exec_wf p l s P D E) as [W B]. destruct (exec_wf q l0 s0 Pq Dq Eq) as [W0 B0].
  pose proof (WF_shows s W) as S. rewrite B in S.
  destruct (diff_decode_wf s l s0 S W0) as (s' & E' & W' & B').
  exists s'. split; [exact E'|].
  replace (if length l <? 2 then [] else false :: removelast (ddec l)) with (ddec_code l).
  - rewrite <- B0, <- B'. apply WF_shows, W'.
  - destruct (Nat.ltb_spec (length l) 2) as [H|H].
    + destruct l as [|a [|b t]]; simpl in *; try reflexivity. lia.
    + apply ddec_code_eq. exact H.
Qed.

(** ** Hard decisions *)
Lemma decode_hard_wf llr s : WF s ->
  exists s', decode_hard s llr = Ok s' /\ WF s' /\ bits s' = bits s ++ map (fun v => (0 <? v)%Z) llr.
Proof.
  intros W. unfold decode_hard.
  destruct (push_loop (length llr) (fun i => Ok (0 <? nth i llr 0)%Z) (fun i => (0 <? nth i llr 0)%Z) s)
    as (s' & E & W' & B & _); [reflexivity|exact W|].
  exists s'. split; [|split; [exact W'|]].
  - rewrite <- E. assert (A : forall n, n <= length llr ->
      loop n (fun i y => let* v := vget llr i in bs_push y (0 <? v)%Z) s
      = loop n (fun i r => let* b := Ok (0 <? nth i llr 0)%Z in bs_push r b) s).
    { induction n as [|n IH]; intros Hn; [reflexivity|]. rewrite !loop_S. rewrite IH by lia.
      match goal with |- bind ?q _ = bind ?q _ => destruct q; cbn [bind]; [|reflexivity..] end.
      rewrite (vget_ok llr n 0%Z) by lia. reflexivity. }
    apply A. lia.
  - rewrite B. f_equal. clear. apply (list_ext false); rewrite !map_length, seq_length; [reflexivity|].
    intros i Hi. rewrite nth_indep with (d' := (0 <? nth 0 llr 0)%Z) by (rewrite map_length, seq_length; lia).
    rewrite (map_nth (fun i => (0 <? nth i llr 0)%Z)), seq_nth by lia.
    rewrite nth_indep with (d' := (0 <? 0)%Z) (n := i) by (rewrite map_length; lia).
    rewrite (map_nth (fun v => (0 <? v)%Z)). reflexivity.
Qed.

Lemma decode_hard_sign llr : exists s, decode_hard bs_empty llr = Ok s /\
  shows s (map (fun v => (0 <? v)%Z) llr).
Proof.
  destruct (decode_hard_wf llr bs_empty WF_empty) as (s & E & W & B).
  exists s. split; [exact E|]. change (bits bs_empty) with (@nil bool) in B. cbn [app] in B.
  rewrite <- B. apply WF_shows, W.
Qed.

(** ** Barker codes *)
Definition barker_lengths := [2;3;4;5;7;11;13].
Lemma barker_check : forall n, In n barker_lengths ->
  exists s l, code_Barker n = Ok s /\ shows s l /\ length l = n /\
    forall tau, 0 < tau < n -> (Z.abs (acorr l tau) <= 1)%Z.
Proof.
  assert (A : forall n l, length l = n ->
    forallb (fun tau => (Z.abs (acorr l tau) <=? 1)%Z) (seq 1 (n - 1)) = true ->
    forall tau, 0 < tau < n -> (Z.abs (acorr l tau) <= 1)%Z).
  { intros n l _ H tau Ht. rewrite forallb_forall in H. apply Z.leb_le. apply H.
    apply in_seq. lia. }
  assert (B : forall d n, length d = n -> (forall c, In c d -> c = 0 \/ c = 1) ->
     forallb (fun tau => (Z.abs (acorr (map (Nat.eqb 49) (map (fun d => 48 + d)%nat d)) tau) <=? 1)%Z) (seq 1 (n - 1)) = true ->
     exists s l, bs_of_chars bs_empty (map (fun d => 48 + d) d) = Ok s /\ shows s l /\ length l = n /\
    forall tau, 0 < tau < n -> (Z.abs (acorr l tau) <= 1)%Z).
  { intros d n L Hd H. destruct (string_roundtrip (map (fun d => 48 + d) d)) as (s & E & S & _).
    - intros c Hc. apply in_map_iff in Hc. destruct Hc as (x & <- & Hx).
      destruct (Hd x Hx) as [-> | ->]; auto.
    - exists s. eexists. split; [exact E|]. split; [exact S|].
      assert (L2 : length (map (Nat.eqb 49) (map (fun d => 48 + d) d)) = n) by (rewrite !map_length; exact L).
      split; [exact L2|]. apply A; assumption. }
  intros n Hn. unfold barker_lengths in Hn.
  repeat (destruct Hn as [<-|Hn];
    [apply B; [reflexivity|simpl; intros c Hc; lia|vm_compute; reflexivity]|]).
  destruct Hn.
Qed.

Lemma barker_other n : ~ In n barker_lengths -> code_Barker n = Exc.
Proof.
  unfold barker_lengths. intros H.
  do 14 (destruct n as [|n]; [try reflexivity; exfalso; apply H; simpl; tauto|]).
  reflexivity.
Qed.
