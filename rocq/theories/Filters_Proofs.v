(** Proofs for the real-time filters. *)
From Verif Require Import Base BaseLemmas Filters_Model Filters_Spec.
From Coq Require Import ZifyBool ZifyNat Ring Field.

Lemma mod_lt2 s k : 0 < k -> s < 2 * k -> s mod k = if s <? k then s else s - k.
Proof.
  intros Hk Hs. destruct (Nat.ltb_spec s k).
  - apply Nat.mod_small. lia.
  - replace s with (s - k + 1 * k) at 1 by lia. rewrite Nat.mod_add by lia. apply Nat.mod_small. lia.
Qed.

Lemma pget_ok {A} (l : list A) i d : i < length l -> pget l i = Ok (nth i l d).
Proof. intros H. unfold pget. rewrite (nth_error_nth' l d H). reflexivity. Qed.

Lemma imod_ok a k : 0 < k -> imod a k = Ok (a mod k).
Proof. intros H. unfold imod. destruct (Nat.eqb_spec k 0); [lia|reflexivity]. Qed.

Lemma nth_skipn' {A} (l : list A) n j d : nth j (skipn n l) d = nth (n + j) l d.
Proof.
  revert l; induction n as [|n IH]; intros l; [reflexivity|].
  destruct l as [|a t]; simpl; [destruct j; reflexivity|apply IH].
Qed.
Lemma nth_firstn' {A} (l : list A) n j d : j < n -> nth j (firstn n l) d = nth j l d.
Proof.
  revert n j; induction l as [|a t IH]; intros n j H; [rewrite firstn_nil; reflexivity|].
  destruct n as [|n]; [lia|]. destruct j as [|j]; [reflexivity|]. simpl. apply IH. lia.
Qed.
Lemma firstn_S_nth {A} (l : list A) j d : j < length l -> firstn (S j) l = firstn j l ++ [nth j l d].
Proof.
  revert j; induction l as [|a t IH]; intros [|j] H; simpl in *; try lia; auto.
  rewrite <- IH by lia. reflexivity.
Qed.

(** ** Circular windows *)
Section Win.
Context {A : Type} (d : A).
Definition Win (k : nat) (fen : list A) (idx : nat) (g : nat -> A) : Prop :=
  length fen = k /\ idx < k /\ forall i, i < k -> nth ((idx + i) mod k) fen d = g i.

Lemma win_push k fen idx g a : Win k fen idx g ->
  Win k (upd fen idx a) ((idx + 1) mod k) (fun i => if i =? k - 1 then a else g (i + 1)).
Proof.
  intros (L & Hi & G). assert (Hk : 0 < k) by lia.
  split; [rewrite upd_length; exact L|]. split; [apply Nat.mod_upper_bound; lia|].
  intros i Hik. rewrite Nat.add_mod_idemp_l by lia. rewrite nth_upd, L.
  assert (E : (idx + 1 + i) mod k = (idx + (i + 1)) mod k) by (f_equal; lia).
  destruct (Nat.eqb_spec i (k - 1)) as [Hl|Hl].
  - rewrite mod_lt2 by lia. destruct (Nat.ltb_spec (idx + 1 + i) k); [lia|].
    destruct (Nat.eqb_spec idx (idx + 1 + i - k)); [|lia]. destruct (Nat.ltb_spec idx k); [reflexivity|lia].
  - rewrite E. destruct (Nat.eqb_spec idx ((idx + (i + 1)) mod k)) as [C|C]; simpl.
    + exfalso. rewrite mod_lt2 in C by lia. destruct (Nat.ltb_spec (idx + (i + 1)) k); lia.
    + apply G. lia.
Qed.

Lemma win_head k fen idx g : Win k fen idx g -> nth idx fen d = g 0.
Proof.
  intros (L & Hi & G). rewrite <- G by lia. rewrite Nat.add_0_r, Nat.mod_small by lia. reflexivity.
Qed.

(** Insertion before the start, reading newest first. *)
Lemma win_cons k fen idx g a : Win k fen idx g -> let j := (idx + k - 1) mod k in
  Win k (upd fen j a) j (fun i => if i =? 0 then a else g (i - 1)).
Proof.
  intros (L & Hi & G) j. assert (Hk : 0 < k) by lia.
  assert (Hj : j < k) by (apply Nat.mod_upper_bound; lia).
  assert (Ej : j = if idx =? 0 then k - 1 else idx - 1).
  { unfold j. rewrite mod_lt2 by lia. destruct (Nat.ltb_spec (idx + k - 1) k), (Nat.eqb_spec idx 0); lia. }
  split; [rewrite upd_length; exact L|]. split; [exact Hj|].
  intros i Hik. rewrite nth_upd, L. destruct (Nat.eqb_spec i 0) as [->|Hn].
  - rewrite Nat.add_0_r, Nat.mod_small by lia. rewrite Nat.eqb_refl. destruct (Nat.ltb_spec j k); [reflexivity|lia].
  - assert (E : (j + i) mod k = (idx + (i - 1)) mod k).
    { rewrite !mod_lt2 by lia. destruct (Nat.eqb_spec idx 0); destruct (Nat.ltb_spec (j + i) k);
      destruct (Nat.ltb_spec (idx + (i - 1)) k); lia. }
    rewrite E. destruct (Nat.eqb_spec j ((idx + (i - 1)) mod k)) as [C|C]; simpl.
    + exfalso. rewrite mod_lt2 in C by lia. destruct (Nat.eqb_spec idx 0);
      destruct (Nat.ltb_spec (idx + (i - 1)) k); lia.
    + apply G. lia.
Qed.

Lemma win_ext k fen idx g g' : (forall i, i < k -> g i = g' i) -> Win k fen idx g -> Win k fen idx g'.
Proof. intros H (L & Hi & G). split; [exact L|]. split; [exact Hi|]. intros i Hik. rewrite G by exact Hik. auto. Qed.

Lemma win_init k : 0 < k -> Win k (repeat d k) 0 (fun _ => d).
Proof. intros H. split; [apply repeat_length|]. split; [exact H|]. intros i Hi. apply nth_repeat. Qed.
End Win.

Section Ring1.
Variable K : cring.
Add Ring Kr : (cth K).
Local Open Scope cring_scope.
Local Open Scope nat_scope.
Implicit Types h x y : list K.
Implicit Types blocks : list (list K).

Lemma sampZ_nat x n : sampZ x (Z.of_nat n) = samp x n.
Proof. unfold sampZ, samp. destruct (Z.ltb_spec (Z.of_nat n) 0); [lia|]. rewrite Nat2Z.id. reflexivity. Qed.
Lemma sampZ_neg x z : (z < 0)%Z -> sampZ x z = c0.
Proof. intros H. unfold sampZ. destruct (Z.ltb_spec z 0); [reflexivity|lia]. Qed.
Lemma sampZ_over x z : (Z.of_nat (length x) <= z)%Z -> sampZ x z = c0.
Proof. intros H. unfold sampZ. destruct (Z.ltb_spec z 0); [reflexivity|]. apply nth_overflow. lia. Qed.
Lemma sampZ_snoc x a z : sampZ (x ++ [a]) z = if (z =? Z.of_nat (length x))%Z then a else sampZ x z.
Proof.
  unfold sampZ. destruct (Z.ltb_spec z 0), (Z.eqb_spec z (Z.of_nat (length x))); try lia; try reflexivity.
  - rewrite app_nth2 by lia. replace (Z.to_nat z - length x) with 0 by lia. reflexivity.
  - destruct (Nat.lt_ge_cases (Z.to_nat z) (length x)).
    + apply app_nth1. assumption.
    + rewrite app_nth2 by lia. rewrite nth_overflow with (l := x) by lia.
      destruct (Z.to_nat z - length x) as [|[|m]] eqn:E; [lia|reflexivity|reflexivity].
Qed.
Lemma sampZ_firstn x n z : (z < Z.of_nat n)%Z -> sampZ (firstn n x) z = sampZ x z.
Proof. intros H. unfold sampZ. destruct (Z.ltb_spec z 0); [reflexivity|]. apply nth_firstn'. lia. Qed.
Lemma sampZ_app_l x y z : (z < Z.of_nat (length x))%Z -> sampZ (x ++ y) z = sampZ x z.
Proof. intros H. unfold sampZ. destruct (Z.ltb_spec z 0); [reflexivity|]. apply app_nth1. lia. Qed.
Lemma sampZ_app_r x y z : (Z.of_nat (length x) <= z)%Z -> sampZ (x ++ y) z = sampZ y (z - Z.of_nat (length x)).
Proof.
  intros H. unfold sampZ. destruct (Z.ltb_spec z 0); [lia|].
  destruct (Z.ltb_spec (z - Z.of_nat (length x)) 0); [lia|]. rewrite app_nth2 by lia. f_equal. lia.
Qed.

(** Window of the last [k] samples, oldest first. *)
Definition past (k : nat) h (i : nat) : K := sampZ h (Z.of_nat (length h) - Z.of_nat k + Z.of_nat i).

Lemma past_snoc k h a i : i < k -> past k (h ++ [a]) i = if i =? k - 1 then a else past k h (i + 1).
Proof.
  intros Hi. unfold past. rewrite sampZ_snoc, app_length. cbn [length].
  destruct (Nat.eqb_spec i (k - 1)).
  - destruct (Z.eqb_spec (Z.of_nat (length h + 1) - Z.of_nat k + Z.of_nat i) (Z.of_nat (length h))); [reflexivity|lia].
  - destruct (Z.eqb_spec (Z.of_nat (length h + 1) - Z.of_nat k + Z.of_nat i) (Z.of_nat (length h))); [lia|].
    f_equal. lia.
Qed.

Lemma past_nil k i : i < k -> past k [] i = c0.
Proof.
  intros H. unfold past. cbn [length]. apply sampZ_neg. lia.
Qed.

Definition HWin k (fen : list K) idx h := Win (c0 : K) k fen idx (past k h).

Lemma hwin_push k fen idx h a : HWin k fen idx h -> HWin k (upd fen idx a) ((idx + 1) mod k) (h ++ [a]).
Proof.
  intros W. eapply win_ext; [|apply win_push; exact W]. intros i Hi. cbv beta. rewrite past_snoc by exact Hi. reflexivity.
Qed.
Lemma hwin_init k : 0 < k -> HWin k (repeat c0 k) 0 [].
Proof. intros H. eapply win_ext; [|apply win_init; exact H]. intros i Hi. symmetry. apply past_nil. exact Hi. Qed.

(** ** Delay line *)
Lemma delay_run (r : nat) (blocks : list (list K)) :
  exists s y, run delay_step (delay_init r) blocks = Ok (s, y) /\
    length y = length (concat blocks) /\
    forall n, n < length y -> samp y n = sampZ (concat blocks) (Z.of_nat n - Z.of_nat r).
Proof.
  destruct (Nat.eq_dec r 0) as [->|Hr].
  - assert (G : forall blocks s, dl_ret s = 0 -> run delay_step s blocks = Ok (s, concat blocks) :> res (delay K * _)).
    { induction blocks0 as [|b bs IH]; intros s Hs; [reflexivity|]. cbn [run]. unfold delay_step at 1.
      rewrite Hs. cbn [Nat.eqb bind]. rewrite IH by exact Hs. reflexivity. }
    rewrite G by reflexivity. do 2 eexists. split; [reflexivity|]. split; [reflexivity|].
    intros n Hn. rewrite Z.sub_0_r, sampZ_nat. reflexivity.
  - assert (E : forall blocks (s : delay K), dl_ret s = r -> run delay_step s blocks = run (map_st delay_sample) s blocks).
    { induction blocks0 as [|b bs IH]; intros s Hs; [reflexivity|]. cbn [run].
      assert (D : delay_step s b = map_st delay_sample s b).
      { unfold delay_step. rewrite Hs. destruct (Nat.eqb_spec r 0); [lia|reflexivity]. }
      rewrite D. 
      assert (P : forall l (s : delay K) s' y, map_st delay_sample s l = Ok (s', y) -> dl_ret s' = dl_ret s).
      { induction l as [|a t IHl]; intros s0 s' y H; cbn [map_st] in H; [injection H as <- _; reflexivity|].
        destruct (delay_sample s0 a) as [[s1 b1]| | |] eqn:ES; cbn [bind] in H; try discriminate.
        destruct (map_st delay_sample s1 t) as [[s2 b2]| | |] eqn:ET; cbn [bind] in H; try discriminate.
        injection H as <- _. rewrite (IHl _ _ _ ET). unfold delay_sample in ES.
        destruct (vget (dl_fen s0) (dl_ri s0)); cbn [bind] in ES; try discriminate.
        destruct (vset (dl_fen s0) (dl_ri s0) a); cbn [bind] in ES; try discriminate.
        destruct (imod (dl_ri s0 + 1) (dl_ret s0)); cbn [bind] in ES; try discriminate.
        injection ES as <- _. reflexivity. }
      destruct (map_st delay_sample s b) as [[s1 y1]| | |] eqn:EM; cbn [bind]; try reflexivity.
      rewrite IH; [reflexivity|]. rewrite (P _ _ _ _ EM). exact Hs. }
    rewrite E by reflexivity. rewrite run_map_st.
    destruct (map_st_hist (delay_sample (A := K)) (fun h s => dl_ret s = r /\ HWin r (dl_fen s) (dl_ri s) h)
       (fun h _ => past r h 0) (c0 : K) (c0 : K)) with (s := delay_init (K := K) r) (l := concat blocks)
       as (s' & y & E1 & _ & L & N).
    + intros h s a (A1 & A2). destruct A2 as (L & I & G) eqn:Q. clear Q.
      assert (W : HWin r (dl_fen s) (dl_ri s) h) by (split; [exact L|split; [exact I|exact G]]).
      unfold delay_sample. rewrite (vget_ok _ _ (c0 : K)) by lia. cbn [bind]. rewrite vset_ok by lia. cbn [bind].
      rewrite A1, imod_ok by lia. cbn [bind]. rewrite (win_head _ _ _ _ _ W). eexists. split; [reflexivity|].
      cbn [dl_ret dl_fen dl_ri]. split; [reflexivity|]. apply hwin_push. exact W.
    + split; [reflexivity|]. apply hwin_init. lia.
    + exists s', y. split; [exact E1|]. split; [exact L|]. intros n Hn. unfold samp. rewrite N by lia.
      unfold past. rewrite firstn_length. rewrite sampZ_firstn by lia. f_equal. lia.
Qed.

(** ** FIR filter *)
Lemma loop_sum n (F : nat -> res K) f s0 : (forall i, i < n -> F i = Ok (f i)) ->
  loop n (fun i s => let* v := F i in Ok (cadd s v)) s0 = Ok (cadd s0 (sum n f)).
Proof.
  induction n as [|n IH]; intros H; [simpl; f_equal; ring|].
  rewrite loop_S, IH by (intros; apply H; lia). cbn [bind]. rewrite H by lia. cbn [bind sum]. f_equal. ring.
Qed.

Lemma circ_dot_ok fen coefs idx g : Win (c0 : K) (length coefs) fen idx g ->
  circ_dot fen coefs idx = Ok (sum (length coefs) (fun k => cmul (samp coefs k) (g (length coefs - 1 - k)))).
Proof.
  intros (L & Hi & G). unfold circ_dot. set (k := length coefs) in *.
  set (k1 := k - idx). set (k2 := k - k1).
  assert (E1 : forall s0, loop k1 (fun i s => let* f := pget fen (idx + i) in
      let* c := pget coefs (k - 1 - i) in Ok (cadd s (cmul f c))) s0
      = Ok (cadd s0 (sum k1 (fun i => cmul (g i) (samp coefs (k - 1 - i)))))).
  { intros s0. rewrite <- (loop_sum k1 (fun i => let* f := pget fen (idx + i) in
      let* c := pget coefs (k - 1 - i) in Ok (cmul f c))).
    - clear. induction k1 as [|m IH]; [reflexivity|]. rewrite !loop_S, IH.
      match goal with |- bind ?q _ = bind ?q _ => destruct q; cbn [bind]; [|reflexivity..] end.
      destruct (pget fen (idx + m)); cbn [bind]; try reflexivity.
      destruct (pget coefs (k - 1 - m)); cbn [bind]; reflexivity.
    - intros i Hi1. rewrite (pget_ok _ _ (c0 : K)) by lia. cbn [bind].
      rewrite (pget_ok _ _ (c0 : K)) by lia. cbn [bind]. rewrite <- G by lia.
      rewrite Nat.mod_small by lia. reflexivity. }
  assert (E2 : forall s0, loop k2 (fun i s => let* f := pget fen i in
      let* c := pget coefs (k - 1 - k1 - i) in Ok (cadd s (cmul f c))) s0
      = Ok (cadd s0 (sum k2 (fun i => cmul (g (k1 + i)) (samp coefs (k - 1 - (k1 + i))))))).
  { intros s0. rewrite <- (loop_sum k2 (fun i => let* f := pget fen i in
      let* c := pget coefs (k - 1 - k1 - i) in Ok (cmul f c))).
    - generalize k2 as q. clear. induction q as [|m IH]; [reflexivity|]. rewrite !loop_S, IH.
      match goal with |- bind ?q _ = bind ?q _ => destruct q; cbn [bind]; [|reflexivity..] end.
      destruct (pget fen m); cbn [bind]; try reflexivity.
      destruct (pget coefs (k - 1 - k1 - m)); cbn [bind]; reflexivity.
    - intros i Hi1. rewrite (pget_ok _ _ (c0 : K)) by lia. cbn [bind].
      rewrite (pget_ok _ _ (c0 : K)) by lia. cbn [bind]. rewrite <- G by lia.
      rewrite mod_lt2 by lia. destruct (Nat.ltb_spec (idx + (k1 + i)) k); [lia|].
      unfold samp. do 2 f_equal; f_equal; lia. }
  rewrite E1. cbn [bind]. rewrite E2. f_equal.
  rewrite (sum_rev _ k). replace (cadd (cadd c0 (sum k1 (fun i => cmul (g i) (samp coefs (k - 1 - i)))))
     (sum k2 (fun i => cmul (g (k1 + i)) (samp coefs (k - 1 - (k1 + i))))))
   with (sum (k1 + k2) (fun i => cmul (g i) (samp coefs (k - 1 - i)))) by (rewrite sum_split; ring).
  replace (k1 + k2) with k by lia. apply sum_ext. intros i Hik.
  replace (k - 1 - (k - 1 - i)) with i by lia. ring.
Qed.

Lemma conv_past (c h : list K) a :
  sum (length c) (fun k => cmul (samp c k) (past (length c) (h ++ [a]) (length c - 1 - k)))
  = conv c (h ++ [a]) (length h).
Proof.
  unfold conv. apply sum_ext. intros k Hk. f_equal. unfold past. f_equal. rewrite app_length. cbn [length]. lia.
Qed.

Lemma conv_firstn (c x : list K) n : n < length x ->
  conv c (firstn n x ++ [nth n x c0]) (length (firstn n x)) = conv c x n.
Proof.
  intros Hn. rewrite <- firstn_S_nth by exact Hn. rewrite firstn_length. replace (Nat.min n (length x)) with n by lia.
  unfold conv. apply sum_ext. intros k _. f_equal. apply sampZ_firstn. lia.
Qed.

Definition fir_inv (c h : list K) (s : fir K) :=
  fir_coefs s = c /\ HWin (length c) (fir_fen s) (fir_index s) h.

Lemma fir_sample_ok (c h : list K) s a : 0 < length c -> fir_inv c h s ->
  exists s', fir_sample s a = Ok (s', conv c (h ++ [a]) (length h)) /\ fir_inv c (h ++ [a]) s'.
Proof.
  intros Hc (A1 & W). pose proof W as (L & I & G). unfold fir_sample. rewrite vset_ok by lia. cbn [bind].
  rewrite A1, imod_ok by lia. cbn [bind]. pose proof (hwin_push _ _ _ _ a W) as W'.
  rewrite (circ_dot_ok _ _ _ _ W'). cbn [bind]. rewrite conv_past. eexists. split; [reflexivity|].
  split; [reflexivity|exact W'].
Qed.

Lemma fir_run_map (c : list K) : c <> [] -> forall blocks (s : fir K) h, fir_inv c h s ->
  run fir_step s blocks = run (map_st fir_sample) s blocks.
Proof.
  intros Hc. assert (Hl : 0 < length c) by (destruct c; [congruence|simpl; lia]).
  induction blocks as [|b bs IH]; intros s h HI; [reflexivity|]. cbn [run].
  assert (D : fir_step s b = map_st fir_sample s b).
  { unfold fir_step. destruct HI as (-> & _). destruct (Nat.eqb_spec (length c) 0); [lia|reflexivity]. }
  rewrite D.
  assert (P : forall l h (s : fir K), fir_inv c h s -> exists s' y, map_st fir_sample s l = Ok (s', y) /\ fir_inv c (h ++ l) s').
  { induction l as [|a t IHl]; intros h0 s0 H0; cbn [map_st].
    - exists s0, []. rewrite app_nil_r. auto.
    - destruct (fir_sample_ok c h0 s0 a Hl H0) as (s1 & E1 & I1). rewrite E1. cbn [bind].
      destruct (IHl _ _ I1) as (s2 & y2 & E2 & I2). rewrite E2. cbn [bind]. do 2 eexists. split; [reflexivity|].
      rewrite <- app_assoc in I2. exact I2. }
  destruct (P b h s HI) as (s1 & y1 & E1 & I1). rewrite E1. cbn [bind]. rewrite (IH _ _ I1). reflexivity.
Qed.

Lemma fir_init_inv (c : list K) : c <> [] -> fir_inv c [] (fir_init c).
Proof.
  intros Hc. split; [reflexivity|]. cbn [fir_fen fir_index fir_init]. apply hwin_init.
  destruct c; [congruence|simpl; lia].
Qed.

Lemma fir_map (c x : list K) : c <> [] ->
  exists s y, map_st fir_sample (fir_init c) x = Ok (s, y) /\ fir_inv c x s /\ length y = length x /\
    forall n, n < length x -> samp y n = conv c x n.
Proof.
  intros Hc. assert (Hl : 0 < length c) by (destruct c; [congruence|simpl; lia]).
  destruct (map_st_hist (fir_sample (K := K)) (fir_inv c) (fun h a => conv c (h ++ [a]) (length h)) (c0 : K) (c0 : K))
    with (s := fir_init c) (l := x) as (s & y & E & I & L & N).
  - intros h s a HI. apply fir_sample_ok; assumption.
  - apply fir_init_inv. exact Hc.
  - exists s, y. split; [exact E|]. split; [exact I|]. split; [exact L|]. intros n Hn. unfold samp. rewrite N by exact Hn.
    apply conv_firstn. exact Hn.
Qed.

Lemma fir_run (c : list K) (blocks : list (list K)) : c <> [] ->
  exists s y, run fir_step (fir_init c) blocks = Ok (s, y) /\
    length y = length (concat blocks) /\
    forall n, n < length y -> samp y n = conv c (concat blocks) n.
Proof.
  intros Hc. rewrite (fir_run_map c Hc _ _ [] (fir_init_inv c Hc)). rewrite run_map_st.
  destruct (fir_map c (concat blocks) Hc) as (s & y & E & _ & L & N).
  exists s, y. split; [exact E|]. split; [exact L|]. intros n Hn. apply N. lia.
Qed.

Lemma fir_empty (blocks : list (list K)) b : run fir_step (fir_init []) (b :: blocks) = Exc.
Proof. reflexivity. Qed.

(** ** Moving average (ring part) *)
Definition mg_inv_ (k : nat) (inv : K) (h : list K) (s : mg K) :=
  HWin k (mg_fen s) (mg_index s) h /\ mg_inv s = inv /\
  mg_acc s = sum k (fun i => past k h i).

Lemma mg_sample_ok k inv h s a : 0 < k -> mg_inv_ k inv h s ->
  exists s', mg_sample s a = Ok (s', cmul (sum k (fun i => sampZ (h ++ [a]) (Z.of_nat (length h) - Z.of_nat i))) inv)
    /\ mg_inv_ k inv (h ++ [a]) s'.
Proof.
  intros Hk (W & A1 & A2). pose proof W as (L & I & G). unfold mg_sample.
  rewrite (vget_ok _ _ (c0 : K)) by lia. cbn [bind]. rewrite vset_ok by lia. cbn [bind].
  rewrite L, imod_ok by lia. cbn [bind]. rewrite (win_head _ _ _ _ _ W), A1, A2.
  assert (E : csub (cadd (sum k (fun i => past k h i)) a) (past k h 0) = sum k (fun i => past k (h ++ [a]) i)).
  { destruct k as [|m]; [lia|]. rewrite (sum_S_l _ m (fun i => past (S m) h i)).
    cbn [sum]. rewrite (past_snoc (S m) h a m) by lia. destruct (Nat.eqb_spec m (S m - 1)); [|lia].
    rewrite (sum_ext _ m (fun i => past (S m) (h ++ [a]) i) (fun i => past (S m) h (S i))).
    - ring.
    - intros i Hi. rewrite past_snoc by lia. destruct (Nat.eqb_spec i (S m - 1)); [lia|]. f_equal. lia. }
  eexists. split.
  - rewrite E. do 3 f_equal. rewrite (sum_rev _ k). apply sum_ext. intros i Hi. unfold past. f_equal.
    rewrite app_length. cbn [length]. lia.
  - split; [apply hwin_push; exact W|]. split; reflexivity.
Qed.

(** ** First-order recursions *)
Lemma dc_map a x : forall (s : fdc K), fd_a s = a ->
  exists s', map_st dc_sample s x = Ok (s', map snd (recur (fun v p => (fst v, cmul a (cadd (csub (fst v) (fst p)) (snd p)))) (fd_xp s, fd_yp s) (map (fun v => (v, c0)) x))).
Proof.
  induction x as [|v t IH]; intros s Hs; cbn [map_st map recur]; [eexists; reflexivity|].
  unfold dc_sample at 1. cbn [bind]. destruct (IH (mkfdc (fd_a s) v (cmul (fd_a s) (cadd (csub v (fd_xp s)) (fd_yp s)))) Hs) as (s' & E).
  rewrite E. cbn [bind]. eexists. rewrite Hs. reflexivity.
Qed.

Lemma dc_run (a : K) blocks : exists s y, run dc_step (dc_init a) blocks = Ok (s, y) /\
  length y = length (concat blocks) /\
  forall n, n < length y -> samp y n =
    cmul a (cadd (csub (samp (concat blocks) n) (sampZ (concat blocks) (Z.of_nat n - 1))) (sampZ y (Z.of_nat n - 1))).
Proof.
  change dc_step with (map_st (dc_sample (K := K))). rewrite run_map_st. generalize (concat blocks) as x. intros x.
  assert (G : forall x (s : fdc K), fd_a s = a -> exists s' y, map_st dc_sample s x = Ok (s', y) /\ length y = length x /\
    forall n, n < length x -> samp y n = cmul a (cadd (csub (samp x n) (if n =? 0 then fd_xp s else samp x (n - 1)))
       (if n =? 0 then fd_yp s else samp y (n - 1)))).
  { clear. induction x as [|v t IH]; intros s Hs; cbn [map_st].
    - do 2 eexists. split; [reflexivity|]. split; [reflexivity|]. simpl. lia.
    - unfold dc_sample at 1. cbn [bind].
      destruct (IH (mkfdc (fd_a s) v (cmul (fd_a s) (cadd (csub v (fd_xp s)) (fd_yp s)))) Hs) as (s' & y & E & L & N).
      rewrite E. cbn [bind]. do 2 eexists. split; [reflexivity|]. split; [simpl; congruence|].
      intros [|n] Hn.
      + simpl. rewrite Hs. reflexivity.
      + cbn [Nat.eqb]. replace (S n - 1) with n by lia. change (samp (v :: t) (S n)) with (samp t n).
        match goal with |- samp (?a0 :: y) (S n) = _ => change (samp (a0 :: y) (S n)) with (samp y n) end.
        rewrite N by (simpl in Hn; lia). cbn [fd_xp fd_yp]. destruct n as [|n]; [reflexivity|].
        cbn [Nat.eqb]. replace (S n - 1) with n by lia. reflexivity. }
  destruct (G x (dc_init a) eq_refl) as (s & y & E & L & N). exists s, y. split; [exact E|]. split; [exact L|].
  intros n Hn. rewrite N by lia. destruct n as [|n].
  - cbn [Nat.eqb fd_xp fd_yp dc_init]. rewrite !sampZ_neg by lia. reflexivity.
  - cbn [Nat.eqb]. replace (Z.of_nat (S n) - 1)%Z with (Z.of_nat n) by lia. rewrite !sampZ_nat.
    replace (S n - 1) with n by lia. reflexivity.
Qed.

Lemma dc_const (a c : K) n : exists s y, run dc_step (dc_init a) [repeat c n] = Ok (s, y) /\ length y = n /\
  forall i, i < n -> samp y i = cmul (cpow a (S i)) c.
Proof.
  destruct (dc_run a [repeat c n]) as (s & y & E & L & N). exists s, y. split; [exact E|].
  cbn [concat] in *. rewrite app_nil_r in *. rewrite repeat_length in L. split; [exact L|].
  assert (R : forall i, i < n -> samp (repeat c n) i = c).
  { intros i Hi. unfold samp. rewrite nth_indep with (d' := c) by (rewrite repeat_length; exact Hi). apply nth_repeat. }
  induction i as [|i IH]; intros Hi; rewrite N by lia.
  - rewrite R by lia. rewrite !sampZ_neg by lia. simpl. ring.
  - replace (Z.of_nat (S i) - 1)%Z with (Z.of_nat i) by lia. rewrite !sampZ_nat, !R, IH by lia. cbn [cpow]. ring.
Qed.

Lemma last_nonempty {A} (l : list A) d d' : l <> [] -> last l d = last l d'.
Proof.
  destruct l as [|a l]; [congruence|]. intros _. revert a. induction l as [|b l IH]; intros a; [reflexivity|]. exact (IH b).
Qed.

Lemma last_app_ne {A} (l q : list A) d d' : q <> [] -> last (l ++ q) d = last q d'.
Proof.
  intros Hq. induction l as [|z l IHl]; [apply last_nonempty; exact Hq|].
  rewrite <- IHl. cbn [app]. destruct (l ++ q) eqn:EE; [destruct l; [cbn in EE; congruence|discriminate]|reflexivity].
Qed.

Lemma lexp_map g x : forall (s : lexp K), le_g s = g ->
  exists s' , map_st lexp_sample s x = Ok (s', recur (fun v p => cadd p (cmul g (csub v p))) (le_acc s) x)
    /\ le_g s' = g /\ le_acc s' = last (recur (fun v p => cadd p (cmul g (csub v p))) (le_acc s) x) (le_acc s).
Proof.
  induction x as [|v t IH]; intros s Hs; cbn [map_st recur].
  - eexists. split; [reflexivity|]. auto.
  - unfold lexp_sample at 1. cbn [bind]. cbv zeta. rewrite Hs.
    destruct (IH (mklexp (cadd (le_acc s) (cmul g (csub v (le_acc s)))) g (le_init s)) eq_refl) as (s' & E & G & A).
    rewrite E. cbn [bind le_acc]. eexists. split; [reflexivity|]. split; [exact G|]. rewrite A. cbn [le_acc].
    destruct t as [|w t]; [reflexivity|]. cbn [recur]. cbv zeta.
    match goal with |- last (?p :: ?q) ?d = last (_ :: ?p :: ?q) ?d' => transitivity (last (p :: q) d'); [|reflexivity] end.
    apply last_nonempty. discriminate.
Qed.

Lemma recur_app {A} (f : A -> A -> A) p (x y : list A) :
  recur f p (x ++ y) = recur f p x ++ recur f (last (recur f p x) p) y.
Proof.
  revert p; induction x as [|a t IH]; intros p; [reflexivity|]. cbn [app recur]. cbv zeta.
  rewrite IH. cbn [app]. f_equal. f_equal. f_equal.
  destruct t as [|b u]; [reflexivity|]. cbn [recur]. cbv zeta.
  match goal with |- last (?p :: ?q) ?d = last (_ :: ?p :: ?q) ?d' => transitivity (last (p :: q) d'); [|reflexivity] end.
  apply last_nonempty. discriminate.
Qed.

Lemma recur_length {A} (f : A -> A -> A) p (x : list A) : length (recur f p x) = length x.
Proof. revert p; induction x as [|a t IH]; intros p; simpl; [reflexivity|]. rewrite IH. reflexivity. Qed.

Lemma lexp_run g blocks : exists s, run lexp_step (lexp_init g) blocks =
  Ok (s, recur (fun v p : K => cadd p (cmul g (csub v p))) (hd c0 (concat blocks)) (concat blocks)).
Proof.
  set (f := fun v p : K => cadd p (cmul g (csub v p))).
  destruct (run_hist (lexp_step (K := K))
    (fun h s => le_g s = g /\ match h with [] => le_init s = false | _ => le_init s = true /\ le_acc s = last (recur f (hd c0 h) h) c0 end)
    (fun h => recur f (hd c0 h) h)) with (s := lexp_init g) (blocks := blocks) as (s & E & _).
  - reflexivity.
  - intros h s b (A1 & A2). unfold lexp_step. destruct b as [|b0 b'].
    + exists s, []. rewrite !app_nil_r. auto.
    + set (b := b0 :: b').
      destruct (lexp_map g b (mklexp (if le_init s then le_acc s else b0) (le_g s) (le_init s)) A1) as (s1 & E1 & G1 & L1).
      rewrite E1. cbn [bind le_acc] in *. do 2 eexists. split; [reflexivity|]. cbn [le_g le_init le_acc].
      destruct h as [|h0 h'].
      * rewrite A2 in *. cbn [app]. change (hd c0 b) with b0. split; [|reflexivity]. split; [exact G1|].
        unfold b in *. split; [reflexivity|]. rewrite L1. apply last_nonempty. discriminate.
      * destruct A2 as (A2 & A3). rewrite A2 in *. set (h := h0 :: h') in *.
        assert (EQ : recur f (hd c0 (h ++ b)) (h ++ b) = recur f (hd c0 h) h ++ recur f (le_acc s) b).
        { change (hd c0 (h ++ b)) with h0. change (hd c0 h) with h0 in *. rewrite recur_app. do 2 f_equal. rewrite A3.
          apply last_nonempty. discriminate. }
        split; [|exact EQ]. split; [exact G1|]. cbn [app h]. split; [reflexivity|].
        change (h0 :: h' ++ b) with (h ++ b). rewrite EQ, L1.
        symmetry. apply last_app_ne. discriminate.
  - split; reflexivity.
  - exists s. exact E.
Qed.

Lemma nth_recur {A} (f : A -> A -> A) p (x : list A) n d : n < length x ->
  nth n (recur f p x) d = f (nth n x d) (if n =? 0 then p else nth (n - 1) (recur f p x) d).
Proof.
  revert p n; induction x as [|a t IH]; intros p n Hn; simpl in Hn; [lia|].
  destruct n as [|n]; [reflexivity|]. cbn [recur]. cbv zeta. cbn [nth Nat.eqb]. rewrite IH by lia.
  replace (S n - 1) with n by lia. destruct n as [|n]; [reflexivity|]. cbn [Nat.eqb].
  replace (S n - 1) with n by lia. reflexivity.
Qed.

Lemma lexp_run' (g : K) blocks : exists s y, run lexp_step (lexp_init g) blocks = Ok (s, y) /\
  length y = length (concat blocks) /\
  forall n, n < length y ->
    let prev := if n =? 0 then samp (concat blocks) 0 else samp y (n - 1) in
    samp y n = cadd prev (cmul g (csub (samp (concat blocks) n) prev)).
Proof.
  destruct (lexp_run g blocks) as (s & E). exists s. eexists. split; [exact E|]. rewrite recur_length. split; [reflexivity|].
  intros n Hn prev. unfold samp at 1. rewrite nth_recur by exact Hn. cbv beta. unfold prev.
  destruct n as [|n]; [|reflexivity]. cbn [Nat.eqb]. destruct (concat blocks); reflexivity.
Qed.

Lemma lexp_const (g c : K) n : exists s, run lexp_step (lexp_init g) [repeat c n] = Ok (s, repeat c n).
Proof.
  destruct (lexp_run g [repeat c n]) as (s & E). exists s. rewrite E. cbn [concat]. rewrite app_nil_r. do 2 f_equal.
  destruct n as [|n]; [reflexivity|]. change (hd c0 (repeat c (S n))) with c.
  generalize (S n) as m. induction m as [|m IH]; [reflexivity|]. cbn [repeat recur]. cbv zeta.
  replace (cadd c (cmul g (csub c c))) with c by ring. rewrite IH. reflexivity.
Qed.

End Ring1.
