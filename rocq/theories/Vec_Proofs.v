(** Proofs about rotations, searches, ranges (C38, C39). *)
From Coq Require Import Sorted Field.
From Verif Require Import Base BaseLemmas Polyphase_Model Polyphase_Spec Polyphase_Proofs2 Vec_Model Vec_Spec.

(** ** Rotation *)
Definition rot_go {A} (x : list A) (d : Z) := fix go (k i : nat) : res (list A) :=
    match k with
    | O => Ok []
    | S k' => let* a := vgetZ x (Z.rem (Z.of_nat i + d + Z.of_nat (length x)) (Z.of_nat (length x))) in
              let* t := go k' (S i) in Ok (a :: t)
    end.
Lemma rotation_eq {A} (x : list A) d : rotation_vec x d = rot_go x d (length x) 0%nat.
Proof. reflexivity. Qed.
Lemma rot_go_S {A} (x : list A) d k i : rot_go x d (S k) i =
  bind (vgetZ x (Z.rem (Z.of_nat i + d + Z.of_nat (length x)) (Z.of_nat (length x)))) (fun a => bind (rot_go x d k (S i)) (fun t => Ok (a :: t))).
Proof. reflexivity. Qed.
Lemma rot_go_ok {A} (x : list A) d a0 : (- Z.of_nat (length x) <= d)%Z -> forall k i, (i + k <= length x)%nat ->
  rot_go x d k i = Ok (map (fun j => nth (Z.to_nat ((Z.of_nat j + d) mod Z.of_nat (length x))) x a0) (seq i k)).
Proof.
  intros Hd. induction k as [|k IH]; intros i Hi; [reflexivity|]. rewrite rot_go_S. cbn [seq map].
  assert (Hn : (0 < Z.of_nat (length x))%Z) by lia.
  assert (E : Z.rem (Z.of_nat i + d + Z.of_nat (length x)) (Z.of_nat (length x)) = ((Z.of_nat i + d) mod Z.of_nat (length x))%Z).
  { rewrite Z.rem_mod_nonneg by lia. rewrite <- (Z.mul_1_l (Z.of_nat (length x))) at 1. apply Z.mod_add. lia. }
  rewrite E. pose proof (Z.mod_pos_bound (Z.of_nat i + d) _ Hn).
  rewrite (vgetZ_ok x _ a0) by lia. cbn [bind]. rewrite IH by lia. reflexivity.
Qed.
Lemma rotation_ok {A} (x : list A) d a0 : (- Z.of_nat (length x) <= d)%Z ->
  rotation_vec x d = Ok (map (fun j => nth (Z.to_nat ((Z.of_nat j + d) mod Z.of_nat (length x))) x a0) (seq 0 (length x))).
Proof. intros H. rewrite rotation_eq. apply rot_go_ok; [exact H|lia]. Qed.
Lemma rotation_spec {A} (x : list A) d a0 : (- Z.of_nat (length x) <= d)%Z ->
  exists y, rotation_vec x d = Ok y /\ length y = length x /\
    forall i, (i < length x)%nat -> nth i y a0 = nth (Z.to_nat ((Z.of_nat i + d) mod Z.of_nat (length x))) x a0.
Proof.
  intros H. eexists. split; [apply (rotation_ok x d a0 H)|]. rewrite map_length, seq_length. split; [reflexivity|].
  intros i Hi. erewrite nth_indep by (rewrite map_length, seq_length; exact Hi).
  rewrite (map_nth (fun j => nth (Z.to_nat ((Z.of_nat j + d) mod Z.of_nat (length x))) x a0) _ 0%nat). rewrite seq_nth by exact Hi. reflexivity.
Qed.
Lemma rotation_comp {A} (x y : list A) d e : (- Z.of_nat (length x) <= d)%Z -> (- Z.of_nat (length x) <= e)%Z -> (- Z.of_nat (length x) <= d + e)%Z ->
  rotation_vec x d = Ok y -> rotation_vec y e = rotation_vec x (d + e).
Proof.
  intros Hd He Hde H. destruct x as [|a0 x']; [cbn in H; injection H as <-; reflexivity|]. set (x := a0 :: x') in *.
  destruct (rotation_spec x d a0 Hd) as (y' & E1 & L1 & N1). rewrite H in E1. injection E1 as <-.
  destruct (rotation_spec y e a0) as (z & E2 & L2 & N2); [now rewrite L1|].
  destruct (rotation_spec x (d + e) a0 Hde) as (w & E3 & L3 & N3). rewrite E2, E3. f_equal.
  apply (list_ext a0); [congruence|]. intros i Hi.
  assert (Hn : (0 < Z.of_nat (length x))%Z) by (unfold x; cbn [length]; lia).
  rewrite N2 by lia. rewrite L1. pose proof (Z.mod_pos_bound (Z.of_nat i + e) _ Hn).
  rewrite N1 by lia. rewrite N3 by lia. f_equal. f_equal. rewrite Z2Nat.id by lia.
  rewrite Zplus_mod_idemp_l. f_equal. lia.
Qed.
Lemma rotation_id {A} (x : list A) d : (d = 0 \/ d = Z.of_nat (length x))%Z -> rotation_vec x d = Ok x.
Proof.
  intros Hd. destruct x as [|a0 x']; [reflexivity|]. set (x := a0 :: x') in *.
  destruct (rotation_spec x d a0) as (y & E & L & N); [lia|]. rewrite E. f_equal. apply (list_ext a0); [exact L|].
  intros i Hi. rewrite N by lia. f_equal. assert (Hn : (0 < Z.of_nat (length x))%Z) by (unfold x; cbn [length]; lia).
  destruct Hd as [-> | ->].
  - rewrite Z.add_0_r, Z.mod_small by lia. lia.
  - rewrite <- (Z.mul_1_l (Z.of_nat (length x))) at 1. rewrite Z.mod_add by lia. rewrite Z.mod_small by lia. lia.
Qed.
Lemma rot_go_exc {A} (x : list A) d i0 : (Z.rem (Z.of_nat i0 + d + Z.of_nat (length x)) (Z.of_nat (length x)) < 0)%Z ->
  forall k i, (i <= i0 < i + k)%nat -> rot_go x d k i = Exc.
Proof.
  intros Hr. induction k as [|k IH]; intros i Hi; [lia|]. 
  rewrite rot_go_S.
  destruct (Nat.eq_dec i i0) as [-> | Hne].
  - unfold vgetZ. destruct (Z.ltb_spec (Z.rem (Z.of_nat i0 + d + Z.of_nat (length x)) (Z.of_nat (length x))) 0); [reflexivity|lia].
  - rewrite IH by lia. unfold vgetZ, vget. destruct (_ <? 0)%Z; [reflexivity|]. destruct (nth_error _ _); reflexivity.
Qed.
Lemma rotation_exc {A} (x : list A) d : (2 <= length x)%nat -> (d < - Z.of_nat (length x))%Z -> rotation_vec x d = Exc.
Proof.
  intros Hn Hd. rewrite rotation_eq.
  set (n := Z.of_nat (length x)) in *.
  assert (R : forall z, (z < 0)%Z -> Z.rem z n <> 0%Z -> (Z.rem z n < 0)%Z).
  { intros z Hz Hr. pose proof (Z.rem_nonpos z n ltac:(lia) ltac:(lia)). lia. }
  destruct (Z.eq_dec (Z.rem (Z.of_nat 0 + d + n) n) 0) as [E|E].
  - apply (rot_go_exc x d 1%nat); [|lia]. fold n. apply R.
    + assert (d <> - n - 1)%Z; [|lia]. intros ->. replace (Z.of_nat 0 + (- n - 1) + n)%Z with (- (1))%Z in E by lia.
      rewrite Z.rem_opp_l in E by lia. rewrite Z.rem_small in E by lia. lia.
    + intros E1. apply Z.rem_divide in E; [|lia]. apply Z.rem_divide in E1; [|lia].
      assert (n | 1)%Z. { replace 1%Z with ((Z.of_nat 1 + d + n) - (Z.of_nat 0 + d + n))%Z by lia. apply Z.divide_sub_r; assumption. }
      apply Z.divide_1_r_nonneg in H; lia.
  - apply (rot_go_exc x d 0%nat); [|lia]. apply R; [lia|exact E].
Qed.

(** ** Searches *)
Lemma trouve_from_spec x : forall k, StronglySorted lt (trouve_from k x) /\
  forall i, In i (trouve_from k x) <-> (k <= i)%nat /\ nth_error x (i - k) = Some true.
Proof.
  induction x as [|b t IH]; intros k; cbn [trouve_from].
  - split; [constructor|]. intros i. destruct (i - k)%nat; cbn; split; [tauto|intros [_ H]; discriminate|tauto|intros [_ H]; discriminate].
  - destruct (IH (S k)) as [IH1 IH2].
    assert (G : forall i, (k <= i)%nat -> nth_error (b :: t) (i - k) = Some true <-> (i = k /\ b = true) \/ ((S k <= i)%nat /\ nth_error t (i - S k) = Some true)).
    { intros i Hi. destruct (Nat.eq_dec i k) as [-> | Hne].
      - rewrite Nat.sub_diag. cbn. split; [intros [= ->]; left; tauto|]. intros [[_ ->]|[H _]]; [reflexivity|lia].
      - replace (i - k)%nat with (S (i - S k)) by lia. cbn. split; [intros H; right; split; [lia|exact H]|]. intros [[H _]|[_ H]]; [congruence|exact H]. }
    destruct b.
    + split.
      * constructor; [exact IH1|]. apply Forall_forall. intros i Hi. apply IH2 in Hi. lia.
      * intros i. cbn [In]. rewrite IH2. split.
        -- intros [<- | [H1 H2]]; [split; [lia|apply G; [lia|tauto]]|]. split; [lia|]. apply G; [lia|tauto].
        -- intros [H1 H2]. apply G in H2; [|exact H1]. destruct H2 as [[-> _]|H2]; [now left|now right].
    + split; [exact IH1|]. intros i. rewrite IH2. split.
      * intros [H1 H2]. split; [lia|]. apply G; [lia|tauto].
      * intros [H1 H2]. apply G in H2; [|exact H1]. destruct H2 as [[_ H2]|H2]; [discriminate|exact H2].
Qed.
Lemma trouve_spec x : true_indices x (trouve x).
Proof.
  destruct (trouve_from_spec x 0) as [H1 H2]. split; [exact H1|]. intros i. unfold trouve. rewrite H2, Nat.sub_0_r.
  split; [tauto|]. intros H; split; [lia|exact H].
Qed.
Lemma premier_from_spec x : forall k, (premier_from k x = (-1)%Z /\ forall i, (i < length x)%nat -> nth_error x i <> Some true)
  \/ exists j, premier_from k x = Z.of_nat (k + j) /\ (j < length x)%nat /\ nth_error x j = Some true /\ forall i, (i < j)%nat -> nth_error x i <> Some true.
Proof.
  induction x as [|b t IH]; intros k; cbn [premier_from length]; [left; split; [reflexivity|lia]|]. destruct b.
  - right. exists 0%nat. repeat split; try lia.
  - destruct (IH (S k)) as [[E H]|(j & E & Hj & E1 & H)].
    + left. split; [exact E|]. intros [|i] Hi; cbn; [discriminate|]. apply H. lia.
    + right. exists (S j). rewrite E. repeat split; [f_equal; lia|lia|exact E1|]. intros [|i] Hi; cbn; [discriminate|]. apply H. lia.
Qed.
Lemma premier_spec x : is_first (length x) (fun i => nth_error x i = Some true) (trouve_premier x).
Proof. destruct (premier_from_spec x 0) as [H|(j & E & H)]; [left; exact H|right; exists j; split; [exact E|exact H]]. Qed.
(** what trouve_dernier computes *)
Lemma dernier_from_spec x k : (k <= length x)%nat ->
  (dernier_from k x = (-1)%Z /\ forall i, (i < k)%nat -> nth i x false = true)
  \/ exists j, dernier_from k x = (Z.of_nat j + 1)%Z /\ (j < k)%nat /\ nth j x false = false /\ forall i, (j < i < k)%nat -> nth i x false = true.
Proof.
  induction k as [|k IH]; intros Hk; cbn [dernier_from]; [left; split; [reflexivity|lia]|].
  destruct (nth k x false) eqn:E; cbn [negb].
  - destruct IH as [[E1 H]|(j & E1 & Hj & E2 & H)]; [lia| |].
    + left. split; [exact E1|]. intros i Hi. destruct (Nat.eq_dec i k) as [-> |]; [exact E|apply H; lia].
    + right. exists j. repeat split; [exact E1|lia|exact E2|]. intros i Hi. destruct (Nat.eq_dec i k) as [-> |]; [exact E|apply H; lia].
  - right. exists k. repeat split; [lia|exact E|lia].
Qed.
Lemma nth_err_true x i : nth_error x i = Some true <-> (i < length x)%nat /\ nth i x false = true.
Proof.
  destruct (Nat.lt_ge_cases i (length x)) as [H|H].
  - rewrite (nth_error_nth' x false H). split; [intros [= ->]; tauto|intros [_ ->]; reflexivity].
  - rewrite (proj2 (nth_error_None x i) H). split; [discriminate|lia].
Qed.
Lemma dernier_iff x : is_last (length x) (fun i => nth_error x i = Some true) (trouve_dernier x)
  <-> x = [] \/ exists y, x = y ++ [false; true].
Proof.
  split.
  - intros H. destruct (dernier_from_spec x (length x)) as [[E A]|(j & E & Hj & E2 & A)]; [lia| |]; unfold trouve_dernier in H; rewrite E in H.
    + destruct H as [[_ H]|(k & Hk & _)]; [|lia]. destruct x as [|b t]; [now left|]. exfalso. apply (H 0%nat); [cbn; lia|].
      apply nth_err_true. split; [cbn; lia|]. apply A. cbn; lia.
    + destruct H as [[Hk _]|(k & Hk & Lk & Tk & H)]; [lia|]. assert (k = S j) by lia. subst k.
      assert (Hl : length x = S (S j)).
      { destruct (Nat.eq_dec (length x) (S (S j))); [assumption|]. exfalso. apply (H (S (S j))); [lia|]. apply nth_err_true. split; [lia|]. apply A. lia. }
      right. exists (firstn j x). apply nth_err_true in Tk. destruct Tk as [_ Tk].
      rewrite <- (firstn_skipn j x) at 1. f_equal. apply (list_ext false); [rewrite skipn_length, Hl; cbn [length]; lia|].
      intros i Hi. rewrite skipn_length, Hl in Hi.
      assert (N : nth i (skipn j x) false = nth (j + i) x false).
      { rewrite <- (firstn_skipn j x) at 2. rewrite app_nth2; rewrite firstn_length; [|lia]. f_equal. lia. }
      rewrite N. destruct i as [|[|i]]; [rewrite Nat.add_0_r; exact E2|rewrite Nat.add_1_r; exact Tk|lia].
  - intros [-> | [y ->]]; [left; split; [reflexivity|cbn; lia]|].
    right. exists (S (length y)). unfold trouve_dernier. rewrite app_length. cbn [length].
    replace (length y + 2)%nat with (S (S (length y))) by lia. cbn [dernier_from].
    rewrite (app_nth2 y [false; true] false) by lia. replace (S (length y) - length y)%nat with 1%nat by lia. cbn [nth negb].
    rewrite (app_nth2 y [false; true] false) by lia. rewrite Nat.sub_diag. cbn [nth negb].
    split; [lia|]. split; [lia|]. split; [|intros i Hi; lia]. rewrite nth_error_app2 by lia. replace (S (length y) - length y)%nat with 1%nat by lia. reflexivity.
Qed.
Lemma max_local_spec {A} (gt : A -> A -> bool) (a0 : A) x : forall k,
  (max_local_from gt k x = (-1)%Z /\ forall i, (S i + 1 < length x)%nat -> (gt (nth (S i) x a0) (nth i x a0) && gt (nth (S i) x a0) (nth (S (S i)) x a0))%bool = false)
  \/ exists j, max_local_from gt k x = Z.of_nat (k + j) /\ (S j + 1 < length x)%nat
     /\ (gt (nth (S j) x a0) (nth j x a0) && gt (nth (S j) x a0) (nth (S (S j)) x a0))%bool = true
     /\ forall i, (i < j)%nat -> (gt (nth (S i) x a0) (nth i x a0) && gt (nth (S i) x a0) (nth (S (S i)) x a0))%bool = false.
Proof.
  induction x as [|a t IH]; intros k; [left; split; [reflexivity|cbn; lia]|].
  destruct t as [|b t]; [left; split; [reflexivity|cbn; lia]|]. destruct t as [|c t]; [left; split; [reflexivity|cbn; lia]|].
  change (max_local_from gt k (a :: b :: c :: t)) with (if (gt b a && gt b c)%bool then Z.of_nat k else max_local_from gt (S k) (b :: c :: t)).
  destruct (gt b a && gt b c)%bool eqn:E.
  - right. exists 0%nat. cbn [length nth]. repeat split; [f_equal; lia|lia|exact E|lia].
  - destruct (IH (S k)) as [[E1 H]|(j & E1 & Hj & E2 & H)].
    + left. split; [exact E1|]. intros [|i] Hi; [exact E|]. apply (H i). cbn [length] in *. lia.
    + right. exists (S j). rewrite E1. cbn [length] in *. repeat split; [f_equal; lia|lia|exact E2|].
      intros [|i] Hi; [exact E|]. apply (H i). lia.
Qed.

(** ** Sub-vectors, ranges, padding *)
Lemma sousvec_spec {A} (a0 : A) (x : list A) idx :
  (Forall (fun i => (0 <= i < Z.of_nat (length x))%Z) idx -> sousvec x idx = Ok (map (fun i => nth (Z.to_nat i) x a0) idx))
  /\ (Exists (fun i => ~ (0 <= i < Z.of_nat (length x))%Z) idx -> sousvec x idx = Exc).
Proof.
  induction idx as [|i t [IH1 IH2]]; cbn [sousvec map]; split.
  - reflexivity.
  - intros H; inversion H.
  - intros H. inversion H; subst. rewrite (vgetZ_ok x i a0) by lia. cbn [bind]. rewrite IH1 by assumption. reflexivity.
  - intros H. destruct (Z_lt_ge_dec i 0) as [Hi|Hi].
    { unfold vgetZ. destruct (Z.ltb_spec i 0); [reflexivity|lia]. }
    destruct (Z_lt_ge_dec i (Z.of_nat (length x))) as [Hi2|Hi2].
    + rewrite (vgetZ_ok x i a0) by lia. cbn [bind]. rewrite IH2; [reflexivity|]. inversion H; subst; [lia|assumption].
    + unfold vgetZ. destruct (Z.ltb_spec i 0); [lia|]. rewrite vget_exc by lia. reflexivity.
Qed.
Lemma mask_spec {A} (m : list bool) : forall (x : list A) (p : list A), (length m <= length x)%nat ->
  sousvec (p ++ x) (map Z.of_nat (trouve_from (length p) m)) = Ok (keep x m).
Proof.
  induction m as [|b m IH]; intros [|a x] p Hl; cbn [length] in Hl; try lia; try reflexivity.
  cbn [trouve_from keep]. replace (p ++ a :: x) with ((p ++ [a]) ++ x) by (rewrite <- app_assoc; reflexivity).
  assert (L : length (p ++ [a]) = S (length p)) by (rewrite app_length; cbn; lia).
  destruct b.
  - cbn [map sousvec]. rewrite (vgetZ_ok _ _ a) by (rewrite !app_length; cbn [length]; lia). cbn [bind]. rewrite <- L, IH by lia. cbn [bind].
    rewrite Nat2Z.id, app_nth1, app_nth2 by (rewrite ?L; lia). rewrite Nat.sub_diag. reflexivity.
  - rewrite <- L. apply IH. lia.
Qed.
Lemma intervalle_spec a b : length (intervalle_entier a b) = Z.to_nat (b - a + 1) /\
  (forall i, (i < length (intervalle_entier a b))%nat -> nth i (intervalle_entier a b) 0%Z = (a + Z.of_nat i)%Z) /\
  forall z, In z (intervalle_entier a b) <-> (a <= z <= b)%Z.
Proof.
  unfold intervalle_entier. rewrite map_length, seq_length. split; [reflexivity|]. split.
  - intros i Hi. rewrite (nth_indep _ _ (a + Z.of_nat 0)%Z) by (rewrite map_length, seq_length; exact Hi).
    rewrite (map_nth (fun k => a + Z.of_nat k)%Z _ 0%nat), seq_nth by exact Hi. reflexivity.
  - intros z. rewrite in_map_iff. split.
    + intros (k & <- & H). apply in_seq in H. lia.
    + intros H. exists (Z.to_nat (z - a)). split; [lia|]. apply in_seq. lia.
Qed.
Section K.
  Context {K : cfield}.
  Add Ring Kr1 : (cth K).
  Add Field Kf1 : (fth K).
  Open Scope cring_scope.
  Lemma linspace_spec (a b : K) n : length (linspace a b n) = n /\
    (forall i, (i < n)%nat -> (2 <= n)%nat -> nth i (linspace a b n) 0 = a + (b - a) / cnat (n - 1) * cnat i) /\
    (n = 1%nat -> linspace a b n = [a]).
  Proof.
    destruct n as [|m]; [split; [reflexivity|split; [lia|discriminate]]|]. unfold linspace. cbn [length]. rewrite map_length, seq_length.
    split; [reflexivity|]. split.
    - intros [|i] Hi Hn; cbn [nth]; [cbn [cnat]; ring|].
      rewrite (nth_indep _ _ (a + (b - a) / cnat (S m - 1) * cnat 0)) by (rewrite map_length, seq_length; lia).
      rewrite (map_nth (fun i => a + (b - a) / cnat (S m - 1) * cnat i) _ 0%nat), seq_nth by lia. reflexivity.
    - intros [= ->]. reflexivity.
  Qed.
  Lemma linspace_last (a b : K) n : (2 <= n)%nat -> cnat (K := K) (n - 1) <> 0 -> nth (n - 1) (linspace a b n) 0 = b.
  Proof. intros Hn H. destruct (linspace_spec a b n) as (_ & E & _). rewrite E by lia. field. exact H. Qed.
  (** ** Trapezoidal rule *)
  Lemma trap_loop_ok (f : K -> K) d h (T : nat -> K) m : forall y k,
    trap_loop f d h y (f (T k)) (map T (seq (S k) m)) = y + d * h * sum m (fun i => f (T (k + i)%nat) + f (T (S (k + i)))).
  Proof.
    induction m as [|m IH]; intros y k; cbn [seq map trap_loop]; [cbn [sum]; ring|].
    rewrite IH. rewrite (sum_S_l K m). rewrite Nat.add_0_r.
    rewrite (sum_ext K m (fun i => f (T (k + S i)%nat) + f (T (S (k + S i)))) (fun i => f (T (S k + i)%nat) + f (T (S (S k + i))))); [ring|].
    intros i _. rewrite <- plus_n_Sm. reflexivity.
  Qed.
  Definition pt (a b : K) n i := a + (b - a) / cnat (n - 1) * cnat i.
  Lemma trap_eq f (a b : K) n : (2 <= n)%nat -> integrale_trap f a b n =
    Ok ((b - a) / cnat (n - 1) * (1 / cnat 2) * sum (n - 1) (fun i => f (pt a b n i) + f (pt a b n (S i)))).
  Proof.
    intros Hn. destruct n as [|m]; [lia|]. unfold integrale_trap, linspace. f_equal.
    assert (E : a = pt a b (S m) 0) by (unfold pt; cbn [cnat]; ring). rewrite E at 2.
    replace (S m - 1)%nat with m by lia.
    assert (X : map (fun i => a + (b - a) / cnat m * cnat i) (seq 1 m) = map (pt a b (S m)) (seq 1 m)).
    { apply map_ext. intros i. unfold pt. replace (S m - 1)%nat with m by lia. reflexivity. }
    rewrite X. rewrite trap_loop_ok. cbn [Nat.add]. ring.
  Qed.
  Lemma telescope (F : nat -> K) m : sum m (fun i => F (S i) - F i) = F m - F 0%nat.
  Proof. induction m as [|m IH]; cbn [sum]; [ring|]. rewrite IH. ring. Qed.
  Lemma trap_affine p q (a b : K) n : (2 <= n)%nat -> cnat (K := K) (n - 1) <> 0 -> cnat (K := K) 2 <> 0 ->
    integrale_trap (fun x => p * x + q) a b n = Ok (p * (b * b - a * a) / cnat 2 + q * (b - a)).
  Proof.
    intros Hn H1 H2. rewrite trap_eq by exact Hn. f_equal. set (d := (b - a) / cnat (n - 1)).
    set (F := fun i => p * (pt a b n i * pt a b n i) + cnat 2 * q * pt a b n i).
    transitivity (1 / cnat 2 * sum (n - 1) (fun i => F (S i) - F i)).
    - transitivity (1 / cnat 2 * sum (n - 1) (fun i => d * (p * pt a b n i + q + (p * pt a b n (S i) + q)))).
      { rewrite (sum_mul_l K). ring. }
      f_equal. apply (sum_ext K). intros i _. unfold F, pt. fold d. cbn [cnat]. ring.
    - rewrite (telescope F). unfold F, pt. fold d.
      assert (E : d * cnat (n - 1) = b - a) by (unfold d; field; exact H1). rewrite E. assert (E2 : cnat (K := K) 2 = 1 + 1) by (cbn [cnat]; ring). rewrite E2 in *. cbn [cnat]. field. exact H2.
  Qed.
  Lemma trap_linear f g c (a b : K) n y z : integrale_trap f a b n = Ok y -> integrale_trap g a b n = Ok z ->
    (2 <= n)%nat -> integrale_trap (fun x => c * f x + g x) a b n = Ok (c * y + z).
  Proof.
    intros H1 H2 Hn. rewrite trap_eq in * by exact Hn. injection H1 as <-. injection H2 as <-. f_equal.
    set (d := (b - a) / cnat (n - 1)). set (h := 1 / cnat 2). 
    rewrite (sum_ext K (n - 1) _ (fun i => c * (f (pt a b n i) + f (pt a b n (S i))) + (g (pt a b n i) + g (pt a b n (S i))))).
    - rewrite (sum_add K), (sum_mul_l K). change (1 / (0 + 1 + 1)) with h. ring.
    - intros i _. ring.
  Qed.
  Lemma trap_small f (a b : K) : integrale_trap f a b 0 = Exc /\ integrale_trap f a b 1 = Ok 0.
  Proof. split; reflexivity. Qed.
End K.
Section KR.
  Context {K : cring}.
  Add Ring Kr2 : (cth K).
  Open Scope cring_scope.
  Lemma pad_spec (x y : list K) : let (x', y') := pad_zeros x y in
    length x' = Nat.max (length x) (length y) /\ length y' = Nat.max (length x) (length y) /\
    (forall i, samp x' i = samp x i) /\ (forall i, samp y' i = samp y i).
  Proof.
    unfold pad_zeros. rewrite !app_length, !repeat_length. do 2 (split; [lia|]).
    assert (G : forall (l : list K) k i, samp (l ++ repeat 0 k) i = samp l i).
    { intros l k i. unfold samp. destruct (Nat.lt_ge_cases i (length l)); [now rewrite app_nth1|]. rewrite app_nth2 by lia.
      rewrite (nth_overflow l) by lia. revert k. induction (i - length l)%nat as [|j IH]; intros [|k]; cbn; try reflexivity. apply IH. }
    split; intros i; apply G.
  Qed.
  Lemma diff_cumsum_aux (x : list K) : forall c, diff_aux c (cumsum_from c x) = x.
  Proof. induction x as [|a t IH]; intros c; cbn [cumsum_from diff_aux]; [reflexivity|]. rewrite IH. f_equal. ring. Qed.
  Lemma diff_cumsum (a : K) x : diff (cumsum (a :: x)) = Ok x.
  Proof. unfold cumsum. cbn [cumsum_from diff]. now rewrite diff_cumsum_aux. Qed.
  Lemma cumsum_diff_aux (x : list K) : forall c p, map (fun v => v + p) (cumsum_from c (diff_aux (c + p) x)) = x.
  Proof.
    induction x as [|a t IH]; intros c p; cbn [diff_aux cumsum_from map]; [reflexivity|].
    replace (c + (a - (c + p))) with (a - p) by ring. f_equal; [ring|]. rewrite <- (IH (a - p) p) at 2. repeat f_equal. ring.
  Qed.
  Lemma cumsum_diff (a : K) x d : diff (a :: x) = Ok d -> map (fun v => v + a) (cumsum d) = x.
  Proof. cbn [diff]. intros [= <-]. unfold cumsum. rewrite <- (cumsum_diff_aux x 0 a) at 2. repeat f_equal. ring. Qed.
  Lemma resampling (x : list K) R : (0 < R)%nat ->
    exists y, surech x R = Ok y /\ length y = (length x * R)%nat /\
      (forall i, (i < length x)%nat -> samp y (i * R) = samp x i) /\
      (forall i, (i mod R <> 0)%nat -> samp y i = 0) /\ sousech y R = Ok x.
  Proof.
    intros HR. exists (stuff R x). split; [apply surech_ok; exact HR|]. split; [apply stuff_length; exact HR|].
    assert (N : forall i, (i < length x)%nat -> samp (stuff R x) (i * R) = samp x i).
    { intros i Hi. unfold samp. rewrite (nth_stuff _ R x HR), Nat.mod_mul, Nat.div_mul by lia. reflexivity. }
    split; [exact N|]. split.
    - intros i Hi. unfold samp. rewrite (nth_stuff _ R x HR). destruct (Nat.eqb_spec (i mod R) 0); [lia|reflexivity].
    - rewrite (sousech_ok (0 : K)) by exact HR. f_equal. rewrite stuff_length by exact HR. rewrite Nat.div_mul by lia.
      apply (list_ext (0 : K)); [rewrite map_length, seq_length; reflexivity|]. intros i Hi. rewrite map_length, seq_length in Hi.
      rewrite (nth_indep _ (0 : K) (nth (0 * R) (stuff R x) 0)) by (rewrite map_length, seq_length; exact Hi).
      rewrite (map_nth (fun i => nth (i * R) (stuff R x) 0)), seq_nth by exact Hi. apply (N i Hi).
  Qed.
End KR.
