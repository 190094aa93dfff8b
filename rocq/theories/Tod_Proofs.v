(** Proofs for wavelets: the transform in place. *)
From Coq Require Import Reals.
From Verif Require Import Base BaseLemmas Filters_Proofs Sig_Proofs Zfe_Proofs Poly_Model Poly_Spec Poly_Proofs RField Tod_Model Tod_Spec.
Local Open Scope cring_scope.

(** ** Odd part *)
Lemma oddpart_double k : (0 < k)%nat -> oddpart (2 * k) = oddpart k.
Proof. intros H. unfold oddpart. destruct k as [|k]; [lia|]. replace (N.of_nat (2 * S k)) with (N.double (N.of_nat (S k))) by lia. destruct (N.of_nat (S k)) eqn:E; [lia|]. reflexivity. Qed.
Lemma oddpart_odd k : oddpart (2 * k + 1) = (2 * k + 1)%nat.
Proof. unfold oddpart. replace (N.of_nat (2 * k + 1)) with (N.succ_double (N.of_nat k)) by lia. destruct (N.of_nat k) as [|p] eqn:E; cbn [N.succ_double podd]; [change (Pos.to_nat 1) with 1%nat|]; lia. Qed.
Lemma oddpart_spec k : (0 < k)%nat -> exists v q, k = (2 ^ v * oddpart k)%nat /\ oddpart k = (2 * q + 1)%nat.
Proof.
  induction k as [k IH] using lt_wf_ind. intros H. destruct (Nat.Even_or_Odd k) as [[i E]|[i E]].
  - subst k. destruct (IH i ltac:(lia) ltac:(lia)) as (v & q & E1 & E2). exists (S v), q. rewrite oddpart_double by lia. split; [|exact E2]. cbn [Nat.pow]. lia.
  - subst k. exists 0%nat, i. rewrite oddpart_odd. split; [cbn [Nat.pow]; lia|reflexivity].
Qed.
Lemma oddpart_le k : (oddpart k <= k)%nat.
Proof. destruct k as [|k]; [reflexivity|]. destruct (oddpart_spec (S k) ltac:(lia)) as (v & q & E & _). rewrite E at 2. pose proof (Nat.pow_nonzero 2 v ltac:(lia)). nia. Qed.

Section P.
  Context {K : cring}.
  Add Ring Kr : (cth K).
  Notation nthK := (fun i (l : list K) => nth i l 0).

  Lemma div2_even m : Nat.div2 (2 * m) = m.
  Proof. apply Nat.div2_double. Qed.
  Lemma div2_odd m : Nat.div2 (2 * m + 1) = m.
  Proof. replace (2 * m + 1)%nat with (S (2 * m)) by lia. apply Nat.div2_succ_double. Qed.
  Lemma halves n : (Nat.div2 (n + 1) + Nat.div2 n = n)%nat /\ (if Nat.even n then Nat.div2 (n + 1) else Nat.div2 (n + 1) - 1)%nat = Nat.div2 n /\
    (Nat.div2 n <= Nat.div2 (n + 1) <= S (Nat.div2 n))%nat /\ (if Nat.even n then n = (2 * Nat.div2 n)%nat else n = (2 * Nat.div2 n + 1)%nat).
  Proof.
    destruct (Nat.Even_or_Odd n) as [[m E]|[m E]]; subst n.
    - rewrite Nat.even_mul. cbn [Nat.even orb]. rewrite div2_even, div2_odd. lia.
    - replace (Nat.even (2 * m + 1)) with false by (symmetry; rewrite Nat.even_add, Nat.even_mul; reflexivity). replace (2 * m + 1 + 1)%nat with (2 * (m + 1))%nat by lia. rewrite div2_even, div2_odd. lia.
  Qed.
  Lemma evens_length (x : list K) n : length (evens x n) = Nat.div2 (n + 1).
  Proof. unfold evens. rewrite map_length, seq_length. reflexivity. Qed.
  Lemma odds_length (x : list K) n : length (odds x n) = Nat.div2 n.
  Proof. unfold odds. rewrite map_length, seq_length. reflexivity. Qed.
  Lemma evens_nth (x : list K) n i : (i < Nat.div2 (n + 1))%nat -> nth i (evens x n) 0 = nth (2 * i) x 0.
  Proof. intros H. unfold evens. apply (nth_map_seq (X := K)). exact H. Qed.
  Lemma odds_nth (x : list K) n i : (i < Nat.div2 n)%nat -> nth i (odds x n) 0 = nth (2 * i + 1) x 0.
  Proof. intros H. unfold odds. apply (nth_map_seq (X := K)). exact H. Qed.

  (** ** split *)
  Lemma split_ok (x : list K) n : (n <= length x)%nat -> split x n = Ok (evens x n ++ odds x n ++ skipn n x).
  Proof.
    intros Hn. destruct (halves n) as (H1 & H2 & H3 & H4). unfold split. cbv zeta. rewrite H2. set (h := Nat.div2 (n + 1)) in *. set (m := Nat.div2 n) in *.
    destruct (loop_inv (fun i (t : list K) => t = map (fun i => nth (2 * i) x 0) (seq 0 i)) (fun i t => let* v := vget x (2 * i) in Ok (t ++ [v])) h) with (s := @nil K) as (t & -> & Et); [|reflexivity|].
    { intros i t Hi ->. exists (map (fun i => nth (2 * i) x 0) (seq 0 (S i))). rewrite (vget_ok x (2 * i) 0) by lia. cbn [bind]. split; [|reflexivity]. rewrite seq_S, map_app. reflexivity. }
    cbn [bind]. set (dec := if Nat.even n then 0%nat else 1%nat).
    assert (Hd : (n = 2 * m + dec)%nat) by (unfold dec; destruct (Nat.even n); lia). assert (dec <= 1)%nat by (unfold dec; destruct (Nat.even n); lia).
    destruct (loop_inv (fun k (y : list K) => length y = length x /\ forall j, nth j y 0 = if ((n - k <=? j) && (j <? n))%nat%bool then nth (2 * (j - h) + 1) x 0 else nth j x 0)
      (fun k x => let* v := vget x (n + 1 - 2 * S k - dec) in vset x (n - S k) v) m) with (s := x) as (y & -> & Ly & Vy).
    { intros k y Hk [L V]. cbv zeta. rewrite (vget_ok y _ 0) by lia. cbn [bind]. rewrite vset_ok by lia. eexists. split; [reflexivity|]. split; [rewrite upd_length; exact L|]. intros j. rewrite nth_upd, V.
      replace (n - k <=? n + 1 - 2 * S k - dec)%nat with false by (symmetry; apply Nat.leb_gt; lia). cbn [andb].
      destruct (Nat.eqb_spec (n - S k) j) as [<-|Ne].
      - replace (n - S k <? length y)%nat with true by (symmetry; apply Nat.ltb_lt; lia). cbn [andb]. replace (n - S k <=? n - S k)%nat with true by (symmetry; apply Nat.leb_le; lia). replace (n - S k <? n)%nat with true by (symmetry; apply Nat.ltb_lt; lia). cbn [andb]. f_equal. lia.
      - cbn [andb]. rewrite V. destruct (Nat.leb_spec (n - k) j); destruct (Nat.leb_spec (n - S k) j); try lia; reflexivity. }
    { split; [reflexivity|]. intros j. rewrite Nat.sub_0_r. destruct (Nat.leb_spec n j); destruct (Nat.ltb_spec j n); try lia; reflexivity. }
    cbn [bind]. destruct (Nat.ltb_spec (length y) h); [lia|]. f_equal. rewrite Et. fold (evens x n). f_equal.
    apply (list_ext 0); [rewrite app_length, !skipn_length, odds_length; fold m; lia|]. intros j Hj. rewrite skipn_length in Hj. rewrite nth_skipn', Vy.
    destruct (Nat.ltb_spec j m) as [B|B].
    - rewrite app_nth1 by (rewrite odds_length; exact B). rewrite odds_nth by exact B. replace (n - m <=? h + j)%nat with true by (symmetry; apply Nat.leb_le; lia). replace (h + j <? n)%nat with true by (symmetry; apply Nat.ltb_lt; lia). cbn [andb]. f_equal. lia.
    - rewrite app_nth2 by (rewrite odds_length; exact B). rewrite odds_length. fold m. replace (h + j <? n)%nat with false by (symmetry; apply Nat.ltb_ge; lia). rewrite Bool.andb_false_r, nth_skipn'. f_equal. lia.
  Qed.

  (** ** merge *)
  Definition unscr (y : list K) (n : nat) (k : nat) : K :=
    if (k =? 0)%nat then nth 0 y 0 else nth (Nat.div2 (n + 1) + Nat.div2 (oddpart k - 1)) y 0.
  Lemma unscr_odd y n i : unscr y n (2 * i + 1) = nth (Nat.div2 (n + 1) + i) y 0.
  Proof. unfold unscr. destruct (Nat.eqb_spec (2 * i + 1) 0); [lia|]. rewrite oddpart_odd. replace (2 * i + 1 - 1)%nat with (2 * i)%nat by lia. rewrite div2_even. reflexivity. Qed.
  Lemma unscr_even y n i : unscr y n (2 * i) = unscr y n i.
  Proof. unfold unscr. destruct (Nat.eqb_spec i 0) as [->|]; [reflexivity|]. destruct (Nat.eqb_spec (2 * i) 0); [lia|]. rewrite oddpart_double by lia. reflexivity. Qed.
  Lemma merge_ok (y : list K) n : (n <= length y)%nat -> merge y n = Ok (map (unscr y n) (seq 0 n) ++ skipn n y).
  Proof.
    intros Hn. destruct (halves n) as (H1 & H2 & H3 & H4). unfold merge. cbv zeta. rewrite H2. set (h := Nat.div2 (n + 1)) in *. set (m := Nat.div2 n) in *. destruct (Nat.ltb_spec (length y) h); [lia|].
    destruct (loop_inv (fun i (x : list K) => length x = length y /\ (forall j, (j < i)%nat -> nth (2 * j + 1) x 0 = nth (h + j) y 0) /\ (forall j, (2 * i <= j)%nat \/ j = 0%nat -> nth j x 0 = nth j y 0))
      (fun i x => let* v := vget x (i + h) in vset x (2 * i + 1) v) m) with (s := y) as (x & -> & Lx & Ox & Ux).
    { intros i x Hi (L & O & U). rewrite (vget_ok x _ 0) by lia. cbn [bind]. rewrite vset_ok by lia. eexists. split; [reflexivity|]. split; [rewrite upd_length; exact L|]. split.
      - intros j Hj. rewrite nth_upd. destruct (Nat.eqb_spec (2 * i + 1) (2 * j + 1)) as [E|E].
        + replace (2 * i + 1 <? length x)%nat with true by (symmetry; apply Nat.ltb_lt; lia). cbn [andb]. rewrite U by (left; lia). f_equal. lia.
        + cbn [andb]. apply O. lia.
      - intros j Hj. rewrite nth_upd. destruct (Nat.eqb_spec (2 * i + 1) j); [lia|]. cbn [andb]. apply U. lia. }
    { split; [reflexivity|]. split; [intros; lia|reflexivity]. }
    cbn [bind].
    destruct (loop_inv (fun i (z : list K) => length z = length y /\ (forall k, (k < n)%nat -> (Nat.odd k = true \/ k < 2 * i \/ k = 0)%nat -> nth k z 0 = unscr y n k) /\ (forall k, (n <= k)%nat -> nth k z 0 = nth k y 0))
      (fun i x => let* v := vget x i in vset x (2 * i) v) h) with (s := x) as (z & -> & Lz & Vz & Wz).
    { intros i z Hi (L & V & W). rewrite (vget_ok z _ 0) by lia. cbn [bind]. assert (B : (2 * i < n)%nat) by (destruct (Nat.even n); lia). rewrite vset_ok by lia. eexists. split; [reflexivity|]. split; [rewrite upd_length; exact L|].
      assert (Vi : nth i z 0 = unscr y n i). { apply V; [lia|]. destruct (Nat.Even_or_Odd i) as [[q Eq]|[q Eq]]; [right; lia|left; rewrite Eq, Nat.add_comm, Nat.odd_add_mul_2; reflexivity]. }
      split.
      - intros k Hk C. rewrite nth_upd. destruct (Nat.eqb_spec (2 * i) k) as [<-|E].
        + replace (2 * i <? length z)%nat with true by (symmetry; apply Nat.ltb_lt; lia). cbn [andb]. rewrite Vi, unscr_even. reflexivity.
        + cbn [andb]. apply V; [exact Hk|]. destruct (Nat.Even_or_Odd k) as [[q Eq]|[q Eq]]; [|left; rewrite Eq, Nat.add_comm, Nat.odd_add_mul_2; reflexivity]. assert (Nat.odd k = false) by (rewrite Eq, Nat.odd_mul; reflexivity). destruct C as [C|C]; [congruence|lia].
      - intros k Hk. rewrite nth_upd. destruct (Nat.eqb_spec (2 * i) k); [lia|]. cbn [andb]. apply W. exact Hk. }
    { split; [exact Lx|]. split.
      - intros k Hk [O|[C|C]]; [|lia|].
        + destruct (Nat.Even_or_Odd k) as [[q Eq]|[q Eq]]; [rewrite Eq, Nat.odd_mul in O; discriminate|]. subst k. rewrite unscr_odd. fold h. apply Ox. destruct (Nat.even n); lia.
        + subst k. unfold unscr. cbn [Nat.eqb]. apply Ux. right. reflexivity.
      - intros k Hk. apply Ux. left. destruct (Nat.even n); lia. }
    f_equal. apply (list_ext 0); [rewrite app_length, map_length, seq_length, skipn_length; lia|]. intros k Hk. destruct (Nat.ltb_spec k n) as [B|B].
    - rewrite app_nth1 by (rewrite map_length, seq_length; exact B). rewrite (nth_map_seq (X := K)) by exact B. apply Vz; [exact B|]. right. left. destruct (Nat.even n); lia.
    - rewrite app_nth2 by (rewrite map_length, seq_length; exact B). rewrite map_length, seq_length, nth_skipn', Wz by exact B. f_equal. lia.
  Qed.
  Lemma merge_split (x : list K) n : (n <= length x)%nat ->
    merge (evens x n ++ odds x n ++ skipn n x) n = Ok (map (fun k => nth (oddpart k) x 0) (seq 0 n) ++ skipn n x).
  Proof.
    intros Hn. destruct (halves n) as (H1 & H2 & H3 & H4). rewrite merge_ok by (rewrite !app_length, evens_length, odds_length, skipn_length; lia). f_equal. f_equal.
    - apply map_ext_in. intros k Hk. apply in_seq in Hk. unfold unscr. destruct (Nat.eqb_spec k 0) as [->|E].
      + rewrite app_nth1 by (rewrite evens_length; lia). rewrite evens_nth by lia. reflexivity.
      + destruct (oddpart_spec k ltac:(lia)) as (v & q & _ & Eq). pose proof (oddpart_le k). rewrite Eq in *. replace (2 * q + 1 - 1)%nat with (2 * q)%nat by lia. rewrite div2_even.
        rewrite app_nth2 by (rewrite evens_length; lia). rewrite evens_length. replace (Nat.div2 (n + 1) + q - Nat.div2 (n + 1))%nat with q by lia. assert (q < Nat.div2 n)%nat by (destruct (Nat.even n); lia).
        rewrite app_nth1 by (rewrite odds_length; assumption). apply odds_nth. assumption.
    - rewrite app_assoc, skipn_app. rewrite app_length, evens_length, odds_length, H1, Nat.sub_diag. rewrite skipn_all2 by (rewrite app_length, evens_length, odds_length; lia). reflexivity.
  Qed.

  (** ** Lifting stages *)
  Definition mixed (f : K -> K -> K) (e : lift_elem K) (a b : list K) : list K :=
    map (fun j => f (nth j b 0) (lap (p_coefs (l_pol (e_lau e))) (l_n0 (e_lau e)) a j)) (seq 0 (length b)).
  Definition one (f : K -> K -> K) (p : list K * list K) (e : lift_elem K) : list K * list K :=
    if e_predict e then (fst p, mixed f e (fst p) (snd p)) else (mixed f e (snd p) (fst p), snd p).
  Lemma mixed_length f e a b : length (mixed f e a b) = length b.
  Proof. unfold mixed. rewrite map_length, seq_length. reflexivity. Qed.
  Lemma one_length f p e m : length (fst p) = m -> length (snd p) = m -> length (fst (one f p e)) = m /\ length (snd (one f p e)) = m.
  Proof. intros A B. unfold one. destruct (e_predict e); cbn [fst snd]; rewrite mixed_length; auto. Qed.

  Lemma lap_loop (c : list K) n0 m j idxi (x v : list K) : length v = m -> (forall i, (i < m)%nat -> nth (idxi + i) x 0 = nth i v 0) -> (idxi + m <= length x)%nat ->
    loop (length c) (fun l sm => let k := (Z.of_nat j + n0 + Z.of_nat l)%Z in
        if ((0 <=? k)%Z && (k <? Z.of_nat m)%Z)%bool then let* w := vgetZ x (Z.of_nat idxi + k) in let* cl := vget c l in Ok (sm + cl * w) else Ok sm) 0 = Ok (lap c n0 v j).
  Proof.
    intros Lv V Lx. destruct (loop_inv (fun l sm => sm = sum l (fun l => nth l c 0 * sampZ v (Z.of_nat j + n0 + Z.of_nat l))) (fun l sm => let k := (Z.of_nat j + n0 + Z.of_nat l)%Z in
        if ((0 <=? k)%Z && (k <? Z.of_nat m)%Z)%bool then let* w := vgetZ x (Z.of_nat idxi + k) in let* cl := vget c l in Ok (sm + cl * w) else Ok sm) (length c)) with (s := (0 : K)) as (r & -> & ->); [|reflexivity|reflexivity].
    intros l sm Hl ->. cbv zeta. eexists. split; [|cbn [sum]; reflexivity]. set (k := (Z.of_nat j + n0 + Z.of_nat l)%Z). unfold sampZ.
    destruct (Z.leb_spec 0 k) as [B|B]; cbn [andb].
    - destruct (Z.ltb_spec k (Z.of_nat m)) as [C|C].
      + rewrite (vgetZ_ok x _ 0) by lia. cbn [bind]. rewrite (vget_ok c l 0) by exact Hl. cbn [bind]. f_equal. f_equal. f_equal. replace (Z.to_nat (Z.of_nat idxi + k)) with (idxi + Z.to_nat k)%nat by lia. rewrite V by lia.
        destruct (Z.ltb_spec k 0); [lia|]. reflexivity.
      + f_equal. destruct (Z.ltb_spec k 0); [lia|]. unfold samp. rewrite (nth_overflow v) by lia. ring.
    - f_equal. destruct (Z.ltb_spec k 0); [|lia]. ring.
  Qed.
  Lemma stage_ok f e (p : list K * list K) (r : list K) m : length (fst p) = m -> length (snd p) = m ->
    stage f e m (fst p ++ snd p ++ r) = Ok (fst (one f p e) ++ snd (one f p e) ++ r).
  Proof.
    intros La Lb. destruct p as [a b]. cbn [fst snd] in *. unfold stage, one. cbn [fst snd].
    set (c := p_coefs (l_pol (e_lau e))). set (n0 := l_n0 (e_lau e)).
    assert (G : forall idxi idxo (v u x : list K), length v = m -> length u = m -> (idxi + m <= idxo \/ idxo + m <= idxi)%nat -> (idxi + m <= length x)%nat -> (idxo + m <= length x)%nat ->
      (forall i, (i < m)%nat -> nth (idxi + i) x 0 = nth i v 0) -> (forall i, (i < m)%nat -> nth (idxo + i) x 0 = nth i u 0) ->
      exists y, loop m (fun j x => let* sm := loop (length c) (fun l sm => let k := (Z.of_nat j + n0 + Z.of_nat l)%Z in
          if ((0 <=? k)%Z && (k <? Z.of_nat m)%Z)%bool then let* v := vgetZ x (Z.of_nat idxi + k) in let* cl := vget c l in Ok (sm + cl * v) else Ok sm) 0 in
          let* v := vget x (idxo + j) in vset x (idxo + j) (f v sm)) x = Ok y /\ length y = length x /\
        forall k, nth k y 0 = if ((idxo <=? k) && (k <? idxo + m))%nat%bool then f (nth (k - idxo) u 0) (lap c n0 v (k - idxo)) else nth k x 0).
    { intros idxi idxo v u x Lv Lu D Bi Bo V U.
      destruct (loop_inv (fun j (y : list K) => length y = length x /\ forall k, nth k y 0 = if ((idxo <=? k) && (k <? idxo + j))%nat%bool then f (nth (k - idxo) u 0) (lap c n0 v (k - idxo)) else nth k x 0)
        (fun j x => let* sm := loop (length c) (fun l sm => let k := (Z.of_nat j + n0 + Z.of_nat l)%Z in
          if ((0 <=? k)%Z && (k <? Z.of_nat m)%Z)%bool then let* v := vgetZ x (Z.of_nat idxi + k) in let* cl := vget c l in Ok (sm + cl * v) else Ok sm) 0 in
          let* v := vget x (idxo + j) in vset x (idxo + j) (f v sm)) m) with (s := x) as (y & E & Ly & Vy).
      - intros j y Hj [L W]. rewrite (lap_loop c n0 m j idxi y v Lv); [|intros i Hi; rewrite W|rewrite L; exact Bi].
        + cbn [bind]. rewrite (vget_ok y _ 0) by lia. cbn [bind]. rewrite vset_ok by lia. eexists. split; [reflexivity|]. split; [rewrite upd_length; exact L|]. intros k. rewrite nth_upd. destruct (Nat.eqb_spec (idxo + j) k) as [<-|Ne].
          * replace (idxo + j <? length y)%nat with true by (symmetry; apply Nat.ltb_lt; lia). cbn [andb]. rewrite W. replace (idxo + j <? idxo + j)%nat with false by (symmetry; apply Nat.ltb_ge; lia). rewrite Bool.andb_false_r. rewrite U by exact Hj.
            replace (idxo <=? idxo + j)%nat with true by (symmetry; apply Nat.leb_le; lia). replace (idxo + j <? idxo + S j)%nat with true by (symmetry; apply Nat.ltb_lt; lia). cbn [andb]. replace (idxo + j - idxo)%nat with j by lia. reflexivity.
          * cbn [andb]. rewrite W. destruct (Nat.leb_spec idxo k); cbn [andb]; [|reflexivity]. destruct (Nat.ltb_spec k (idxo + j)); destruct (Nat.ltb_spec k (idxo + S j)); try lia; reflexivity.
        + rewrite <- V by exact Hi. destruct (Nat.leb_spec idxo (idxi + i)); cbn [andb]; [|reflexivity]. destruct (Nat.ltb_spec (idxi + i) (idxo + j)); [lia|reflexivity].
      - split; [reflexivity|]. intros k. destruct (Nat.leb_spec idxo k); cbn [andb]; [|reflexivity]. destruct (Nat.ltb_spec k (idxo + 0)); [lia|reflexivity].
      - exists y. auto. }
    assert (Lx : length (a ++ b ++ r) = (m + m + length r)%nat) by (rewrite !app_length; lia).
    assert (Va : forall i, (i < m)%nat -> nth (0 + i) (a ++ b ++ r) 0 = nth i a 0) by (intros i Hi; cbn [Nat.add]; apply app_nth1; lia).
    assert (Vb : forall i, (i < m)%nat -> nth (m + i) (a ++ b ++ r) 0 = nth i b 0) by (intros i Hi; rewrite app_nth2 by lia; rewrite app_nth1 by lia; f_equal; lia).
    destruct (e_predict e).
    - destruct (G 0%nat m a b (a ++ b ++ r) La Lb ltac:(lia) ltac:(lia) ltac:(lia) Va Vb) as (y & E & Ly & Vy). etransitivity; [exact E|]. cbn [fst snd]. f_equal. apply (list_ext 0); [rewrite Ly, !app_length, mixed_length; reflexivity|]. intros k Hk. rewrite Vy.
      destruct (Nat.ltb_spec k m).
      + replace (m <=? k)%nat with false by (symmetry; apply Nat.leb_gt; lia). cbn [andb]. rewrite !(app_nth1 a) by lia. reflexivity.
      + replace (m <=? k)%nat with true by (symmetry; apply Nat.leb_le; lia). cbn [andb]. rewrite !(app_nth2 a) by lia. rewrite La. destruct (Nat.ltb_spec k (m + m)).
        * rewrite app_nth1 by (rewrite mixed_length; lia). unfold mixed. rewrite (nth_map_seq (X := K)) by lia. reflexivity.
        * rewrite !app_nth2 by (rewrite ?mixed_length; lia). rewrite mixed_length. reflexivity.
    - destruct (G m 0%nat b a (a ++ b ++ r) Lb La ltac:(lia) ltac:(lia) ltac:(lia) Vb Va) as (y & E & Ly & Vy). etransitivity; [exact E|]. cbn [fst snd]. f_equal. apply (list_ext 0); [rewrite Ly, !app_length, mixed_length; reflexivity|]. intros k Hk. rewrite Vy. cbn [Nat.leb andb Nat.add]. rewrite Nat.sub_0_r.
      destruct (Nat.ltb_spec k m).
      + rewrite app_nth1 by (rewrite mixed_length; lia). unfold mixed. rewrite (nth_map_seq (X := K)) by lia. reflexivity.
      + rewrite (app_nth2 a), (app_nth2 (mixed f e b a)) by (rewrite ?mixed_length; lia). rewrite mixed_length. reflexivity.
  Qed.
  Lemma stages_ok f es : forall (p : list K * list K) (r : list K) m, length (fst p) = m -> length (snd p) = m ->
    let q := fold_left (one f) es p in length (fst q) = m /\ length (snd q) = m /\ stages f es m (fst p ++ snd p ++ r) = Ok (fst q ++ snd q ++ r).
  Proof.
    induction es as [|e es IH]; intros p r m La Lb; cbn [fold_left stages]; [auto|]. destruct (one_length f p e m La Lb) as [L1 L2]. rewrite stage_ok by assumption. cbn [bind]. apply IH; assumption.
  Qed.
  Lemma mixed_cancel e a b : mixed (fun x y => x - y) e a (mixed (fun x y => x + y) e a b) = b.
  Proof.
    apply (list_ext 0); [rewrite !mixed_length; reflexivity|]. intros j Hj. rewrite !mixed_length in Hj. unfold mixed at 1. rewrite (nth_map_seq (X := K)) by (rewrite mixed_length; exact Hj). unfold mixed. rewrite (nth_map_seq (X := K)) by exact Hj. ring.
  Qed.
  Lemma one_cancel e p : one (fun x y => x - y) (one (fun x y => x + y) p e) e = p.
  Proof. destruct p as [a b]. unfold one. destruct (e_predict e); cbn [fst snd]; rewrite mixed_cancel; reflexivity. Qed.
  Lemma stages_cancel es p : fold_left (one (fun x y => x - y)) (rev es) (fold_left (one (fun x y => x + y)) es p) = p.
  Proof. revert p. induction es as [|e es IH]; intros p; [reflexivity|]. cbn [fold_left rev]. rewrite fold_left_app, IH. cbn [fold_left]. apply one_cancel. Qed.
  Lemma lift_one_eq p e : lift_one p e = one (fun x y => x + y) p e.
  Proof. destruct p as [s d]. unfold lift_one, one, mixed. cbn [fst snd]. destruct (e_predict e); reflexivity. Qed.

  (** the vector after split, as (approximation, detail) of the lifting and the rest *)
  Lemma lift_step_ok (w : lift K) (x : list K) n : (n <= length x)%nat ->
    exists a b r, evens x n ++ odds x n ++ skipn n x = a ++ b ++ r /\ length a = Nat.div2 n /\ length b = Nat.div2 n /\
      let q := fold_left (one (fun x y => x + y)) (li_steps w) (a, b) in length (fst q) = Nat.div2 n /\ length (snd q) = Nat.div2 n /\ lift_step w x n = Ok (fst q ++ snd q ++ r).
  Proof.
    intros Hn. set (m := Nat.div2 n). set (y := evens x n ++ odds x n ++ skipn n x). destruct (halves n) as (H1 & H2 & H3 & H4). fold m in H1, H3, H4.
    assert (Ly : length y = length x) by (unfold y; rewrite !app_length, evens_length, odds_length, skipn_length; fold m; lia).
    exists (firstn m y), (firstn m (skipn m y)), (skipn m (skipn m y)). assert (E : y = firstn m y ++ firstn m (skipn m y) ++ skipn m (skipn m y)) by (rewrite firstn_skipn, firstn_skipn; reflexivity). split; [exact E|].
    assert (La : length (firstn m y) = m) by (rewrite firstn_length; lia). assert (Lb : length (firstn m (skipn m y)) = m) by (rewrite firstn_length, skipn_length; destruct (Nat.even n); lia). split; [exact La|]. split; [exact Lb|].
    destruct (stages_ok (fun x y => x + y) (li_steps w) (firstn m y, firstn m (skipn m y)) (skipn m (skipn m y)) m La Lb) as (Q1 & Q2 & Q3). cbn [fst snd] in Q3. split; [exact Q1|]. split; [exact Q2|]. unfold lift_step. rewrite split_ok by exact Hn. cbn [bind]. fold y m. rewrite E at 1. exact Q3.
  Qed.
  Lemma lift_ilift (w : lift K) (x : list K) n : (n <= length x)%nat -> exists y, lift_step w x n = Ok y /\ length y = length x /\
    ilift_step w y n = Ok (map (fun k => nth (oddpart k) x 0) (seq 0 n) ++ skipn n x).
  Proof.
    intros Hn. destruct (lift_step_ok w x n Hn) as (a & b & r & E & La & Lb & Q1 & Q2 & Q3). set (q := fold_left _ _ _) in *. exists (fst q ++ snd q ++ r). split; [exact Q3|]. split.
    - transitivity (length (a ++ b ++ r)); [rewrite !app_length; lia|]. rewrite <- E. destruct (halves n). rewrite !app_length, evens_length, odds_length, skipn_length. lia.
    - unfold ilift_step. destruct (stages_ok (fun x y => x - y) (rev (li_steps w)) q r (Nat.div2 n) Q1 Q2) as (_ & _ & E3). rewrite E3. cbn [bind]. unfold q. rewrite stages_cancel. cbn [fst snd]. rewrite <- E. apply merge_split. exact Hn.
  Qed.
  Lemma lift_inj (w : lift K) (x x' : list K) n y : (n <= length x)%nat -> (n <= length x')%nat -> lift_step w x n = Ok y -> lift_step w x' n = Ok y -> x = x'.
  Proof.
    intros Hn Hn' E E'. destruct (lift_step_ok w x n Hn) as (a & b & r & Es & La & Lb & Q1 & Q2 & Q3). destruct (lift_step_ok w x' n Hn') as (a' & b' & r' & Es' & La' & Lb' & Q1' & Q2' & Q3').
    set (q := fold_left _ _ (a, b)) in *. set (q' := fold_left _ _ (a', b')) in *. rewrite E in Q3. rewrite E' in Q3'. injection Q3 as Q3. injection Q3' as Q3'. rewrite Q3 in Q3'.
    apply app_eq_app in Q3' as T. assert (T1 : fst q = fst q' /\ snd q ++ r = snd q' ++ r').
    { destruct T as (l & [[T1 T2]|[T1 T2]]); assert (l = []) by (apply length_zero_iff_nil; apply (f_equal (@length K)) in T1; rewrite app_length in T1; lia); subst l; rewrite app_nil_r in T1; cbn [app] in T2; split; congruence. }
    destruct T1 as [T1 T2]. apply app_eq_app in T2 as T0. assert (T3 : snd q = snd q' /\ r = r').
    { destruct T0 as (l & [[U1 U2]|[U1 U2]]); assert (l = []) by (apply length_zero_iff_nil; apply (f_equal (@length K)) in U1; rewrite app_length in U1; lia); subst l; rewrite app_nil_r in U1; cbn [app] in U2; split; congruence. }
    destruct T3 as [T3 T4]. assert (Eq : (a, b) = (a', b')).
    { rewrite <- (stages_cancel (li_steps w) (a, b)), <- (stages_cancel (li_steps w) (a', b')). fold q q'. destruct q, q'. cbn [fst snd] in *. congruence. }
    injection Eq as -> ->. rewrite T4, <- Es' in Es.
    assert (Len : length x = length x') by (apply (f_equal (@length K)) in Es; destruct (halves n); rewrite !app_length, !evens_length, !odds_length, !skipn_length in Es; lia).
    destruct (halves n) as (H1 & H2 & H3 & H4). apply (list_ext 0); [exact Len|]. intros k Hk. destruct (Nat.ltb_spec k n) as [B|B].
    - destruct (Nat.Even_or_Odd k) as [[i Ei]|[i Ei]]; subst k.
      + assert (i < Nat.div2 (n + 1))%nat by (destruct (Nat.even n); lia). apply (f_equal (fun l => nth i l 0)) in Es. cbv beta in Es. rewrite !app_nth1, !evens_nth in Es by (rewrite ?evens_length; assumption). exact Es.
      + assert (i < Nat.div2 n)%nat by (destruct (Nat.even n); lia). apply (f_equal (fun l => nth (Nat.div2 (n + 1) + i) l 0)) in Es. cbv beta in Es. rewrite !(app_nth2 (evens _ _)) in Es by (rewrite evens_length; lia). rewrite !evens_length in Es. replace (Nat.div2 (n + 1) + i - Nat.div2 (n + 1))%nat with i in Es by lia.
        rewrite !app_nth1, !odds_nth in Es by (rewrite ?odds_length; assumption). exact Es.
    - apply (f_equal (fun l => nth k l 0)) in Es. cbv beta in Es. rewrite !app_assoc, !(app_nth2 (_ ++ _)) in Es by (rewrite app_length, evens_length, odds_length; lia). rewrite !app_length, !evens_length, !odds_length, H1, !nth_skipn' in Es. replace (n + (k - n))%nat with k in Es by lia. exact Es.
  Qed.
End P.
