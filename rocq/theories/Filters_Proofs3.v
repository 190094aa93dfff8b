(** Proofs for the second-order sections and their chains. *)
From Verif Require Import Base BaseLemmas Filters_Model Filters_Spec Filters_Proofs Filters_Proofs2.
From Coq Require Import ZifyBool ZifyNat Ring Field.

Section Ring3.
Variable K : cring.
Add Ring Kr : (cth K).
Local Open Scope nat_scope.

Definition sois_f (st : rii_structure) : sois K -> K -> res (sois K * K) :=
  match st with FormeDirecte2 => sois_df2 | FormeDirecte1 => sois_df1 end.

Lemma sois_f_keeps st (s : sois K) a s' b : sois_f st s a = Ok (s', b) ->
  so_premier s' = so_premier s /\ so_struct s' = so_struct s.
Proof. destruct st; cbn; intros H; injection H as <- _; auto. Qed.

Lemma sois_map_keeps st l (s s' : sois K) y : map_st (sois_f st) s l = Ok (s', y) ->
  so_premier s' = so_premier s /\ so_struct s' = so_struct s.
Proof.
  intros H. pose proof (map_st_keeps (sois_f st) (fun s => (so_premier s, so_struct s))) as P.
  specialize (P (fun s a s' b E => f_equal2 pair (proj1 (sois_f_keeps st s a s' b E)) (proj2 (sois_f_keeps st s a s' b E)))).
  specialize (P _ _ _ _ H). injection P as -> ->. auto.
Qed.

Definition sois_start (s : sois K) (v : K) : sois K :=
  if so_premier s then mksois v v v v v (so_b0 s) (so_b1 s) (so_b2 s) (so_a1 s) (so_a2 s) false (so_struct s) else s.

Lemma sois_step_cons s v t : sois_step s (v :: t) = map_st (sois_f (so_struct s)) (sois_start s v) (v :: t).
Proof. unfold sois_step, sois_start, sois_f. destruct (so_struct s); reflexivity. Qed.

Lemma sois_additive : additive (sois_step (K := K)).
Proof.
  split; [reflexivity|]. intros s [|v t] b.
  - cbn [app]. unfold sois_step at 2. cbn [bind]. destruct (sois_step s b) as [[s' y]| | |]; reflexivity.
  - change ((v :: t) ++ b) with (v :: (t ++ b)). rewrite !sois_step_cons. change (v :: (t ++ b)) with ((v :: t) ++ b).
    rewrite map_st_app. destruct (map_st (sois_f (so_struct s)) (sois_start s v) (v :: t)) as [[s1 y1]| | |] eqn:E; cbn [bind]; try reflexivity.
    destruct (sois_map_keeps _ _ _ _ _ E) as (P1 & P2).
    assert (Q1 : so_premier s1 = false) by (rewrite P1; unfold sois_start; destruct (so_premier s) eqn:F; [reflexivity|exact F]).
    assert (Q2 : so_struct s1 = so_struct s) by (rewrite P2; unfold sois_start; destruct (so_premier s); reflexivity).
    destruct b as [|w u]; [reflexivity|]. rewrite sois_step_cons, Q2. unfold sois_start. rewrite Q1. reflexivity.
Qed.

Lemma fos_additive : additive (fos_step (K := K)).
Proof. apply map_st_additive. Qed.

(** Every section call returns normally. *)
Lemma sois_map_total st l : forall s : sois K, exists s' y, map_st (sois_f st) s l = Ok (s', y) /\ length y = length l.
Proof.
  induction l as [|a t IH]; intros s; cbn [map_st]; [do 2 eexists; split; reflexivity|].
  assert (H : exists s1 b, sois_f st s a = Ok (s1, b)) by (destruct st; do 2 eexists; reflexivity).
  destruct H as (s1 & b & E1). rewrite E1. cbn [bind]. destruct (IH s1) as (s2 & y2 & E & L).
  rewrite E; cbn [bind]; do 2 eexists; (split; [reflexivity|simpl; congruence]).
Qed.
Lemma sois_step_total x (s : sois K) : exists s' y, sois_step s x = Ok (s', y) /\ length y = length x.
Proof.
  destruct x as [|v t]; [do 2 eexists; split; reflexivity|]. rewrite sois_step_cons. apply sois_map_total.
Qed.
Lemma sections_total ss : forall x : list K, exists s' y, sections_step ss x = Ok (s', y) /\ length y = length x.
Proof.
  induction ss as [|s t IH]; intros x; cbn [sections_step]; [do 2 eexists; split; reflexivity|].
  destruct (sois_step_total x s) as (s1 & y1 & E1 & L1). rewrite E1. cbn [bind].
  destruct (IH y1) as (t1 & z & E2 & L2). rewrite E2. cbn [bind]. do 2 eexists. split; [reflexivity|lia].
Qed.
Lemma fos_total x : forall s : fos K, exists s' y, fos_step s x = Ok (s', y) /\ length y = length x.
Proof.
  unfold fos_step. induction x as [|a t IH]; intros s; cbn [map_st]; [do 2 eexists; split; reflexivity|].
  unfold fos_sample at 1. cbv zeta. cbn [bind]. match goal with |- context [map_st _ ?s1 t] => destruct (IH s1) as (s2 & y2 & E & L) end.
  rewrite E; cbn [bind]; do 2 eexists; split; [reflexivity|simpl; congruence].
Qed.

Lemma sections_additive (ss : list (sois K)) : forall a b,
  sections_step ss (a ++ b) =
    (let* (s1, y1) := sections_step ss a in let* (s2, y2) := sections_step s1 b in Ok (s2, y1 ++ y2)).
Proof.
  induction ss as [|s t IH]; intros a b; cbn [sections_step]; [reflexivity|].
  rewrite (proj2 sois_additive).
  destruct (sois_step_total a s) as (s1 & y1 & E1 & _). rewrite E1. cbn [bind].
  destruct (sois_step_total b s1) as (s2 & y2 & E2 & _). rewrite E2. cbn [bind]. rewrite IH.
  destruct (sections_total t y1) as (t1 & z1 & E3 & _). rewrite E3. cbn [bind].
  cbn [sections_step]. rewrite E2. cbn [bind].
  destruct (sections_total t1 y2) as (t2 & z2 & E4 & _). rewrite E4. reflexivity.
Qed.
Lemma sections_nil (ss : list (sois K)) : sections_step ss [] = Ok (ss, []).
Proof. induction ss as [|s t IH]; cbn [sections_step]; [reflexivity|]. cbn [sois_step bind]. rewrite IH. reflexivity. Qed.

Lemma chaine_additive : additive (chaine_step (K := K)).
Proof.
  split.
  - intros [g ss f]. unfold chaine_step. cbn [ch_sections ch_rii1 ch_gain]. rewrite sections_nil. cbn [bind].
    destruct f; reflexivity.
  - intros [g ss f] a b. unfold chaine_step. cbn [ch_sections ch_rii1 ch_gain]. rewrite sections_additive.
    destruct (sections_total ss a) as (s1 & y1 & E1 & _). rewrite E1. cbn [bind].
    destruct (sections_total s1 b) as (s2 & y2 & E2 & _). rewrite E2. cbn [bind].
    destruct f as [f|].
    + rewrite (proj2 fos_additive). destruct (fos_total y1 f) as (f1 & z1 & F1 & _). rewrite F1. cbn [bind ch_sections ch_rii1 ch_gain].
      rewrite E2. cbn [bind]. destruct (fos_total y2 f1) as (f2 & z2 & F2 & _). rewrite F2. reflexivity.
    + cbn [bind ch_sections ch_rii1 ch_gain]. rewrite E2. cbn [bind]. rewrite map_app. reflexivity.
Qed.

Lemma chaine_total (c : chaine K) x : exists c' y, chaine_step c x = Ok (c', y) /\ length y = length x.
Proof.
  destruct c as [g ss f]. unfold chaine_step. cbn [ch_sections ch_rii1 ch_gain].
  destruct (sections_total ss x) as (s1 & y1 & E1 & L1). rewrite E1. cbn [bind]. destruct f as [f|].
  - destruct (fos_total y1 f) as (f1 & z1 & F1 & L2). rewrite F1. cbn [bind]. do 2 eexists. split; [reflexivity|lia].
  - do 2 eexists. split; [reflexivity|]. rewrite map_length. exact L1.
Qed.

(** Signal extended to the left by its first sample. *)
Lemma df1_map b0 b1 b2 a1 a2 l : forall x1 x2 y0 y1 y2 p st,
  exists s' y, map_st sois_df1 (mksois x1 x2 y0 y1 y2 b0 b1 b2 a1 a2 p st : sois K) l = Ok (s', y) /\ length y = length l /\
  forall n, n < length l ->
    let X k := match k with 0 => x2 | 1 => x1 | S (S k) => samp l k end in
    let Y k := match k with 0 => y2 | 1 => y1 | S (S k) => samp y k end in
    (Y (n + 2)%nat = b0 * X (n + 2)%nat + b1 * X (n + 1)%nat + b2 * X n - a1 * Y (n + 1)%nat - a2 * Y n)%K.
Proof.
  induction l as [|v t IH]; intros x1 x2 y0 y1 y2 p st; cbn [map_st].
  - do 2 eexists. split; [reflexivity|]. split; [reflexivity|]. cbn [length]. lia.
  - unfold sois_df1 at 1. cbv zeta. cbn [bind so_x1 so_x2 so_y0 so_y1 so_y2 so_b0 so_b1 so_b2 so_a1 so_a2 so_premier so_struct].
    match goal with |- context [map_st _ (mksois _ _ ?z _ _ _ _ _ _ _ _ _) t] => set (yn := z) end.
    destruct (IH v x1 yn yn y1 p st) as (s2 & y' & E & L & N). rewrite E. cbn [bind].
    exists s2, (yn :: y'). split; [reflexivity|]. split; [simpl; congruence|].
    intros [|n] Hn.
    + reflexivity.
    + specialize (N n ltac:(simpl in Hn; lia)). cbv zeta in N. cbn [Nat.add].
      replace (n + 2) with (S (S n)) in * by lia. replace (n + 1) with (S n) in * by lia.
      cbv beta iota in *. etransitivity; [exact N|]. destruct n as [|[|n]]; reflexivity.
Qed.

Lemma df2_map b0 b1 b2 a1 a2 l : forall x1 x2 d0 d1 y2 p st,
  exists s' y d, map_st sois_df2 (mksois x1 x2 d0 d1 y2 b0 b1 b2 a1 a2 p st : sois K) l = Ok (s', y) /\ length y = length l /\
  d 0 = d0 /\ d 1 = d1 /\
  forall n, n < length l ->
    (d (n + 2)%nat = samp l n - a1 * d (n + 1)%nat - a2 * d n /\
     samp y n = b0 * d (n + 2)%nat + b1 * d (n + 1)%nat + b2 * d n)%K.
Proof.
  induction l as [|v t IH]; intros x1 x2 d0 d1 y2 p st; cbn [map_st].
  - exists (mksois x1 x2 d0 d1 y2 b0 b1 b2 a1 a2 p st), [], (fun k => match k with 0 => d0 | _ => d1 end).
    split; [reflexivity|]. do 3 (split; [reflexivity|]). cbn [length]. lia.
  - unfold sois_df2 at 1. cbv zeta. cbn [bind so_x1 so_x2 so_y0 so_y1 so_y2 so_b0 so_b1 so_b2 so_a1 so_a2 so_premier so_struct].
    match goal with |- context [map_st _ (mksois _ _ _ ?z ?w _ _ _ _ _ _ _) t] => set (dn := z) end.
    match goal with |- context [map_st _ (mksois _ _ _ ?z ?w _ _ _ _ _ _ _) t] => set (yn := w) end.
    destruct (IH x1 x2 d1 dn yn p st) as (s2 & y' & d & E & L & D0 & D1 & N). rewrite E. cbn [bind].
    exists s2, (yn :: y'), (fun k => match k with 0 => d0 | S k => d k end).
    split; [reflexivity|]. split; [simpl; congruence|]. split; [reflexivity|]. split; [exact D0|].
    intros [|n] Hn.
    + cbn [Nat.add]. rewrite D1, D0. split; reflexivity.
    + specialize (N n ltac:(simpl in Hn; lia)). cbn [Nat.add]. destruct N as (N1 & N2).
      change (samp (yn :: y') (S n)) with (samp y' n). change (samp (v :: t) (S n)) with (samp t n).
      replace (n + 2) with (S (n + 1)) in * by lia. split; assumption.
Qed.

Lemma fos_run (b0 b1 a1 : K) blocks :
  exists s y, run fos_step (fos_configure b0 b1 a1) blocks = Ok (s, y) /\
   length y = length (concat blocks) /\
   forall n, n < length y ->
     (samp y n + a1 * sampZ y (Z.of_nat n - 1)%Z = b0 * samp (concat blocks) n + b1 * sampZ (concat blocks) (Z.of_nat n - 1)%Z)%K.
Proof.
  change fos_step with (map_st (fos_sample (K := K))). rewrite run_map_st. generalize (concat blocks) as x. intros x.
  assert (G : forall x x1 y1, exists s y, map_st fos_sample (mkfos b0 b1 a1 x1 y1) x = Ok (s, y) /\ length y = length x /\
    forall n, n < length x -> (samp y n + a1 * (if (n =? 0)%nat then y1 else samp y (n - 1)%nat)
      = b0 * samp x n + b1 * (if (n =? 0)%nat then x1 else samp x (n - 1)%nat))%K).
  { clear x. induction x as [|v t IH]; intros x1 y1; cbn [map_st].
    - do 2 eexists. split; [reflexivity|]. split; [reflexivity|]. cbn [length]. lia.
    - unfold fos_sample at 1. cbv zeta. cbn [bind fo_b0 fo_b1 fo_a1 fo_x1 fo_y1].
      match goal with |- context [map_st _ (mkfos _ _ _ _ ?z) t] => set (yn := z) end.
      destruct (IH v yn) as (s & y & E & L & N). rewrite E. cbn [bind]. exists s, (yn :: y). split; [reflexivity|].
      split; [simpl; congruence|]. intros [|n] Hn.
      + cbn [Nat.eqb]. change (samp (yn :: y) 0) with yn. change (samp (v :: t) 0) with v. unfold yn. ring.
      + specialize (N n ltac:(simpl in Hn; lia)). cbn [Nat.eqb]. change (samp (yn :: y) (S n)) with (samp y n).
        change (samp (v :: t) (S n)) with (samp t n). replace (S n - 1) with n by lia.
        destruct n as [|n]; [exact N|]. cbn [Nat.eqb] in N. replace (S n - 1) with n in N by lia. exact N. }
  destruct (G x c0 c0) as (s & y & E & L & N). exists s, y. split; [exact E|]. split; [exact L|]. intros n Hn.
  specialize (N n ltac:(lia)). destruct n as [|n].
  - rewrite !sampZ_neg by lia. exact N.
  - replace (Z.of_nat (S n) - 1)%Z with (Z.of_nat n) by lia. rewrite !sampZ_nat. cbn [Nat.eqb] in N.
    replace (S n - 1) with n in N by lia. exact N.
Qed.
End Ring3.

Section Field3.
Variable K : cfield.
Add Ring Kr3 : (cth K).
Add Field Kf3 : (fth K).
Local Open Scope nat_scope.

(** Stream extended before its start by the value [p]. *)
Lemma sois_df1_run (b0 b1 b2 a0 a1 a2 : K) (blocks : list (list K)) s :
  a0 <> c0 -> sois_configure false b0 b1 b2 a0 a1 a2 FormeDirecte1 = Ok s ->
  exists s' y, run sois_step s blocks = Ok (s', y) /\ length y = length (concat blocks) /\
  forall n, n < length y ->
    let X k := ext_left (samp (concat blocks) 0) (concat blocks) k in
    let Y k := ext_left (samp (concat blocks) 0) y k in
    let N := Z.of_nat n in
    (a0 * Y N + a1 * Y (N - 1)%Z + a2 * Y (N - 2)%Z = b0 * X N + b1 * X (N - 1)%Z + b2 * X (N - 2)%Z)%K.
Proof.
  intros H0 Es. unfold sois_configure in Es. injection Es as <-.
  rewrite (additive_run _ (sois_additive K)). destruct (concat blocks) as [|v t].
  { do 2 eexists. split; [reflexivity|]. split; [reflexivity|]. cbn [length]. lia. }
  rewrite sois_step_cons. cbn [so_struct sois_f]. unfold sois_start. cbn [so_premier so_b0 so_b1 so_b2 so_a1 so_a2 so_struct].
  destruct (df1_map K (fdiv b0 a0) (fdiv b1 a0) (fdiv b2 a0) (fdiv a1 a0) (fdiv a2 a0) (v :: t) v v v v v false FormeDirecte1)
    as (s' & y & E & L & N).
  exists s', y. split; [exact E|]. split; [exact L|]. intros n Hn. pose (X := fun k => ext_left (samp (v :: t) 0) (v :: t) k). pose (Y := fun k => ext_left (samp (v :: t) 0) y k). specialize (N n ltac:(lia)). cbv beta zeta in N.
  assert (GX : forall k, k <= n + 2 -> match k with 0 => v | 1 => v | S (S k) => samp (v :: t) k end = X (Z.of_nat k - 2)%Z).
  { intros k Hk. unfold X, ext_left. destruct k as [|[|k]]; try reflexivity.
    destruct (Z.ltb_spec (Z.of_nat (S (S k)) - 2) 0); [lia|]. unfold samp. f_equal. lia. }
  assert (GY : forall k, k <= n + 2 -> match k with 0 => v | 1 => v | S (S k) => samp y k end = Y (Z.of_nat k - 2)%Z).
  { intros k Hk. unfold Y, ext_left. destruct k as [|[|k]]; try reflexivity.
    destruct (Z.ltb_spec (Z.of_nat (S (S k)) - 2) 0); [lia|]. unfold samp. f_equal. lia. }
  rewrite !GX, !GY in N by lia.
  replace (Z.of_nat (n + 2) - 2)%Z with (Z.of_nat n) in N by lia.
  replace (Z.of_nat (n + 1) - 2)%Z with (Z.of_nat n - 1)%Z in N by lia.
  change ((a0 * Y (Z.of_nat n) + a1 * Y (Z.of_nat n - 1)%Z + a2 * Y (Z.of_nat n - 2)%Z = b0 * X (Z.of_nat n) + b1 * X (Z.of_nat n - 1)%Z + b2 * X (Z.of_nat n - 2)%Z)%K).
  rewrite N. field. exact H0.
Qed.

Lemma sois_df2_run (b0 b1 b2 a0 a1 a2 : K) (blocks : list (list K)) s :
  a0 <> c0 -> sois_configure false b0 b1 b2 a0 a1 a2 FormeDirecte2 = Ok s ->
  exists s' y d, run sois_step s blocks = Ok (s', y) /\ length y = length (concat blocks) /\
  length d = length y /\
  forall n, n < length y ->
    let D k := ext_left (samp (concat blocks) 0) d k in
    let N := Z.of_nat n in
    (a0 * D N + a1 * D (N - 1)%Z + a2 * D (N - 2)%Z = a0 * samp (concat blocks) n /\
     a0 * samp y n = b0 * D N + b1 * D (N - 1)%Z + b2 * D (N - 2)%Z)%K.
Proof.
  intros H0 Es. unfold sois_configure in Es. injection Es as <-.
  rewrite (additive_run _ (sois_additive K)). destruct (concat blocks) as [|v t].
  { do 2 eexists. exists []. split; [reflexivity|]. split; [reflexivity|]. split; [reflexivity|]. cbn [length]. lia. }
  rewrite sois_step_cons. cbn [so_struct sois_f]. unfold sois_start. cbn [so_premier so_b0 so_b1 so_b2 so_a1 so_a2 so_struct].
  destruct (df2_map K (fdiv b0 a0) (fdiv b1 a0) (fdiv b2 a0) (fdiv a1 a0) (fdiv a2 a0) (v :: t) v v v v v false FormeDirecte2)
    as (s' & y & d & E & L & D0 & D1 & N).
  exists s', y, (map (fun n => d (n + 2)) (seq 0 (length y))). split; [exact E|]. split; [exact L|].
  split; [rewrite map_length, seq_length; reflexivity|]. intros n Hn. pose (D := fun k => ext_left (samp (v :: t) 0) (map (fun n => d (n + 2)) (seq 0 (length y))) k). specialize (N n ltac:(lia)).
  assert (GD : forall k, k <= n + 2 -> d k = D (Z.of_nat k - 2)%Z).
  { intros k Hk. unfold D, ext_left. destruct k as [|[|k]]; [exact D0|exact D1|].
    destruct (Z.ltb_spec (Z.of_nat (S (S k)) - 2) 0); [lia|].
    replace (Z.to_nat (Z.of_nat (S (S k)) - 2)) with k by lia.
    rewrite nth_indep with (d' := d (0 + 2)) by (rewrite map_length, seq_length; lia).
    rewrite (map_nth (fun n => d (n + 2))), seq_nth by lia. f_equal. lia. }
  rewrite !GD in N by lia.
  replace (Z.of_nat (n + 2) - 2)%Z with (Z.of_nat n) in N by lia.
  replace (Z.of_nat (n + 1) - 2)%Z with (Z.of_nat n - 1)%Z in N by lia.
  destruct N as (N1 & N2).
  change ((a0 * D (Z.of_nat n) + a1 * D (Z.of_nat n - 1)%Z + a2 * D (Z.of_nat n - 2)%Z = a0 * samp (v :: t) n /\ a0 * samp y n = b0 * D (Z.of_nat n) + b1 * D (Z.of_nat n - 1)%Z + b2 * D (Z.of_nat n - 2)%Z)%K). split.
  - rewrite N1. field. exact H0.
  - rewrite N2. field. exact H0.
Qed.

(** From the third sample on, direct form II solves the same equation. *)
Lemma sois_df2_eq (b0 b1 b2 a0 a1 a2 : K) (blocks : list (list K)) s :
  a0 <> c0 -> sois_configure false b0 b1 b2 a0 a1 a2 FormeDirecte2 = Ok s ->
  exists s' y, run sois_step s blocks = Ok (s', y) /\ length y = length (concat blocks) /\
  forall n, 2 <= n -> n < length y ->
    let x := samp (concat blocks) in
    (a0 * samp y n + a1 * samp y (n - 1)%nat + a2 * samp y (n - 2)%nat
     = b0 * x n + b1 * x (n - 1)%nat + b2 * x (n - 2)%nat)%K.
Proof.
  intros H0 Es. destruct (sois_df2_run _ _ _ _ _ _ blocks s H0 Es) as (s' & y & d & E & L & _ & N).
  exists s', y. split; [exact E|]. split; [exact L|]. intros n H2 Hn x.
  pose proof (N n Hn) as (A1 & B1). pose proof (N (n - 1) ltac:(lia)) as (A2 & B2). pose proof (N (n - 2) ltac:(lia)) as (A3 & B3).
  unfold x.
  replace (Z.of_nat (n - 1)) with (Z.of_nat n - 1)%Z in * by lia.
  replace (Z.of_nat (n - 2)) with (Z.of_nat n - 2)%Z in * by lia.
  replace (Z.of_nat n - 1 - 1)%Z with (Z.of_nat n - 2)%Z in * by lia.
  replace (Z.of_nat n - 1 - 2)%Z with (Z.of_nat n - 3)%Z in * by lia.
  replace (Z.of_nat n - 2 - 1)%Z with (Z.of_nat n - 3)%Z in * by lia.
  replace (Z.of_nat n - 2 - 2)%Z with (Z.of_nat n - 4)%Z in * by lia.
  set (e := ext_left (samp (concat blocks) 0) d) in *. cbv zeta in *. fold e in A1, A2, A3, B1, B2, B3.
  assert (S : forall u v w : K, cmul a0 u = v -> cmul a0 w = v -> u = w).
  { intros u v w U W. replace u with (fdiv (cmul a0 u) a0) by (field; exact H0). rewrite U, <- W. field. exact H0. }
  eapply S; [reflexivity|].
  transitivity ((b0 * (a0 * samp (concat blocks) n) + b1 * (a0 * samp (concat blocks) (n - 1)%nat) + b2 * (a0 * samp (concat blocks) (n - 2)%nat))%K); [ring|].
  rewrite <- A1, <- A2, <- A3.
  transitivity ((a0 * (a0 * samp y n) + a1 * (a0 * samp y (n - 1)%nat) + a2 * (a0 * samp y (n - 2)%nat))%K); [|ring].
  rewrite B1, B2, B3. ring.
Qed.
End Field3.
