(** Proofs about the interpolation of tables. *)
From Coq Require Import Field.
From Verif Require Import Base BaseLemmas OField Filters_Model Filters_Proofs Interp_Model Interp_Spec Interp_Proofs.

Section Tables.
Context (F : ofield).
Add Ring Fr3 : (cth F).
Add Field Ff3 : (fth F).
Local Open Scope cring_scope.

Lemma seek_ok (x : list F) : forall fuel j v, (j + fuel > length x)%nat -> (exists k, (j <= k < length x)%nat /\ ole v (samp x k)) ->
  exists j', seek x fuel j v = Ok j' /\ (j <= j' < length x)%nat /\ ole v (samp x j') /\
    (forall i, (j <= i < j')%nat -> olt (samp x i) v).
Proof.
  induction fuel as [|f IH]; intros j v Hf (k & Hk & Hv); [lia|]. cbn [seek].
  rewrite (vget_ok x j (0 : F)) by lia. cbn [bind]. fold (samp x j). destruct (oltb (samp x j) v) eqn:E.
  - destruct (IH (j + 1)%nat v) as (j' & E' & H1 & H2 & H3); [lia| |].
    { exists k. split; [|exact Hv]. destruct (Nat.eq_dec k j) as [->|]; [|lia]. exfalso. eapply olt_nle; [exact E|exact Hv]. }
    exists j'. split; [exact E'|]. split; [lia|]. split; [exact H2|]. intros i Hi.
    destruct (Nat.eq_dec i j) as [->|]; [exact E|apply H3; lia].
  - exists j. split; [reflexivity|]. split; [lia|]. split; [exact E|]. intros i Hi. lia.
Qed.

(** One query: the state j is a point such that every earlier one is strictly
    below all remaining queries. *)
Section Query.
Context (x y : list F) (piece : nat -> F -> F) (query : nat -> F -> res (nat * F)).
Context (Hinc : increasing x) (Hx : (0 < length x)%nat) (Hy : length y = length x).
Context (Hend : forall k, (k + 1 < length x)%nat -> piece k (samp x (k + 1) - samp x k) = samp y (k + 1)).
Context (Hq : forall j v, query j v =
  (let n := Z.of_nat (length x) in
   let* x0 := vget x 0 in
   let* xl := vgetZ x (n - 1) in
   if oleb v x0 then let* w := vget y 0 in Ok (j, w)
   else if oleb xl v then let* w := vgetZ y (n - 1) in Ok (j, w)
   else
     let* j := seek x (S (length x)) j v in
     let* xk := vgetZ x (Z.of_nat j - 1) in
     if (0 <? j)%nat then Ok (j, piece (j - 1)%nat (v - xk)) else Exc)).

Definition below (j : nat) (v : F) : Prop := (j < length x)%nat /\ forall i, (i < j)%nat -> olt (samp x i) v.

Lemma below_mono j v w : below j v -> ole v w -> below j w.
Proof. intros (H & B) L. split; [exact H|]. intros i Hi. eapply olt_le_trans; [apply B; exact Hi|exact L]. Qed.

Lemma query_ok j v : below j v -> exists j' r, query j v = Ok (j', r) /\ below j' v /\ piecewise x y piece v r.
Proof.
  intros (Hj & B). rewrite Hq. cbv zeta. rewrite (vget_ok x 0 (0 : F)) by lia. rewrite (vgetZ_ok x _ (0 : F)) by lia. cbn [bind].
  rewrite (vgetZ_ok y _ (0 : F)) by lia. rewrite (vget_ok y 0 (0 : F)) by lia. cbn [bind].
  replace (Z.to_nat (Z.of_nat (length x) - 1)) with (length x - 1)%nat by lia.
  fold (samp x 0) (samp x (length x - 1)) (samp y 0) (samp y (length x - 1)).
  unfold oleb. destruct (oltb (samp x 0) v) eqn:E0; cbn [negb].
  - destruct (oltb v (samp x (length x - 1))) eqn:E1; cbn [negb].
    + destruct (seek_ok x (S (length x)) j v) as (j' & E & H1 & H2 & H3); [lia| |].
      { exists (length x - 1)%nat. split; [lia|]. apply ole_olt. exact E1. }
      rewrite E. cbn [bind]. assert (Hj' : (0 < j')%nat).
      { destruct j'; [|lia]. exfalso. eapply olt_nle; [exact E0|exact H2]. }
      rewrite (vgetZ_ok x _ (0 : F)) by lia. cbn [bind]. replace (Z.to_nat (Z.of_nat j' - 1)) with (j' - 1)%nat by lia.
      fold (samp x (j' - 1)). destruct (Nat.ltb_spec 0 j'); [|lia].
      assert (B' : below j' v).
      { split; [lia|]. intros i Hi. destruct (Nat.lt_ge_cases i j); [apply B; assumption|apply H3; lia]. }
      do 2 eexists. split; [reflexivity|]. split; [exact B'|]. split; [|split].
      * intros C. exfalso. eapply olt_nle; [exact E0|exact C].
      * intros _ C. exfalso. eapply olt_nle; [exact E1|exact C].
      * intros k Hk L1 L2. assert (k + 1 = j')%nat as <-.
        { destruct (Nat.lt_trichotomy (k + 1) j') as [L|[L|L]]; [|exact L|].
          - exfalso. eapply olt_nle; [apply (proj2 B' (k + 1)%nat L)|exact L2].
          - exfalso. assert (ole (samp x j') (samp x k)).
            { destruct (Nat.eq_dec j' k) as [->|]; [apply ole_refl|]. apply ole_olt. apply Hinc. lia. }
            eapply olt_nle; [exact L1|]. eapply ole_trans; [exact H2|assumption]. }
        replace (k + 1 - 1)%nat with k by lia. reflexivity.
    + do 2 eexists. split; [reflexivity|]. split; [split; [exact Hj|exact B]|]. split; [|split].
      * intros C. exfalso. eapply olt_nle; [exact E0|exact C].
      * intros _ _. reflexivity.
      * intros k Hk L1 L2. 
        assert (k + 1 = length x - 1)%nat.
        { destruct (Nat.eq_dec (k + 1) (length x - 1)); [assumption|]. exfalso.
          assert (olt (samp x (k + 1)) (samp x (length x - 1))) by (apply Hinc; lia).
          eapply olt_irrefl. eapply olt_le_trans; [exact H|]. eapply ole_trans; [exact E1|exact L2]. }
        assert (v = samp x (length x - 1)) as ->.
        { apply (o_tri F); [exact E1|]. rewrite <- H. exact L2. }
        rewrite <- H. rewrite Hend by exact Hk. reflexivity.
  - do 2 eexists. split; [reflexivity|]. split; [split; [exact Hj|exact B]|]. split; [|split].
    * intros _. reflexivity.
    * intros C. exfalso. unfold olt in C. congruence.
    * intros k Hk L1 L2. exfalso. eapply olt_nle; [exact L1|]. eapply ole_trans; [exact E0|].
      destruct k; [apply ole_refl|]. apply ole_olt, Hinc. lia.
Qed.

Lemma queries_ok : forall qs j, (j < length x)%nat -> (forall v, In v qs -> below j v) -> sorted qs ->
  exists j' r, map_st query j qs = Ok (j', r) /\ length r = length qs /\
   forall i, (i < length qs)%nat -> piecewise x y piece (samp qs i) (samp r i).
Proof.
  induction qs as [|v qs IH]; intros j Hj B S; cbn [map_st].
  - do 2 eexists. split; [reflexivity|]. split; [reflexivity|]. cbn. intros; lia.
  - destruct (query_ok j v) as (j1 & r1 & E1 & B1 & P1); [apply B; left; reflexivity|]. rewrite E1. cbn [bind].
    destruct (IH j1) as (j' & r & E & L & P).
    + apply B1.
    + intros w Hw. apply (below_mono j1 v); [exact B1|]. destruct (In_nth _ _ (0 : F) Hw) as (i & Hi & <-).
      apply (S 0%nat (1 + i)%nat). cbn [length]. lia.
    + intros i k Hik. apply (S (1 + i)%nat (1 + k)%nat). cbn [length]. lia.
    + rewrite E. cbn [bind]. do 2 eexists. split; [reflexivity|]. split; [cbn [length]; congruence|].
      intros [|i] Hi; [exact P1|]. apply P. cbn [length] in Hi. lia.
Qed.
End Query.

Lemma hstep_ne (x : list F) k : increasing x -> (k + 1 < length x)%nat -> samp x (k + 1) - samp x k <> 0.
Proof. intros H Hk. apply opos_ne. apply -> olt_sub. apply H. lia. Qed.

Lemma bind_ext {A B} (m : res A) (f g : A -> res B) : (forall a, m = Ok a -> f a = g a) -> bind m f = bind m g.
Proof. intros H. destruct m; cbn [bind]; [apply H|..]; reflexivity. Qed.

Lemma seek_range (x : list F) : forall fuel j v j', seek x fuel j v = Ok j' -> (j' < length x)%nat.
Proof.
  induction fuel as [|f IH]; intros j v j'; cbn [seek]; [discriminate|].
  destruct (Nat.lt_ge_cases j (length x)) as [H|H].
  - rewrite (vget_ok x j (0 : F)) by exact H. cbn [bind]. destruct (oltb _ v); [apply IH|]. intros E. injection E as <-. exact H.
  - rewrite vget_exc by exact H. discriminate.
Qed.

Lemma lin_query_form (x y : list F) j v : increasing x -> (0 < length x)%nat -> length y = length x -> lin_query x y j v =
  (let n := Z.of_nat (length x) in
   let* x0 := vget x 0 in
   let* xl := vgetZ x (n - 1) in
   if oleb v x0 then let* w := vget y 0 in Ok (j, w)
   else if oleb xl v then let* w := vgetZ y (n - 1) in Ok (j, w)
   else
     let* j := seek x (S (length x)) j v in
     let* xk := vgetZ x (Z.of_nat j - 1) in
     if (0 <? j)%nat then Ok (j, segment x y (j - 1)%nat (v - xk)) else Exc).
Proof.
  intros Hi Hx Hy. unfold lin_query. cbv zeta. do 2 (apply bind_ext; intros ? _).
  destruct (oleb v a); [reflexivity|]. destruct (oleb a0 v); [reflexivity|].
  apply bind_ext. intros j' E. apply seek_range in E. destruct (Nat.ltb_spec 0 j').
  - rewrite (vgetZ_ok x _ (0 : F)) by lia. cbn [bind]. rewrite (vget_ok x j' (0 : F)) by lia. cbn [bind].
    rewrite (vgetZ_ok y _ (0 : F)) by lia. cbn [bind]. rewrite (vget_ok y j' (0 : F)) by lia. cbn [bind].
    replace (Z.to_nat (Z.of_nat j' - 1)) with (j' - 1)%nat by lia. fold (samp x (j' - 1)) (samp x j') (samp y (j' - 1)) (samp y j').
    do 2 f_equal. unfold segment. replace (j' - 1 + 1)%nat with j' by lia. field.
    replace (samp x j') with (samp x (j' - 1 + 1)) by (f_equal; lia). apply hstep_ne; [exact Hi|lia].
  - replace j' with 0%nat by lia. reflexivity.
Qed.

Lemma interp_lin_ok (x y qs : list F) : increasing x -> (0 < length x)%nat -> length y = length x -> sorted qs ->
  exists r, interp_lin x y qs = Ok r /\ length r = length qs /\
   forall i, (i < length qs)%nat -> piecewise x y (segment x y) (samp qs i) (samp r i).
Proof.
  intros Hi Hx Hy Hs. unfold interp_lin.
  destruct (queries_ok x y (segment x y) (lin_query x y) Hi Hx Hy) with (qs := qs) (j := 0%nat) as (j' & r & E & L & P).
  - intros k Hk. unfold segment. field. apply hstep_ne; assumption.
  - intros j v. apply lin_query_form; assumption.
  - exact Hx.
  - intros v _. split; [exact Hx|]. intros i Hi0. lia.
  - exact Hs.
  - rewrite E. cbn [bind]. exists r. auto.
Qed.

(** ** Natural cubic spline *)
Section Spline.
Context (x y : list F) (Hinc : increasing x) (Hx : (0 < length x)%nat) (Hy : length y = length x).
Notation n := (cs_n x).
Notation H := (cs_H x).
Definition cs_piece (k : nat) : cubic F := mkcubic (samp y k) (cs_B x y k) (cs_C x y k) (cs_D x y k).

Lemma H_pos i : (i < n)%nat -> olt 0 (H i).
Proof. intros Hi. unfold cs_H. apply -> olt_sub. apply Hinc. unfold cs_n in Hi. lia. Qed.
Lemma H_ne i : (i < n)%nat -> H i <> 0.
Proof. intros Hi. apply opos_ne, H_pos, Hi. Qed.
Lemma three_ne : 1 + 1 + 1 <> 0 :> F.
Proof. replace (1 + 1 + 1) with (cnat 3 : F) by (cbn [cnat]; ring). apply opos_ne, ocnat_pos. Qed.

Definition cs_l (i : nat) : F := cnat 2 * (samp x (i + 1) - samp x (i - 1)) - H (i - 1) * fst (cs_fwd x y (i - 1)).
Lemma fwd_S i : (0 < i)%nat -> cs_fwd x y i = (H i / cs_l i, (cs_Y x y i - H (i - 1) * snd (cs_fwd x y (i - 1))) / cs_l i).
Proof.
  intros Hi. destruct i as [|p]; [lia|]. cbn [cs_fwd]. unfold cs_l. replace (S p - 1)%nat with p by lia.
  destruct (cs_fwd x y p) as [u z]. reflexivity.
Qed.
(** the pivots are positive: 0 <= U < 1 *)
Lemma pivots i : (i < n)%nat -> ole 0 (fst (cs_fwd x y i)) /\ olt (fst (cs_fwd x y i)) 1 /\ ((0 < i)%nat -> olt 0 (cs_l i)).
Proof.
  induction i as [|p IH]; intros Hi.
  - cbn. split; [apply ole_refl|]. split; [apply o1_pos|]. lia.
  - destruct IH as (U0 & U1 & _); [lia|]. rewrite fwd_S by lia. cbn [fst]. set (l := cs_l (S p)).
    assert (Hl : olt 0 (l - H (S p))).
    { unfold l, cs_l. replace (S p - 1)%nat with p by lia. set (u := fst (cs_fwd x y p)) in *.
      replace (cnat 2 * (samp x (S p + 1) - samp x p) - H p * u - H (S p)) with (H p * (1 - u) + (H p + H (S p))).
      - apply opos_add; [apply (o_mul F); [apply H_pos; lia|apply -> olt_sub; exact U1]|].
        apply opos_add; apply H_pos; lia.
      - unfold cs_H. replace (S p) with (p + 1)%nat by lia. cbn [cnat]. ring. }
    assert (Hp : olt 0 (H (S p))) by (apply H_pos; exact Hi).
    assert (Pl : olt 0 l). { replace l with (l - H (S p) + H (S p)) by ring. apply opos_add; assumption. }
    pose proof (opos_ne F _ Pl) as Nl.
    split; [apply ole_olt, odiv_pos; assumption|]. split; [|intros _; exact Pl].
    apply olt_sub. replace (1 - H (S p) / l) with ((l - H (S p)) / l) by (field; exact Nl). apply odiv_pos; assumption.
Qed.

Lemma C_rec i : (i < n)%nat -> cs_C x y i = snd (cs_fwd x y i) - fst (cs_fwd x y i) * cs_C x y (i + 1).
Proof.
  intros Hi. unfold cs_C. replace (n - i)%nat with (S (n - (i + 1))) by lia. cbn [cs_back].
  replace (n - S (n - (i + 1)))%nat with i by lia. destruct (cs_fwd x y i) as [u z]. reflexivity.
Qed.
Lemma C_last : cs_C x y n = 0.
Proof. unfold cs_C. rewrite Nat.sub_diag. reflexivity. Qed.
Lemma C_first : (0 < n)%nat -> cs_C x y 0 = 0.
Proof. intros Hn. rewrite C_rec by exact Hn. cbn [cs_fwd fst snd]. ring. Qed.

(** the tridiagonal system is solved *)
Lemma tridiag i : (0 < i)%nat -> (i < n)%nat ->
  H (i - 1) * cs_C x y (i - 1) + cnat 2 * (H (i - 1) + H i) * cs_C x y i + H i * cs_C x y (i + 1) = cs_Y x y i.
Proof.
  intros H0 Hi. destruct (pivots i Hi) as (_ & _ & P). pose proof (opos_ne F _ (P H0)) as Nl.
  rewrite (C_rec (i - 1)) by lia. replace (i - 1 + 1)%nat with i by lia.
  pose proof (C_rec i Hi) as Ci. rewrite fwd_S in Ci by exact H0. cbn [fst snd] in Ci.
  set (u := fst (cs_fwd x y (i - 1))) in *. set (z := snd (cs_fwd x y (i - 1))) in *.
  assert (El : cs_l i = cnat 2 * (H (i - 1) + H i) - H (i - 1) * u).
  { unfold cs_l. fold u. unfold cs_H. replace (i - 1 + 1)%nat with i by lia. cbn [cnat]. ring. }
  assert (E2 : cs_l i * cs_C x y i = cs_Y x y i - H (i - 1) * z - H i * cs_C x y (i + 1)).
  { rewrite Ci. field. exact Nl. }
  replace (H (i - 1) * (z - u * cs_C x y i) + cnat 2 * (H (i - 1) + H i) * cs_C x y i + H i * cs_C x y (i + 1))
    with (H (i - 1) * z + cs_l i * cs_C x y i + H i * cs_C x y (i + 1)) by (rewrite El; ring).
  rewrite E2. ring.
Qed.

Lemma D6 k : (k < n)%nat -> cnat 6 * cs_D x y k * H k = cnat 2 * (cs_C x y (k + 1) - cs_C x y k).
Proof.
  intros Hk. pose proof (H_ne k Hk) as Nk. pose proof three_ne as N3.
  assert (N3' : 1 + (1 + 1) <> 0 :> F) by (intros C; apply N3; rewrite <- C; ring).
  assert (E : cnat 3 * cs_D x y k * H k = cs_C x y (k + 1) - cs_C x y k).
  { unfold cs_D. cbn [cnat]. field. repeat split; first [exact Nk|exact N3']. }
  rewrite <- E. cbn [cnat]. ring.
Qed.
Lemma spline_ok : natural_spline x y cs_piece.
Proof.
  assert (N2 : 1 + 1 <> 0 :> F) by (apply two_ne, opos_ne, ocnat_pos).
  pose proof three_ne as N3. assert (N3' : 1 + (1 + 1) <> 0 :> F) by (intros C; apply N3; rewrite <- C; ring). split; [|split].
  - intros k Hk. unfold ceval, cs_piece. cbn [q_a q_b q_c q_d]. split; [ring|].
    fold (cs_H x k). pose proof (H_ne k Hk) as Nk. unfold cs_B, cs_D. cbn [cnat]. field. repeat split; first [exact Nk|exact N3'].
  - intros k Hk. fold n in Hk. unfold ceval1, ceval2, cs_piece. cbn [q_a q_b q_c q_d]. fold (cs_H x k).
    pose proof (H_ne k ltac:(unfold cs_n in *; lia)) as Nk. pose proof (H_ne (k + 1) Hk) as Nk1. split.
    + pose proof (tridiag (k + 1)) as T. specialize (T ltac:(lia) Hk). replace (k + 1 - 1)%nat with k in T by lia.
      unfold cs_Y in T. replace (k + 1 - 1)%nat with k in T by lia.
      unfold cs_B, cs_D. set (a := cs_C x y k) in *. set (b := cs_C x y (k + 1)) in *. set (c := cs_C x y (k + 1 + 1)) in *.
      set (h := H k) in *. set (h' := H (k + 1)) in *. set (y0 := samp y k) in *. set (y1 := samp y (k + 1)) in *. set (y2 := samp y (k + 1 + 1)) in *.
      cbn [cnat] in *.
      match goal with |- ?L = ?R => assert (G : (1 + 1 + 1) * (L - R) = 0) end.
      { match type of T with ?A = ?B => transitivity (A - B); [|rewrite T; ring] end. field. repeat split; first [exact Nk|exact Nk1|exact N3']. }
      apply (fcancel F) in G; [|exact N3]. match goal with |- ?L = ?R => replace L with (L - R + R) by ring end. rewrite G. ring.
    + rewrite (D6 k) by (unfold cs_n in *; lia). cbn [cnat]. ring.
  - intros Hn. fold n in *. unfold ceval2, cs_piece. cbn [q_a q_b q_c q_d]. fold (cs_H x (n - 1)). split.
    + rewrite C_first by exact Hn. ring.
    + rewrite (D6 (n - 1)) by lia. replace (n - 1 + 1)%nat with n by lia. rewrite C_last. cbn [cnat]. ring.
Qed.

Lemma cs_query_form j v : cs_query x y j v =
  (let m := Z.of_nat (length x) in
   let* x0 := vget x 0 in
   let* xl := vgetZ x (m - 1) in
   if oleb v x0 then let* w := vget y 0 in Ok (j, w)
   else if oleb xl v then let* w := vgetZ y (m - 1) in Ok (j, w)
   else
     let* j := seek x (S (length x)) j v in
     let* xk := vgetZ x (Z.of_nat j - 1) in
     if (0 <? j)%nat then Ok (j, ceval (cs_piece (j - 1)) (v - xk)) else Exc).
Proof.
  unfold cs_query. cbv zeta. do 2 (apply bind_ext; intros ? _).
  destruct (oleb v a); [reflexivity|]. destruct (oleb a0 v); [reflexivity|].
  apply bind_ext. intros j' E. apply seek_range in E. destruct (Nat.ltb_spec 0 j').
  - rewrite (vgetZ_ok x _ (0 : F)) by lia. cbn [bind]. rewrite (vgetZ_ok y _ (0 : F)) by lia. cbn [bind].
    replace (Z.to_nat (Z.of_nat j' - 1)) with (j' - 1)%nat by lia. reflexivity.
  - replace j' with 0%nat by lia. reflexivity.
Qed.
Lemma interp_cspline_ok (qs : list F) : sorted qs ->
  exists s r, natural_spline x y s /\ interp_cspline x y qs = Ok r /\ length r = length qs /\
   forall i, (i < length qs)%nat -> piecewise x y (fun k => ceval (s k)) (samp qs i) (samp r i).
Proof.
  intros Hs. pose proof spline_ok as SP. exists cs_piece. unfold interp_cspline.
  destruct (queries_ok x y (fun k => ceval (cs_piece k)) (cs_query x y) Hinc Hx Hy) with (qs := qs) (j := 0%nat) as (j' & r & E & L & P).
  - intros k Hk. apply SP. lia.
  - intros j v. apply cs_query_form.
  - exact Hx.
  - intros v _. split; [exact Hx|]. intros i Hi0. lia.
  - exact Hs.
  - rewrite E. cbn [bind]. exists r. auto.
Qed.
End Spline.
End Tables.

Lemma ofield_distinct (F : ofield) d : distinct_ints F d.
Proof.
  assert (G : forall i j, i < j -> cnat (K := F) i <> cnat j).
  { intros i j H C. apply (olt_irrefl F (cnat i)). rewrite C at 2.
    replace j with (i + S (j - i - 1)) by lia. rewrite cnat_add. apply olt_sub.
    match goal with |- olt _ ?z => replace z with (cnat (K := F) (S (j - i - 1))) end; [apply ocnat_pos|].
    pose proof (cth F) as R. rewrite (Rsub_def R), (Radd_comm R (cnat i)), <- (Radd_assoc R), (Ropp_def R), (Radd_comm R), (Radd_0_l R). reflexivity. }
  intros i j _ _ E. destruct (Nat.lt_trichotomy i j) as [H|[H|H]]; [|exact H|]; exfalso.
  - apply (G _ _ H E).
  - apply (G _ _ H). symmetry. exact E.
Qed.

Lemma piecewise_fun (F : ofield) (x y : list F) f q v w : 0 < length x ->
  piecewise x y f q v -> piecewise x y f q w -> v = w.
Proof.
  intros Hx (A1 & A2 & A3) (B1 & B2 & B3).
  destruct (oltb (samp x 0) q) eqn:E0; [|rewrite A1, B1 by exact E0; reflexivity].
  destruct (oltb q (samp x (length x - 1))) eqn:E1; [|rewrite A2, B2 by assumption; reflexivity].
  assert (G : forall n, n < length x -> ole q (samp x n) -> exists k, k + 1 < length x /\ olt (samp x k) q /\ ole q (samp x (k + 1))).
  { induction n as [|n IH]; intros Hn H; [unfold ole in H; congruence|].
    destruct (oltb (samp x n) q) eqn:E; [|apply IH; [lia|exact E]].
    exists n. replace (n + 1) with (S n) by lia. split; [exact Hn|]. split; [exact E|exact H]. }
  destruct (G (length x - 1)) as (k & Hk & L1 & L2); [lia|apply ole_olt; exact E1|].
  rewrite (A3 k), (B3 k) by assumption. reflexivity.
Qed.
