(** C36, C37: arrays have value semantics, segments and columns are views,
    element accesses are bounds-checked. *)
From Verif Require Import Base BaseLemmas Tab_Model Tab_Spec Tab_Proofs Tab_Proofs2 Tab_Proofs3.
From Coq Require Import ZifyBool ZifyNat.
Open Scope Z_scope.

Section Props.
  Context {A : Type}.
  Implicit Types s : st A.

  (** ** C36: copies *)

  (** A copy has the dimensions and the elements of the original, and nothing else changes. *)
  Theorem C36_copy_value isf s v w s1 : reachable_nb isf s -> exec isf s (Copy v w) = Ok s1 ->
    rows s1 v = rows s w /\ cols s1 v = cols s w /\
    (forall i, get s1 v i = get s w i) /\ (forall i j, get2 s1 v i j = get2 s w i j) /\
    (forall u, u <> v -> same_reads s s1 u).
  Proof.
    intros HR H. pose proof (nb_inv2 _ _ HR) as HI. destruct (reachable_inj _ _ (nb_reachable _ _ HR)) as [HS _].
    simpl in H. unfold copy in H. apply bind_ok in H as (im & Hi & H).
    pose proof (impl_of_ok _ _ _ Hi) as (k & _ & Hk). destruct (HI _ _ Hk) as [Ht Hc].
    destruct (clone_reads s v w im s1) as (A1 & A2 & A3 & A4); auto. repeat split; auto; eapply clone_others; eauto.
  Qed.

  (** The same for an assignment [v = w], unless v is a view of the dimensions of w. *)
  Theorem C36_assign_value isf s v w s1 : reachable_nb isf s -> exec isf s (Assign v w) = Ok s1 ->
    ~ written_through s v w ->
    rows s1 v = rows s w /\ cols s1 v = cols s w /\
    (forall i, get s1 v i = get s w i) /\ (forall i j, get2 s1 v i j = get2 s w i j) /\
    (forall u, u <> v -> same_reads s s1 u).
  Proof.
    intros HR H HN. pose proof (nb_inv2 _ _ HR) as HI. destruct (reachable_inj _ _ (nb_reachable _ _ HR)) as [HS _].
    simpl in H. unfold assign in H. apply bind_ok in H as (im & Hi & H).
    pose proof (impl_of_ok _ _ _ Hi) as (k & _ & Hk). destruct (HI _ _ Hk) as [Ht Hc].
    assert (HC : clone_to s v im = Ok s1).
    { destruct (env s v); auto. apply bind_ok in H as (dst & Hd & H).
      destruct (est_reference dst && same_dims dst im) eqn:E; auto. destruct HN.
      unfold written_through, is_view, rows, cols. rewrite Hd, Hi. simpl. unfold same_dims in E.
      apply andb_prop in E as [-> E]. repeat split; f_equal; lia. }
    destruct (clone_reads s v w im s1) as (A1 & A2 & A3 & A4); auto. repeat split; auto; eapply clone_others; eauto.
  Qed.

  (** Whatever happens to the other variables afterwards, the copy keeps the
      elements that the original had when it was copied. *)
  Theorem C36_copy_is_a_snapshot isf s v w s1 os s2 : reachable_nb isf s -> v <> w ->
    exec isf s (Copy v w) = Ok s1 -> (forall o, In o os -> within (fun u => u <> v) o) -> exec_all isf s1 os = Ok s2 ->
    rows s2 v = rows s w /\ cols s2 v = cols s w /\
    (forall i, get s2 v i = get s w i) /\ (forall i j, get2 s2 v i j = get2 s w i j).
  Proof.
    intros HR Hvw H HW H2. destruct (C36_copy_value isf s v w s1 HR H) as (A1 & A2 & A3 & A4 & _).
    destruct (reachable_inj _ _ (nb_reachable _ _ HR)) as [HS _].
    simpl in H. unfold copy in H. apply bind_ok in H as (im & Hi & H).
    destruct (clone_sep s v im s1 (fun u => (u =? v)%nat) HS H) as (gi & gb & HSep).
    { apply Nat.eqb_refl. } { intros u Hu. left. apply Nat.eqb_eq; auto. }
    destruct (family_frame isf s1 _ gi gb false os s2 HSep) with (u := v) as (B1 & B2 & B3 & B4); auto.
    { intros o Ho u Hu. apply Nat.eqb_neq. exact (HW o Ho u Hu). }
    { apply Nat.eqb_refl. }
    repeat split; intros; congruence.
  Qed.

  (** A program that only mentions the copy and variables that did not exist
      (views of the copy, copies of it, ...) changes no other array. *)
  Theorem C36_original_intact isf s v w s1 os s2 : reachable_nb isf s ->
    exec isf s (Copy v w) = Ok s1 ->
    (forall o, In o os -> within (fun u => u = v \/ env s u = None) o) -> exec_all isf s1 os = Ok s2 ->
    forall u, env s u <> None -> u <> v -> same_reads s s2 u.
  Proof.
    intros HR H HW H2 u Hu Huv. destruct (C36_copy_value isf s v w s1 HR H) as (_ & _ & _ & _ & A5).
    destruct (reachable_inj _ _ (nb_reachable _ _ HR)) as [HS _].
    simpl in H. unfold copy in H. apply bind_ok in H as (im & Hi & H).
    set (fam := fun x => (x =? v)%nat || match env s x with None => true | _ => false end).
    destruct (clone_sep s v im s1 fam HS H) as (gi & gb & HSep).
    { unfold fam. rewrite Nat.eqb_refl. reflexivity. }
    { intros x Hx. unfold fam in Hx. apply clone_to_inv in H as (m' & p & -> & _). simpl. unfold set_env.
      destruct (x =? v)%nat eqn:E; [left; apply Nat.eqb_eq; auto|right]. simpl in Hx. destruct (env s x); auto; discriminate. }
    apply same_reads_trans with s1; [auto|].
    apply (family_frame isf s1 fam gi gb true os s2 HSep); auto.
    - intros o Ho x Hx. unfold fam. destruct (HW o Ho x Hx) as [->|E]; [rewrite Nat.eqb_refl; auto|rewrite E; apply orb_true_r].
    - unfold fam. apply Nat.eqb_neq in Huv. rewrite Huv. destruct (env s u); auto; congruence.
  Qed.

  (** Arbitrary interleavings: after the copy, split the variables in two
      families, [fam] true for v and for names not in use, false for the rest.
      At any later point of a program none of whose statements mixes the two
      families, a statement of one family changes nothing in the other. *)
  Theorem C36_families_stay_apart isf s v w s1 (fam : nat -> bool) os s2 g o s3 : reachable isf s ->
    exec isf s (Copy v w) = Ok s1 ->
    fam v = true -> (forall u, fam u = true -> u = v \/ env s1 u = None) ->
    (forall o, In o os -> exists g, within (fun u => fam u = g) o) -> exec_all isf s1 os = Ok s2 ->
    within (fun u => fam u = g) o -> exec isf s2 o = Ok s3 ->
    forall u, fam u = negb g -> same_reads s2 s3 u.
  Proof.
    intros HR H Hv HF HW H2 Ho H3 u Hu. destruct (reachable_inj _ _ HR) as [HS _].
    simpl in H. unfold copy in H. apply bind_ok in H as (im & Hi & H).
    destruct (clone_sep s v im s1 fam HS H Hv HF) as (gi & gb & HSep).
    destruct (exec_all_sep isf fam os s1 gi gb s2 HSep HW H2) as (gi2 & gb2 & HSep2).
    destruct (exec_pres _ _ _ _ _ _ _ _ HSep2 Ho H3) as [_ HU]. eapply untouched_reads; eauto.
  Qed.

  (** ** C36: element writes and views *)

  (** [v(i) = a] changes element i of v and no other element of v. *)
  Theorem C36_element_write isf s v i a s1 : exec isf s (Set_ v i a) = Ok s1 ->
    forall j, get s1 v j = if j =? i then Ok a else get s v j.
  Proof. intros H. apply set_get_same. exact H. Qed.

  (** A segment reads the elements i0 .. i0+n-1 of its parent, now and after
      any program that does not rebind or resize one of the two. *)
  Theorem C36_segment_is_a_view isf s v w i0 n s1 os s2 : reachable isf s -> v <> w -> 0 <= i0 ->
    exec isf s (Segment v w i0 n) = Ok s1 ->
    keeps isf s1 os v -> keeps isf s1 os w -> exec_all isf s1 os = Ok s2 ->
    rows s2 v = Ok n /\ forall i, 0 <= i < n -> get s2 v i = get s2 w (i0 + i).
  Proof.
    intros HR Hvw H0 H K1 K2 H2. destruct (reachable_inj _ _ HR) as [HS HJ].
    pose proof (segment_seg _ _ _ _ _ _ HS Hvw H0 H) as HSeg.
    pose proof (seg_keeps isf s1 v w i0 n os s2 (exec_wf isf s _ s1 HS H) (exec_inj isf s _ s1 HS HJ H) HSeg K1 K2 H2) as HSeg2.
    split.
    - destruct HSeg2 as (iv & iw & Hv & _ & Hn & _). unfold rows. rewrite Hv. simpl. congruence.
    - intros i Hi. eapply seg_get; eauto.
  Qed.

  (** Writing element i of the view changes element i0+i of the parent and no
      other; writing element j of the parent changes the view accordingly. *)
  Theorem C36_segment_write isf s v w i0 n s1 os s2 s3 i a : reachable isf s -> v <> w -> 0 <= i0 ->
    exec isf s (Segment v w i0 n) = Ok s1 ->
    keeps isf s1 os v -> keeps isf s1 os w -> exec_all isf s1 os = Ok s2 ->
    (exec isf s2 (Set_ v i a) = Ok s3 -> forall j, get s3 w j = if j =? i0 + i then Ok a else get s2 w j) /\
    (exec isf s2 (Set_ w i a) = Ok s3 -> forall j, 0 <= j < n -> get s3 v j = if i0 + j =? i then Ok a else get s2 v j).
  Proof.
    intros HR Hvw H0 H K1 K2 H2. destruct (reachable_inj _ _ HR) as [HS HJ].
    pose proof (segment_seg _ _ _ _ _ _ HS Hvw H0 H) as HSeg.
    pose proof (seg_keeps isf s1 v w i0 n os s2 (exec_wf isf s _ s1 HS H) (exec_inj isf s _ s1 HS HJ H) HSeg K1 K2 H2) as HSeg2.
    split; intros H3.
    - eapply seg_write_view; eauto.
    - eapply seg_write_parent; eauto.
  Qed.

  (** The last n elements. *)
  Theorem C36_tail_is_a_view isf s v w n r s1 : reachable isf s -> v <> w -> rows s w = Ok r -> 0 <= n <= r ->
    exec isf s (Tail v w n) = Ok s1 ->
    rows s1 v = Ok n /\ (forall i, 0 <= i < n -> get s1 v i = get s1 w (r - n + i)) /\ same_reads s s1 w.
  Proof.
    intros HR Hvw Hr Hn H. destruct (reachable_inj _ _ HR) as [HS HJ].
    simpl in H. unfold tail in H. apply bind_ok in H as (im & Hi & H).
    assert (E : nr im = r) by (unfold rows in Hr; rewrite Hi in Hr; simpl in Hr; congruence). rewrite E in H.
    pose proof (segment_seg s v w (r - n) n s1 HS Hvw ltac:(lia) H) as HSeg. split; [|split].
    - destruct HSeg as (iv & iw & Hv & _ & Hn' & _). unfold rows. rewrite Hv. simpl. congruence.
    - intros i Hi2. eapply seg_get; eauto.
    - unfold segment in H. rewrite Hi in H. simpl in H. destruct (nr im <? r - n + n); [discriminate|].
      injection H as <-. apply bind_new_reads; auto.
  Qed.

  (** [w.segment(i0, n) = u] (by copy or from a temporary) with u of length n
      replaces exactly the elements i0 .. i0+n-1 of w. *)
  Theorem C36_segment_assign isf s t w i0 n u s2 : reachable_nb isf s -> t <> w -> t <> u -> 0 <= i0 ->
    rows s u = Ok n -> cols s u = Ok 1 ->
    (exec_all isf s [Segment t w i0 n; Assign t u] = Ok s2 \/ exec_all isf s [Segment t w i0 n; MoveAssign t u] = Ok s2) ->
    rows s2 w = rows s w /\
    forall j, get s2 w j = if (i0 <=? j) && (j <? i0 + n) then get s u (j - i0) else get s w j.
  Proof.
    intros HR Htw Htu H0 Hru Hcu H. pose proof (nb_inv2 _ _ HR) as HI.
    destruct (reachable_inj _ _ (nb_reachable _ _ HR)) as [HS HJ].
    assert (HE : exists s1 iv iu, exec isf s (Segment t w i0 n) = Ok s1 /\ impl_of s1 t = Ok iv /\ impl_of s1 u = Ok iu /\
              ty iv = SEGMENT /\ nc iv = 1 /\ ty iu <> BLOCK /\ copie s1 iv iu = Ok s2 /\ same_reads s s1 w /\ same_reads s s1 u).
    { unfold exec_all in H.
      assert (HX : exists s1, exec isf s (Segment t w i0 n) = Ok s1 /\ (exec isf s1 (Assign t u) = Ok s2 \/ exec isf s1 (MoveAssign t u) = Ok s2)).
      { destruct H as [H|H]; apply bind_ok in H as (s1 & H1 & H); apply bind_ok in H as (s2' & H2 & H); injection H as ->; eauto. }
      clear H. destruct HX as (s1 & H1 & H2). exists s1.
      pose proof H1 as H1'. simpl in H1'. unfold segment in H1'. apply bind_ok in H1' as (iw & Hw & H1'). destruct (nr iw <? i0 + n) eqn:E; [discriminate|].
      injection H1' as <-.
      match goal with |- context [bind_new s t (mem s) ?x] => set (iv := x) in * end.
      exists iv. unfold rows in Hru. unfold cols in Hcu. destruct (impl_of s u) as [iu| | |] eqn:Hu; try discriminate.
      simpl in Hru, Hcu. exists iu.
      assert (Hu1 : impl_of (bind_new s t (mem s) iv) u = Ok iu).
      { rewrite <- Hu. apply impl_of_frame; auto; simpl.
        - unfold set_env. destruct (u =? t)%nat eqn:E1; auto. apply Nat.eqb_eq in E1; congruence.
        - intros; apply nth_error_app_lt; auto. }
      pose proof (impl_of_ok _ _ _ Hu) as (ku & _ & Hku). destruct (HI _ _ Hku) as [Ht _].
      assert (SD : est_reference iv && same_dims iv iu = true).
      { unfold same_dims, est_reference, iv. simpl. injection Hru as ->. injection Hcu as ->. lia. }
      assert (EV : env (bind_new s t (mem s) iv) t = Some (length (impls s))) by (simpl; unfold set_env; rewrite Nat.eqb_refl; reflexivity).
      split; [exact H1|]. split; [apply bind_new_impl|]. split; [exact Hu1|]. split; [reflexivity|]. split; [reflexivity|]. split; [exact Ht|].
      split; [|split; apply bind_new_reads; auto].
      destruct H2 as [H2|H2]; simpl in H2; unfold assign, move_assign in H2; rewrite Hu1, bind_new_impl in H2;
        cbn [bind] in H2; rewrite EV in H2; cbn [bind] in H2; rewrite SD in H2; exact H2. }
    destruct HE as (s1 & iv & iu & H1 & Hv & Hu & T1 & Hc & T2 & HC & RW & RU).
    pose proof (segment_seg _ _ _ _ _ _ HS Htw H0 H1) as HSeg.
    destruct (seg_copie s1 t w i0 n iv u iu s2) as [G1 G2]; auto; [eapply exec_wf; eauto|rewrite T1; discriminate|].
    destruct RW as (R1 & _ & R3 & _). destruct RU as (_ & _ & R3' & _).
    split.
    - rewrite <- R1. unfold rows. rewrite G2. reflexivity.
    - intros j. rewrite G1, R3, R3'. reflexivity.
  Qed.

  (** In a program without other views it does not fail (u is another array). *)
  Theorem C36_segment_assign_ok isf s t w i0 n u rw : reachable_plain isf s -> t <> w -> t <> u -> u <> w ->
    0 <= i0 -> 0 <= n -> rows s w = Ok rw -> i0 + n <= rw -> rows s u = Ok n -> cols s u = Ok 1 ->
    exists s2, exec_all isf s [Segment t w i0 n; Assign t u] = Ok s2.
  Proof.
    intros HR Htw Htu Huw H0 Hn Hrw Hle Hru Hcu. destruct (plain_own _ _ HR) as [HS HO].
    assert (HJ : inj s) by (destruct HR as (os & _ & HR); eapply reachable_inj; exists os; eauto).
    unfold rows, cols in *. destruct (impl_of s w) as [iw| | |] eqn:Hw; try discriminate.
    destruct (impl_of s u) as [iu| | |] eqn:Hu; try discriminate. simpl in *.
    injection Hrw as Hrw. injection Hru as Hru. injection Hcu as Hcu.
    unfold segment. rewrite Hw. simpl. assert (E : nr iw <? i0 + n = false) by lia. rewrite E. simpl.
    match goal with |- context [bind_new s t (mem s) ?x] => set (iv := x) in * end.
    assert (Hu1 : impl_of (bind_new s t (mem s) iv) u = Ok iu).
    { rewrite <- Hu. apply impl_of_frame; auto; simpl.
      - unfold set_env. destruct (u =? t)%nat eqn:E1; auto. apply Nat.eqb_eq in E1; congruence.
      - intros; apply nth_error_app_lt; auto. }
    assert (SD : est_reference iv && same_dims iv iu = true).
    { unfold same_dims, est_reference, iv. simpl. rewrite Hru, Hcu, Z.eqb_refl. reflexivity. }
    assert (EV : env (bind_new s t (mem s) iv) t = Some (length (impls s))) by (simpl; unfold set_env; rewrite Nat.eqb_refl; reflexivity).
    unfold assign. rewrite Hu1. cbn [bind]. rewrite EV, bind_new_impl. cbn [bind]. rewrite SD. unfold copie.
    apply andb_prop in SD as [_ SD]. rewrite SD. simpl negb. cbv iota.
    pose proof (impl_of_ok _ _ _ Hw) as (kw & Ekw & Kw). pose proof (impl_of_ok _ _ _ Hu) as (ku & Eku & Ku).
    assert (Hk : kw <> ku) by (intros ->; apply Huw; eapply HJ; eauto).
    destruct (own_1 _ HO _ _ Kw) as (Tw & Rw & Cw & Pw). destruct (own_1 _ HO _ _ Ku) as (Tu & Ru & Cu & Pu). 
    assert (HM : exists m', memcpy (mem s) (match ptr iw with Some (b, o) => Some (b, o + i0) | None => None end) (ptr iu) (nelems iv) = Ok m').
    { unfold nelems, iv. simpl. destruct (Z.eq_dec n 0) as [->|Hn0]; [unfold memcpy; simpl; eauto|].
      unfold nelems in *.
      destruct (ptr iw) as [[bw ow]|] eqn:Ew; [|nia]. destruct (ptr iu) as [[bu ou]|] eqn:Eu; [|nia].
      destruct Pw as (-> & lw & Lw1 & Lw2). destruct Pu as (-> & lu & Lu1 & Lu2).
      eapply memcpy_defined; eauto; try nia. intros ->. apply Hk. eapply (own_2 _ HO); eauto. }
    destruct HM as (m' & HM). simpl ty. rewrite Tu. simpl mem. unfold iv at 1. simpl ptr. rewrite HM. simpl. eauto.
  Qed.

  (** A column reads column c of its parent, writing it changes exactly that element. *)
  Theorem C36_column_is_a_view isf s v w c cw s1 os s2 s3 : reachable_nb isf s -> v <> w -> cols s w = Ok cw -> 0 <= c < cw ->
    exec isf s (Col v w c) = Ok s1 ->
    keeps isf s1 os v -> keeps isf s1 os w -> exec_all isf s1 os = Ok s2 ->
    (forall r i, rows s2 w = Ok r -> 0 <= i < r -> get s2 v i = get2 s2 w i c) /\
    (forall i a, exec isf s2 (Set_ v i a) = Ok s3 ->
       forall i' c', get2 s3 w i' c' = if (i' =? i) && (c' =? c) then Ok a else get2 s2 w i' c').
  Proof.
    intros HR Hvw Hcw Hc H K1 K2 H2. pose proof (nb_inv2 _ _ HR) as HI.
    destruct (reachable_inj _ _ (nb_reachable _ _ HR)) as [HS HJ].
    pose proof (col_col s v w c s1 cw HS HI Hvw ltac:(lia) Hcw ltac:(lia) H) as HC.
    pose proof (col_keeps isf s1 v w c os s2 (exec_wf isf s _ s1 HS H) (exec_inj isf s _ s1 HS HJ H) HC K1 K2 H2) as HC2.
    split.
    - intros r i Hr Hi. eapply col_get; eauto.
    - intros i a H3. eapply col_write; eauto.
  Qed.

  (** *** Findings on views *)

  (** [w.segment(i0, n) = u] with u of another length is accepted and leaves w unchanged. *)
  Theorem C36_segment_assign_wrong_size_ignored isf s t w i0 n u ru s2 : reachable_nb isf s -> t <> w -> t <> u ->
    rows s u = Ok ru -> ru <> n -> exec_all isf s [Segment t w i0 n; Assign t u] = Ok s2 -> same_reads s s2 w.
  Proof.
    intros HR Htw Htu Hru Hn H. pose proof (nb_inv2 _ _ HR) as HI.
    destruct (reachable_inj _ _ (nb_reachable _ _ HR)) as [HS HJ].
    unfold exec_all in H. apply bind_ok in H as (s1 & H1 & H). apply bind_ok in H as (s2' & H2 & H). injection H as ->.
    assert (RW : same_reads s s1 w /\ rows s1 t = Ok n /\ same_reads s s1 u).
    { simpl in H1. unfold segment in H1. apply bind_ok in H1 as (iw & Hw & H1). destruct (nr iw <? i0 + n); [discriminate|].
      injection H1 as <-. split; [apply bind_new_reads; auto|]. split; [unfold rows; rewrite bind_new_impl; reflexivity|apply bind_new_reads; auto]. }
    destruct RW as (R1 & R2 & R3). apply same_reads_trans with s1; auto.
    assert (HR1 : reachable_nb isf s1).
    { destruct HR as (os & Hos & HR). exists (os ++ [Segment t w i0 n]). split.
      - intros o Ho. apply in_app_or in Ho as [Ho|[<-|[]]]; auto. exact I.
      - rewrite exec_all_app, HR. unfold bind, exec_all. rewrite H1. reflexivity. }
    destruct (C36_assign_value isf s1 t u s2 HR1 H2) as (_ & _ & _ & _ & RO).
    - intros (_ & E & _). rewrite R2 in E. destruct R3 as (R3 & _). rewrite R3, Hru in E. congruence.
    - apply RO; auto.
  Qed.

  (** Resizing the parent of a view leaves the view dangling: every read of it is undefined. *)
  Theorem C36_resize_leaves_views_dangling isf s v w i0 n s1 r c s2 rw cw : reachable_plain isf s -> v <> w ->
    0 <= i0 -> exec isf s (Segment v w i0 n) = Ok s1 -> exec isf s1 (Resize w r c) = Ok s2 ->
    rows s w = Ok rw -> cols s w = Ok cw -> r <> rw -> forall i, 0 <= i < n -> get s2 v i = UB.
  Proof.
    intros HR Hvw H0 H1 H2 Hr Hc Hne i Hi. destruct (plain_own _ _ HR) as [HS HO].
    unfold rows in Hr. destruct (impl_of s w) as [iw| | |] eqn:Hw; try discriminate. simpl in Hr. injection Hr as Hr.
    simpl in H1. unfold segment in H1. rewrite Hw in H1. simpl in H1. destruct (nr iw <? i0 + n) eqn:E; [discriminate|].
    injection H1 as <-.
    pose proof (impl_of_ok _ _ _ Hw) as (k & Ek & Kk). destruct (own_1 _ HO _ _ Kk) as (Tw & Rw & Cw & Pw).
    assert (HLT : (k < length (impls s))%nat) by (apply nth_error_Some; congruence).
    assert (NE : (w =? v)%nat = false) by (apply Nat.eqb_neq; auto).
    simpl in H2. unfold resize in H2. unfold impl_of, bind_new in H2. simpl in H2. unfold set_env in H2. rewrite NE, Ek in H2.
    rewrite nth_error_app_lt, Kk in H2 by auto. simpl in H2.
    assert (E2 : (nr iw =? r) = false) by lia. rewrite E2 in H2. simpl in H2.
    destruct (dims_of r c) as [r' c']. destruct (alloc (free_ (mem s) iw) (r' * c')) as [m' p] eqn:EA. injection H2 as <-.
    unfold get, impl_of, set_impl. simpl. unfold set_env. rewrite Nat.eqb_refl. rewrite nth_error_upd.
    assert (E3 : (k =? length (impls s))%nat = false) by lia. rewrite E3. simpl. rewrite nth_error_snoc. simpl.
    assert (E4 : (i <? 0) || (n <=? i) = false) by lia. rewrite E4.
    destruct (ptr iw) as [[b o]|] eqn:Ep; [|reflexivity]. simpl.
    destruct (sep_ptr _ _ _ _ HS _ _ _ _ Kk Ep) as [Hb _].
    assert (EN : nth_error m' b = Some None).
    { destruct (alloc_fresh _ _ _ _ EA) as [F _]. rewrite F by (rewrite free_length; auto).
      unfold free_. rewrite Tw, Ep. rewrite nth_error_upd, Nat.eqb_refl. apply Nat.ltb_lt in Hb. rewrite Hb. reflexivity. }
    rewrite EN. reflexivity.
  Qed.

  (** Moving the end of a vector to its beginning, [w.head(n) = w.tail(n)], is
      undefined as soon as the two parts overlap. *)
  Theorem C36_overlapping_assignment_undefined isf s a b w n r : reachable_plain isf s -> a <> w -> b <> w -> a <> b ->
    rows s w = Ok r -> 0 < n <= r -> r < 2 * n ->
    exec_all isf s [Segment a w 0 n; Tail b w n; Assign a b] = UB.
  Proof.
    intros HR Haw Hbw Hab Hr Hn Hov. destruct (plain_own _ _ HR) as [HS HO].
    unfold rows in Hr. destruct (impl_of s w) as [iw| | |] eqn:Hw; try discriminate. simpl in Hr. injection Hr as Hr.
    pose proof (impl_of_ok _ _ _ Hw) as (k & Ek & Kk). destruct (own_1 _ HO _ _ Kk) as (Tw & Rw & Cw & Pw).
    unfold nelems in Pw. destruct (ptr iw) as [[bb o]|] eqn:Ep; [|nia]. destruct Pw as (-> & l & Hl & HL).
    simpl. unfold segment. rewrite Hw. simpl. assert (E : nr iw <? 0 + n = false) by lia. rewrite E. simpl.
    match goal with |- context [bind_new s a (mem s) ?x] => set (ia := x) in * end.
    assert (Hw1 : impl_of (bind_new s a (mem s) ia) w = Ok iw).
    { rewrite <- Hw. apply impl_of_frame; auto; simpl.
      - unfold set_env. destruct (w =? a)%nat eqn:E1; auto. apply Nat.eqb_eq in E1; congruence.
      - intros; apply nth_error_app_lt; auto. }
    unfold tail. rewrite Hw1. simpl bind. unfold segment. rewrite Hw1. simpl bind.
    assert (E1 : nr iw <? nr iw - n + n = false) by lia. rewrite E1. simpl bind.
    change (mem (bind_new s a (mem s) ia)) with (mem s).
    match goal with |- context [bind_new (bind_new s a (mem s) ia) b _ ?x] => set (ib := x) in * end.
    unfold assign. rewrite bind_new_impl. cbn [bind].
    assert (Ha2 : impl_of (bind_new (bind_new s a (mem s) ia) b (mem s) ib) a = Ok ia).
    { unfold impl_of, bind_new, set_env. simpl. apply Nat.eqb_neq in Hab. rewrite Hab, Nat.eqb_refl.
      rewrite nth_error_app1 by (rewrite app_length; simpl; lia). rewrite nth_error_snoc. reflexivity. }
    assert (Ea : env (bind_new (bind_new s a (mem s) ia) b (mem s) ib) a = Some (length (impls s))).
    { unfold bind_new, set_env. simpl. apply Nat.eqb_neq in Hab. rewrite Hab, Nat.eqb_refl. reflexivity. }
    rewrite Ea, Ha2. cbn [bind]. unfold est_reference. simpl ty. unfold same_dims at 1. simpl nr. simpl nc. rewrite Z.eqb_refl. simpl andb. cbv iota.
    unfold copie, same_dims. simpl nr. simpl nc. rewrite Z.eqb_refl. simpl negb. cbv iota. simpl ty. cbv iota. unfold nelems. simpl nr. simpl nc.
    simpl mem. simpl ptr. rewrite Ep. unfold memcpy. assert (E3 : (n * 1 =? 0) = false) by lia. rewrite E3.
    assert (E4 : ((bb =? bb)%nat && (Z.abs (0 + 0 - (0 + (nr iw - n))) <? n * 1))%bool = true) by (rewrite Nat.eqb_refl; lia).
    rewrite E4. reflexivity.
  Qed.

  (** block() is refused for every element type other than float. *)
  Theorem C36_block_only_float s v w r0 rn c0 cn : env s w <> None -> reachable false s -> exec false s (Block v w r0 rn c0 cn) = Exc.
  Proof.
    intros Hw HR. destruct (reachable_inj _ _ HR) as [HS _]. destruct (sep_impl _ _ _ _ _ HS Hw) as (im & Hi).
    simpl. unfold block. rewrite Hi. reflexivity.
  Qed.

  (** ** C37 *)

  (** Reading an element raises an exception exactly when the index is outside [0, rows). *)
  Theorem C37_read_checked isf s v r i : reachable isf s -> rows s v = Ok r -> (get s v i = Exc <-> i < 0 \/ r <= i).
  Proof.
    intros _ Hr. unfold rows in Hr. destruct (impl_of s v) as [im| | |] eqn:Hi; try discriminate.
    simpl in Hr. injection Hr as <-. apply get_exc_iff; auto.
  Qed.

  (** Programs without views: no statement on existing variables is ever undefined ... *)
  Theorem C37_plain_programs_defined isf s o : reachable_plain isf s -> plain o -> bound s o ->
    exec isf s o <> UB /\ exec isf s o <> Diverge.
  Proof.
    intros HR HP HB. destruct (plain_own _ _ HR) as [HS HO].
    destruct (plain_safe isf s o HS HO HP HB) as [->|(s' & ->)]; split; discriminate.
  Qed.
  (** ... an element write succeeds exactly when the index is in range, and is read back. *)
  Theorem C37_write_checked isf s v i a r : reachable_plain isf s -> rows s v = Ok r ->
    (0 <= i < r -> exists s1, exec isf s (Set_ v i a) = Ok s1 /\ get s1 v i = Ok a) /\
    (~ 0 <= i < r -> exec isf s (Set_ v i a) = Exc).
  Proof.
    intros HR Hr. destruct (plain_own _ _ HR) as [HS HO].
    unfold rows in Hr. destruct (impl_of s v) as [im| | |] eqn:Hi; try discriminate. simpl in Hr. injection Hr as Hr.
    assert (HB : env s v <> None) by (intros E; unfold impl_of in Hi; rewrite E in Hi; discriminate).
    split; intros H.
    - destruct (plain_safe isf s (Set_ v i a) HS HO I HB) as [E|(s' & E)].
      + exfalso. simpl in E. unfold set in E. rewrite Hi in E. simpl in E.
        assert (E1 : (i <? 0) || (nr im <=? i) = false) by lia. rewrite E1 in E.
        pose proof (impl_of_ok _ _ _ Hi) as (k & _ & Hk). destruct (own_1 _ HO _ _ Hk) as (_ & _ & Hc & _).
        destruct (own_store s v im i a HO Hi) as (m' & E2); [unfold nelems; nia|]. rewrite E2 in E. discriminate.
      + exists s'. split; auto. simpl in E. rewrite (set_get_same _ _ _ _ _ E), Z.eqb_refl. reflexivity.
    - simpl. unfold set. rewrite Hi. simpl. assert (E1 : (i <? 0) || (nr im <=? i) = true) by lia. rewrite E1. reflexivity.
  Qed.

  (** Findings.  A segment that starts before the array is accepted (only the
      upper end is checked), and every access before the array is undefined. *)
  Theorem C37_negative_start_undefined isf s v w i0 n r : reachable_plain isf s -> rows s w = Ok r ->
    i0 < 0 -> 0 < n -> i0 + n <= r ->
    exists s1, exec isf s (Segment v w i0 n) = Ok s1 /\ rows s1 v = Ok n /\
      forall i, 0 <= i < n -> i0 + i < 0 -> get s1 v i = UB /\ forall a, exec isf s1 (Set_ v i a) = UB.
  Proof. intros HR. destruct (plain_own _ _ HR) as [HS HO]. intros. apply (negative_segment s v w i0 n r); auto. Qed.

  (** In particular tail(n) with n larger than the vector. *)
  Theorem C37_long_tail_undefined isf s v w n r : reachable_plain isf s -> rows s w = Ok r -> 0 <= r -> r < n ->
    exists s1, exec isf s (Tail v w n) = Ok s1 /\ rows s1 v = Ok n /\ get s1 v 0 = UB.
  Proof.
    intros HR Hr H0 Hn. destruct (plain_own _ _ HR) as [HS HO].
    destruct (negative_segment s v w (r - n) n r) as (s1 & E1 & E2 & E3); auto; try lia.
    exists s1. split; [|split; [auto|apply E3; lia]]. simpl. unfold tail. unfold rows in Hr.
    destruct (impl_of s w) as [im| | |] eqn:Hi; try discriminate. simpl in Hr |- *. injection Hr as ->. exact E1.
  Qed.

  (** A column index equal to the number of columns is accepted, every access is undefined. *)
  Theorem C37_column_past_end_undefined isf s v w r c : reachable_plain isf s -> rows s w = Ok r -> cols s w = Ok c -> 0 < r ->
    exists s1, exec isf s (Col v w c) = Ok s1 /\ rows s1 v = Ok r /\
      forall i, 0 <= i < r -> get s1 v i = UB /\ forall a, exec isf s1 (Set_ v i a) = UB.
  Proof. intros HR. destruct (plain_own _ _ HR) as [HS HO]. intros. apply (col_past_end s v w r c); auto. Qed.

  (** Writing at (i, j) is not checked: with i = rows it silently overwrites an
      element of the next column. *)
  Theorem C37_write_2d_unchecked isf s v r c a : reachable_plain isf s -> rows s v = Ok r -> cols s v = Ok c -> 0 < r -> 1 < c ->
    exists s1, exec isf s (Set2 v r 0 a) = Ok s1 /\ get2 s1 v 0 1 = Ok a.
  Proof.
    intros HR Hr Hc H0 H1. destruct (plain_own _ _ HR) as [HS HO]. unfold rows, cols in *.
    destruct (impl_of s v) as [im| | |] eqn:Hi; try discriminate. simpl in Hr, Hc. injection Hr as Hr. injection Hc as Hc.
    simpl. unfold set2. rewrite Hi. simpl.
    destruct (own_store s v im (r + 0 * nr im) a HO Hi) as (m' & E); [unfold nelems; nia|]. rewrite E. simpl.
    eexists; split; [reflexivity|]. unfold get2.
    change (impl_of (mkst m' (impls s) (env s)) v) with (impl_of s v). rewrite Hi. cbn [bind]. simpl mem.
    assert (E1 : (0 <? 0) || (nr im <=? 0) || (1 <? 0) || (nc im <=? 1) = false) by lia. rewrite E1.
    apply store_ok in E as (b & o & l & Hp & Hl & Ho & ->). destruct (ptr im) as [[b0 o0]|]; [|discriminate].
    injection Hp as <- <-. replace (o0 + (0 + 1 * nr im)) with (o0 + (r + 0 * nr im)) by lia.
    rewrite (load_upd _ _ _ _ _ _ _ Hl Ho). rewrite Nat.eqb_refl, Z.eqb_refl. reflexivity.
  Qed.
End Props.

(** ** Non-vacuity and literal witnesses *)

(** A 5-element vector 0, with values 10..14, and a copy 1. *)
Definition vec5 (v : nat) : list (op Z) := Decl v 5 1 :: map (fun i => Set_ v (Z.of_nat i) (Z.of_nat i + 10)) (seq 0 5).
Definition reads (s : res (st Z)) (v : nat) (n : nat) : list (res Z) :=
  match s with Ok s => map (fun i => get s v (Z.of_nat i)) (seq 0 n) | _ => [] end.
Example ex_copy :
  reads (exec_all false empty (vec5 0 ++ [Copy 1 0; Segment 2 1 1 3; Set_ 2 0 99])) 0 5 = map (fun x => Ok x) [10; 11; 12; 13; 14] /\
  reads (exec_all false empty (vec5 0 ++ [Copy 1 0; Segment 2 1 1 3; Set_ 2 0 99])) 1 5 = map (fun x => Ok x) [10; 99; 12; 13; 14].
Proof. split; vm_compute; reflexivity. Qed.
Example ex_hyps : exists s : st Z, reachable_nb false s /\ reachable_plain false s /\ rows s 0 = Ok 5 /\ cols s 0 = Ok 1 /\
  (exists s1, exec false s (Copy 1 0) = Ok s1) /\ (exists s1, exec false s (Segment 1 0 1 3) = Ok s1) /\
  (exists s1, exec false s (Tail 1 0 7) = Ok s1).
Proof.
  destruct (exec_all false empty (vec5 0)) as [s| | |] eqn:E; try (vm_compute in E; discriminate).
  exists s. split; [exists (vec5 0); split; auto|split; [exists (vec5 0); split; auto|]].
  - intros o Ho. simpl in Ho. repeat (destruct Ho as [<-|Ho]; [exact I|]). destruct Ho.
  - intros o Ho. simpl in Ho. destruct Ho as [<-|Ho]; [simpl; lia|]. repeat (destruct Ho as [<-|Ho]; [exact I|]). destruct Ho.
  - vm_compute in E. injection E as <-. repeat split; try reflexivity; eexists; vm_compute; reflexivity.
Qed.
Example ex_segment_assign :
  reads (exec_all false empty (vec5 0 ++ [Decl 1 2 1; Set_ 1 0 7; Set_ 1 1 8; Segment 2 0 3 2; Assign 2 1])) 0 5
  = map (fun x => Ok x) [10; 11; 12; 7; 8].
Proof. vm_compute. reflexivity. Qed.
(** A view is kept by a program that writes everything but rebinds nothing. *)
Example ex_keeps : exists s s1 s2, exec_all false empty (vec5 0) = Ok s /\ exec false s (Segment 1 0 1 3) = Ok s1 /\
  keeps false s1 [Set_ 0 2 50; Copy 3 0; Set_ 1 0 60] 1 /\ keeps false s1 [Set_ 0 2 50; Copy 3 0; Set_ 1 0 60] 0 /\
  exec_all false s1 [Set_ 0 2 50; Copy 3 0; Set_ 1 0 60] = Ok s2 /\ reads (Ok s2) 1 3 = map (fun x => Ok x) [60; 50; 13].
Proof.
  do 3 eexists. split; [vm_compute; reflexivity|]. split; [vm_compute; reflexivity|].
  split; [simpl; repeat (split; [try tauto; try discriminate|intros ? _]); exact I|].
  split; [simpl; repeat (split; [try tauto; try discriminate|intros ? _]); exact I|].
  split; [vm_compute; reflexivity|vm_compute; reflexivity].
Qed.

(** Assigning a view to a declared array variable makes that variable a view
    (the temporary returned by segment() is moved): [Vecf y(3); y = x.segment(1,3); y(0) = 0;] changes x. *)
Theorem C36_assign_from_segment_aliases_refuted :
  reads (exec_all false empty (vec5 0 ++ [Decl 1 5 1; Segment 2 0 1 3; MoveAssign 1 2; Set_ 1 0 0])) 0 5
  = map (fun x => Ok x) [10; 0; 12; 13; 14].
Proof. vm_compute. reflexivity. Qed.

(** Elements of a block are read with the stride of the block: in the 3x3
    matrix m(i,j) = i + 3 j, block(1,2,1,2)(0,1) is m(0,2) = 6 and not m(1,2) = 7. *)
Definition mat33 : list (op Z) := Decl 0 3 3 :: map (fun k => Set2 0 (Z.of_nat k) 0 (Z.of_nat k)) (seq 0 9).
Theorem C36_block_stride_refuted : exists s, exec_all true empty (mat33 ++ [Block 1 0 1 2 1 2]) = Ok s /\
  get2 s 0 1 2 = Ok 7 /\ get2 s 1 0 1 = Ok 6.
Proof. eexists. split; [vm_compute; reflexivity|]. split; vm_compute; reflexivity. Qed.

(** conservativeResize of a matrix keeps the memory order, not the elements:
    growing [[0,2],[1,3]] to 3 rows moves element (0,1) to (2,0). *)
Theorem C36_conservative_resize_2d_refuted : exists s0 s1,
  exec_all false empty (Decl 0 2 2 :: map (fun k => Set2 0 (Z.of_nat k) 0 (Z.of_nat k)) (seq 0 4)) = Ok s0 /\
  exec false s0 (CResize 0 3 2) = Ok s1 /\ get2 s0 0 0 1 = Ok 2 /\ get2 s1 0 2 0 = Ok 2 /\ get2 s1 0 0 1 = Ok 3.
Proof. do 2 eexists. split; [vm_compute; reflexivity|]. split; [vm_compute; reflexivity|]. repeat split; vm_compute; reflexivity. Qed.

Print Assumptions C36_copy_value.
Print Assumptions C36_assign_value.
Print Assumptions C36_copy_is_a_snapshot.
Print Assumptions C36_original_intact.
Print Assumptions C36_families_stay_apart.
Print Assumptions C36_element_write.
Print Assumptions C36_segment_is_a_view.
Print Assumptions C36_segment_write.
Print Assumptions C36_tail_is_a_view.
Print Assumptions C36_segment_assign.
Print Assumptions C36_segment_assign_ok.
Print Assumptions C36_column_is_a_view.
Print Assumptions C36_segment_assign_wrong_size_ignored.
Print Assumptions C36_resize_leaves_views_dangling.
Print Assumptions C36_overlapping_assignment_undefined.
Print Assumptions C36_block_only_float.
Print Assumptions C36_assign_from_segment_aliases_refuted.
Print Assumptions C36_block_stride_refuted.
Print Assumptions C36_conservative_resize_2d_refuted.
Print Assumptions C37_read_checked.
Print Assumptions C37_plain_programs_defined.
Print Assumptions C37_write_checked.
Print Assumptions C37_negative_start_undefined.
Print Assumptions C37_long_tail_undefined.
Print Assumptions C37_column_past_end_undefined.
Print Assumptions C37_write_2d_unchecked.
