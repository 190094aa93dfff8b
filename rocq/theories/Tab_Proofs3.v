(** Memory safety of programs without views; out-of-range views. *)
From Verif Require Import Base BaseLemmas Tab_Model Tab_Spec Tab_Proofs Tab_Proofs2.
From Coq Require Import ZifyBool ZifyNat.
Open Scope Z_scope.

Section P.
  Context {A : Type}.
  Implicit Types s : st A.
  Implicit Types m : list (option (list (option A))).

  Definition owned m im : Prop :=
    ty im = VALEUR /\ 0 <= nr im /\ 1 <= nc im /\
    match ptr im with
    | None => nelems im = 0
    | Some (b, o) => o = 0 /\ exists l, nth_error m b = Some (Some l) /\ Z.of_nat (length l) = nelems im
    end.
  Record own s : Prop := {
    own_1 : forall k im, nth_error (impls s) k = Some im -> owned (mem s) im;
    own_2 : forall k k' im im' b o o', nth_error (impls s) k = Some im -> nth_error (impls s) k' = Some im' ->
      ptr im = Some (b, o) -> ptr im' = Some (b, o') -> k = k' }.

  Lemma snoc_inv {X} (l : list X) x k y : nth_error (l ++ [x]) k = Some y ->
    ((k < length l)%nat /\ nth_error l k = Some y) \/ (k = length l /\ y = x).
  Proof.
    intros H. destruct (Nat.lt_ge_cases k (length l)) as [Hlt|Hge].
    - rewrite nth_error_app_lt in H by auto. auto.
    - rewrite nth_error_app2 in H by auto. destruct (k - length l)%nat as [|q] eqn:E; simpl in H; [|destruct q; discriminate].
      injection H as <-. right. split; auto. lia.
  Qed.

  Lemma owned_ext m m' im : (forall b o, ptr im = Some (b, o) -> forall l, nth_error m b = Some (Some l) ->
      exists l', nth_error m' b = Some (Some l') /\ length l' = length l) -> owned m im -> owned m' im.
  Proof.
    intros HE (H1 & H2 & H3 & H4). repeat split; auto. destruct (ptr im) as [[b o]|]; auto.
    destruct H4 as (-> & l & Hl & HL). split; auto. destruct (HE _ _ eq_refl _ Hl) as (l' & Hl' & HL'). exists l'; split; auto. lia.
  Qed.

  Lemma own_bind s v m' im : wf s -> own s ->
    (forall b, (b < length (mem s))%nat -> nth_error m' b = nth_error (mem s) b) ->
    owned m' im -> (forall b o, ptr im = Some (b, o) -> (length (mem s) <= b)%nat) -> own (bind_new s v m' im).
  Proof.
    intros HS [O1 O2] HM HI HP. constructor; simpl.
    - intros k im' Hk. apply snoc_inv in Hk as [[Hlt Hk]|[-> ->]]; auto.
      eapply owned_ext; [|eapply O1; eauto]. intros b o Hp l Hl. exists l. split; auto. rewrite HM; auto.
      destruct (sep_ptr _ _ _ _ HS _ _ _ _ Hk Hp); auto.
    - intros k k' im1 im2 b o o' H1 H2 P1 P2.
      apply snoc_inv in H1 as [[L1 H1]|[-> ->]]; apply snoc_inv in H2 as [[L2 H2]|[-> ->]]; auto.
      + eapply O2; eauto.
      + destruct (sep_ptr _ _ _ _ HS _ _ _ _ H1 P1). specialize (HP _ _ P2). lia.
      + destruct (sep_ptr _ _ _ _ HS _ _ _ _ H2 P2). specialize (HP _ _ P1). lia.
  Qed.

  Lemma own_mem s m' bad : own s -> mem_ext bad (mem s) m' -> own (mkst m' (impls s) (env s)).
  Proof.
    intros [O1 O2] (_ & _ & S). constructor; simpl; auto.
    intros k im Hk. eapply owned_ext; [|eapply O1; eauto]. intros b o Hp l Hl. apply S; auto.
  Qed.

  Lemma own_set s m' k im0 im : wf s -> own s -> nth_error (impls s) k = Some im0 ->
    (forall b l, nth_error (mem s) b = Some (Some l) -> (forall o, ptr im0 <> Some (b, o)) -> nth_error m' b = Some (Some l)) ->
    owned m' im -> (forall b o, ptr im = Some (b, o) -> (length (mem s) <= b)%nat) -> own (set_impl s m' k im).
  Proof.
    intros HS [O1 O2] Hk HM HI HP. constructor; simpl.
    - intros k' im' Hk'. rewrite nth_error_upd in Hk'. destruct ((k =? k')%nat && (k <? length (impls s))%nat)%bool eqn:E.
      + injection Hk' as <-; auto.
      + eapply owned_ext; [|eapply O1; eauto]. intros b o Hp l Hl. exists l. split; auto. apply HM; auto.
        intros o' Hp'. assert (k = k') by (eapply O2; eauto). subst k'.
        rewrite Nat.eqb_refl in E. simpl in E. assert (k < length (impls s))%nat by (apply nth_error_Some; congruence). lia.
    - intros k1 k2 im1 im2 b o o' H1 H2 P1 P2. rewrite nth_error_upd in H1, H2.
      destruct ((k =? k1)%nat && (k <? length (impls s))%nat)%bool eqn:E1, ((k =? k2)%nat && (k <? length (impls s))%nat)%bool eqn:E2; try lia.
      + injection H1 as <-. destruct (sep_ptr _ _ _ _ HS _ _ _ _ H2 P2). specialize (HP _ _ P1). lia.
      + injection H2 as <-. destruct (sep_ptr _ _ _ _ HS _ _ _ _ H1 P1). specialize (HP _ _ P2). lia.
      + eapply O2; eauto.
  Qed.

  Lemma dims_nonneg n q r c : 0 <= n -> dims_of n q = (r, c) -> r = n /\ 1 <= c /\ c = (if 1 <? q then q else 1).
  Proof. unfold dims_of. destruct (1 <? q) eqn:E; intros Hn H; injection H as <- <-; lia. Qed.

  Lemma alloc_owned m n r c m' p e b : 0 <= r -> 1 <= c -> alloc m n = (m', p) -> n = r * c -> owned m' (mkimpl VALEUR r c p e b).
  Proof.
    intros Hr Hc H ->. unfold owned, nelems. simpl. repeat split; auto.
    apply alloc_spec in H as [(? & -> & ->)|(? & -> & ->)].
    - split; auto. eexists. rewrite nth_error_snoc. split; [reflexivity|]. rewrite repeat_length. lia.
    - nia.
  Qed.
  Lemma alloc_fresh m n m' p : alloc m n = (m', p) ->
    (forall b, (b < length m)%nat -> nth_error m' b = nth_error m b) /\ forall b o, p = Some (b, o) -> (length m <= b)%nat.
  Proof.
    intros H. apply alloc_spec in H as [(? & -> & ->)|(? & -> & ->)]; split; auto; try discriminate.
    - intros; apply nth_error_app_lt; auto.
    - intros b o H1; injection H1 as <- <-; auto.
  Qed.

  Lemma free_keeps s k im0 b l : nth_error (impls s) k = Some im0 -> nth_error (mem s) b = Some (Some l) ->
    (forall o, ptr im0 <> Some (b, o)) -> nth_error (free_ (mem s) im0) b = Some (Some l).
  Proof. intros _ H HN. rewrite free_other; auto. Qed.

  Lemma own_clone s v w im s' : wf s -> own s -> impl_of s w = Ok im -> clone_to s v im = Ok s' -> own s'.
  Proof.
    intros HS HO Hi H. apply impl_of_ok in Hi as (k & Ek & Kk). destruct (own_1 _ HO _ _ Kk) as (H1 & H2 & H3 & H4).
    apply clone_to_inv in H as (m' & p & -> & HM & HL & HP & HN). apply own_bind; auto; simpl.
    - unfold owned, nelems; simpl. repeat split; auto. destruct p as [[b o]|].
      + destruct (HP _ _ eq_refl) as (-> & -> & _ & l & E1 & E2). split; auto. exists l; auto.
      + destruct HN as [HN _]. rewrite HN in H4 by auto. exact H4.
    - intros b o Hb. destruct (HP _ _ Hb) as (-> & _). auto.
  Qed.

  Lemma own_kind s v im : own s -> impl_of s v = Ok im -> ty im = VALEUR.
  Proof. intros HO Hi. apply impl_of_ok in Hi as (k & _ & Hk). apply (own_1 _ HO _ _ Hk). Qed.

  Lemma exec_own isf s o s' : wf s -> own s -> plain o -> exec isf s o = Ok s' -> own s'.
  Proof.
    intros HS HO HP H.
    assert (MV : forall e, own (mkst (mem s) (impls s) e)) by (intros e; destruct HO; constructor; auto).
    destruct o; simpl in H, HP; try tauto.
    - destruct HP as [Hn Hm]. unfold decl in H. destruct (dims_of n m) as [r c] eqn:Ed. destruct (alloc (mem s) (r * c)) as [m' p] eqn:EA.
      injection H as <-. destruct (dims_nonneg _ _ _ _ Hn Ed) as (-> & Hc & _). destruct (alloc_fresh _ _ _ _ EA).
      apply own_bind; simpl; auto. eapply alloc_owned; eauto.
    - unfold copy in H. apply bind_ok in H as (im & Hi & H). eapply (own_clone s v w im); eauto.
    - unfold assign in H. apply bind_ok in H as (im & Hi & H). destruct (env s v).
      + apply bind_ok in H as (dst & Hd & H). unfold est_reference in H. rewrite (own_kind _ _ _ HO Hd) in H. simpl in H. eapply (own_clone s v w im); eauto.
      + eapply (own_clone s v w im); eauto.
    - unfold move_assign in H. apply bind_ok in H as (im & Hi & H). destruct (env s v).
      + apply bind_ok in H as (dst & Hd & H). unfold est_reference in H. rewrite (own_kind _ _ _ HO Hd) in H. simpl in H. injection H as <-; auto.
      + injection H as <-; auto.
    - unfold set in H. apply bind_ok in H as (im & Hi & H). destruct ((i <? 0) || (nr im <=? i)); [discriminate|].
      apply bind_ok in H as (m1 & H1 & H). injection H as <-. eapply own_mem; eauto. eapply store_ext; eauto.
    - unfold resize in H. apply bind_ok in H as (im & Hi & H). destruct ((nr im =? n) && (cols_ im =? m)); [injection H as <-; auto|].
      destruct (dims_of n m) as [r c] eqn:Ed. destruct (alloc (free_ (mem s) im) (r * c)) as [m' p] eqn:EA.
      apply impl_of_ok in Hi as (k & Ek & Kk). rewrite Ek in H. injection H as <-.
      destruct HP as [Hn Hm]. destruct (dims_nonneg _ _ _ _ Hn Ed) as (-> & Hc & _). destruct (alloc_fresh _ _ _ _ EA) as [F1 F2].
      apply own_set with im; auto; simpl.
      + intros b l Hb Hnp. assert (b < length (mem s))%nat by (apply nth_error_Some; congruence).
        rewrite F1 by (rewrite free_length; auto). eapply free_keeps; eauto.
      + destruct (own_1 _ HO _ _ Kk) as (-> & _). eapply alloc_owned; eauto.
      + intros b o Hb. rewrite <- (free_length (mem s) im). eauto.
    - unfold cresize in H. apply bind_ok in H as (im & Hi & H). rewrite (own_kind _ _ _ HO Hi) in H.
      apply impl_of_ok in Hi as (k & Ek & Kk). rewrite Ek in H.
      destruct (dims_of n m) as [r c] eqn:Ed. destruct (alloc (mem s) (r * c)) as [m1 p] eqn:EA.
      apply bind_ok in H as (m2 & HC & H). injection H as <-. apply memcpy_ext in HC. destruct HC as (L & F & S).
      destruct HP as [Hn Hm]. destruct (dims_nonneg _ _ _ _ Hn Ed) as (-> & Hc & _). destruct (alloc_fresh _ _ _ _ EA) as [F1 F2].
      apply own_set with im; auto; simpl.
      + intros b l Hb Hnp. assert (b < length (mem s))%nat by (apply nth_error_Some; congruence).
        rewrite free_other by auto. rewrite F; [rewrite F1; auto|]. intros (o & Ho). apply F2 in Ho. lia.
      + assert (HO2 : owned m2 (mkimpl VALEUR n c p (enfant im) (blk im))).
        { eapply owned_ext; [|eapply alloc_owned; eauto]. simpl. intros b o Hp l Hl. apply S; auto. }
        eapply owned_ext; [|exact HO2]. simpl. intros b o Hp l Hl. exists l; split; auto.
        rewrite free_other; auto. intros o' Hp'. destruct (sep_ptr _ _ _ _ HS _ _ _ _ Kk Hp'). apply F2 in Hp. lia.
  Qed.

  Lemma plain_own isf s : reachable_plain isf s -> wf s /\ own s.
  Proof.
    intros (os & Hp & H). eapply (exec_all_ind (fun s => wf s /\ own s) plain isf); eauto.
    - intros s0 o s1 [H0 H1] Ho HE. split; [eapply exec_wf; eauto|eapply exec_own; eauto].
    - split; [apply sep_empty|]. constructor; simpl; intros [|k]; discriminate.
  Qed.

  (** Under ownership, raw accesses inside the array are valid. *)
  Lemma own_store s v im d a : own s -> impl_of s v = Ok im -> 0 <= d < nelems im ->
    exists m', store (mem s) (match ptr im with Some (b, o) => Some (b, o + d) | None => None end) a = Ok m'.
  Proof.
    intros HO Hi Hd. apply impl_of_ok in Hi as (k & _ & Hk). destruct (own_1 _ HO _ _ Hk) as (_ & _ & _ & H).
    destruct (ptr im) as [[b o]|]; [|lia]. destruct H as (-> & l & Hl & HL). simpl. rewrite Hl.
    assert (E : (0 + d <? 0) || (Z.of_nat (length l) <=? 0 + d) = false) by lia. rewrite E. eauto.
  Qed.

  Lemma memcpy_defined m bd od bs os n l ls : nth_error m bd = Some (Some l) -> nth_error m bs = Some (Some ls) ->
    bd <> bs -> 0 <= n -> 0 <= od -> od + n <= Z.of_nat (length l) -> 0 <= os -> os + n <= Z.of_nat (length ls) ->
    exists m', memcpy m (Some (bd, od)) (Some (bs, os)) n = Ok m'.
  Proof.
    intros H1 H2 Hb Hn Ho Hl Hos Hls. unfold memcpy. destruct (n =? 0); [eauto|].
    assert (E : ((bd =? bs)%nat && (Z.abs (od - os) <? n))%bool = false) by (apply Nat.eqb_neq in Hb; rewrite Hb; auto). rewrite E.
    unfold cells. rewrite H2. assert (E2 : (os <? 0) || (n <? 0) || (Z.of_nat (length ls) <? os + n) = false) by lia. rewrite E2.
    simpl. rewrite H1. assert (E3 : (od <? 0) || (n <? 0) || (Z.of_nat (length l) <? od + n) = false) by lia. rewrite E3.
    simpl. eauto.
  Qed.

  Lemma own_clone_ok s v w im : wf s -> own s -> impl_of s w = Ok im -> exists s', clone_to s v im = Ok s'.
  Proof.
    intros HS HO Hi. apply impl_of_ok in Hi as (k & _ & Hk). destruct (own_1 _ HO _ _ Hk) as (Ht & Hr & Hc & H).
    unfold clone_to. rewrite Ht. destruct (ptr im) as [[b o]|] eqn:Ep; [|eauto].
    destruct H as (-> & l & Hl & HL). destruct (sep_ptr _ _ _ _ HS _ _ _ _ Hk Ep) as [Hb _].
    assert (E : nelems im <? 0 = false) by lia. rewrite E.
    destruct (memcpy_defined (mem s ++ [Some (repeat None (Z.to_nat (nelems im)))]) (length (mem s)) 0 b 0 (nelems im)
                (repeat None (Z.to_nat (nelems im))) l) as (m' & ->); try lia.
    - apply nth_error_snoc.
    - rewrite nth_error_app_lt; auto.
    - rewrite repeat_length. lia.
    - simpl. eauto.
  Qed.

  Lemma plain_safe isf s o : wf s -> own s -> plain o -> bound s o -> exec isf s o = Exc \/ exists s', exec isf s o = Ok s'.
  Proof.
    intros HS HO HP HB.
    destruct o; simpl in HP, HB |- *; try tauto.
    - right. unfold decl. destruct (dims_of n m) as [r c]. destruct (alloc (mem s) (r * c)). eauto.
    - right. destruct (sep_impl _ _ _ _ _ HS HB) as (im & Hi). unfold copy. rewrite Hi. simpl. eapply (own_clone_ok s v w im); eauto.
    - right. destruct (sep_impl _ _ _ _ _ HS HB) as (im & Hi). unfold assign. rewrite Hi. simpl.
      destruct (env s v) eqn:Ev; [|eapply (own_clone_ok s v w im); eauto].
      destruct (sep_impl _ _ _ _ v HS) as (dst & Hd); [congruence|]. rewrite Hd. simpl. unfold est_reference.
      rewrite (own_kind _ _ _ HO Hd). simpl. eapply (own_clone_ok s v w im); eauto.
    - right. destruct (sep_impl _ _ _ _ _ HS HB) as (im & Hi). unfold move_assign. rewrite Hi. simpl.
      destruct (env s v) eqn:Ev; [|eauto].
      destruct (sep_impl _ _ _ _ v HS) as (dst & Hd); [congruence|]. rewrite Hd. simpl. unfold est_reference.
      rewrite (own_kind _ _ _ HO Hd). simpl. eauto.
    - destruct (sep_impl _ _ _ _ _ HS HB) as (im & Hi). unfold set. rewrite Hi. simpl.
      destruct ((i <? 0) || (nr im <=? i)) eqn:E; [auto|right].
      pose proof (impl_of_ok _ _ _ Hi) as (k & _ & Hk). destruct (own_1 _ HO _ _ Hk) as (_ & _ & Hc & _).
      destruct (own_store s v im i a HO Hi) as (m' & ->); [unfold nelems; nia|]. simpl. eauto.
    - right. destruct (sep_impl _ _ _ _ _ HS HB) as (im & Hi). unfold resize. rewrite Hi. simpl.
      destruct ((nr im =? n) && (cols_ im =? m)); [eauto|]. destruct (dims_of n m) as [r c].
      destruct (alloc (free_ (mem s) im) (r * c)). destruct (env s v); [eauto|congruence].
    - destruct (sep_impl _ _ _ _ _ HS HB) as (im & Hi). unfold cresize. rewrite Hi. simpl. rewrite (own_kind _ _ _ HO Hi).
      destruct (env s v) as [k|] eqn:Ek; [|congruence].
      destruct (dims_of n m) as [r c] eqn:Ed. destruct (alloc (mem s) (r * c)) as [m1 p] eqn:EA.
      destruct HP as [Hn Hm]. destruct (dims_nonneg _ _ _ _ Hn Ed) as (-> & Hc & Hc2).
      apply impl_of_ok in Hi as (k' & E' & Hk). destruct (own_1 _ HO _ _ Hk) as (Ht & Hr & Hc' & H). right.
      assert (H0 : 0 <= nelems im) by (unfold nelems; nia).
      assert (HM : exists m2, memcpy m1 p (ptr im) (Z.min (n * m) (nelems im)) = Ok m2).
      { destruct (Z.eq_dec (Z.min (n * m) (nelems im)) 0) as [Z0|Z0].
        - unfold memcpy. rewrite Z0. simpl. eauto.
        - assert (HH : 0 < n * m /\ 0 < nelems im) by nia. destruct (ptr im) as [[b o]|] eqn:Ep; [|lia].
          destruct H as (-> & l & Hl & HL). destruct (sep_ptr _ _ _ _ HS _ _ _ _ Hk Ep) as [Hb _].
          apply alloc_spec in EA as [(? & -> & ->)|(? & -> & ->)].
          + eapply memcpy_defined; try (apply nth_error_snoc); try (rewrite nth_error_app_lt; eauto); try lia.
            rewrite repeat_length. destruct (1 <? m) eqn:E; nia.
          + destruct (1 <? m) eqn:E; nia. }
      destruct HM as (m2 & ->). simpl. eauto.
  Qed.

  (** *** Bounds *)
  Lemma get_exc_iff s v im i : impl_of s v = Ok im -> (get s v i = Exc <-> i < 0 \/ nr im <= i).
  Proof.
    intros Hi. unfold get. rewrite Hi. simpl. destruct ((i <? 0) || (nr im <=? i)) eqn:E.
    - split; auto. lia.
    - split; [|lia]. intros H. exfalso. clear E. unfold load in H.
      destruct (ptr im) as [[b o]|]; [|discriminate]. destruct (nth_error (mem s) b) as [[l|]|]; try discriminate.
      destruct (o + i <? 0); [discriminate|]. destruct (nth_error l (Z.to_nat (o + i))) as [[a|]|]; discriminate.
  Qed.

  (** A segment that starts before the array is accepted, and reading it is undefined. *)
  Lemma negative_segment s v w i0 n r : wf s -> own s -> rows s w = Ok r -> i0 < 0 -> 0 < n -> i0 + n <= r ->
    exists s', segment s v w i0 n = Ok s' /\ rows s' v = Ok n /\
      forall i, 0 <= i < n -> i0 + i < 0 -> get s' v i = UB /\ forall a, set s' v i a = UB.
  Proof.
    intros HS HO Hr H0 Hn Hle. unfold rows in Hr. destruct (impl_of s w) as [iw| | |] eqn:Hw; try discriminate.
    simpl in Hr. injection Hr as Hr. unfold segment. rewrite Hw. simpl.
    assert (E : nr iw <? i0 + n = false) by lia. rewrite E. eexists; split; [reflexivity|].
    unfold rows. rewrite bind_new_impl. split; [reflexivity|]. intros i Hi Hlt.
    pose proof (impl_of_ok _ _ _ Hw) as (k & Ek & Kk). destruct (own_1 _ HO _ _ Kk) as (Ht & Hr' & Hc & H).
    unfold get, set. rewrite bind_new_impl. simpl.
    assert (E1 : (i <? 0) || (n <=? i) = false) by lia. rewrite E1.
    destruct (ptr iw) as [[b o]|]; [|split; reflexivity]. destruct H as (-> & l & Hl & HL).
    unfold load, store. rewrite Hl. assert (E2 : 0 + i0 + i <? 0 = true) by lia. rewrite E2. split; reflexivity.
  Qed.

  (** col(cols()) is accepted; reading it is undefined. *)
  Lemma col_past_end s v w r c : wf s -> own s -> rows s w = Ok r -> cols s w = Ok c -> 0 < r ->
    exists s', col s v w c = Ok s' /\ rows s' v = Ok r /\
      forall i, 0 <= i < r -> get s' v i = UB /\ forall a, set s' v i a = UB.
  Proof.
    intros HS HO Hr Hc H0. unfold rows in Hr. unfold cols in Hc. destruct (impl_of s w) as [iw| | |] eqn:Hw; try discriminate.
    simpl in Hr, Hc. injection Hr as Hr. injection Hc as Hc. unfold col. rewrite Hw. simpl.
    assert (E : nc iw <? c = false) by lia. rewrite E. eexists; split; [reflexivity|].
    unfold rows. rewrite bind_new_impl. simpl. split; [congruence|]. intros i Hi.
    pose proof (impl_of_ok _ _ _ Hw) as (k & Ek & Kk). destruct (own_1 _ HO _ _ Kk) as (Ht & Hr' & Hc' & H).
    unfold get, set. rewrite bind_new_impl. simpl.
    assert (E1 : (i <? 0) || (nr iw <=? i) = false) by lia. rewrite E1.
    assert (EP : ptr_at (fuel_of s) s iw 0 c = match ptr iw with Some (b, o) => Some (b, o + (0 + c * nr iw)) | None => None end).
    { destruct (fuel_of s); simpl; rewrite Ht; reflexivity. }
    rewrite EP. destruct (ptr iw) as [[b o]|]; [|split; reflexivity]. destruct H as (-> & l & Hl & HL). unfold nelems in HL.
    unfold load, store. rewrite Hl. assert (E2 : 0 + (0 + c * nr iw) + i <? 0 = false) by nia. rewrite E2.
    assert (E3 : Z.of_nat (length l) <=? 0 + (0 + c * nr iw) + i = true) by nia. rewrite E3.
    assert (EN : nth_error l (Z.to_nat (0 + (0 + c * nr iw) + i)) = None) by (apply nth_error_None; nia). rewrite EN.
    split; reflexivity.
  Qed.
End P.
