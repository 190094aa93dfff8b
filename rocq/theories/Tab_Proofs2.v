(** Copies, views, memory safety of the array model. *)
From Verif Require Import Base BaseLemmas Tab_Model Tab_Spec Tab_Proofs.
From Coq Require Import ZifyBool ZifyNat.
Open Scope Z_scope.

Section P.
  Context {A : Type}.
  Implicit Types s : st A.
  Implicit Types m : list (option (list (option A))).

  (** *** Reading memory after a write *)
  Lemma load_upd m b o l a b' o' : nth_error m b = Some (Some l) -> 0 <= o < Z.of_nat (length l) ->
    load (upd m b (Some (upd l (Z.to_nat o) (Some a)))) (Some (b', o')) =
    if ((b =? b')%nat && (o =? o'))%bool then Ok a else load m (Some (b', o')).
  Proof.
    intros Hb Ho. assert (Hl : (b < length m)%nat) by (apply nth_error_Some; congruence).
    simpl. rewrite nth_error_upd. destruct (b =? b')%nat eqn:E; simpl; auto.
    apply Nat.eqb_eq in E; subst b'. apply Nat.ltb_lt in Hl. rewrite Hl, Hb. simpl.
    destruct (o' <? 0) eqn:E1.
    - destruct (o =? o') eqn:E2; auto. lia.
    - rewrite nth_error_upd. destruct (o =? o') eqn:E2.
      + assert (Z.to_nat o = Z.to_nat o') by lia. rewrite H, Nat.eqb_refl.
        assert (E3 : (Z.to_nat o' <? length l)%nat = true) by lia. rewrite E3. reflexivity.
      + assert (E3 : (Z.to_nat o =? Z.to_nat o')%nat = false) by lia. rewrite E3. reflexivity.
  Qed.

  Lemma nth_error_splice (l : list (option A)) o c i : (o + length c <= length l)%nat ->
    nth_error (splice l o c) i =
    if ((o <=? i) && (i <? o + length c))%nat then nth_error c (i - o)%nat else nth_error l i.
  Proof.
    intros H. unfold splice.
    destruct (Nat.lt_ge_cases i o) as [H1|H1].
    - rewrite nth_error_app1 by (rewrite firstn_length; lia). assert (E : (o <=? i)%nat = false) by lia. rewrite E. simpl.
      rewrite <- (firstn_skipn o l) at 2. rewrite nth_error_app1 by (rewrite firstn_length; lia). reflexivity.
    - assert (E : (o <=? i)%nat = true) by lia. rewrite E. simpl.
      rewrite nth_error_app2 by (rewrite firstn_length; lia). rewrite firstn_length, Nat.min_l by lia.
      destruct (i <? o + length c)%nat eqn:E2.
      + rewrite nth_error_app1 by lia. reflexivity.
      + rewrite nth_error_app2 by lia. rewrite <- (firstn_skipn (o + length c) l) at 2.
        rewrite nth_error_app2 by (rewrite firstn_length; lia). f_equal. rewrite firstn_length. lia.
  Qed.

  Lemma nth_error_firstn_lt {X} (l : list X) n i : (i < n)%nat -> nth_error (firstn n l) i = nth_error l i.
  Proof. revert n i; induction l as [|a t IH]; intros [|n] [|i] H; simpl; auto; try lia. apply IH; lia. Qed.
  Lemma nth_error_skipn_ {X} (l : list X) n i : nth_error (skipn n l) i = nth_error l (n + i).
  Proof. revert l; induction n as [|n IH]; intros [|a t]; simpl; auto. destruct i; reflexivity. Qed.

  Lemma memcpy_load m bd od bs os n m' : memcpy m (Some (bd, od)) (Some (bs, os)) n = Ok m' ->
    forall b o, load m' (Some (b, o)) =
      if ((bd =? b)%nat && ((od <=? o) && (o <? od + n)))%bool then load m (Some (bs, os + (o - od))) else load m (Some (b, o)).
  Proof.
    intros H b o.
    apply memcpy_ok in H as [[-> ->]|(bd' & od' & bs' & os' & l & ls & E1 & E2 & Hn & El & Els & H1 & H2 & H3 & H4 & H5 & ->)].
    - assert (E : ((od <=? o) && (o <? od + 0))%bool = false) by lia. rewrite E, andb_false_r. reflexivity.
    - injection E1 as <- <-. injection E2 as <- <-.
      assert (Hl : (bd < length m)%nat) by (apply nth_error_Some; congruence).
      simpl. rewrite nth_error_upd. destruct (bd =? b)%nat eqn:E; simpl; auto.
      apply Nat.eqb_eq in E; subst b. apply Nat.ltb_lt in Hl. rewrite Hl, El, Els.
      assert (HL : length (firstn (Z.to_nat n) (skipn (Z.to_nat os) ls)) = Z.to_nat n)
        by (rewrite firstn_length, skipn_length; lia).
      destruct (o <? 0) eqn:E1.
      + assert (E : ((od <=? o) && (o <? od + n))%bool = false) by lia. rewrite E. reflexivity.
      + rewrite nth_error_splice by (rewrite HL; lia). rewrite HL.
        destruct ((od <=? o) && (o <? od + n))%bool eqn:E2.
        * assert (E3 : ((Z.to_nat od <=? Z.to_nat o) && (Z.to_nat o <? Z.to_nat od + Z.to_nat n))%nat = true) by lia.
          rewrite E3. assert (E4 : (os + (o - od) <? 0) = false) by lia. rewrite E4.
          rewrite nth_error_firstn_lt by lia. rewrite nth_error_skipn_.
          replace (Z.to_nat os + (Z.to_nat o - Z.to_nat od))%nat with (Z.to_nat (os + (o - od))) by lia. reflexivity.
        * assert (E3 : ((Z.to_nat od <=? Z.to_nat o) && (Z.to_nat o <? Z.to_nat od + Z.to_nat n))%nat = false) by lia.
          rewrite E3. reflexivity.
  Qed.

  Lemma load_app m x b o : (b < length m)%nat -> load (m ++ [x]) (Some (b, o)) = load m (Some (b, o)).
  Proof. intros H. simpl. rewrite nth_error_app_lt by auto. reflexivity. Qed.

  (** *** Invariants of programs without block() *)
  Definition inv2 s : Prop :=
    (forall k im, nth_error (impls s) k = Some im -> ty im <> BLOCK /\ 1 <= nc im).
  Definition inj s : Prop := forall u v k, env s u = Some k -> env s v = Some k -> u = v.

  Lemma inv2_snoc s v m' im : inv2 s -> ty im <> BLOCK -> 1 <= nc im -> inv2 (bind_new s v m' im).
  Proof.
    intros H H1 H2 k im' Hk. simpl in Hk.
    destruct (Nat.lt_ge_cases k (length (impls s))) as [Hlt|Hge].
    - rewrite nth_error_app_lt in Hk by auto. eapply H; eauto.
    - rewrite nth_error_app2 in Hk by auto. destruct (k - length (impls s))%nat as [|q]; simpl in Hk; [|destruct q; discriminate].
      injection Hk as <-. auto.
  Qed.
  Lemma inv2_upd s m' k im : inv2 s -> ty im <> BLOCK -> 1 <= nc im -> inv2 (set_impl s m' k im).
  Proof.
    intros H H1 H2 k' im' Hk. simpl in Hk. rewrite nth_error_upd in Hk.
    destruct ((k =? k')%nat && (k <? length (impls s))%nat)%bool; [injection Hk as <-; auto|eapply H; eauto].
  Qed.
  Lemma dims_of_nc n k r c : dims_of n k = (r, c) -> 1 <= c.
  Proof. unfold dims_of. destruct (1 <? k) eqn:E; intros H; injection H as <- <-; lia. Qed.

  Lemma clone_to_inv s v im s' : clone_to s v im = Ok s' ->
    exists m' p, s' = bind_new s v m' (mkimpl VALEUR (nr im) (nc im) p None (0, 0)) /\
      (forall b, (b < length (mem s))%nat -> nth_error m' b = nth_error (mem s) b) /\ (length (mem s) <= length m')%nat /\
      (forall b o, p = Some (b, o) -> b = length (mem s) /\ o = 0 /\ (b < length m')%nat /\
         exists l, nth_error m' b = Some (Some l) /\ Z.of_nat (length l) = nelems im) /\
      (p = None <-> ptr im = None).
  Proof.
    unfold clone_to. destruct (ptr im) as [[pb po]|] eqn:Ep.
    - destruct (nelems im <? 0) eqn:En; [discriminate|]. intros H. apply bind_ok in H as (m1 & H1 & H).
      injection H as <-. eexists m1, (Some (length (mem s), 0)). split; [reflexivity|].
      assert (HX : mem_ext (fun b => b = length (mem s)) (mem s ++ [Some (repeat None (Z.to_nat (nelems im)))]) m1).
      { destruct (ty im).
        1,2: eapply mem_ext_weak; [|apply (memcpy_ext _ _ _ _ _ H1)]; intros b (o & Ho); congruence.
        eapply mem_ext_weak; [|apply (cols_copy_ext _ _ _ _ _ _ H1)]. intros b (c & o & Ho). congruence. }
      destruct HX as (L & F & S). rewrite app_length in L. simpl in L. repeat split; try lia; try discriminate.
      + intros b Hb. rewrite F by lia. apply nth_error_app_lt; auto.
      + congruence.
      + congruence.
      + assert (b = length (mem s)) by congruence. lia.
      + injection H as <- <-. destruct (S (length (mem s)) _ (nth_error_snoc _ _)) as (l & Hl & HL).
        exists l. split; auto. rewrite HL, repeat_length. lia.
    - intros H. injection H as <-. eexists (mem s), None. split; [reflexivity|]. repeat split; auto; discriminate.
  Qed.

  Lemma copie_inv s dst src s' : copie s dst src = Ok s' -> exists m', s' = mkst m' (impls s) (env s).
  Proof.
    unfold copie. destruct (negb (same_dims dst src)); [discriminate|]. intros H.
    apply bind_ok in H as (m1 & _ & H). injection H as <-. eauto.
  Qed.

  Lemma exec_inv2 isf s o s' : inv2 s -> noblock o -> exec isf s o = Ok s' -> inv2 s'.
  Proof.
    intros HI HN H.
    assert (CL : forall v w im, impl_of s w = Ok im -> clone_to s v im = Ok s' -> inv2 s').
    { intros v w im Hi Hc. apply clone_to_inv in Hc as (m' & p & -> & _).
      apply impl_of_ok in Hi as (k & _ & Hk). destruct (HI _ _ Hk). apply inv2_snoc; simpl; auto. discriminate. }
    assert (ME : forall m' e, inv2 (mkst m' (impls s) e)) by (intros m' e k im Hk; eapply HI; eauto).
    destruct o; simpl in H, HN; try tauto.
    - unfold decl in H. destruct (dims_of n m) as [r c] eqn:Ed. destruct (alloc (mem s) (r * c)) as [m' p].
      injection H as <-. apply inv2_snoc; simpl; auto; [discriminate|eapply dims_of_nc; eauto].
    - unfold copy in H. apply bind_ok in H as (im & Hi & H). eauto.
    - unfold assign in H. apply bind_ok in H as (im & Hi & H). destruct (env s v); eauto.
      apply bind_ok in H as (dst & Hd & H). destruct (est_reference dst && same_dims dst im); eauto.
      apply copie_inv in H as (m' & ->); auto.
    - unfold move_assign in H. apply bind_ok in H as (im & Hi & H). destruct (env s v).
      + apply bind_ok in H as (dst & Hd & H). destruct (est_reference dst && same_dims dst im).
        * apply copie_inv in H as (m' & ->); auto.
        * injection H as <-; auto.
      + injection H as <-; auto.
    - unfold segment in H. apply bind_ok in H as (im & Hi & H). destruct (nr im <? i0 + n); [discriminate|].
      injection H as <-. apply inv2_snoc; simpl; auto; [discriminate|lia].
    - unfold tail, segment in H. apply bind_ok in H as (im0 & Hi0 & H). apply bind_ok in H as (im & Hi & H).
      destruct (nr im <? nr im0 - n + n); [discriminate|]. injection H as <-. apply inv2_snoc; simpl; auto; [discriminate|lia].
    - unfold col in H. apply bind_ok in H as (im & Hi & H). destruct (nc im <? c); [discriminate|].
      injection H as <-. apply inv2_snoc; simpl; auto; [discriminate|lia].
    - unfold set in H. apply bind_ok in H as (im & Hi & H). destruct ((i <? 0) || (nr im <=? i)); [discriminate|].
      apply bind_ok in H as (m1 & H1 & H). injection H as <-; auto.
    - unfold set2 in H. apply bind_ok in H as (im & Hi & H). apply bind_ok in H as (m1 & H1 & H). injection H as <-; auto.
    - unfold resize in H. apply bind_ok in H as (im & Hi & H). apply impl_of_ok in Hi as (k & Ek & Hk).
      destruct ((nr im =? n) && (cols_ im =? m)); [injection H as <-; auto|].
      destruct (dims_of n m) as [r c] eqn:Ed. destruct (alloc (free_ (mem s) im) (r * c)) as [m' p].
      rewrite Ek in H. injection H as <-. apply inv2_upd; simpl; auto; [|eapply dims_of_nc; eauto].
      destruct (HI _ _ Hk); auto.
    - unfold cresize in H. apply bind_ok in H as (im & Hi & H). apply impl_of_ok in Hi as (k & Ek & Hk). rewrite Ek in H.
      destruct (ty im) eqn:Et; try discriminate.
      destruct (dims_of n m) as [r c] eqn:Ed. destruct (alloc (mem s) (r * c)) as [m1 p].
      apply bind_ok in H as (m2 & _ & H). injection H as <-. apply inv2_upd; simpl; auto; [discriminate|eapply dims_of_nc; eauto].
  Qed.

  Lemma exec_all_ind (P : st A -> Prop) (Q : op A -> Prop) isf :
    (forall s o s', P s -> Q o -> exec isf s o = Ok s' -> P s') ->
    forall os s s', (forall o, In o os -> Q o) -> P s -> exec_all isf s os = Ok s' -> P s'.
  Proof.
    intros HP. induction os as [|o t IH]; simpl; intros s s' HQ H0 H.
    - injection H as <-; auto.
    - apply bind_ok in H as (s1 & H1 & H). apply (IH s1 s'); auto. apply (HP s o s1); auto.
  Qed.

  Lemma nb_inv2 isf s : reachable_nb isf s -> inv2 s.
  Proof.
    intros (os & Hn & H). eapply (exec_all_ind inv2 noblock isf); eauto.
    - intros; eapply exec_inv2; eauto.
    - intros [|k] im Hk; discriminate.
  Qed.
  Lemma nb_reachable isf s : reachable_nb isf s -> reachable isf s.
  Proof. intros (os & _ & H). exists os; auto. Qed.

  (** Distinct variables have distinct Impls. *)
  Definition wf s : Prop := sep s tt_ tt_ tt_.

  Lemma inj_bind s v m' im : wf s -> inj s -> inj (bind_new s v m' im).
  Proof.
    intros HS HI u u' k. simpl. unfold set_env.
    destruct (u =? v)%nat eqn:E1, (u' =? v)%nat eqn:E2; intros H1 H2.
    - apply Nat.eqb_eq in E1, E2; congruence.
    - injection H1 as <-. destruct (sep_env _ _ _ _ HS _ _ H2). lia.
    - injection H2 as <-. destruct (sep_env _ _ _ _ HS _ _ H1). lia.
    - eapply HI; eauto.
  Qed.

  Lemma exec_wf isf s o s' : wf s -> exec isf s o = Ok s' -> wf s'.
  Proof.
    intros HS H. destruct (exec_pres isf s tt_ tt_ tt_ true o s' HS) as [[HE HF HP] _]; auto.
    { intros v _; reflexivity. }
    constructor.
    - intros v k Hk. destruct (HE _ _ Hk). split; auto.
    - intros k im e H1 H2. destruct (HF _ _ _ H1 H2). split; auto.
    - intros k im b o' H1 H2. destruct (HP _ _ _ _ H1 H2). split; auto.
  Qed.

  Lemma exec_inj isf s o s' : wf s -> inj s -> exec isf s o = Ok s' -> inj s'.
  Proof.
    intros HS HI H.
    assert (CL : forall v im, clone_to s v im = Ok s' -> inj s').
    { intros v im Hc. apply clone_to_inv in Hc as (m' & p & -> & _). apply inj_bind; auto. }
    assert (MV : forall v w, inj (mkst (mem s) (impls s) (set_env (set_env (env s) v (env s w)) w None))).
    { intros v w u u' k. simpl. unfold set_env.
      destruct (u =? w)%nat eqn:E1; [discriminate|]. destruct (u' =? w)%nat eqn:E2; [discriminate|].
      apply Nat.eqb_neq in E1, E2.
      destruct (u =? v)%nat eqn:E3, (u' =? v)%nat eqn:E4; intros H1 H2.
      - apply Nat.eqb_eq in E3, E4; congruence.
      - destruct E2. eapply HI; eauto.
      - destruct E1. eapply HI; eauto.
      - eapply HI; eauto. }
    destruct o; simpl in H.
    - unfold decl in H. destruct (dims_of n m) as [r c] eqn:Ed. destruct (alloc (mem s) (r * c)) as [m' p].
      injection H as <-. apply inj_bind; auto.
    - unfold copy in H. apply bind_ok in H as (im & Hi & H). eauto.
    - unfold assign in H. apply bind_ok in H as (im & Hi & H). destruct (env s v); eauto.
      apply bind_ok in H as (dst & Hd & H). destruct (est_reference dst && same_dims dst im); eauto.
      apply copie_inv in H as (m' & ->); auto.
    - unfold move_assign in H. apply bind_ok in H as (im & Hi & H). destruct (env s v).
      + apply bind_ok in H as (dst & Hd & H). destruct (est_reference dst && same_dims dst im).
        * apply copie_inv in H as (m' & ->); auto.
        * injection H as <-; auto.
      + injection H as <-; auto.
    - unfold segment in H. apply bind_ok in H as (im & Hi & H). destruct (nr im <? i0 + n); [discriminate|].
      injection H as <-. apply inj_bind; auto.
    - unfold tail, segment in H. apply bind_ok in H as (im0 & Hi0 & H). apply bind_ok in H as (im & Hi & H).
      destruct (nr im <? nr im0 - n + n); [discriminate|]. injection H as <-. apply inj_bind; auto.
    - unfold col in H. apply bind_ok in H as (im & Hi & H). destruct (nc im <? c); [discriminate|].
      injection H as <-. apply inj_bind; auto.
    - unfold block in H. apply bind_ok in H as (im & Hi & H). destruct isf; [|discriminate].
      injection H as <-. apply inj_bind; auto.
    - unfold set in H. apply bind_ok in H as (im & Hi & H). destruct ((i <? 0) || (nr im <=? i)); [discriminate|].
      apply bind_ok in H as (m1 & H1 & H). injection H as <-; auto.
    - unfold set2 in H. apply bind_ok in H as (im & Hi & H). apply bind_ok in H as (m1 & H1 & H). injection H as <-; auto.
    - unfold resize in H. apply bind_ok in H as (im & Hi & H).
      destruct ((nr im =? n) && (cols_ im =? m)); [injection H as <-; auto|].
      destruct (dims_of n m) as [r c] eqn:Ed. destruct (alloc (free_ (mem s) im) (r * c)) as [m' p].
      destruct (env s v); [|discriminate]. injection H as <-. auto.
    - unfold cresize in H. apply bind_ok in H as (im & Hi & H).
      destruct (ty im), (env s v); try discriminate.
      destruct (dims_of n m) as [r c] eqn:Ed. destruct (alloc (mem s) (r * c)) as [m1 p].
      apply bind_ok in H as (m2 & _ & H). injection H as <-. auto.
  Qed.

  Lemma reachable_inj isf s : reachable isf s -> wf s /\ inj s.
  Proof.
    intros (os & H). eapply (exec_all_ind (fun s => wf s /\ inj s) (fun _ => True) isf); eauto.
    - intros s0 o s1 [H0 H1] _ HE. split; [eapply exec_wf|eapply exec_inj]; eauto.
    - split; [apply sep_empty|]. intros u v k Hk; discriminate.
  Qed.

  (** *** Copies *)
  Lemma impl_of_frame s s' u : wf s -> env s' u = env s u ->
    (forall k, (k < length (impls s))%nat -> nth_error (impls s') k = nth_error (impls s) k) -> impl_of s' u = impl_of s u.
  Proof.
    intros HS HE HI. unfold impl_of. rewrite HE. destruct (env s u) as [k|] eqn:E; auto.
    destruct (sep_env _ _ _ _ HS _ _ E). rewrite HI by auto. reflexivity.
  Qed.
  Lemma load_frame s m' u im d : wf s -> impl_of s u = Ok im ->
    (forall b, (b < length (mem s))%nat -> nth_error m' b = nth_error (mem s) b) ->
    load m' (match ptr im with Some (b, o) => Some (b, o + d) | None => None end) =
    load (mem s) (match ptr im with Some (b, o) => Some (b, o + d) | None => None end).
  Proof.
    intros HS H HM. apply impl_of_ok in H as (k & Ek & Kk).
    destruct (ptr im) as [[b o]|] eqn:Ep; [|reflexivity]. simpl.
    destruct (sep_ptr _ _ _ _ HS _ _ _ _ Kk Ep). rewrite HM by auto. reflexivity.
  Qed.
  Lemma same_reads_intro s s' u : impl_of s' u = impl_of s u ->
    (forall im d, impl_of s u = Ok im ->
      load (mem s') (match ptr im with Some (b, o) => Some (b, o + d) | None => None end) =
      load (mem s) (match ptr im with Some (b, o) => Some (b, o + d) | None => None end)) -> same_reads s s' u.
  Proof.
    intros HI HL. unfold same_reads, rows, cols, get, get2. rewrite HI. repeat split; auto.
    - intros i. destruct (impl_of s u) eqn:E; simpl; auto. destruct ((i <? 0) || (nr a <=? i)); auto.
    - intros i j. destruct (impl_of s u) eqn:E; simpl; auto.
      destruct ((i <? 0) || (nr a <=? i) || (j <? 0) || (nc a <=? j)); auto.
  Qed.
  Lemma bind_new_reads s v m' im u : wf s -> u <> v ->
    (forall b, (b < length (mem s))%nat -> nth_error m' b = nth_error (mem s) b) -> same_reads s (bind_new s v m' im) u.
  Proof.
    intros HS Hu HM. apply same_reads_intro.
    - apply impl_of_frame; auto; simpl.
      + unfold set_env. apply Nat.eqb_neq in Hu. rewrite Hu. reflexivity.
      + intros; apply nth_error_app_lt; auto.
    - intros im0 d H. simpl. apply (load_frame s m' u); auto.
  Qed.
  Lemma bind_new_impl s v m' im : impl_of (bind_new s v m' im) v = Ok im.
  Proof. unfold impl_of, bind_new, set_env. simpl. rewrite Nat.eqb_refl, nth_error_snoc. reflexivity. Qed.

  Lemma same_reads_refl s u : same_reads s s u.
  Proof. repeat split. Qed.
  Lemma same_reads_trans s1 s2 s3 u : same_reads s1 s2 u -> same_reads s2 s3 u -> same_reads s1 s3 u.
  Proof. intros (A1 & B1 & C1 & D1) (A2 & B2 & C2 & D2). repeat split; intros; congruence. Qed.

  (** The values of a clone. *)
  Lemma clone_load s v w im s' : wf s -> impl_of s w = Ok im -> ty im <> BLOCK -> clone_to s v im = Ok s' ->
    exists im', impl_of s' v = Ok im' /\ nr im' = nr im /\ nc im' = nc im /\ ty im' = VALEUR /\
      forall d, 0 <= d < nelems im ->
        load (mem s') (match ptr im' with Some (b, o) => Some (b, o + d) | None => None end) =
        load (mem s) (match ptr im with Some (b, o) => Some (b, o + d) | None => None end).
  Proof.
    intros HS Hi Ht H. pose proof (impl_of_ok _ _ _ Hi) as (kw & Ekw & Kkw).
    unfold clone_to in H. destruct (ptr im) as [[pb po]|] eqn:Ep.
    - destruct (nelems im <? 0) eqn:En; [discriminate|]. apply bind_ok in H as (m1 & H1 & H).
      injection H as <-. rewrite bind_new_impl. eexists; split; [reflexivity|]. simpl. repeat split; auto.
      intros d Hd. destruct (sep_ptr _ _ _ _ HS _ _ _ _ Kkw Ep) as [Hb _].
      assert (HM : memcpy (mem s ++ [Some (repeat None (Z.to_nat (nelems im)))]) (Some (length (mem s), 0)) (Some (pb, po)) (nelems im) = Ok m1).
      { destruct (ty im); auto. congruence. }
      change (load m1 (Some (length (mem s), 0 + d)) = load (mem s) (Some (pb, po + d))).
      rewrite (memcpy_load _ _ _ _ _ _ _ HM). rewrite Nat.eqb_refl.
      assert (E : ((0 <=? 0 + d) && (0 + d <? 0 + nelems im))%bool = true) by lia. rewrite E. simpl andb.
      rewrite load_app by auto. do 3 f_equal. lia.
    - injection H as <-. rewrite bind_new_impl. eexists; split; [reflexivity|]. simpl. repeat split; auto.
  Qed.

  Lemma clone_reads s v w im s' : wf s -> impl_of s w = Ok im -> ty im <> BLOCK -> 1 <= nc im -> clone_to s v im = Ok s' ->
    rows s' v = rows s w /\ cols s' v = cols s w /\ (forall i, get s' v i = get s w i) /\
    (forall i j, get2 s' v i j = get2 s w i j).
  Proof.
    intros HS Hi Ht Hc H. destruct (clone_load _ _ _ _ _ HS Hi Ht H) as (im' & Hi' & Er & Ec & _ & HL).
    unfold rows, cols, get, get2. rewrite Hi, Hi'. simpl. rewrite Er, Ec. repeat split; auto.
    - intros i. destruct ((i <? 0) || (nr im <=? i)) eqn:E; auto. apply HL. unfold nelems. nia.
    - intros i j. destruct ((i <? 0) || (nr im <=? i) || (j <? 0) || (nc im <=? j)) eqn:E; auto. apply HL. unfold nelems. nia.
  Qed.

  Lemma clone_others s v im s' u : wf s -> clone_to s v im = Ok s' -> u <> v -> same_reads s s' u.
  Proof. intros HS H Hu. apply clone_to_inv in H as (m' & p & -> & HM & _). apply bind_new_reads; auto. Qed.

  (** After a clone, the new variable is alone in its family. *)
  Lemma clone_sep s v im s' (fam : nat -> bool) : wf s -> clone_to s v im = Ok s' ->
    fam v = true -> (forall u, fam u = true -> u = v \/ env s' u = None) ->
    exists gi gb, sep s' fam gi gb.
  Proof.
    intros HS H Hv HF. apply clone_to_inv in H as (m' & p & -> & HM & HL & HP & _).
    exists (fun k => (k =? length (impls s))%nat), (fun b => (b =? length (mem s))%nat).
    constructor; simpl; rewrite ?app_length; simpl.
    - intros u k. unfold set_env. destruct (u =? v)%nat eqn:E.
      + apply Nat.eqb_eq in E; subst u. intros H; injection H as <-. rewrite Nat.eqb_refl. split; auto; lia.
      + intros H. destruct (sep_env _ _ _ _ HS _ _ H) as [Hk _]. split; [lia|].
        assert (E1 : (k =? length (impls s))%nat = false) by lia. rewrite E1.
        destruct (fam u) eqn:Ef; auto. destruct (HF _ Ef) as [->|HN]; [rewrite Nat.eqb_refl in E; discriminate|].
        simpl in HN. unfold set_env in HN. rewrite E in HN. congruence.
    - intros k im' e Hk He. destruct (Nat.lt_ge_cases k (length (impls s))) as [Hlt|Hge].
      + rewrite nth_error_app_lt in Hk by auto. destruct (sep_enf _ _ _ _ HS _ _ _ Hk He). split; auto. lia.
      + rewrite nth_error_app2 in Hk by auto. destruct (k - length (impls s))%nat as [|q]; simpl in Hk; [|destruct q; discriminate].
        injection Hk as <-. discriminate.
    - intros k im' b o Hk Hp. destruct (Nat.lt_ge_cases k (length (impls s))) as [Hlt|Hge].
      + rewrite nth_error_app_lt in Hk by auto. destruct (sep_ptr _ _ _ _ HS _ _ _ _ Hk Hp). split; auto; lia.
      + rewrite nth_error_app2 in Hk by auto. destruct (k - length (impls s))%nat as [|q] eqn:Eq; simpl in Hk; [|destruct q; discriminate].
        injection Hk as <-. simpl in Hp. destruct (HP _ _ Hp) as (-> & _ & ? & _). split; auto. rewrite Nat.eqb_refl. symmetry. lia.
  Qed.

  (** A program of the other family does not change the reads. *)
  Lemma family_frame isf s (fam gi gb : nat -> bool) g os s' : sep s fam gi gb ->
    (forall o, In o os -> within (fun v => fam v = g) o) -> exec_all isf s os = Ok s' ->
    forall u, fam u = negb g -> same_reads s s' u.
  Proof.
    revert s gi gb. induction os as [|o t IH]; simpl; intros s gi gb HS HW H u Hu.
    - injection H as <-. apply same_reads_refl.
    - apply bind_ok in H as (s1 & H1 & H).
      destruct (exec_pres _ _ _ _ _ _ _ _ HS (HW o (or_introl eq_refl)) H1) as [HS1 HU].
      apply same_reads_trans with s1; [eapply untouched_reads; eauto|eapply IH; eauto].
  Qed.

  (** *** Views *)
  Lemma exec_impl isf s o s' v im : wf s -> inj s -> exec isf s o = Ok s' -> ~ rebinds s o v ->
    impl_of s v = Ok im -> impl_of s' v = Ok im.
  Proof.
    intros HS HJ H HN Hv.
    assert (BN : forall u m' im', u <> v -> impl_of (bind_new s u m' im') v = Ok im).
    { intros u m' im' Hu. rewrite <- Hv. apply impl_of_frame; auto; simpl.
      - unfold set_env. destruct (v =? u)%nat eqn:E; auto. apply Nat.eqb_eq in E; congruence.
      - intros; apply nth_error_app_lt; auto. }
    assert (CL : forall u im', u <> v -> clone_to s u im' = Ok s' -> impl_of s' v = Ok im).
    { intros u im' Hu Hc. apply clone_to_inv in Hc as (m' & p & -> & _). auto. }
    assert (WT : forall u w iu iw, impl_of s u = Ok iu -> impl_of s w = Ok iw ->
      est_reference iu && same_dims iu iw = true -> written_through s u w).
    { intros u w iu iw Hu Hw E. unfold written_through, is_view, rows, cols. rewrite Hu, Hw. simpl.
      unfold same_dims in E. apply andb_prop in E as [-> E]. repeat split; f_equal; lia. }
    assert (WN : forall u w iu iw, impl_of s u = Ok iu -> impl_of s w = Ok iw ->
      est_reference iu && same_dims iu iw = false -> ~ written_through s u w).
    { intros u w iu iw Hu Hw E (E1 & E2 & E3). unfold is_view, rows, cols in *. rewrite Hu, Hw in *. simpl in *.
      injection E1 as E1. injection E2 as E2. injection E3 as E3. rewrite E1 in E. unfold same_dims in E. lia. }
    destruct o; simpl in H, HN.
    - unfold decl in H. destruct (dims_of n m) as [r c] eqn:Ed. destruct (alloc (mem s) (r * c)) as [m' p].
      injection H as <-. auto.
    - unfold copy in H. apply bind_ok in H as (im' & Hi & H). eauto.
    - unfold assign in H. apply bind_ok in H as (iw & Hi & H). destruct (env s v0) eqn:Ev.
      + apply bind_ok in H as (dst & Hd & H). destruct (est_reference dst && same_dims dst iw) eqn:E.
        * apply copie_inv in H as (m' & ->); auto.
        * apply (CL v0 iw); auto. intros ->. apply HN. split; auto. eapply (WN _ _ dst iw); eauto.
      + apply (CL v0 iw); auto. intros ->. unfold impl_of in Hv. rewrite Ev in Hv. discriminate.
    - unfold move_assign in H. apply bind_ok in H as (iw & Hi & H).
      assert (MV : (v0 <> v -> w <> v -> impl_of (mkst (mem s) (impls s) (set_env (set_env (env s) v0 (env s w)) w None)) v = Ok im)).
      { intros N1 N2. rewrite <- Hv. apply impl_of_frame; auto. simpl. unfold set_env.
        assert (E1 : (v =? w)%nat = false) by (apply Nat.eqb_neq; auto).
        assert (E2 : (v =? v0)%nat = false) by (apply Nat.eqb_neq; auto). rewrite E1, E2. reflexivity. }
      destruct (env s v0) eqn:Ev.
      + apply bind_ok in H as (dst & Hd & H). destruct (est_reference dst && same_dims dst iw) eqn:E.
        * apply copie_inv in H as (m' & ->); auto.
        * injection H as <-. apply MV; intros ->; apply HN; (split; [auto|eapply (WN _ _ dst iw); eauto]).
      + injection H as <-. assert (NW : ~ written_through s v0 w).
        { intros (E1 & _). unfold is_view, impl_of in E1. rewrite Ev in E1. discriminate. }
        apply MV; intros ->; apply HN; (split; [auto|auto]).
    - unfold segment in H. apply bind_ok in H as (iw & Hi & H). destruct (nr iw <? i0 + n); [discriminate|].
      injection H as <-. auto.
    - unfold tail, segment in H. apply bind_ok in H as (im0 & Hi0 & H). apply bind_ok in H as (iw & Hi & H).
      destruct (nr iw <? nr im0 - n + n); [discriminate|]. injection H as <-. auto.
    - unfold col in H. apply bind_ok in H as (iw & Hi & H). destruct (nc iw <? c); [discriminate|].
      injection H as <-. auto.
    - unfold block in H. apply bind_ok in H as (iw & Hi & H). destruct isf; [|discriminate].
      injection H as <-. auto.
    - unfold set in H. apply bind_ok in H as (iw & Hi & H). destruct ((i <? 0) || (nr iw <=? i)); [discriminate|].
      apply bind_ok in H as (m1 & H1 & H). injection H as <-; auto.
    - unfold set2 in H. apply bind_ok in H as (iw & Hi & H). apply bind_ok in H as (m1 & H1 & H). injection H as <-; auto.
    - unfold resize in H. apply bind_ok in H as (iw & Hi & H).
      destruct ((nr iw =? n) && (cols_ iw =? m)); [injection H as <-; auto|].
      destruct (dims_of n m) as [r c] eqn:Ed. destruct (alloc (free_ (mem s) iw) (r * c)) as [m' p].
      destruct (env s v0) as [k|] eqn:Ek; [|discriminate]. injection H as <-.
      rewrite <- Hv. unfold impl_of. simpl. destruct (env s v) as [k'|] eqn:Ek'; auto.
      rewrite nth_error_upd. destruct (k =? k')%nat eqn:E; auto. apply Nat.eqb_eq in E; subst k'. destruct HN. eapply HJ; eauto.
    - unfold cresize in H. apply bind_ok in H as (iw & Hi & H).
      destruct (ty iw), (env s v0) as [k|] eqn:Ek; try discriminate.
      destruct (dims_of n m) as [r c] eqn:Ed. destruct (alloc (mem s) (r * c)) as [m1 p].
      apply bind_ok in H as (m2 & _ & H). injection H as <-.
      rewrite <- Hv. unfold impl_of. simpl. destruct (env s v) as [k'|] eqn:Ek'; auto.
      rewrite nth_error_upd. destruct (k =? k')%nat eqn:E; auto. apply Nat.eqb_eq in E; subst k'. destruct HN. eapply HJ; eauto.
  Qed.

  Lemma keeps_impl isf os : forall s s' v im, wf s -> inj s -> keeps isf s os v -> exec_all isf s os = Ok s' ->
    impl_of s v = Ok im -> impl_of s' v = Ok im.
  Proof.
    induction os as [|o t IH]; simpl; intros s s' v im HS HJ HK H Hv.
    - injection H as <-; auto.
    - apply bind_ok in H as (s1 & H1 & H). destruct HK as [HN HK].
      apply (IH s1 s' v im); auto; [eapply exec_wf|eapply exec_inj|eapply exec_impl]; eauto.
  Qed.

  (** v is the segment [i0, i0+n) of w. *)
  Definition shift (p : option (nat * Z)) (d : Z) : option (nat * Z) := match p with Some (b, o) => Some (b, o + d) | None => None end.
  Definition seg_of s v w i0 n : Prop := exists iv iw,
    impl_of s v = Ok iv /\ impl_of s w = Ok iw /\ nr iv = n /\ ptr iv = shift (ptr iw) i0 /\ 0 <= i0 /\ i0 + n <= nr iw.

  Lemma seg_get s v w i0 n i : seg_of s v w i0 n -> 0 <= i < n -> get s v i = get s w (i0 + i).
  Proof.
    intros (iv & iw & Hv & Hw & Hn & Hp & H0 & H1) Hi. unfold get. rewrite Hv, Hw. simpl. rewrite Hp.
    assert (E1 : (i <? 0) || (nr iv <=? i) = false) by lia.
    assert (E2 : (i0 + i <? 0) || (nr iw <=? i0 + i) = false) by lia. rewrite E1, E2.
    destruct (ptr iw) as [[b o]|]; simpl; auto. replace (o + i0 + i) with (o + (i0 + i)) by lia. reflexivity.
  Qed.

  Lemma segment_seg s v w i0 n s' : wf s -> v <> w -> 0 <= i0 -> segment s v w i0 n = Ok s' -> seg_of s' v w i0 n.
  Proof.
    intros HS Hvw H0 H. unfold segment in H. apply bind_ok in H as (iw & Hi & H). destruct (nr iw <? i0 + n) eqn:E; [discriminate|].
    injection H as <-. eexists _, iw. rewrite bind_new_impl. repeat split; simpl; auto; try lia.
    rewrite <- Hi. apply impl_of_frame; auto; simpl.
    + unfold set_env. destruct (w =? v)%nat eqn:E1; auto. apply Nat.eqb_eq in E1; congruence.
    + intros; apply nth_error_app_lt; auto.
  Qed.

  Lemma seg_keeps isf s v w i0 n os s' : wf s -> inj s -> seg_of s v w i0 n ->
    keeps isf s os v -> keeps isf s os w -> exec_all isf s os = Ok s' -> seg_of s' v w i0 n.
  Proof.
    intros HS HJ (iv & iw & Hv & Hw & R) K1 K2 H. exists iv, iw.
    split; [eapply (keeps_impl isf os s); eauto|]. split; [eapply (keeps_impl isf os s); eauto|exact R].
  Qed.

  (** The exact effect of an element write on every element read. *)
  Lemma set_effect s v i a s' : set s v i a = Ok s' ->
    exists iv b o, impl_of s v = Ok iv /\ 0 <= i < nr iv /\ ptr iv = Some (b, o) /\
      (forall u, impl_of s' u = impl_of s u) /\
      forall b' o', load (mem s') (Some (b', o')) = if ((b =? b')%nat && (o + i =? o'))%bool then Ok a else load (mem s) (Some (b', o')).
  Proof.
    intros H. unfold set in H. apply bind_ok in H as (iv & Hi & H). destruct ((i <? 0) || (nr iv <=? i)) eqn:E; [discriminate|].
    apply bind_ok in H as (m1 & H1 & H). injection H as <-. apply store_ok in H1 as (b & o & l & Hp & Hl & Ho & ->).
    destruct (ptr iv) as [[b0 o0]|] eqn:Ep; [|discriminate]. injection Hp as <- <-.
    exists iv, b0, o0. repeat split; auto; try lia. intros b' o'. simpl mem. apply load_upd; auto.
  Qed.

  Lemma set_get_same s v i a s' : set s v i a = Ok s' ->
    forall j, get s' v j = if j =? i then Ok a else get s v j.
  Proof.
    intros H. destruct (set_effect _ _ _ _ _ H) as (iv & b & o & Hv & Hi & Hp & HI & HL). intros j.
    unfold get. rewrite HI, Hv. simpl. rewrite Hp. destruct (j =? i) eqn:E.
    - assert (E1 : (j <? 0) || (nr iv <=? j) = false) by lia. rewrite E1. rewrite HL.
      rewrite Nat.eqb_refl. assert (E2 : (o + i =? o + j) = true) by lia. rewrite E2. reflexivity.
    - destruct ((j <? 0) || (nr iv <=? j)); auto. rewrite HL. assert (E2 : (o + i =? o + j) = false) by lia. rewrite E2, andb_false_r. reflexivity.
  Qed.

  Lemma seg_write_view s v w i0 n i a s' : seg_of s v w i0 n -> set s v i a = Ok s' ->
    forall j, get s' w j = if j =? i0 + i then Ok a else get s w j.
  Proof.
    intros (iv & iw & Hv & Hw & Hn & Hp & H0 & H1) H j.
    destruct (set_effect _ _ _ _ _ H) as (iv' & b & o & Hv' & Hi & Hp' & HI & HL). rewrite Hv in Hv'. injection Hv' as <-.
    rewrite Hp in Hp'. destruct (ptr iw) as [[b0 o0]|] eqn:Ew; [|discriminate]. injection Hp' as <- <-.
    unfold get. rewrite HI, Hw. simpl. rewrite Ew. destruct (j =? i0 + i) eqn:E.
    - assert (E1 : (j <? 0) || (nr iw <=? j) = false) by lia. rewrite E1. rewrite HL.
      rewrite Nat.eqb_refl. assert (E2 : (o0 + i0 + i =? o0 + j) = true) by lia. rewrite E2. reflexivity.
    - destruct ((j <? 0) || (nr iw <=? j)); auto. rewrite HL. assert (E2 : (o0 + i0 + i =? o0 + j) = false) by lia. rewrite E2, andb_false_r. reflexivity.
  Qed.

  Lemma seg_write_parent s v w i0 n j a s' : seg_of s v w i0 n -> set s w j a = Ok s' ->
    forall i, 0 <= i < n -> get s' v i = if i0 + i =? j then Ok a else get s v i.
  Proof.
    intros HS H i Hi. assert (HS' : seg_of s' v w i0 n).
    { destruct HS as (iv & iw & Hv & Hw & R). destruct (set_effect _ _ _ _ _ H) as (? & ? & ? & _ & _ & _ & HI & _).
      exists iv, iw. rewrite !HI. auto. }
    rewrite (seg_get _ _ _ _ _ _ HS'), (seg_get _ _ _ _ _ _ HS) by auto. rewrite (set_get_same _ _ _ _ _ H). reflexivity.
  Qed.

  (** Assignment through a view. *)
  Lemma seg_copie s v w i0 n iv u iu s' : wf s -> seg_of s v w i0 n -> impl_of s v = Ok iv -> impl_of s u = Ok iu ->
    ty iv <> BLOCK -> ty iu <> BLOCK -> nc iv = 1 -> copie s iv iu = Ok s' ->
    (forall j, get s' w j = if (i0 <=? j) && (j <? i0 + n) then get s u (j - i0) else get s w j) /\
    (forall x, impl_of s' x = impl_of s x).
  Proof.
    intros HS (iv' & iw & Hv & Hw & Hn & Hp & H0 & H1) Hv' Hu T1 T2 Hc H. rewrite Hv in Hv'. injection Hv' as ->.
    unfold copie in H. destruct (same_dims iv iu) eqn:Ed; [|discriminate]. simpl in H. unfold same_dims in Ed.
    apply bind_ok in H as (m1 & HM & H). injection H as <-. split; [|reflexivity]. intros j.
    assert (HM' : memcpy (mem s) (ptr iv) (ptr iu) n = Ok m1).
    { replace n with (nelems iv) by (unfold nelems; rewrite Hc; lia). destruct (ty iv), (ty iu); auto; congruence. }
    clear HM. unfold get. simpl. change (impl_of (mkst m1 (impls s) (env s)) w) with (impl_of s w). rewrite Hw, Hu. simpl.
    destruct ((i0 <=? j) && (j <? i0 + n)) eqn:E.
    - assert (E1 : (j <? 0) || (nr iw <=? j) = false) by lia.
      assert (E2 : (j - i0 <? 0) || (nr iu <=? j - i0) = false) by lia. rewrite E1, E2.
      rewrite Hp in HM'. destruct (ptr iw) as [[b o]|], (ptr iu) as [[bu ou]|]; simpl in HM'.
      + rewrite (memcpy_load _ _ _ _ _ _ _ HM'). rewrite Nat.eqb_refl.
        assert (E3 : (o + i0 <=? o + j) && (o + j <? o + i0 + n) = true) by lia. rewrite E3. simpl andb. cbv iota.
        replace (ou + (o + j - (o + i0))) with (ou + (j - i0)) by lia. reflexivity.
      + apply memcpy_ok in HM' as [[? _]|(? & ? & ? & ? & ? & ? & ? & ? & _)]; [lia|discriminate].
      + apply memcpy_ok in HM' as [[? _]|(? & ? & ? & ? & ? & ? & ? & ? & _)]; [lia|discriminate].
      + reflexivity.
    - destruct ((j <? 0) || (nr iw <=? j)) eqn:E1; auto.
      rewrite Hp in HM'. destruct (ptr iw) as [[b o]|]; [|reflexivity].
      destruct (ptr iu) as [[bu ou]|]; simpl in HM'.
      + rewrite (memcpy_load _ _ _ _ _ _ _ HM').
        assert (E3 : (o + i0 <=? o + j) && (o + j <? o + i0 + n) = false) by lia. rewrite E3, andb_false_r. reflexivity.
      + apply memcpy_ok in HM' as [[? ->]|(? & ? & ? & ? & ? & ? & ? & ? & _)]; [reflexivity|discriminate].
  Qed.

  (** Columns. *)
  Definition col_of s v w c : Prop := exists iv iw,
    impl_of s v = Ok iv /\ impl_of s w = Ok iw /\ nr iv = nr iw /\ ptr iv = shift (ptr iw) (c * nr iw) /\ 0 <= c < nc iw.

  Lemma col_col s v w c s' cw : wf s -> inv2 s -> v <> w -> 0 <= c -> cols s w = Ok cw -> c < cw ->
    col s v w c = Ok s' -> col_of s' v w c.
  Proof.
    intros HS HI Hvw H0 Hc Hc' H. unfold col in H. apply bind_ok in H as (iw & Hi & H). destruct (nc iw <? c) eqn:E; [discriminate|].
    injection H as <-. unfold cols in Hc. rewrite Hi in Hc. injection Hc as Hc.
    eexists _, iw. rewrite bind_new_impl. split; [reflexivity|]. split; [|repeat split; simpl; try lia].
    - rewrite <- Hi. apply impl_of_frame; auto; simpl.
      + unfold set_env. destruct (w =? v)%nat eqn:E1; auto. apply Nat.eqb_eq in E1; congruence.
      + intros; apply nth_error_app_lt; auto.
    - apply impl_of_ok in Hi as (k & _ & Hk). destruct (HI _ _ Hk) as [Ht _].
      destruct (fuel_of s); simpl; destruct (ty iw); try congruence; destruct (ptr iw) as [[b o]|]; simpl; auto;
        do 2 f_equal; lia.
  Qed.
  Lemma col_keeps isf s v w c os s' : wf s -> inj s -> col_of s v w c ->
    keeps isf s os v -> keeps isf s os w -> exec_all isf s os = Ok s' -> col_of s' v w c.
  Proof.
    intros HS HJ (iv & iw & Hv & Hw & R) K1 K2 H. exists iv, iw.
    split; [eapply (keeps_impl isf os s); eauto|]. split; [eapply (keeps_impl isf os s); eauto|exact R].
  Qed.
  Lemma col_get s v w c i : col_of s v w c -> (exists r, rows s w = Ok r /\ 0 <= i < r) -> get s v i = get2 s w i c.
  Proof.
    intros (iv & iw & Hv & Hw & Hn & Hp & Hc) (r & Hr & Hi). unfold rows in Hr. rewrite Hw in Hr. injection Hr as Hr.
    unfold get, get2. rewrite Hv, Hw. simpl. rewrite Hp.
    assert (E1 : (i <? 0) || (nr iv <=? i) = false) by lia.
    assert (E2 : (i <? 0) || (nr iw <=? i) || (c <? 0) || (nc iw <=? c) = false) by lia. rewrite E1, E2.
    destruct (ptr iw) as [[b o]|]; simpl; auto. replace (o + c * nr iw + i) with (o + (i + c * nr iw)) by lia. reflexivity.
  Qed.
  Lemma col_write s v w c i a s' : col_of s v w c -> set s v i a = Ok s' ->
    forall i' c', get2 s' w i' c' = if (i' =? i) && (c' =? c) then Ok a else get2 s w i' c'.
  Proof.
    intros (iv & iw & Hv & Hw & Hn & Hp & Hc) H i' c'.
    destruct (set_effect _ _ _ _ _ H) as (iv' & b & o & Hv' & Hi & Hp' & HI & HL). rewrite Hv in Hv'. injection Hv' as <-.
    rewrite Hp in Hp'. destruct (ptr iw) as [[b0 o0]|] eqn:Ew; [|discriminate]. injection Hp' as <- <-.
    unfold get2. rewrite HI, Hw. simpl. rewrite Ew. destruct ((i' =? i) && (c' =? c)) eqn:E.
    - assert (E1 : (i' <? 0) || (nr iw <=? i') || (c' <? 0) || (nc iw <=? c') = false) by lia. rewrite E1. rewrite HL.
      rewrite Nat.eqb_refl. assert (E2 : (o0 + c * nr iw + i =? o0 + (i' + c' * nr iw)) = true) by nia. rewrite E2. reflexivity.
    - destruct ((i' <? 0) || (nr iw <=? i') || (c' <? 0) || (nc iw <=? c')) eqn:E1; auto. rewrite HL.
      assert (E2 : (o0 + c * nr iw + i =? o0 + (i' + c' * nr iw)) = false).
      { apply Z.eqb_neq. intros EQ. rewrite Hn in Hi. assert (0 <= i' < nr iw) by lia.
        assert (c' < c \/ c' = c \/ c < c') as [Hlt|[->|Hgt]] by lia.
        - assert (c' * nr iw + nr iw <= c * nr iw) by nia. lia.
        - lia.
        - assert (c * nr iw + nr iw <= c' * nr iw) by nia. lia. }
      rewrite E2, andb_false_r. reflexivity.
  Qed.
End P.
