(** Separation of array families: labels on variables, Impls and blocks. *)
From Verif Require Import Base BaseLemmas Tab_Model Tab_Spec.
From Coq Require Import ZifyBool ZifyNat.
Open Scope Z_scope.

Lemma bind_ok {A B} (x : res A) (f : A -> res B) r : bind x f = Ok r -> exists a, x = Ok a /\ f a = Ok r.
Proof. destruct x; simpl; intros H; try (intros; discriminate). eauto. Qed.

Section P.
  Context {A : Type}.
  Implicit Types s : st A.
  Implicit Types m : list (option (list (option A))).

  (** *** Memory operations *)
  Lemma nth_error_app_lt {X} (l l' : list X) k : (k < length l)%nat -> nth_error (l ++ l') k = nth_error l k.
  Proof. intros; apply nth_error_app1; auto. Qed.

  Lemma nth_error_snoc {X} (l : list X) x : nth_error (l ++ [x]) (length l) = Some x.
  Proof. rewrite nth_error_app2, Nat.sub_diag by lia. reflexivity. Qed.

  Lemma splice_length (l : list (option A)) o c :
    (o + length c <= length l)%nat -> length (splice l o c) = length l.
  Proof. intros. unfold splice. rewrite !app_length, firstn_length, skipn_length. lia. Qed.

  Lemma cells_ok m b o n c : cells m b o n = Ok c ->
    exists l, nth_error m b = Some (Some l) /\ 0 <= o /\ 0 <= n /\ o + n <= Z.of_nat (length l) /\
      c = firstn (Z.to_nat n) (skipn (Z.to_nat o) l).
  Proof.
    unfold cells. destruct (nth_error m b) as [[l|]|]; try (intros; discriminate).
    destruct ((o <? 0) || (n <? 0) || (Z.of_nat (length l) <? o + n)) eqn:E; [intros; discriminate|].
    intros H; injection H as <-. exists l. repeat split; auto; lia.
  Qed.

  (** A memory in which the block of the destination was overwritten. *)
  Lemma memcpy_ok m dst src n m' : memcpy m dst src n = Ok m' ->
    (n = 0 /\ m' = m) \/
    exists bd od bs os l ls, dst = Some (bd, od) /\ src = Some (bs, os) /\ 0 < n /\
      nth_error m bd = Some (Some l) /\ nth_error m bs = Some (Some ls) /\
      0 <= od /\ od + n <= Z.of_nat (length l) /\ 0 <= os /\ os + n <= Z.of_nat (length ls) /\
      (bd <> bs \/ n <= Z.abs (od - os)) /\
      m' = upd m bd (Some (splice l (Z.to_nat od) (firstn (Z.to_nat n) (skipn (Z.to_nat os) ls)))).
  Proof.
    unfold memcpy. destruct (n =? 0) eqn:E0.
    - intros H; injection H as <-. left; split; [lia|reflexivity].
    - destruct dst as [[bd od]|], src as [[bs os]|]; try (intros; discriminate).
      destruct ((bd =? bs)%nat && (Z.abs (od - os) <? n))%bool eqn:E1; [intros; discriminate|].
      intros H. apply bind_ok in H as (c & Hc & H). apply bind_ok in H as (c2 & Hc2 & H).
      apply cells_ok in Hc as (ls & Els & ? & ? & ? & ->).
      apply cells_ok in Hc2 as (l & El & ? & ? & ? & _).
      rewrite El in H. injection H as <-.
      right. exists bd, od, bs, os, l, ls. repeat split; auto; try lia.
  Qed.

  (** Same blocks: same liveness and size everywhere, same content outside of [bad]. *)
  Definition mem_ext (bad : nat -> Prop) m m' : Prop :=
    length m' = length m /\
    (forall b, ~ bad b -> nth_error m' b = nth_error m b) /\
    (forall b l, nth_error m b = Some (Some l) -> exists l', nth_error m' b = Some (Some l') /\ length l' = length l).

  Lemma mem_ext_refl bad m : mem_ext bad m m.
  Proof. repeat split; auto. intros b l H; exists l; auto. Qed.
  Lemma mem_ext_trans bad m1 m2 m3 : mem_ext bad m1 m2 -> mem_ext bad m2 m3 -> mem_ext bad m1 m3.
  Proof.
    intros (L1 & F1 & S1) (L2 & F2 & S2). repeat split; [congruence| |].
    - intros b Hb. rewrite F2, F1 by auto. reflexivity.
    - intros b l H. destruct (S1 _ _ H) as (l1 & H1 & E1). destruct (S2 _ _ H1) as (l2 & H2 & E2).
      exists l2; split; auto; congruence.
  Qed.
  Lemma mem_ext_weak (bad bad' : nat -> Prop) m m' : (forall b, bad b -> bad' b) -> mem_ext bad m m' -> mem_ext bad' m m'.
  Proof. intros H (L & F & S). repeat split; auto. Qed.

  Lemma upd_ext m b l l' : nth_error m b = Some (Some l) -> length l' = length l ->
    mem_ext (fun x => x = b) m (upd m b (Some l')).
  Proof.
    intros H HL. assert (Hb : (b < length m)%nat) by (apply nth_error_Some; congruence).
    repeat split.
    - apply upd_length.
    - intros x Hx. rewrite nth_error_upd.
      destruct (b =? x)%nat eqn:E; simpl; auto. apply Nat.eqb_eq in E; congruence.
    - intros x lx Hx. rewrite nth_error_upd.
      destruct (b =? x)%nat eqn:E; simpl.
      + apply Nat.eqb_eq in E; subst x. apply Nat.ltb_lt in Hb. rewrite Hb. exists l'. split; auto. congruence.
      + exists lx; auto.
  Qed.

  Lemma memcpy_ext m dst src n m' : memcpy m dst src n = Ok m' ->
    mem_ext (fun b => exists o, dst = Some (b, o)) m m'.
  Proof.
    intros H. apply memcpy_ok in H as [[_ ->]|(bd & od & bs & os & l & ls & -> & -> & ? & El & Els & ? & ? & ? & ? & ? & ->)].
    - apply mem_ext_refl.
    - eapply mem_ext_weak; [|eapply upd_ext; eauto].
      + intros b ->; eauto.
      + apply splice_length. rewrite firstn_length, skipn_length. lia.
  Qed.

  Lemma store_ok m p a m' : store m p a = Ok m' ->
    exists b o l, p = Some (b, o) /\ nth_error m b = Some (Some l) /\ 0 <= o < Z.of_nat (length l) /\
      m' = upd m b (Some (upd l (Z.to_nat o) (Some a))).
  Proof.
    unfold store. destruct p as [[b o]|]; try (intros; discriminate).
    destruct (nth_error m b) as [[l|]|] eqn:El; try (intros; discriminate).
    destruct ((o <? 0) || (Z.of_nat (length l) <=? o)) eqn:E; [intros; discriminate|].
    intros H; injection H as <-. exists b, o, l. repeat split; auto; lia.
  Qed.

  Lemma store_ext m p a m' : store m p a = Ok m' -> mem_ext (fun b => exists o, p = Some (b, o)) m m'.
  Proof.
    intros H. apply store_ok in H as (b & o & l & -> & El & ? & ->).
    eapply mem_ext_weak; [|eapply upd_ext; eauto using upd_length]. intros x ->; eauto.
  Qed.

  Lemma cols_copy_ext n m dst src r m' : cols_copy n m dst src r = Ok m' ->
    mem_ext (fun b => exists c o, dst c = Some (b, o)) m m'.
  Proof.
    revert m'. induction n as [|n IH]; intros m'; simpl.
    - intros H; injection H as <-. apply mem_ext_refl.
    - intros H. apply bind_ok in H as (m1 & H1 & H2).
      eapply mem_ext_trans; [apply IH; eauto|].
      eapply mem_ext_weak; [|apply (memcpy_ext _ _ _ _ _ H2)].
      intros b (o & Ho). eauto.
  Qed.

  (** *** Labels *)
  Record sep s (G gi gb : nat -> bool) : Prop := {
    sep_env : forall v k, env s v = Some k -> (k < length (impls s))%nat /\ gi k = G v;
    sep_enf : forall k im e, nth_error (impls s) k = Some im -> enfant im = Some e -> (e < k)%nat /\ gi e = gi k;
    sep_ptr : forall k im b o, nth_error (impls s) k = Some im -> ptr im = Some (b, o) -> (b < length (mem s))%nat /\ gb b = gi k
  }.

  (** What is labelled g was not touched. *)
  Record untouched s s' (G gi gb : nat -> bool) (g : bool) : Prop := {
    un_env : forall u, G u = g -> env s' u = env s u;
    un_imp : forall k, (k < length (impls s))%nat -> gi k = g -> nth_error (impls s') k = nth_error (impls s) k;
    un_mem : forall b, (b < length (mem s))%nat -> gb b = g -> nth_error (mem s') b = nth_error (mem s) b
  }.

  Lemma impl_of_ok s v im : impl_of s v = Ok im -> exists k, env s v = Some k /\ nth_error (impls s) k = Some im.
  Proof.
    unfold impl_of. destruct (env s v) as [k|]; try (intros; discriminate).
    destruct (nth_error (impls s) k) eqn:E; try (intros; discriminate). intros H; injection H as <-. eauto.
  Qed.

  Lemma sep_impl s G gi gb v : sep s G gi gb -> env s v <> None -> exists im, impl_of s v = Ok im.
  Proof.
    intros HS H. unfold impl_of. destruct (env s v) as [k|] eqn:E; [|congruence].
    apply (sep_env _ _ _ _ HS) in E as [Hk _].
    destruct (nth_error (impls s) k) eqn:E2; eauto. apply nth_error_None in E2. lia.
  Qed.

  Lemma ptr_at_label s G gi gb : sep s G gi gb -> forall fu k im r c b o,
    nth_error (impls s) k = Some im -> ptr_at fu s im r c = Some (b, o) -> (b < length (mem s))%nat /\ gb b = gi k.
  Proof.
    intros HS. induction fu as [|fu IH]; intros k im r c b o Hk; simpl; destruct (ty im) eqn:Et; intros H; try (intros; discriminate).
    all: try (destruct (ptr im) as [[b' o']|] eqn:Ep; try (intros; discriminate); injection H as <- <-; eapply sep_ptr; eauto; fail).
    destruct (enfant im) as [e|] eqn:Ee; try (intros; discriminate).
    destruct (nth_error (impls s) e) as [ie|] eqn:Ei; try (intros; discriminate).
    destruct (sep_enf _ _ _ _ HS _ _ _ Hk Ee) as [_ Hg]. rewrite <- Hg. eapply IH; eauto.
  Qed.

  Definition ext (n : nat) (f : nat -> bool) (g : bool) : nat -> bool := fun k => if (k <? n)%nat then f k else g.
  Lemma ext_lt n f g k : (k < n)%nat -> ext n f g k = f k.
  Proof. intros H. unfold ext. apply Nat.ltb_lt in H. rewrite H. reflexivity. Qed.
  Lemma ext_ge n f g k : (n <= k)%nat -> ext n f g k = g.
  Proof. intros H. unfold ext. apply Nat.ltb_ge in H. rewrite H. reflexivity. Qed.

  Definition preserved s s' G gi gb g : Prop :=
    sep s' G (ext (length (impls s)) gi g) (ext (length (mem s)) gb g) /\ untouched s s' G gi gb (negb g).

  Lemma bind_new_pres s G gi gb g v m' im :
    sep s G gi gb -> G v = g -> (length (mem s) <= length m')%nat ->
    (forall b, (b < length (mem s))%nat -> gb b = negb g -> nth_error m' b = nth_error (mem s) b) ->
    (forall e, enfant im = Some e -> (e < length (impls s))%nat /\ gi e = g) ->
    (forall b o, ptr im = Some (b, o) -> (b < length m')%nat /\ ((b < length (mem s))%nat -> gb b = g)) ->
    preserved s (bind_new s v m' im) G gi gb g.
  Proof.
    intros HS Hv HL HM HE HP. split.
    - constructor; simpl.
      + intros u k. unfold set_env. rewrite app_length. simpl. destruct (u =? v)%nat eqn:E.
        * apply Nat.eqb_eq in E; subst u. intros H; injection H as <-. split; [lia|]. rewrite ext_ge by lia. auto.
        * intros H. apply (sep_env _ _ _ _ HS) in H as [H1 H2]. split; [lia|]. rewrite ext_lt by lia. auto.
      + intros k im' e Hk He.
        destruct (Nat.lt_ge_cases k (length (impls s))) as [Hlt|Hge].
        * rewrite nth_error_app_lt in Hk by auto.
          destruct (sep_enf _ _ _ _ HS _ _ _ Hk He). split; [lia|]. rewrite !ext_lt by lia. auto.
        * assert (k = length (impls s)) by (assert (k < length (impls s ++ [im]))%nat by (apply nth_error_Some; congruence); rewrite app_length in *; simpl in *; lia).
          subst k. rewrite nth_error_snoc in Hk. injection Hk as <-.
          destruct (HE _ He). split; [lia|]. rewrite ext_lt, ext_ge by lia. auto.
      + intros k im' b o Hk Hp.
        destruct (Nat.lt_ge_cases k (length (impls s))) as [Hlt|Hge].
        * rewrite nth_error_app_lt in Hk by auto.
          destruct (sep_ptr _ _ _ _ HS _ _ _ _ Hk Hp). split; [lia|]. rewrite !ext_lt by lia. auto.
        * assert (k = length (impls s)) by (assert (k < length (impls s ++ [im]))%nat by (apply nth_error_Some; congruence); rewrite app_length in *; simpl in *; lia).
          subst k. rewrite nth_error_snoc in Hk. injection Hk as <-.
          destruct (HP _ _ Hp) as [H1 H2]. split; [lia|]. rewrite (ext_ge _ gi) by lia.
          destruct (Nat.lt_ge_cases b (length (mem s))); [rewrite ext_lt by lia; auto|rewrite ext_ge by lia; auto].
    - constructor; simpl.
      + intros u Hu. unfold set_env. destruct (u =? v)%nat eqn:E; auto. apply Nat.eqb_eq in E; subst u.
        rewrite Hv in Hu. destruct g; discriminate.
      + intros k Hk _. apply nth_error_app_lt; auto.
      + auto.
  Qed.

  Lemma ext_sep s G gi gb g : sep s G gi gb -> sep s G (ext (length (impls s)) gi g) (ext (length (mem s)) gb g).
  Proof.
    intros HS. constructor.
    - intros v k H. destruct (sep_env _ _ _ _ HS _ _ H). split; auto. rewrite ext_lt; auto.
    - intros k im e Hk He. destruct (sep_enf _ _ _ _ HS _ _ _ Hk He).
      assert (k < length (impls s))%nat by (apply nth_error_Some; congruence). split; auto. rewrite !ext_lt by lia; auto.
    - intros k im b o Hk Hp. destruct (sep_ptr _ _ _ _ HS _ _ _ _ Hk Hp).
      assert (k < length (impls s))%nat by (apply nth_error_Some; congruence). split; auto. rewrite !ext_lt by lia; auto.
  Qed.

  Lemma refl_pres s G gi gb g : sep s G gi gb -> preserved s s G gi gb g.
  Proof. intros HS. split; [apply ext_sep; auto|]. constructor; auto. Qed.

  Lemma mem_pres s G gi gb g m' bad :
    sep s G gi gb -> mem_ext bad (mem s) m' ->
    (forall b, bad b -> (b < length (mem s))%nat -> gb b = g) ->
    preserved s (mkst m' (impls s) (env s)) G gi gb g.
  Proof.
    intros HS (L & F & _) HB. split.
    - apply ext_sep with (g := g) in HS. destruct HS. constructor; simpl; auto. rewrite L. auto.
    - constructor; simpl; auto. intros b Hb Hg. apply F. intros Hbad. specialize (HB _ Hbad Hb).
      rewrite HB in Hg. destruct g; discriminate.
  Qed.

  Lemma set_impl_pres s G gi gb g m' k im' :
    sep s G gi gb -> gi k = g -> (k < length (impls s))%nat -> (length (mem s) <= length m')%nat ->
    (forall b, (b < length (mem s))%nat -> gb b = negb g -> nth_error m' b = nth_error (mem s) b) ->
    (forall e, enfant im' = Some e -> (e < k)%nat /\ gi e = g) ->
    (forall b o, ptr im' = Some (b, o) -> (b < length m')%nat /\ ((b < length (mem s))%nat -> gb b = g)) ->
    preserved s (set_impl s m' k im') G gi gb g.
  Proof.
    intros HS Hg Hk HL HM HE HP. split.
    - constructor; simpl; rewrite ?upd_length.
      + intros v k' H. destruct (sep_env _ _ _ _ HS _ _ H). split; auto. rewrite ext_lt; auto.
      + intros k' im e H He. rewrite nth_error_upd in H. destruct ((k =? k')%nat && (k <? length (impls s))%nat) eqn:E.
        * injection H as <-. apply andb_prop in E as [E _]. apply Nat.eqb_eq in E; subst k'.
          destruct (HE _ He). split; auto. rewrite !ext_lt by lia. congruence.
        * destruct (sep_enf _ _ _ _ HS _ _ _ H He).
          assert (k' < length (impls s))%nat by (apply nth_error_Some; congruence). split; auto. rewrite !ext_lt by lia; auto.
      + intros k' im b o H Hp. rewrite nth_error_upd in H. destruct ((k =? k')%nat && (k <? length (impls s))%nat) eqn:E.
        * injection H as <-. apply andb_prop in E as [E _]. apply Nat.eqb_eq in E; subst k'.
          destruct (HP _ _ Hp) as [H1 H2]. split; [lia|]. rewrite (ext_lt _ gi) by lia. rewrite Hg.
          destruct (Nat.lt_ge_cases b (length (mem s))); [rewrite ext_lt by lia; auto|rewrite ext_ge by lia; auto].
        * destruct (sep_ptr _ _ _ _ HS _ _ _ _ H Hp).
          assert (k' < length (impls s))%nat by (apply nth_error_Some; congruence). split; [lia|]. rewrite !ext_lt by lia; auto.
    - constructor; simpl; auto. intros k' Hk' Hg'. rewrite nth_error_upd.
      destruct (k =? k')%nat eqn:E; simpl; auto. apply Nat.eqb_eq in E; subst k'. rewrite Hg in Hg'. destruct g; discriminate.
  Qed.

  Lemma alloc_spec m n m' p : alloc m n = (m', p) ->
    (0 < n /\ m' = m ++ [Some (repeat None (Z.to_nat n))] /\ p = Some (length m, 0)) \/ (n <= 0 /\ m' = m /\ p = None).
  Proof. unfold alloc. destruct (0 <? n) eqn:E; intros H; injection H as <- <-; [left|right]; repeat split; lia. Qed.

  Lemma clone_pres s G gi gb g v w im s' : sep s G gi gb -> G v = g -> G w = g ->
    impl_of s w = Ok im -> clone_to s v im = Ok s' -> preserved s s' G gi gb g.
  Proof.
    intros HS Hv Hw Him H. unfold clone_to in H. destruct (ptr im) as [[pb po]|] eqn:Ep.
    - destruct (nelems im <? 0) eqn:En; [intros; discriminate|]. apply bind_ok in H as (m1 & H1 & H).
      injection H as <-.
      assert (HX : mem_ext (fun b => b = length (mem s)) (mem s ++ [Some (repeat None (Z.to_nat (nelems im)))]) m1).
      { destruct (ty im).
        1,2: eapply mem_ext_weak; [|apply (memcpy_ext _ _ _ _ _ H1)]; intros b (o & Ho); congruence.
        eapply mem_ext_weak; [|apply (cols_copy_ext _ _ _ _ _ _ H1)]. intros b (c & o & Ho). congruence. }
      destruct HX as (L & F & _). rewrite app_length in L. simpl in L.
      apply bind_new_pres; simpl; auto; try lia; try (intros; discriminate).
      + intros b Hb _. rewrite F by lia. apply nth_error_app_lt; auto.
      + intros b o Hp. injection Hp as <- <-. split; lia.
    - injection H as <-. apply bind_new_pres; simpl; auto; try (intros; discriminate).
  Qed.

  Lemma copie_pres s G gi gb g v w dst src s' : sep s G gi gb -> G v = g -> G w = g ->
    impl_of s v = Ok dst -> impl_of s w = Ok src -> copie s dst src = Ok s' -> preserved s s' G gi gb g.
  Proof.
    intros HS Hv Hw Hd Hs H. unfold copie in H. destruct (negb (same_dims dst src)); [intros; discriminate|].
    apply bind_ok in H as (m1 & H1 & H). injection H as <-.
    apply impl_of_ok in Hd as (kd & Ed & Kd).
    assert (Hg : gi kd = g) by (destruct (sep_env _ _ _ _ HS _ _ Ed); congruence).
    assert (HB : forall b fu r c o, ptr_at fu s dst r c = Some (b, o) -> gb b = g).
    { intros b fu r c o Hp. destruct (ptr_at_label _ _ _ _ HS _ _ _ _ _ _ _ Kd Hp). congruence. }
    assert (HP : forall b o, ptr dst = Some (b, o) -> gb b = g).
    { intros b o Hp. destruct (sep_ptr _ _ _ _ HS _ _ _ _ Kd Hp). congruence. }
    destruct (ty dst), (ty src).
    all: try (eapply mem_pres; [auto|eapply memcpy_ext; eauto|intros b (o & Ho) _; eauto]; fail).
    all: eapply mem_pres; [auto|eapply cols_copy_ext; eauto|intros b (c & o & Ho) _; eauto].
  Qed.

  Lemma free_length m im : length (free_ m im) = length m.
  Proof. unfold free_. destruct (ty im), (ptr im) as [[b o]|]; auto using upd_length. Qed.
  Lemma free_other m im b : (forall o, ptr im <> Some (b, o)) -> nth_error (free_ m im) b = nth_error m b.
  Proof.
    intros H. unfold free_. destruct (ty im); auto. destruct (ptr im) as [[b' o]|]; auto.
    rewrite nth_error_upd. destruct (b' =? b)%nat eqn:E; simpl; auto. apply Nat.eqb_eq in E; subst. destruct (H o); auto.
  Qed.

  (** Every statement keeps the families apart and does not touch the other family. *)
  Lemma exec_pres isf s G gi gb g o s' : sep s G gi gb -> within (fun v => G v = g) o ->
    exec isf s o = Ok s' -> preserved s s' G gi gb g.
  Proof.
    intros HS HW H.
    assert (LBL : forall v k, G v = g -> env s v = Some k -> gi k = g /\ (k < length (impls s))%nat).
    { intros v k Hv Hk. destruct (sep_env _ _ _ _ HS _ _ Hk). split; congruence. }
    destruct o; simpl in H; unfold within in HW; simpl in HW.
    - (* Decl *)
      unfold decl in H. destruct (dims_of n m) as [r c]. destruct (alloc (mem s) (r * c)) as [m' p] eqn:EA.
      injection H as <-. apply alloc_spec in EA as [(? & -> & ->)|(? & -> & ->)]; apply bind_new_pres; simpl; auto; try (intros; discriminate).
      + rewrite app_length; lia.
      + intros; apply nth_error_app_lt; auto.
      + intros b o Hp. injection Hp as <- <-. rewrite app_length. simpl. split; lia.
    - (* Copy *)
      unfold copy in H. apply bind_ok in H as (im & Hi & H). eapply clone_pres with (v := v) (w := w); eauto.
    - (* Assign *)
      unfold assign in H. apply bind_ok in H as (src & Hi & H). destruct (env s v) eqn:Ev.
      + apply bind_ok in H as (dst & Hd & H). destruct (est_reference dst && same_dims dst src).
        * eapply copie_pres with (v := v) (w := w); eauto.
        * eapply clone_pres with (v := v) (w := w); eauto.
      + eapply clone_pres with (v := v) (w := w); eauto.
    - (* MoveAssign *)
      unfold move_assign in H. apply bind_ok in H as (src & Hi & H).
      assert (HM : preserved s (mkst (mem s) (impls s) (set_env (set_env (env s) v (env s w)) w None)) G gi gb g).
      { split.
        - apply ext_sep with (g := g) in HS. destruct HS as [H1 H2 H3]. constructor; simpl; auto.
          intros u k. unfold set_env. destruct (u =? w)%nat eqn:E1; [intros; discriminate|].
          destruct (u =? v)%nat eqn:E2; auto. apply Nat.eqb_eq in E2; subst u. intros Hk.
          destruct (H1 _ _ Hk) as [H4 H5]. split; auto. rewrite H5, (HW v), (HW w) by auto. reflexivity.
        - constructor; simpl; auto. intros u Hu. unfold set_env.
          assert (u <> v /\ u <> w) as [N1 N2].
          { split; intros ->; rewrite HW in Hu by auto; destruct g; discriminate. }
          apply Nat.eqb_neq in N1, N2. rewrite N1, N2. reflexivity. }
      destruct (env s v) eqn:Ev.
      + apply bind_ok in H as (dst & Hd & H). destruct (est_reference dst && same_dims dst src).
        * eapply copie_pres with (v := v) (w := w); eauto.
        * injection H as <-. auto.
      + injection H as <-. auto.
    - (* Segment *)
      unfold segment in H. apply bind_ok in H as (im & Hi & H). destruct (nr im <? i0 + n); [intros; discriminate|].
      injection H as <-. apply impl_of_ok in Hi as (k & Ek & Kk). destruct (LBL w k) as [Lg Lk]; auto.
      apply bind_new_pres; simpl; auto.
      + intros e He. rewrite Ek in He. injection He as <-. auto.
      + intros b o. destruct (ptr im) as [[b' o']|] eqn:Ep; [|intros; discriminate]. intros Hp; injection Hp as <- <-.
        destruct (sep_ptr _ _ _ _ HS _ _ _ _ Kk Ep). split; auto; congruence.
    - (* Tail *)
      unfold tail, segment in H. apply bind_ok in H as (im0 & Hi0 & H). apply bind_ok in H as (im & Hi & H).
      destruct (nr im <? nr im0 - n + n); [intros; discriminate|].
      injection H as <-. apply impl_of_ok in Hi as (k & Ek & Kk). destruct (LBL w k) as [Lg Lk]; auto.
      apply bind_new_pres; simpl; auto.
      + intros e He. rewrite Ek in He. injection He as <-. auto.
      + intros b o. destruct (ptr im) as [[b' o']|] eqn:Ep; [|intros; discriminate]. intros Hp; injection Hp as <- <-.
        destruct (sep_ptr _ _ _ _ HS _ _ _ _ Kk Ep). split; auto; congruence.
    - (* Col *)
      unfold col in H. apply bind_ok in H as (im & Hi & H). destruct (nc im <? c); [intros; discriminate|].
      injection H as <-. apply impl_of_ok in Hi as (k & Ek & Kk). destruct (LBL w k) as [Lg Lk]; auto.
      apply bind_new_pres; simpl; auto.
      + intros e He. rewrite Ek in He. injection He as <-. auto.
      + intros b o Hp. destruct (ptr_at_label _ _ _ _ HS _ _ _ _ _ _ _ Kk Hp). split; auto; congruence.
    - (* Block *)
      unfold block in H. apply bind_ok in H as (im & Hi & H). destruct isf; [|intros; discriminate].
      injection H as <-. apply impl_of_ok in Hi as (k & Ek & Kk). destruct (LBL w k) as [Lg Lk]; auto.
      apply bind_new_pres; simpl; auto.
      + intros e He. rewrite Ek in He. injection He as <-. auto.
      + intros b o Hp. destruct (ptr_at_label _ _ _ _ HS _ _ _ _ _ _ _ Kk Hp). split; auto; congruence.
    - (* Set_ *)
      unfold set in H. apply bind_ok in H as (im & Hi & H). destruct ((i <? 0) || (nr im <=? i)); [intros; discriminate|].
      apply bind_ok in H as (m1 & H1 & H). injection H as <-.
      apply impl_of_ok in Hi as (k & Ek & Kk). destruct (LBL v k) as [Lg Lk]; auto.
      eapply mem_pres; [auto|eapply store_ext; eauto|].
      intros b (o & Ho) _. destruct (ptr im) as [[b' o']|] eqn:Ep; [|intros; discriminate]. injection Ho as <- <-.
      destruct (sep_ptr _ _ _ _ HS _ _ _ _ Kk Ep). congruence.
    - (* Set2 *)
      unfold set2 in H. apply bind_ok in H as (im & Hi & H).
      apply bind_ok in H as (m1 & H1 & H). injection H as <-.
      apply impl_of_ok in Hi as (k & Ek & Kk). destruct (LBL v k) as [Lg Lk]; auto.
      eapply mem_pres; [auto|eapply store_ext; eauto|].
      intros b (o & Ho) _. destruct (ptr im) as [[b' o']|] eqn:Ep; [|intros; discriminate]. injection Ho as <- <-.
      destruct (sep_ptr _ _ _ _ HS _ _ _ _ Kk Ep). congruence.
    - (* Resize *)
      unfold resize in H. apply bind_ok in H as (im & Hi & H).
      destruct ((nr im =? n) && (cols_ im =? m)).
      { injection H as <-. apply refl_pres; auto. }
      destruct (dims_of n m) as [r c]. destruct (alloc (free_ (mem s) im) (r * c)) as [m' p] eqn:EA.
      apply impl_of_ok in Hi as (k & Ek & Kk). destruct (LBL v k) as [Lg Lk]; auto. rewrite Ek in H. injection H as <-.
      assert (HF : forall b, gb b = negb g -> forall o, ptr im <> Some (b, o)).
      { intros b Hb o Ho. destruct (sep_ptr _ _ _ _ HS _ _ _ _ Kk Ho) as [_ E]. rewrite Lg in E. rewrite E in Hb. destruct g; discriminate. }
      apply alloc_spec in EA as [(? & -> & ->)|(? & -> & ->)]; apply set_impl_pres; simpl; auto; try (intros; discriminate);
        rewrite ?app_length, ?free_length; simpl; try lia.
      + intros b Hb Hg. rewrite nth_error_app_lt by (rewrite free_length; auto). apply free_other; auto.
      + intros e He. destruct (sep_enf _ _ _ _ HS _ _ _ Kk He). split; congruence.
      + intros b o Hp. injection Hp as <- <-. split; lia.
      + intros b Hb Hg. apply free_other; auto.
      + intros e He. destruct (sep_enf _ _ _ _ HS _ _ _ Kk He). split; congruence.
    - (* CResize *)
      unfold cresize in H. apply bind_ok in H as (im & Hi & H). apply impl_of_ok in Hi as (k & Ek & Kk).
      destruct (LBL v k) as [Lg Lk]; auto. rewrite Ek in H. destruct (ty im) eqn:Et; try (intros; discriminate).
      destruct (dims_of n m) as [r c]. destruct (alloc (mem s) (r * c)) as [m1 p] eqn:EA.
      apply bind_ok in H as (m2 & HC & H). injection H as <-.
      assert (HF : forall b, gb b = negb g -> forall o, ptr im <> Some (b, o)).
      { intros b Hb o Ho. destruct (sep_ptr _ _ _ _ HS _ _ _ _ Kk Ho) as [_ E]. rewrite Lg in E. rewrite E in Hb. destruct g; discriminate. }
      apply memcpy_ext in HC. destruct HC as (L & F & _).
      apply alloc_spec in EA as [(? & -> & ->)|(? & -> & ->)]; apply set_impl_pres; simpl; auto; try (intros; discriminate);
        rewrite ?app_length in *; simpl in *; rewrite ?free_length, ?L; simpl; try lia.
      + intros b Hb Hg. rewrite free_other by auto. rewrite F by (intros (o & Ho); injection Ho as <- <-; lia). apply nth_error_app_lt; auto.
      + intros e He. destruct (sep_enf _ _ _ _ HS _ _ _ Kk He). split; congruence.
      + intros b o Hp. injection Hp as <- <-. split; lia.
      + intros b Hb Hg. rewrite free_other by auto. apply F. intros (o & Ho). discriminate.
      + intros e He. destruct (sep_enf _ _ _ _ HS _ _ _ Kk He). split; congruence.
  Qed.

  (** Reads of an untouched family are unchanged. *)
  Lemma untouched_reads s s' G gi gb g u : sep s G gi gb -> untouched s s' G gi gb g -> G u = g -> same_reads s s' u.
  Proof.
    intros HS HU Hu. destruct HU as [UE UI UM].
    assert (HI : impl_of s' u = impl_of s u).
    { unfold impl_of. rewrite UE by auto. destruct (env s u) as [k|] eqn:E; auto.
      destruct (sep_env _ _ _ _ HS _ _ E). rewrite UI by congruence. reflexivity. }
    assert (HL : forall im d, impl_of s u = Ok im ->
      load (mem s') (match ptr im with Some (b, o) => Some (b, o + d) | None => None end) =
      load (mem s) (match ptr im with Some (b, o) => Some (b, o + d) | None => None end)).
    { intros im d H. destruct (ptr im) as [[b o]|] eqn:Ep; [|reflexivity]. simpl.
      apply impl_of_ok in H as (k & Ek & Kk). destruct (sep_env _ _ _ _ HS _ _ Ek).
      destruct (sep_ptr _ _ _ _ HS _ _ _ _ Kk Ep). rewrite UM by congruence. reflexivity. }
    unfold same_reads, rows, cols, get, get2. rewrite HI. repeat split; auto.
    - intros i. destruct (impl_of s u) eqn:E; simpl; auto. destruct ((i <? 0) || (nr a <=? i)); auto.
    - intros i j. destruct (impl_of s u) eqn:E; simpl; auto.
      destruct ((i <? 0) || (nr a <=? i) || (j <? 0) || (nc a <=? j)); auto.
  Qed.

  Lemma sep_empty G gi gb : sep (@empty A) G gi gb.
  Proof. constructor; simpl; try (intros; discriminate); intros [|k]; discriminate. Qed.

  (** A homogeneous program: every statement stays in one family. *)
  Lemma exec_all_sep isf G os : forall s gi gb s', sep s G gi gb ->
    (forall o, In o os -> exists g, within (fun v => G v = g) o) ->
    exec_all isf s os = Ok s' -> exists gi' gb', sep s' G gi' gb'.
  Proof.
    induction os as [|o t IH]; simpl; intros s gi gb s' HS HW H.
    - injection H as <-. eauto.
    - apply bind_ok in H as (s1 & H1 & H). destruct (HW o) as (g & Hg); auto.
      destruct (exec_pres _ _ _ _ _ _ _ _ HS Hg H1) as [HS1 _]. eapply IH; eauto.
  Qed.

  Lemma exec_all_app isf os1 os2 : forall s, exec_all isf s (os1 ++ os2) = (let* s1 := exec_all isf s os1 in exec_all isf s1 os2).
  Proof.
    induction os1 as [|o t IH]; intros s; simpl; [reflexivity|].
    destruct (exec isf s o); simpl; auto.
  Qed.

  (** Reachable states are well formed. *)
  Definition tt_ : nat -> bool := fun _ => true.
  Lemma reachable_wf isf s : reachable isf s -> sep s tt_ tt_ tt_.
  Proof.
    intros (os & H).
    destruct (exec_all_sep isf tt_ os empty tt_ tt_ s (sep_empty _ _ _)) as (gi & gb & [HE HF HP]); auto.
    { intros o _. exists true. intros v _. reflexivity. }
    constructor.
    - intros v k Hk. destruct (HE _ _ Hk). split; auto.
    - intros k im e H1 H2. destruct (HF _ _ _ H1 H2). split; auto.
    - intros k im b o H1 H2. destruct (HP _ _ _ _ H1 H2). split; auto.
  Qed.
End P.
