(** Proofs about concatenation (C38), over the array heap. *)
From Verif Require Import Base BaseLemmas Tab_Model Tab_Spec Tab_Proofs Tab_Proofs2 Tab_Proofs3 Vec_Model.
From Coq Require Import ZifyBool ZifyNat.
Open Scope Z_scope.

Section P.
  Context {A : Type}.
  Implicit Types s : st A.

  (** s' keeps everything of s but the variables in vs and the block bc. *)
  Definition frame s s' (vs : list nat) (bc : nat) : Prop :=
    (forall w, ~ In w vs -> env s' w = env s w) /\
    (forall k, (k < length (impls s))%nat -> nth_error (impls s') k = nth_error (impls s) k) /\
    (forall b, (b < length (mem s))%nat -> b <> bc -> nth_error (mem s') b = nth_error (mem s) b) /\
    (length (mem s) <= length (mem s'))%nat.
  Lemma frame_trans s1 s2 s3 v1 v2 bc : (length (impls s1) <= length (impls s2))%nat ->
    frame s1 s2 v1 bc -> frame s2 s3 v2 bc -> frame s1 s3 (v1 ++ v2) bc.
  Proof.
    intros HL (A1 & A2 & A3 & A4) (B1 & B2 & B3 & B4). repeat split.
    - intros w Hw. rewrite B1, A1; auto; intros Hi; apply Hw; apply in_or_app; auto.
    - intros k Hk. rewrite B2, A2; auto. lia.
    - intros b Hb Hn. rewrite B3, A3; auto. lia.
    - lia.
  Qed.
  Lemma frame_impl s s' vs bc w : wf s -> frame s s' vs bc -> ~ In w vs -> impl_of s' w = impl_of s w.
  Proof. intros HS (A1 & A2 & _) Hw. apply impl_of_frame; auto. Qed.

  Lemma put_ok isf s t c u i0 n ic iu bc lc bu ou lu : wf s ->
    impl_of s c = Ok ic -> ptr ic = Some (bc, 0) -> nth_error (mem s) bc = Some (Some lc) -> nr ic = Z.of_nat (length lc) ->
    impl_of s u = Ok iu -> ty iu <> BLOCK -> nr iu = n -> nc iu = 1 -> ptr iu = Some (bu, ou) ->
    nth_error (mem s) bu = Some (Some lu) -> 0 <= ou -> ou + n <= Z.of_nat (length lu) -> bu <> bc ->
    t <> c -> t <> u -> 0 <= i0 -> 0 <= n -> i0 + n <= nr ic ->
    exists s', exec_all isf s [Segment t c i0 n; Assign t u] = Ok s' /\ wf s' /\ frame s s' [t] bc /\
      (length (impls s) <= length (impls s'))%nat /\
      (exists lc', nth_error (mem s') bc = Some (Some lc') /\ length lc' = length lc) /\
      forall o, load (mem s') (Some (bc, o)) =
        if (i0 <=? o) && (o <? i0 + n) then load (mem s) (Some (bu, ou + (o - i0))) else load (mem s) (Some (bc, o)).
  Proof.
    intros HS Hc Pc Lc Nc Hu Tu Nu Cu Pu Lu Ho Hlu Hb Htc Htu H0 Hn Hle.
    assert (HX : exists s', exec_all isf s [Segment t c i0 n; Assign t u] = Ok s' /\ exists m',
        memcpy (mem s) (Some (bc, i0)) (Some (bu, ou)) n = Ok m' /\ mem s' = m' /\
        impls s' = impls s ++ [mkimpl SEGMENT n 1 (Some (bc, i0)) (env s c) (0, 0)] /\
        env s' = set_env (env s) t (Some (length (impls s)))).
    { cbn [exec_all exec]. unfold segment. rewrite Hc. cbn [bind]. assert (E : nr ic <? i0 + n = false) by lia. rewrite E, Pc. cbn [bind].
      replace (0 + i0) with i0 by lia.
      set (iv := mkimpl SEGMENT n 1 (Some (bc, i0)) (env s c) (0, 0)).
      assert (Hu1 : impl_of (bind_new s t (mem s) iv) u = Ok iu).
      { rewrite <- Hu. apply impl_of_frame; auto; simpl.
        - unfold set_env. destruct (u =? t)%nat eqn:E1; auto. apply Nat.eqb_eq in E1; congruence.
        - intros; apply nth_error_app_lt; auto. }
      assert (SD : est_reference iv && same_dims iv iu = true).
      { unfold same_dims, est_reference, iv. simpl. rewrite Nu, Cu, Z.eqb_refl. reflexivity. }
      assert (EV : env (bind_new s t (mem s) iv) t = Some (length (impls s))) by (simpl; unfold set_env; rewrite Nat.eqb_refl; reflexivity).
      unfold assign. rewrite Hu1. cbn [bind]. rewrite EV, bind_new_impl. cbn [bind]. rewrite SD. unfold copie.
      apply andb_prop in SD as [_ SD]. rewrite SD. simpl negb. cbv iota.
      destruct (memcpy_defined (mem s) bc i0 bu ou n lc lu) as (m' & E2); auto; try lia.
      exists (mkst m' (impls s ++ [iv]) (set_env (env s) t (Some (length (impls s))))). split; [|exists m'; simpl; auto].
      destruct (ty iu) eqn:Et; [| |congruence]; simpl; rewrite Pu; unfold nelems; simpl; rewrite Z.mul_1_r, E2; reflexivity. }
    destruct HX as (s' & E & m' & EM & E1 & E2 & E3). exists s'. split; [exact E|].
    assert (W : wf s').
    { cbn [exec_all] in E. apply bind_ok in E as (s1 & X1 & E). apply bind_ok in E as (s2 & X2 & E). injection E as <-.
      eapply exec_wf; [eapply exec_wf; [exact HS|exact X1]|exact X2]. }
    split; [exact W|]. pose proof (memcpy_ext _ _ _ _ _ EM) as (L & F & S).
    split; [|split; [rewrite E2, app_length; simpl; lia|split]].
    - repeat split.
      + intros w Hw. rewrite E3. unfold set_env. destruct (w =? t)%nat eqn:Ew; auto. exfalso; apply Hw; left. apply Nat.eqb_eq in Ew; auto.
      + intros k Hk. rewrite E2. apply nth_error_app_lt; auto.
      + intros b Hb1 Hb2. rewrite E1. apply F. intros (o & Ho1). congruence.
      + rewrite E1. lia.
    - rewrite E1. apply S. exact Lc.
    - intros o. rewrite E1, (memcpy_load _ _ _ _ _ _ _ EM), Nat.eqb_refl. reflexivity.
  Qed.

  (** All the elements of a vector can be read. *)
  Definition readable s v n := forall i, 0 <= i < n -> exists x : A, get s v i = Ok x.
  Lemma readable_ptr s v im n : impl_of s v = Ok im -> nr im = n -> 0 < n -> readable s v n ->
    exists b o l, ptr im = Some (b, o) /\ nth_error (mem s) b = Some (Some l) /\ 0 <= o /\ o + n <= Z.of_nat (length l).
  Proof.
    intros Hi Hn Hp HR. destruct (HR 0 ltac:(lia)) as (x & Hx). destruct (HR (n - 1) ltac:(lia)) as (y & Hy).
    unfold get in *. rewrite Hi in *. simpl in *. rewrite Hn in *.
    destruct (n <=? 0) eqn:E1; [lia|]. destruct ((n - 1 <? 0) || (n <=? n - 1)) eqn:E2; [lia|].
    destruct (ptr im) as [[b o]|]; [|discriminate]. simpl in *. destruct (nth_error (mem s) b) as [[l|]|] eqn:El; try discriminate.
    destruct (o + 0 <? 0) eqn:E3; [discriminate|]. destruct (o + (n - 1) <? 0); [discriminate|].
    destruct (nth_error l (Z.to_nat (o + (n - 1)))) eqn:E5; [|discriminate].
    assert (Z.to_nat (o + (n - 1)) < length l)%nat by (apply nth_error_Some; congruence).
    exists b, o, l. repeat split; auto; lia.
  Qed.
  Lemma get_load s v im b o i : impl_of s v = Ok im -> ptr im = Some (b, o) -> 0 <= i < nr im -> get s v i = load (mem s) (Some (b, o + i)).
  Proof.
    intros Hi Hp Hb. unfold get. rewrite Hi. cbn [bind]. destruct ((i <? 0) || (nr im <=? i)) eqn:E; [lia|]. rewrite Hp. reflexivity.
  Qed.

  Lemma vconcat_ok isf s c a b t1 t2 n m : reachable_nb isf s ->
    rows s a = Ok n -> cols s a = Ok 1 -> rows s b = Ok m -> cols s b = Ok 1 -> 0 <= n -> 0 <= m ->
    readable s a n -> readable s b m ->
    ~ In a [c; t1; t2] -> ~ In b [c; t1; t2] -> t1 <> c -> t2 <> c ->
    exists s', exec_all isf s (vconcat_prog c a b t1 t2 n m) = Ok s' /\
      rows s' c = Ok (n + m) /\ cols s' c = Ok 1 /\ is_view s' c = Ok false /\
      (forall i, 0 <= i < n -> get s' c i = get s a i) /\
      (forall i, 0 <= i < m -> get s' c (n + i) = get s b i) /\
      forall u, ~ In u [c; t1; t2] -> same_reads s s' u.
  Proof.
    intros HR Ra Ca Rb Cb Hn Hm Ga Gb Na Nb T1 T2.
    destruct (reachable_inj _ _ (nb_reachable _ _ HR)) as [HS _]. pose proof (nb_inv2 _ _ HR) as HI.
    unfold rows, cols in *. destruct (impl_of s a) as [ia| | |] eqn:Ha; try discriminate. destruct (impl_of s b) as [ib| | |] eqn:Hb; try discriminate.
    cbn [bind] in *. injection Ra as Ra. injection Ca as Ca. injection Rb as Rb. injection Cb as Cb.
    assert (Ta : ty ia <> BLOCK) by (apply impl_of_ok in Ha as (k & _ & Hk); destruct (HI _ _ Hk) as [X _]; exact X).
    assert (Tb : ty ib <> BLOCK) by (apply impl_of_ok in Hb as (k & _ & Hk); destruct (HI _ _ Hk) as [X _]; exact X).
    set (ic := mkimpl VALEUR (n + m) 1 (if 0 <? n + m then Some (length (mem s), 0) else None) None (0, 0)).
    set (m0 := if 0 <? n + m then mem s ++ [Some (repeat None (Z.to_nat (n + m)))] else mem s).
    assert (D : exec isf s (Decl c (n + m) 1) = Ok (bind_new s c m0 ic)).
    { cbn [exec]. unfold decl, dims_of. simpl. rewrite Z.mul_1_r. unfold alloc, m0, ic. destruct (0 <? n + m); reflexivity. }
    set (s0 := bind_new s c m0 ic) in *. assert (W0 : wf s0) by (eapply exec_wf; [exact HS|exact D]).
    set (L := length (mem s)) in *.
    assert (F0 : frame s s0 [c] L).
    { repeat split; simpl.
      - intros w Hw. unfold set_env. destruct (w =? c)%nat eqn:Ew; auto. exfalso; apply Hw; left; apply Nat.eqb_eq in Ew; auto.
      - intros k Hk. apply nth_error_app_lt; auto.
      - intros b0 Hb0 _. unfold m0. destruct (0 <? n + m); auto. apply nth_error_app_lt; auto.
      - unfold m0. destruct (0 <? n + m); rewrite ?app_length; lia. }
    assert (HL0 : (length (impls s) <= length (impls s0))%nat) by (simpl; rewrite app_length; lia).
    assert (I0 : impl_of s0 c = Ok ic) by apply bind_new_impl.
    cbn [exec_all vconcat_prog app]. rewrite D. cbn [bind].
    (* what remains to be shown, from a final state *)
    assert (FIN : forall s' vs, frame s s' vs L -> incl vs [c; t1; t2] -> impl_of s' c = Ok ic ->
        (forall i, 0 <= i < n -> get s' c i = get s a i) -> (forall i, 0 <= i < m -> get s' c (n + i) = get s b i) ->
        (let* im := impl_of s' c in Ok (nr im)) = Ok (n + m) /\ (let* im := impl_of s' c in Ok (nc im)) = Ok 1 /\ is_view s' c = Ok false /\
        (forall i, 0 <= i < n -> get s' c i = get s a i) /\ (forall i, 0 <= i < m -> get s' c (n + i) = get s b i) /\
        forall u, ~ In u [c; t1; t2] -> same_reads s s' u).
    { intros s' vs (X1 & X2 & X3 & X4) HV Hc G1 G2. unfold is_view. rewrite Hc. repeat split; auto.
      all: apply same_reads_intro; [apply impl_of_frame; auto|]. 
      all: intros im d Hi; apply impl_of_ok in Hi as (k & Ek & Kk); destruct (ptr im) as [[pb po]|] eqn:Ep; [|reflexivity].
      all: destruct (sep_ptr _ _ _ _ HS _ _ _ _ Kk Ep) as [Hlt _]; simpl; rewrite X3; auto; unfold L; lia. }
    destruct (0 <? n + m) eqn:Enm.
    2:{ assert (E1 : 0 <? n = false) by lia. assert (E2 : 0 <? m = false) by lia. rewrite E1, E2. cbn [app exec_all]. exists s0. split; [reflexivity|].
        apply (FIN s0 [c]); auto; [|intros; lia|intros; lia]. intros x Hx; simpl in *; tauto. }
    assert (E0 : nth_error (mem s0) L = Some (Some (repeat None (Z.to_nat (n + m))))) by (simpl; unfold m0; apply nth_error_snoc).
    assert (P0 : ptr ic = Some (L, 0)) by reflexivity.
    (* first half *)
    assert (S1 : exists s1, exec_all isf s0 (if 0 <? n then [Segment t1 c 0 n; Assign t1 a] else []) = Ok s1 /\ wf s1 /\ frame s s1 ([c] ++ [t1]) L /\
       (length (impls s) <= length (impls s1))%nat /\ impl_of s1 c = Ok ic /\
       (exists lc, nth_error (mem s1) L = Some (Some lc) /\ length lc = Z.to_nat (n + m)) /\
       forall i, 0 <= i < n -> load (mem s1) (Some (L, i)) = get s a i).
    { destruct (0 <? n) eqn:En.
      - destruct (readable_ptr s a ia n Ha Ra ltac:(lia) Ga) as (ba & oa & la & Pa & La & Oa & Wa).
        assert (Hba : (ba < L)%nat) by (unfold L; apply nth_error_Some; congruence).
        assert (Ha0 : impl_of s0 a = Ok ia) by (rewrite <- Ha; eapply frame_impl; [exact HS|exact F0|simpl in *; tauto]).
        destruct (put_ok isf s0 t1 c a 0 n ic ia L (repeat None (Z.to_nat (n + m))) ba oa la) as (s1 & X1 & X2 & X3 & X4 & X5 & X6); auto; try lia.
        + simpl. rewrite repeat_length. lia.
        + destruct F0 as (_ & _ & F0 & _). rewrite F0 by lia. exact La.
        + intros ->; apply Na; simpl; auto.
        + simpl. lia.
        + exists s1. split; [exact X1|]. split; [exact X2|]. split; [eapply frame_trans; eauto|]. split; [lia|].
          split; [rewrite <- I0; eapply frame_impl; [exact W0|exact X3|simpl; intros [X|[]]; congruence]|].
          split; [destruct X5 as (lc & Y1 & Y2); exists lc; split; [exact Y1|rewrite Y2, repeat_length; reflexivity]|].
          intros i Hi. rewrite X6. assert (E : (0 <=? i) && (i <? 0 + n) = true) by lia. rewrite E.
          rewrite (get_load s a ia ba oa) by (auto; lia). replace (oa + (i - 0)) with (oa + i) by lia.
          simpl load. destruct F0 as (_ & _ & F0 & _). rewrite F0 by lia. reflexivity.
      - exists s0. split; [reflexivity|]. split; [exact W0|]. split; [|repeat split; auto; try lia].
        + destruct F0 as (X1 & X2). split; [|exact X2]. intros w Hw. apply X1. intros Hi. apply Hw. apply in_or_app; auto.
        + eexists; split; [exact E0|apply repeat_length]. }
    destruct S1 as (s1 & X1 & W1 & F1 & L1 & I1 & (lc1 & E1 & LL1) & G1).
    rewrite (exec_all_app (A := A) isf (if 0 <? n then [Segment t1 c 0 n; Assign t1 a] else []) (if 0 <? m then [Tail t2 c m; Assign t2 b] else []) s0).
    rewrite X1. cbn [bind].
    destruct (0 <? m) eqn:Em.
    - destruct (readable_ptr s b ib m Hb Rb ltac:(lia) Gb) as (bb & ob & lb & Pb & Lb & Ob & Wb).
      assert (Hbb : (bb < L)%nat) by (unfold L; apply nth_error_Some; congruence).
      assert (Hb1 : impl_of s1 b = Ok ib) by (rewrite <- Hb; eapply frame_impl; [exact HS|exact F1|simpl in *; tauto]).
      assert (TS : exec_all isf s1 [Tail t2 c m; Assign t2 b] = exec_all isf s1 [Segment t2 c n m; Assign t2 b]).
      { cbn [exec_all exec]. unfold tail. rewrite I1. cbn [bind]. change (nr ic) with (n + m). replace (n + m - m) with n by lia. reflexivity. }
      rewrite TS.
      destruct (put_ok isf s1 t2 c b n m ic ib L lc1 bb ob lb) as (s2 & Y1 & Y2 & Y3 & Y4 & Y5 & Y6); auto; try lia.
      + simpl. rewrite LL1. lia.
      + destruct F1 as (_ & _ & F1 & _). rewrite F1 by lia. exact Lb.
      + intros ->; apply Nb; simpl; auto.
      + simpl. lia.
      + exists s2. split; [exact Y1|].
        assert (I2 : impl_of s2 c = Ok ic) by (rewrite <- I1; eapply frame_impl; [exact W1|exact Y3|simpl; intros [X|[]]; congruence]).
        apply (FIN s2 (([c] ++ [t1]) ++ [t2])); auto.
        * eapply frame_trans; eauto.
        * intros x Hx; simpl in *; tauto.
        * intros i Hi. rewrite (get_load s2 c ic L 0) by (auto; simpl; lia). rewrite Y6.
          assert (E : (n <=? 0 + i) && (0 + i <? n + m) = false) by lia. rewrite E. apply G1; lia.
        * intros i Hi. rewrite (get_load s2 c ic L 0) by (auto; simpl; lia). rewrite Y6.
          assert (E : (n <=? 0 + (n + i)) && (0 + (n + i) <? n + m) = true) by lia. rewrite E.
          rewrite (get_load s b ib bb ob) by (auto; lia). replace (ob + (0 + (n + i) - n)) with (ob + i) by lia.
          simpl load. destruct F1 as (_ & _ & F1 & _). rewrite F1 by lia. reflexivity.
    - exists s1. split; [reflexivity|]. apply (FIN s1 ([c] ++ [t1])); auto.
      + intros x Hx; simpl in *; tauto.
      + intros i Hi. rewrite (get_load s1 c ic L 0) by (auto; simpl; lia). apply G1; lia.
      + intros; lia.
  Qed.

  (** ** Matrices: the result is never written *)
  Lemma owned_clone_ok s v im : (forall b o, ptr im = Some (b, o) -> (b < length (mem s))%nat) -> owned (mem s) im ->
    exists s', clone_to s v im = Ok s'.
  Proof.
    intros HP (Ht & Hr & Hc & H). unfold clone_to. rewrite Ht. destruct (ptr im) as [[b o]|] eqn:Ep; [|eauto].
    destruct H as (-> & l & Hl & HL). specialize (HP _ _ eq_refl).
    assert (E : nelems im <? 0 = false) by lia. rewrite E.
    destruct (memcpy_defined (mem s ++ [Some (repeat None (Z.to_nat (nelems im)))]) (length (mem s)) 0 b 0 (nelems im)
                (repeat None (Z.to_nat (nelems im))) l) as (m' & ->); try lia.
    - apply nth_error_snoc.
    - rewrite nth_error_app_lt; auto.
    - rewrite repeat_length. lia.
    - simpl. eauto.
  Qed.
  (** A block view of the wrong size, then an assignment: c is not modified. *)
  Lemma block_assign_lost s t c u r0 rn c0 cn ic iu bc lc : wf s -> impl_of s c = Ok ic -> nth_error (mem s) bc = Some (Some lc) ->
    impl_of s u = Ok iu -> owned (mem s) iu -> t <> c -> t <> u -> (rn =? nr iu) && (cn =? nc iu) = false ->
    exists s', exec_all true s [Block t c r0 rn c0 cn; Assign t u] = Ok s' /\ wf s' /\
      (forall w, w <> t -> impl_of s' w = impl_of s w) /\
      (forall b l, nth_error (mem s) b = Some (Some l) -> nth_error (mem s') b = Some (Some l)).
  Proof.
    intros HS Hc Lc Hu HO Htc Htu HD.
    cbn [exec_all exec]. unfold block. rewrite Hc. cbn [bind].
    set (iv := mkimpl BLOCK rn cn _ _ _). set (s1 := bind_new s t (mem s) iv).
    assert (X : exec true s (Block t c r0 rn c0 cn) = Ok s1) by (cbn [exec]; unfold block; rewrite Hc; reflexivity).
    assert (W1 : wf s1) by (eapply exec_wf; eauto).
    assert (FR : forall w, w <> t -> impl_of s1 w = impl_of s w).
    { intros w Hw. apply impl_of_frame; auto; simpl.
      - unfold set_env. apply Nat.eqb_neq in Hw. rewrite Hw. reflexivity.
      - intros; apply nth_error_app_lt; auto. }
    unfold assign. rewrite FR by auto. rewrite Hu. cbn [bind].
    assert (EV : env s1 t = Some (length (impls s))) by (simpl; unfold set_env; rewrite Nat.eqb_refl; reflexivity).
    rewrite EV. unfold s1 at 1. rewrite bind_new_impl. cbn [bind].
    assert (SD : est_reference iv && same_dims iv iu = false) by (unfold same_dims, iv; simpl; exact HD). rewrite SD.
    destruct (owned_clone_ok s1 t iu) as (s2 & E2); [|exact HO|].
    { intros b o Hp. apply impl_of_ok in Hu as (k & Ek & Kk). destruct (sep_ptr _ _ _ _ HS _ _ _ _ Kk Hp); auto. }
    rewrite E2. cbn [bind]. exists s2. split; [reflexivity|].
    assert (X2 : exec true s1 (Copy t u) = Ok s2) by (cbn [exec]; unfold copy; rewrite FR by auto; rewrite Hu; exact E2).
    split; [eapply exec_wf; eauto|].
    apply clone_to_inv in E2 as (m' & p & -> & HM & _). split.
    - intros w Hw. rewrite <- (FR w Hw). apply impl_of_frame; auto; simpl.
      + unfold set_env. apply Nat.eqb_neq in Hw. rewrite Hw. reflexivity.
      + intros; apply nth_error_app_lt; auto.
    - intros b l Hb. simpl. rewrite HM; auto. simpl. apply nth_error_Some. congruence.
  Qed.

  (** Variables declared but never written. *)
  Definition unwritten s v r c : Prop := rows s v = Ok r /\ cols s v = Ok c /\
    forall i j, 0 <= i < r -> 0 <= j < c -> get2 s v i j = UB.
  Lemma decl_matrix s c R C : wf s -> 0 < R -> 1 <= C ->
    exists s0 ic, exec true s (Decl c R C) = Ok s0 /\ wf s0 /\ impl_of s0 c = Ok ic /\
      nr ic = R /\ nc ic = C /\ ty ic = VALEUR /\ ptr ic = Some (length (mem s), 0) /\
      nth_error (mem s0) (length (mem s)) = Some (Some (repeat None (Z.to_nat (R * C)))) /\
      (forall w, w <> c -> impl_of s0 w = impl_of s w) /\
      (forall b l, nth_error (mem s) b = Some (Some l) -> nth_error (mem s0) b = Some (Some l)).
  Proof.
    intros HS HR HC. cbn [exec]. unfold decl, dims_of.
    assert (EX : exists s0, exec true s (Decl c R C) = Ok s0 /\ s0 = bind_new s c (mem s ++ [Some (repeat None (Z.to_nat (R * C)))]) (mkimpl VALEUR R C (Some (length (mem s), 0)) None (0, 0))).
    { eexists. split; [|reflexivity]. cbn [exec]. unfold decl, dims_of. destruct (1 <? C) eqn:E.
      - unfold alloc. assert (E2 : 0 <? R * C = true) by nia. rewrite E2. reflexivity.
      - assert (C = 1) by lia. subst C. unfold alloc. assert (E2 : 0 <? R * 1 = true) by lia. rewrite E2. reflexivity. }
    destruct EX as (s0 & X & E). exists s0. eexists. split; [exact X|]. split; [eapply exec_wf; [exact HS|exact X]|]. subst s0.
    split; [apply bind_new_impl|]. simpl. do 4 (split; [reflexivity|]). split; [apply nth_error_snoc|]. split.
    - intros w Hw. apply impl_of_frame; auto; simpl.
      + unfold set_env. apply Nat.eqb_neq in Hw. rewrite Hw. reflexivity.
      + intros; apply nth_error_app_lt; auto.
    - intros b l Hb. rewrite nth_error_app_lt; auto. apply nth_error_Some. congruence.
  Qed.
  Lemma none_unwritten s v im b n : impl_of s v = Ok im -> ptr im = Some (b, 0) -> nth_error (mem s) b = Some (Some (repeat None n)) ->
    unwritten s v (nr im) (nc im).
  Proof.
    intros Hi Hp Hb. unfold unwritten, rows, cols, get2. rewrite Hi. cbn [bind]. repeat split.
    intros i j H1 H2. assert (E : (i <? 0) || (nr im <=? i) || (j <? 0) || (nc im <=? j) = false) by lia. rewrite E, Hp. simpl. rewrite Hb.
    destruct (0 + (i + j * nr im) <? 0); [reflexivity|]. destruct (nth_error (repeat None n) (Z.to_nat (0 + (i + j * nr im)))) as [x|] eqn:En; [|reflexivity].
    apply nth_error_In, repeat_spec in En. subst x. reflexivity.
  Qed.
  Lemma owned_keep s s' im : (forall b l, nth_error (mem s) b = Some (Some l) -> nth_error (mem s') b = Some (Some l)) -> owned (mem s) im -> owned (mem s') im.
  Proof. intros HM. apply owned_ext. intros b o _ l Hl. exists l. split; auto. Qed.

  Lemma vconcat2_unwritten s c a b t1 t2 ra rb ca : reachable_plain true s ->
    rows s a = Ok ra -> cols s a = Ok ca -> rows s b = Ok rb -> cols s b = Ok ca -> 0 < ra -> 0 < rb ->
    ~ In a [c; t1; t2] -> ~ In b [c; t1; t2] -> t1 <> c -> t2 <> c ->
    exists s', vconcat2 true s c a b t1 t2 = Ok s' /\ unwritten s' c ca (ra + rb).
  Proof.
    intros HR Ra Ca Rb Cb Ha Hb Na Nb T1 T2. destruct (plain_own _ _ HR) as [HS HO].
    unfold rows, cols in *. destruct (impl_of s a) as [ia| | |] eqn:Ia; try discriminate. destruct (impl_of s b) as [ib| | |] eqn:Ib; try discriminate.
    cbn [bind] in *. injection Ra as Ra. injection Ca as Ca. injection Rb as Rb. injection Cb as Cb.
    assert (Oa : owned (mem s) ia) by (apply impl_of_ok in Ia as (k & _ & Hk); eapply own_1; eauto).
    assert (Ob : owned (mem s) ib) by (apply impl_of_ok in Ib as (k & _ & Hk); eapply own_1; eauto).
    assert (Hca : 1 <= ca) by (destruct Oa as (_ & _ & X & _); lia).
    unfold vconcat2. rewrite Ia, Ib. cbn [bind]. rewrite Ra, Ca, Rb, Cb. rewrite Z.eqb_refl. cbn [negb].
    destruct (decl_matrix s c ca (ra + rb)) as (s0 & ic & D & W0 & I0 & N0 & C0 & TY0 & P0 & M0 & F0 & K0); auto; try lia.
    cbn [app exec_all]. rewrite D. cbn [bind].
    assert (E1 : 0 <? ra = true) by lia. rewrite E1. assert (E2 : 0 <? rb = true) by lia. rewrite E2.
    assert (Ia0 : impl_of s0 a = Ok ia) by (rewrite F0; auto; intros ->; apply Na; simpl; auto).
    assert (Ib0 : impl_of s0 b = Ok ib) by (rewrite F0; auto; intros ->; apply Nb; simpl; auto).
    destruct (block_assign_lost s0 t1 c a 0 0 ra ca ic ia _ _ W0 I0 M0 Ia0) as (s1 & X1 & W1 & F1 & K1); auto.
    { eapply owned_keep; eauto. } { intros ->; apply Na; simpl; auto. } { assert (0 =? nr ia = false) by lia. rewrite H. reflexivity. }
    rewrite exec_all_app, X1. cbn [bind].
    assert (Ic1 : impl_of s1 c = Ok ic) by (rewrite F1; auto).
    assert (Ib1 : impl_of s1 b = Ok ib) by (rewrite F1; auto; intros ->; apply Nb; simpl; auto).
    assert (M1 := K1 _ _ M0).
    destruct (block_assign_lost s1 t2 c b ra 0 rb ca ic ib (length (mem s)) _ W1 Ic1 M1 Ib1) as (s2 & X2 & W2 & F2 & K2); auto.
    { eapply owned_keep; [exact K1|]. eapply owned_keep; eauto. }
    { intros ->; apply Nb; simpl; auto. } { assert (0 =? nr ib = false) by lia. rewrite H. reflexivity. }
    exists s2. split; [exact X2|].
    rewrite <- N0, <- C0. eapply none_unwritten; [rewrite F2, F1; eauto|exact P0|]. apply K2, K1. exact M0.
  Qed.
  Lemma vconcat2_exc s c a b t1 t2 ra ca rb : reachable_plain false s -> rows s a = Ok ra -> cols s a = Ok ca -> rows s b = Ok rb -> cols s b = Ok ca -> 0 < ra ->
    vconcat2 false s c a b t1 t2 = Exc.
  Proof.
    intros HR Ra Ca Rb Cb Ha. unfold rows, cols in *. destruct (impl_of s a) as [ia| | |] eqn:Ia; try discriminate. destruct (impl_of s b) as [ib| | |] eqn:Ib; try discriminate.
    cbn [bind] in *. injection Ra as Ra. injection Ca as Ca. injection Rb as Rb. injection Cb as Cb.
    unfold vconcat2. rewrite Ia, Ib. cbn [bind]. rewrite Ca, Cb, Z.eqb_refl. cbn [negb]. rewrite Ra, Rb. assert (E1 : 0 <? ra = true) by lia. rewrite E1.
    cbn [app exec_all exec]. unfold decl. destruct (dims_of _ _). destruct (alloc _ _). cbn [bind]. unfold block. rewrite bind_new_impl. reflexivity.
  Qed.

  Lemma hconcat_unwritten s c a b t1 t2 r ca cb : reachable_plain true s ->
    rows s a = Ok r -> cols s a = Ok ca -> rows s b = Ok r -> cols s b = Ok cb -> 0 < r ->
    ~ In a [c; t1; t2] -> ~ In b [c; t1; t2] -> t1 <> c -> t2 <> c ->
    if ca =? r then hconcat true s c a b t1 t2 = UB
    else exists s', hconcat true s c a b t1 t2 = Ok s' /\ unwritten s' c (ca + cb) r.
  Proof.
    intros HR Ra Ca Rb Cb Hr Na Nb T1 T2. destruct (plain_own _ _ HR) as [HS HO].
    unfold rows, cols in *. destruct (impl_of s a) as [ia| | |] eqn:Ia; try discriminate. destruct (impl_of s b) as [ib| | |] eqn:Ib; try discriminate.
    cbn [bind] in *. injection Ra as Ra. injection Ca as Ca. injection Rb as Rb. injection Cb as Cb.
    assert (Oa : owned (mem s) ia) by (apply impl_of_ok in Ia as (k & _ & Hk); eapply own_1; eauto).
    assert (Ob : owned (mem s) ib) by (apply impl_of_ok in Ib as (k & _ & Hk); eapply own_1; eauto).
    assert (Hca : 1 <= ca) by (destruct Oa as (_ & _ & X & _); lia). assert (Hcb : 1 <= cb) by (destruct Ob as (_ & _ & X & _); lia).
    unfold hconcat. rewrite Ia, Ib. cbn [bind]. rewrite Ra, Ca, Rb, Cb. rewrite Z.eqb_refl. cbn [negb].
    destruct (decl_matrix s c (ca + cb) r) as (s0 & ic & D & W0 & I0 & N0 & C0 & TY0 & P0 & M0 & F0 & K0); auto; try lia.
    cbn [app exec_all]. rewrite D. cbn [bind].
    assert (E1 : 0 <? ca = true) by lia. rewrite E1. assert (E2 : 0 <? cb = true) by lia. rewrite E2.
    assert (Ia0 : impl_of s0 a = Ok ia) by (rewrite F0; auto; intros ->; apply Na; simpl; auto).
    assert (Ib0 : impl_of s0 b = Ok ib) by (rewrite F0; auto; intros ->; apply Nb; simpl; auto).
    destruct (block_assign_lost s0 t1 c a 0 0 r ca ic ia _ _ W0 I0 M0 Ia0) as (s1 & X1 & W1 & F1 & K1); auto.
    { eapply owned_keep; eauto. } { intros ->; apply Na; simpl; auto. } { assert (0 =? nr ia = false) by lia. rewrite H. reflexivity. }
    rewrite !exec_all_app, X1. cbn [bind].
    assert (Ic1 : impl_of s1 c = Ok ic) by (rewrite F1; auto).
    assert (Ib1 : impl_of s1 b = Ok ib) by (rewrite F1; auto; intros ->; apply Nb; simpl; auto).
    assert (M1 := K1 _ _ M0).
    destruct (ca =? r) eqn:Esq.
    - assert (Hsq : r = ca) by lia. revert Ra Rb C0. subst r. intros Ra Rb C0.
      cbn [exec_all exec]. unfold block. rewrite Ic1. cbn [bind].
      set (iv := mkimpl BLOCK _ _ _ _ _).
      assert (Hb1 : impl_of (bind_new s1 t2 (mem s1) iv) b = Ok ib).
      { rewrite <- Ib1. apply impl_of_frame; auto; simpl.
        - unfold set_env. destruct (b =? t2)%nat eqn:E; auto. apply Nat.eqb_eq in E. exfalso. apply Nb. simpl. auto.
        - intros; apply nth_error_app_lt; auto. }
      unfold assign. rewrite Hb1. cbn [bind].
      assert (EV : env (bind_new s1 t2 (mem s1) iv) t2 = Some (length (impls s1))) by (simpl; unfold set_env; rewrite Nat.eqb_refl; reflexivity).
      rewrite EV, bind_new_impl. cbn [bind].
      assert (SD : est_reference iv && same_dims iv ib = true) by (unfold same_dims, iv; simpl; lia). rewrite SD.
      apply andb_prop in SD as [_ SD]. unfold copie. rewrite SD. cbn [negb]. simpl ty. cbv iota.
      match goal with |- context [cols_copy ?n ?m ?d ?sr ?rw] => set (dd := d); set (ss := sr); assert (CC : cols_copy n m dd ss rw = UB) end; [|fold dd ss; rewrite CC; reflexivity].
      (* the first column already falls outside the block of c *)
      assert (DD : dd 0 = Some (length (mem s), (0 + ca * (ca + cb)))).
      { unfold dd. destruct (impl_of_ok _ _ _ Ic1) as (kc & Ekc & Kkc). unfold fuel_of. simpl length. rewrite app_length. simpl length.
        rewrite Nat.add_comm. simpl Nat.add. change (ptr_at (S (length (impls s1))) (bind_new s1 t2 (mem s1) iv) iv 0 0 = Some (length (mem s), 0 + ca * (ca + cb))).
        cbn [ptr_at]. change (ty iv) with BLOCK. cbv iota. change (enfant iv) with (env s1 c). rewrite Ekc.
        simpl impls. rewrite nth_error_app_lt by (apply nth_error_Some; congruence). rewrite Kkc. 
        assert (PA : forall fu (sx : st A), ptr_at fu sx ic (fst (blk iv) + 0) (snd (blk iv) + 0) = Some (length (mem s), 0 + ca * (ca + cb))).
        { intros fu sx. destruct fu; cbn [ptr_at]; rewrite TY0, P0, N0; unfold iv; simpl; f_equal; f_equal; lia. }
        apply PA. }
      assert (GEN : forall k, (1 <= k)%nat -> cols_copy k (mem s1) dd ss ca = UB).
      { intros k Hk. induction k as [|k IHk]; [lia|]. destruct k as [|k].
        - cbn [cols_copy bind]. change (Z.of_nat 0) with 0. rewrite DD. unfold memcpy. assert (E : ca =? 0 = false) by lia. rewrite E.
          destruct (ss 0) as [[bs os]|]; [|reflexivity]. destruct (_ && _)%bool; [reflexivity|].
          destruct (cells (mem s1) bs os ca) as [cc| | |] eqn:Ecc.
          + cbn [bind]. unfold cells. rewrite M1, repeat_length.
            assert (E3 : (0 + ca * (ca + cb) <? 0) || (ca <? 0) || (Z.of_nat (Z.to_nat ((ca + cb) * ca)) <? 0 + ca * (ca + cb) + ca) = true) by nia.
            rewrite E3. reflexivity.
          + unfold cells in Ecc. destruct (nth_error (mem s1) bs) as [[?|]|]; try discriminate. destruct (_ || _); discriminate.
          + reflexivity.
          + unfold cells in Ecc. destruct (nth_error (mem s1) bs) as [[?|]|]; try discriminate. destruct (_ || _); discriminate.
        - change (cols_copy (S (S k)) (mem s1) dd ss ca) with (let* m1 := cols_copy (S k) (mem s1) dd ss ca in memcpy m1 (dd (Z.of_nat (S k))) (ss (Z.of_nat (S k))) ca).
          rewrite IHk by lia. reflexivity. }
      apply GEN. unfold iv; simpl. lia.
    - destruct (block_assign_lost s1 t2 c b 0 ca r cb ic ib (length (mem s)) _ W1 Ic1 M1 Ib1) as (s2 & X2 & W2 & F2 & K2); auto.
      { eapply owned_keep; [exact K1|]. eapply owned_keep; eauto. } { intros ->; apply Nb; simpl; auto. } { rewrite Rb. rewrite Esq. reflexivity. }
      exists s2. split; [exact X2|].
      rewrite <- N0, <- C0. eapply none_unwritten; [rewrite F2; eauto|exact P0|]. apply K2. exact M1.
  Qed.
End P.
