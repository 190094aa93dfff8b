From Coq Require Import List Arith ZArith Reals Lia Lra Field.
From Verif Require Import Base BaseLemmas ComplexSys RField Filters_Model Filters_Proofs Fourier_Proofs Del_Model Chn_Spec Chn_Proofs Vec_Model Vec_Proofs Polyphase_Model Polyphase_Proofs Fdt_Model Fdt_Proofs Fdt_Proofs2 Fdt_Proofs3 Fdt_Proofs4
  Equi_Model Equi_Spec Equi_Proofs Equi_Proofs3 Equi_Proofs4.
Import ListNotations.
Local Open Scope R_scope.

(** ** Half-band filters *)
Lemma nth_pad (h : list R) k : (k < length h + 2)%nat -> nth k ((0 :: h) ++ [0]) 0 = if ((k =? 0) || (k =? length h + 1))%nat%bool then 0 else nth (k - 1) h 0.
Proof.
  intros Hk. destruct k as [|k]; [reflexivity|]. destruct (Nat.eqb_spec (S k) 0); [lia|]. cbn [app nth orb]. replace (S k - 1)%nat with k by lia. destruct (Nat.eqb_spec (S k) (length h + 1)) as [E|Hne].
  - rewrite app_nth2 by lia. replace (k - length h)%nat with 0%nat by lia. reflexivity.
  - rewrite app_nth1 by lia. reflexivity.
Qed.
Lemma pad_length (h : list R) : length ((0 :: h) ++ [0]) = (length h + 2)%nat.
Proof. rewrite app_length. cbn [length]. lia. Qed.
Lemma amp_pad (h : list R) f : amp ((0 :: h) ++ [0]) f = amp h f.
Proof.
  unfold amp. rewrite pad_length. replace (length h + 2)%nat with (S (S (length h))) by lia. rewrite total_S_l. cbn [total]. rewrite !nth_pad by lia. rewrite Nat.eqb_refl. cbn [orb]. destruct (Nat.eqb_spec (S (length h)) 0); [lia|]. cbn [orb].
  replace (S (length h) =? length h + 1)%nat with true by (symmetry; apply Nat.eqb_eq; lia). rewrite !Rmult_0_l, Rplus_0_r, Rplus_0_l. apply total_ext. intros k Hk. rewrite nth_pad by lia. destruct (Nat.eqb_spec (S k) 0); [lia|]. cbn [orb].
  destruct (Nat.eqb_spec (S k) (length h + 1)); [lia|]. replace (S k - 1)%nat with k by lia. f_equal. f_equal. unfold middle. rewrite pad_length, plus_INR, (S_INR k). cbn [INR]. field.
Qed.
Lemma sym_pad (h : list R) : symmetric h -> symmetric ((0 :: h) ++ [0]).
Proof.
  intros H k Hk. rewrite pad_length in *. rewrite !nth_pad by lia. destruct (Nat.eqb_spec k 0) as [->|N0]; [|destruct (Nat.eqb_spec k (length h + 1)) as [->|N1]]; cbn [orb].
  - replace (length h + 2 - 1 - 0 =? length h + 1)%nat with true by (symmetry; apply Nat.eqb_eq; lia). rewrite orb_true_r. reflexivity.
  - replace (length h + 2 - 1 - (length h + 1) =? 0)%nat with true by (symmetry; apply Nat.eqb_eq; lia). reflexivity.
  - destruct (Nat.eqb_spec (length h + 2 - 1 - k) 0); [lia|]. destruct (Nat.eqb_spec (length h + 2 - 1 - k) (length h + 1)); [lia|]. cbn [orb]. rewrite <- (H (k - 1)%nat) by lia. f_equal. lia.
Qed.
Lemma total_even_odd N F : total (2 * N + 1) F = total (N + 1) (fun j => F (2 * j)%nat) + total N (fun j => F (2 * j + 1)%nat).
Proof.
  induction N as [|N IH]; [cbn; lra|]. replace (2 * S N + 1)%nat with (S (S (2 * N + 1))) by lia. cbn [total]. rewrite IH. rewrite !Nat.add_1_r. cbn [total]. replace (2 * S N)%nat with (S (S (2 * N))) by lia. lra.
Qed.
Lemma total_single n q v : (q < n)%nat -> total n (fun k => if (k =? q)%nat then v else 0) = v.
Proof.
  intros H. induction n as [|n IH]; [lia|]. cbn [total]. destruct (Nat.eqb_spec n q) as [->|Hne].
  - rewrite (total_ext q _ (fun _ => 0)); [rewrite total_const; ring|]. intros k Hk. destruct (Nat.eqb_spec k q); [lia|reflexivity].
  - rewrite IH by lia. ring.
Qed.
Lemma cs2 q : cos (2 * INR q * PI) = 1 /\ sin (2 * INR q * PI) = 0.
Proof. replace (2 * INR q * PI) with (0 + 2 * INR q * PI) by ring. rewrite cos_period, sin_period, cos_0, sin_0. split; reflexivity. Qed.
Lemma cos_half q k x : cos (PI * (2 * INR q + 1 - 2 * INR k) - x) = - cos x.
Proof.
  destruct (cs2 q) as [A B]. destruct (cs2 k) as [C0 D]. replace (PI * (2 * INR q + 1 - 2 * INR k) - x) with ((2 * INR q * PI - (2 * INR k * PI + x)) + PI) by ring. rewrite neg_cos. f_equal.
  rewrite cos_minus, A, B, cos_plus, C0, D. ring.
Qed.
Lemma amp_nyquist g q f : length g = (2 * q + 2)%nat -> amp g (1 - f) = - amp g f.
Proof.
  intros L. unfold amp. rewrite <- total_opp. apply total_ext. intros k _. unfold middle. rewrite L, plus_INR, mult_INR. cbn [INR].
  replace (2 * PI * (1 - f) * (((1 + 1) * INR q + (1 + 1) - 1) / 2 - INR k)) with (PI * (2 * INR q + 1 - 2 * INR k) - 2 * PI * f * (((1 + 1) * INR q + (1 + 1) - 1) / 2 - INR k)) by field.
  rewrite cos_half. ring.
Qed.
Lemma layout_amp g h q : length g = (2 * q + 2)%nat -> symmetric g -> length h = (4 * q + 3)%nat ->
  (forall k, (k < 4 * q + 3)%nat -> nth k h 0 = if (k =? 2 * q + 1)%nat then 1 / 2 else if (k mod 2 =? 1)%nat then 0 else 1 / 2 * nth (k / 2) g 0) ->
  symmetric h /\ forall f, amp h f = (1 + amp g (2 * f)) / 2.
Proof.
  intros Lg Sg Lh N. split.
  - intros k Hk. rewrite Lh in *. rewrite !N by lia. destruct (Nat.eqb_spec k (2 * q + 1)) as [->|Hne].
    + replace (4 * q + 3 - 1 - (2 * q + 1))%nat with (2 * q + 1)%nat by lia. rewrite Nat.eqb_refl. reflexivity.
    + destruct (Nat.eqb_spec (4 * q + 3 - 1 - k) (2 * q + 1)); [lia|]. pose proof (Nat.div_mod k 2 ltac:(lia)) as D. pose proof (Nat.mod_upper_bound k 2 ltac:(lia)) as U. set (j := (k / 2)%nat) in *.
      destruct (Nat.eqb_spec (k mod 2) 1) as [O|O].
      * replace ((4 * q + 3 - 1 - k) mod 2)%nat with 1%nat by (apply (Nat.mod_unique _ 2 (2 * q - j)); lia). reflexivity.
      * replace ((4 * q + 3 - 1 - k) mod 2)%nat with 0%nat by (apply (Nat.mod_unique _ 2 (2 * q + 1 - j)); lia). cbn [Nat.eqb]. f_equal. rewrite <- (Sg j) by lia. f_equal. rewrite Lg. symmetry. apply (Nat.div_unique _ 2 _ 0); lia.
  - intros f. unfold amp. rewrite Lh, Lg. replace (4 * q + 3)%nat with (2 * (2 * q + 1) + 1)%nat by lia. rewrite total_even_odd.
    rewrite (total_ext (2 * q + 1 + 1) _ (fun j => 1 / 2 * (nth j g 0 * cos (2 * PI * (2 * f) * (middle g - INR j))))).
    + rewrite total_scal. rewrite (total_ext (2 * q + 1) _ (fun j => if (j =? q)%nat then 1 / 2 else 0)).
      * rewrite total_single by lia. replace (2 * q + 1 + 1)%nat with (2 * q + 2)%nat by lia. field.
      * intros j Hj. rewrite N by lia. destruct (Nat.eqb_spec j q) as [->|Hne].
        { rewrite Nat.eqb_refl. unfold middle. rewrite Lh, !plus_INR, !mult_INR. cbn [INR]. replace (2 * PI * f * _) with 0 by field. rewrite cos_0. ring. }
        { destruct (Nat.eqb_spec (2 * j + 1) (2 * q + 1)); [lia|]. replace ((2 * j + 1) mod 2)%nat with 1%nat by (apply (Nat.mod_unique _ 2 j); lia). cbn [Nat.eqb]. ring. }
    + intros j Hj. rewrite N by lia. destruct (Nat.eqb_spec (2 * j) (2 * q + 1)); [lia|]. replace ((2 * j) mod 2)%nat with 0%nat by (apply (Nat.mod_unique _ 2 j); lia). cbn [Nat.eqb].
      replace ((2 * j) / 2)%nat with j by (apply (Nat.div_unique _ 2 _ 0); lia). rewrite Rmult_assoc. f_equal. f_equal. f_equal. unfold middle. rewrite Lh, Lg, !plus_INR, !mult_INR. cbn [INR]. field.
Qed.
Lemma hb_good (g : list R) n q : (n = 4 * q + 3 \/ n = 4 * q + 5)%nat -> length g = (2 * q + 2)%nat -> symmetric g ->
  exists h, design_hb (K := Rring) (1 / 2) (fun _ => g) n = Ok h /\ length h = n /\ symmetric h /\ nth (n / 2) h 0 = 1 / 2 /\ forall f, amp h f = (1 + amp g (2 * f)) / 2.
Proof.
  intros Hn Lg Sg.
  assert (LO : exists h : list R, hb_layout (K := Rring) (1 / 2) g (4 * q + 3) = Ok h /\ length h = (4 * q + 3)%nat /\ nth (2 * q + 1) h 0 = 1 / 2 /\ symmetric h /\ forall f, amp h f = (1 + amp g (2 * f)) / 2).
  { assert (M : ((4 * q + 3 - 1) / 2 = 2 * q + 1)%nat) by (symmetry; apply (Nat.div_unique _ 2 _ 0); lia).
    assert (M2 : ((4 * q + 3) mod 2 = 1)%nat) by (symmetry; apply (Nat.mod_unique _ 2 (2 * q + 1)); lia).
    assert (Lg' : length g = ((4 * q + 3 - 1) / 2 + 1)%nat) by (rewrite M; lia).
    destruct (hb_layout_ok Rring (1 / 2) g (4 * q + 3) M2 Lg') as (h & E & L & N). exists h. split; [exact E|]. split; [exact L|]. rewrite M in N.
    assert (N' : forall k, (k < 4 * q + 3)%nat -> nth k h 0 = if (k =? 2 * q + 1)%nat then 1 / 2 else if (k mod 2 =? 1)%nat then 0 else 1 / 2 * nth (k / 2) g 0) by exact N.
    split; [rewrite N' by lia; rewrite Nat.eqb_refl; reflexivity|]. exact (layout_amp g h q Lg Sg L N'). }
  assert (Lg' : @length (car Rring) g = (2 * q + 2)%nat) by exact Lg. destruct LO as (h0 & E0 & L0 & C0 & S0 & A0). unfold design_hb. destruct Hn as [->| ->].
  - replace ((4 * q + 3) mod 2)%nat with 1%nat by (apply (Nat.mod_unique _ 2 (2 * q + 1)); lia). cbn [Nat.eqb]. cbv zeta.
    replace ((4 * q + 3 - 1) / 2)%nat with (2 * q + 1)%nat by (apply (Nat.div_unique _ 2 _ 0); lia). replace ((2 * q + 1) mod 2)%nat with 1%nat by (apply (Nat.mod_unique _ 2 q); lia). cbn [Nat.eqb].
    rewrite Lg'. replace (2 * q + 2 =? 2 * q + 1 + 1)%nat with true by (symmetry; apply Nat.eqb_eq; lia). cbn [negb].
    match goal with |- context [bind ?o ?k] => change (bind o k) with (bind (hb_layout (K := Rring) (1 / 2) g (4 * q + 3)) k) end. rewrite E0. cbn [bind]. exists h0. repeat split; try assumption.
    replace ((4 * q + 3) / 2)%nat with (2 * q + 1)%nat by (apply (Nat.div_unique _ 2 _ 1); lia). exact C0.
  - replace ((4 * q + 5) mod 2)%nat with 1%nat by (apply (Nat.mod_unique _ 2 (2 * q + 2)); lia). cbn [Nat.eqb]. cbv zeta.
    replace ((4 * q + 5 - 1) / 2)%nat with (2 * q + 2)%nat by (apply (Nat.div_unique _ 2 _ 0); lia). replace ((2 * q + 2) mod 2)%nat with 0%nat by (apply (Nat.mod_unique _ 2 (q + 1)); lia). cbn [Nat.eqb].
    rewrite Lg'. replace (2 * q + 2 =? 2 * q + 2 - 1 + 1)%nat with true by (symmetry; apply Nat.eqb_eq; lia). cbn [negb].
    replace (4 * q + 5 - 2)%nat with (4 * q + 3)%nat by lia. rewrite E0. cbn [bind]. exists ((0 :: h0) ++ [0]). split; [reflexivity|]. rewrite pad_length, L0. split; [lia|]. split; [apply sym_pad; exact S0|].
    split; [|intros f; rewrite amp_pad; apply A0].
    replace ((4 * q + 5) / 2)%nat with (2 * q + 2)%nat by (apply (Nat.div_unique _ 2 _ 1); lia). rewrite nth_pad by lia. rewrite L0. destruct (Nat.eqb_spec (2 * q + 2) 0); [lia|]. destruct (Nat.eqb_spec (2 * q + 2) (4 * q + 3 + 1)); [lia|]. cbn [orb].
    replace (2 * q + 2 - 1)%nat with (2 * q + 1)%nat by lia. exact C0.
Qed.
Lemma ceil_gt r i : (Z.of_nat i < ceilZ r)%Z <-> INR i < r.
Proof.
  unfold ceilZ. destruct (base_Int_part (- r)) as [A B]. rewrite INR_IZR_INZ. split; intros H.
  - assert (H1 : (Int_part (- r) + 1 <= - Z.of_nat i)%Z) by lia. apply IZR_le in H1. rewrite plus_IZR, opp_IZR in H1. lra.
  - assert (H1 : IZR (Int_part (- r)) < IZR (- Z.of_nat i)) by (rewrite opp_IZR; lra). apply lt_IZR in H1. lia.
Qed.
Definition pass_weights (L : nat) (fc : R) : list R :=
  map (fun i => if Rlt_dec (INR i / (2 * INR L)) (2 * fc) then (if (i + 2 <? L)%nat then 1 else 0) else 0) (seq 0 L).
Lemma demi_bande_eq lsq n fc q : (n = 4 * q + 3 \/ n = 4 * q + 5)%nat ->
  design_demi_bande lsq n fc = (let L := (16 * (2 * q + 1))%nat in let* g := design_rif_eq lsq (2 * q + 2) (repeat 1 L) (pass_weights L fc) in design_hb (K := Rring) (1 / 2) (fun _ => g) n).
Proof.
  intros Hn. unfold design_demi_bande. assert (EV : Nat.even n = false) by (rewrite <- Nat.negb_odd; apply Bool.negb_false_iff, Nat.odd_spec; destruct Hn as [->| ->]; [exists (2 * q + 1)%nat|exists (2 * q + 2)%nat]; lia). rewrite EV. cbv zeta.
  assert (EM : (if Nat.odd ((n - 1) / 2) then (n - 1) / 2 else (n - 1) / 2 - 1)%nat = (2 * q + 1)%nat).
  { destruct Hn as [->| ->].
    - replace ((4 * q + 3 - 1) / 2)%nat with (2 * q + 1)%nat by (apply (Nat.div_unique _ 2 _ 0); lia). replace (Nat.odd (2 * q + 1)) with true; [reflexivity|]. symmetry. apply Nat.odd_spec. exists q. lia.
    - replace ((4 * q + 5 - 1) / 2)%nat with (2 * q + 2)%nat by (apply (Nat.div_unique _ 2 _ 0); lia). replace (Nat.odd (2 * q + 2)) with false; [lia|]. symmetry. rewrite <- Nat.negb_even. apply Bool.negb_false_iff, Nat.even_spec. exists (q + 1)%nat. lia. }
  rewrite EM. set (L := (16 * (2 * q + 1))%nat). assert (HL : (16 <= L)%nat) by (unfold L; lia). replace (2 * q + 1 + 1)%nat with (2 * q + 2)%nat by lia.
  set (idp := Z.max 0 (Z.min (ceilZ (2 * fc * INR L / (1 / 2))) (Z.of_nat L - 2))). assert (B : (0 <= idp <= Z.of_nat L - 2)%Z) by (unfold idp; lia).
  assert (EW : set_segZ (repeat 1 L) idp (Z.of_nat L - idp) (fun _ => 0) = Ok (pass_weights L fc)).
  { rewrite <- (Z2Nat.id idp) by lia. set (m := Z.to_nat idp). replace (Z.of_nat L - Z.of_nat m)%Z with (Z.of_nat (L - m)) by lia. replace (repeat 1 L) with (tab L (fun _ => 1)) by (symmetry; apply (list_ext 0); [rewrite repeat_length, tab_length; reflexivity|]; intros i Hi; rewrite repeat_length in Hi; rewrite tab_nth by exact Hi; rewrite (nth_indep _ 0 1) by (rewrite repeat_length; exact Hi); apply nth_repeat).
    rewrite set_segZ_tab by lia. f_equal. apply tab_ext. intros i Hi. assert (P : 0 < INR L) by (apply lt_0_INR; lia).
    assert (Q : INR i / (2 * INR L) < 2 * fc <-> (Z.of_nat i < ceilZ (2 * fc * INR L / (1 / 2)))%Z).
    { rewrite ceil_gt. replace (2 * fc * INR L / (1 / 2)) with (2 * fc * (2 * INR L)) by field. replace (INR i) with (INR i / (2 * INR L) * (2 * INR L)) at 2 by (field; lra). split; intros H.
      - apply Rmult_lt_compat_r; lra.
      - apply (Rmult_lt_reg_r (2 * INR L)); lra. }
    destruct (Rlt_dec (INR i / (2 * INR L)) (2 * fc)) as [T|T]; [apply Q in T|assert (T' : ~ (Z.of_nat i < ceilZ (2 * fc * INR L / (1 / 2)))%Z) by (intros X; apply T, Q, X)];
      destruct (Nat.leb_spec m i); destruct (Nat.ltb_spec i (m + (L - m))); cbn [andb]; try (destruct (Nat.ltb_spec (i + 2) L)); try reflexivity; unfold m, idp in *; exfalso; lia. }
  rewrite EW. cbn [bind]. reflexivity.
Qed.
Lemma quarter n : (3 <= n)%nat -> Nat.odd n = true -> exists q, (n = 4 * q + 3 \/ n = 4 * q + 5)%nat.
Proof.
  intros H O. apply Nat.odd_spec in O. destruct O as [j ->]. destruct (Nat.Even_or_Odd j) as [[i ->]|[i ->]]; [exists (i - 1)%nat; right; lia|exists i; left; lia].
Qed.

(** ** A target that some filter attains exactly *)
Lemma total_zero_each n f : (forall i, (i < n)%nat -> 0 <= f i) -> total n f <= 0 -> forall i, (i < n)%nat -> f i = 0.
Proof.
  induction n as [|n IH]; intros H T i Hi; [lia|]. cbn [total] in T. pose proof (H n ltac:(lia)) as A. assert (B : 0 <= total n f) by (apply total_pos; intros; apply H; lia).
  destruct (Nat.eq_dec i n) as [->|]; [lra|]. apply IH; [intros; apply H; lia|lra|lia].
Qed.
Lemma vmax_zero l : (forall i, (i < length l)%nat -> nth i l 0 = 0) -> vmax l = 0.
Proof.
  assert (G : forall l a, a = 0 -> (forall i, (i < length l)%nat -> nth i l 0 = 0) -> fold_left Rmax l a = 0).
  { induction l0 as [|b l0 IH]; intros a Ha H; [exact Ha|]. cbn [fold_left]. apply IH; [|intros i Hi; apply (H (S i)); cbn; lia]. pose proof (H 0%nat ltac:(cbn; lia)) as Hb. cbn in Hb. subst. apply Rmax_left. lra. }
  destruct l as [|a l]; [reflexivity|]. intros H. cbn [vmax]. apply G; [exact (H 0%nat ltac:(cbn; lia))|intros i Hi; apply (H (S i)); cbn; lia].
Qed.
Lemma exact_ub lsq nc D W h' : least_squares lsq -> (0 < length D)%nat -> length W = length D -> length h' = nc -> symmetric h' ->
  (forall i, (i < length D)%nat -> amp h' (INR i / (2 * INR (length D))) = nth i D 0) -> design_rif_eq lsq nc D W = UB.
Proof.
  intros Hl HD HW Lh Sh HE. unfold design_rif_eq. rewrite HW, Nat.eqb_refl. cbn [negb]. set (n := length D) in *. set (A := eq_matrix nc n).
  assert (LA : length A = n) by apply eq_matrix_length. assert (RA : Forall (fun r => length r = ((nc + 1) / 2)%nat) A) by apply eq_matrix_rows.
  destruct (Hl A D ((nc + 1) / 2)%nat ltac:(lia) ltac:(rewrite LA; reflexivity) RA) as [Lx HM]. set (x := lsq A D) in *.
  assert (Lf : length (firstn ((nc + 1) / 2) h') = ((nc + 1) / 2)%nat).
  { rewrite firstn_length, Lh. apply Nat.min_l. pose proof (Nat.div_mod (nc + 1) 2 ltac:(lia)). destruct nc; [cbn; lia|lia]. }
  specialize (HM _ Lf). unfold sq_error in HM. rewrite LA in HM. rewrite (total_ext n (fun i => residual A D (firstn _ h') i ^ 2) (fun _ => 0)) in HM.
  2: { intros i Hi. assert (E0 : residual A D (firstn ((nc + 1) / 2) h') i = 0); [|rewrite E0; ring]. unfold residual. rewrite <- (HE i Hi). rewrite <- (row_amp h' n i Sh HD Hi). cbv zeta. rewrite Lf, Lh. unfold A.
       rewrite (total_ext _ _ (fun k => nth k (nth i (eq_matrix nc n) []) 0 * nth k h' 0)); [ring|]. intros k Hk. rewrite nth_firstn' by exact Hk. reflexivity. }
  rewrite total_const, Rmult_0_r in HM. assert (Z : forall i, (i < n)%nat -> residual A D x i = 0).
  { intros i Hi. pose proof (total_zero_each n _ (fun j _ => pow2_ge_0 (residual A D x j)) HM i Hi) as Q. cbn in Q. nra. }
  assert (EL : lsi lsq A D W = UB); [|rewrite EL; reflexivity].
  unfold lsi. rewrite LA. fold n. rewrite Nat.eqb_refl. cbn [negb]. rewrite HW. fold n. rewrite Nat.eqb_refl. cbn [negb]. cbv zeta. fold x. change 100%nat with (S 99). generalize 99%nat. intros fuel. cbn [lsi_loop]. cbv zeta.
  destruct (Req_EM_T _ 0) as [_|NE]; [reflexivity|]. exfalso. apply NE. apply vmax_zero. intros i Hi.
  assert (L1 : length (zipr Rminus (matvec A x) D) = n) by (unfold matvec; rewrite zipr_length, map_length, LA; apply Nat.min_id).
  rewrite zipr_length, L1, HW in Hi. fold n in Hi. rewrite Nat.min_id in Hi. rewrite zipr_nth by (rewrite L1; first [symmetry; exact HW|exact Hi]). rewrite zipr_nth by (unfold matvec; rewrite map_length, LA; first [reflexivity|exact Hi]).
  unfold matvec. rewrite (Fourier_Proofs.map_nth0 (fun r => dot r x) A i []) by (rewrite LA; exact Hi). rewrite dot_total by (rewrite Lx; rewrite Forall_forall in RA; apply RA, nth_In; rewrite LA; exact Hi).
  pose proof (Z i Hi) as Q. unfold residual in Q. rewrite Q, Rabs_R0. ring.
Qed.

(** ** Bands *)
Definition placed (l : nat) (s : band) (g : gband) : Prop := on_grid l (b_fb s) (b_fh s) (b_att s) (b_w s) g.
Lemma nearest_round f l j : 0 <= f -> nearest (2 * f * INR l) j -> roundZ (2 * f * INR l) = Z.of_nat j.
Proof.
  intros Hf H. assert (P : 0 <= 2 * f * INR l) by (pose proof (pos_INR l); nra). pose proof (roundZ_near j _ H P) as E. rewrite <- E. symmetry. apply Z2Nat.id.
  unfold roundZ. destruct (Rle_dec 0 (2 * f * INR l)) as [_|]; [|lra]. destruct (base_Int_part (2 * f * INR l + 1 / 2)) as [A B]. assert (Q : (-1 < Int_part (2 * f * INR l + 1 / 2))%Z) by (apply lt_IZR; lra). lia.
Qed.
Lemma placed_matches l s g : (0 < l)%nat -> placed l s g -> matches l s g.
Proof.
  destruct g as [[[lo hi] a] w]. intros Hl (P0 & P1 & (hi' & P2 & P3 & P4) & P5 & P6). cbn [matches]. split; [apply nearest_round; assumption|]. split; [|split; assumption]. rewrite (nearest_round _ _ hi') by assumption. rewrite P4. lia.
Qed.
Lemma target_ok nc spec g : (0 < nc)%nat -> Forall2 (placed (16 * nc)) spec g -> ordered (16 * nc) 0 g ->
  eq_target nc spec = Ok (map (level_at g) (seq 0 (16 * nc)), map (weight_at g) (seq 0 (16 * nc))).
Proof.
  intros Hn HF Ho. unfold eq_target. assert (Hl : (0 < 16 * nc)%nat) by lia. revert Hl HF Ho. generalize (16 * nc)%nat. intros l Hl HF Ho.
  assert (RT : forall v, repeat v l = tab l (fun _ => v)).
  { intros v. apply (list_ext 0); [rewrite repeat_length, tab_length; reflexivity|]. intros i Hi. rewrite repeat_length in Hi. rewrite tab_nth by exact Hi. rewrite (nth_indep _ 0 v) by (rewrite repeat_length; exact Hi). apply nth_repeat. }
  rewrite !RT. assert (HM : Forall2 (matches l) spec g) by (clear -HF Hl; induction HF; constructor; [apply placed_matches; assumption|assumption]).
  rewrite (bands_ok l spec g 0 (fun _ => 1) (fun _ => eps) HM Ho). f_equal. f_equal; apply tab_ext; intros k _; [apply levelM_1|apply weightM_1].
Qed.
Lemma nyquist_exc nc s1 s2 rest lo hi a w : (0 < nc)%nat -> placed (16 * nc) s1 (lo, hi, a, w) -> (lo <= hi)%nat -> 0 <= b_fb s2 -> nearest (2 * b_fb s2 * INR (16 * nc)) (16 * nc) ->
  eq_target nc (s1 :: s2 :: rest) = Exc.
Proof.
  intros Hn HP Hlh Hf2 HN. unfold eq_target. assert (Hl : (0 < 16 * nc)%nat) by lia. revert Hl HP HN. generalize (16 * nc)%nat. intros l Hl HP HN.
  pose proof (placed_matches l s1 _ Hl HP) as (E1 & E2 & _ & _). cbn [eq_bands]. cbv zeta. rewrite E1, E2. rewrite (nearest_round _ _ l Hf2 HN).
  assert (Hh : (hi < l)%nat) by lia. rewrite Z.min_l by lia. replace (Z.of_nat hi - Z.of_nat lo + 1)%Z with (Z.of_nat (hi - lo + 1)) by lia.
  assert (RT : forall v, repeat v l = tab l (fun _ => v)).
  { intros v. apply (list_ext 0); [rewrite repeat_length, tab_length; reflexivity|]. intros i Hi. rewrite repeat_length in Hi. rewrite tab_nth by exact Hi. rewrite (nth_indep _ 0 v) by (rewrite repeat_length; exact Hi). apply nth_repeat. }
  rewrite !RT, !set_segZ_tab by lia. cbn [bind].
  match goal with |- bind ?o _ = _ => assert (EE : o = Exc) end; [|rewrite EE; reflexivity].
  unfold set_segZ. destruct (Z.ltb_spec (Z.of_nat l - Z.of_nat hi + 1) 0); [lia|]. destruct (Z.ltb_spec (Z.of_nat hi) 0); [lia|]. unfold set_seg. rewrite map_length, seq_length, tab_length. destruct (Nat.leb_spec (Z.to_nat (Z.of_nat hi) + Z.to_nat (Z.of_nat l - Z.of_nat hi + 1)) l); [lia|reflexivity].
Qed.
