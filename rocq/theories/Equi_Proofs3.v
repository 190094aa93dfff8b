From Coq Require Import List Arith ZArith Reals Lia Lra Field.
From Verif Require Import Base BaseLemmas ComplexSys RField Filters_Model Filters_Proofs Fourier_Proofs Chn_Spec Chn_Proofs Vec_Model Fdt_Model Fdt_Proofs Fdt_Proofs2 Fdt_Proofs3 Fdt_Proofs4
  Equi_Model Equi_Spec Equi_Proofs.
Import ListNotations.
Local Open Scope R_scope.

Lemma dot_total r x : length r = length x -> dot r x = total (length x) (fun k => nth k r 0 * nth k x 0).
Proof.
  revert r. induction x as [|a x IH]; intros [|b r] H; try discriminate; [reflexivity|]. cbn [length] in *. rewrite total_S_l. cbn [nth]. unfold dot in *. cbn [combine fold_right fst snd]. rewrite IH by lia. reflexivity.
Qed.
Lemma zipr_length f a b : length (zipr f a b) = Nat.min (length a) (length b).
Proof. unfold zipr. rewrite map_length, combine_length. reflexivity. Qed.
Lemma zipr_nth f a b i : length a = length b -> (i < length a)%nat -> nth i (zipr f a b) 0 = f (nth i a 0) (nth i b 0).
Proof.
  intros H Hi. unfold zipr. rewrite (Fourier_Proofs.map_nth0 (fun p => f (fst p) (snd p)) (combine a b) i (0, 0)) by (rewrite combine_length; lia). rewrite combine_nth by exact H. reflexivity.
Qed.
Lemma zipr_rows_length p A : length (zipr_rows p A) = Nat.min (length p) (length A).
Proof. unfold zipr_rows. rewrite map_length, combine_length. reflexivity. Qed.
Lemma zipr_rows_nth p A i : length p = length A -> (i < length A)%nat -> nth i (zipr_rows p A) [] = map (fun v => nth i p 0 * v) (nth i A []).
Proof.
  intros H Hi. unfold zipr_rows. rewrite (Fourier_Proofs.map_nth0 (fun q : R * list R => map (fun v => fst q * v) (snd q)) (combine p A) i (0, [])) by (rewrite combine_length; lia). rewrite combine_nth by exact H. reflexivity.
Qed.
Lemma rows_forall p A m : Forall (fun r => length r = m) A -> Forall (fun r => length r = m) (zipr_rows p A).
Proof.
  intros H. unfold zipr_rows. apply Forall_forall. intros r Hr. apply in_map_iff in Hr. destruct Hr as [[a q] [<- Hq]]. apply in_combine_r in Hq. rewrite Forall_forall in H. cbn. rewrite map_length. apply H. exact Hq.
Qed.
Lemma vmin_le l i : (i < length l)%nat -> vmin l <= nth i l 0.
Proof.
  assert (G : forall l a, fold_left Rmin l a <= a /\ forall i, (i < length l)%nat -> fold_left Rmin l a <= nth i l 0).
  { induction l0 as [|b l0 IH]; intros a; cbn [fold_left length]; [split; [lra|lia]|]. destruct (IH (Rmin a b)) as [A B]. pose proof (Rmin_l a b). pose proof (Rmin_r a b). split; [lra|].
    intros [|i'] Hi; cbn [nth]; [lra|apply B; lia]. }
  destruct l as [|a l]; [cbn; lia|]. intros Hi. destruct (G l a) as [A B]. destruct i as [|i]; cbn [vmin nth]; [exact A|apply B; cbn in Hi; lia].
Qed.
Lemma vmax_ge l i : (i < length l)%nat -> nth i l 0 <= vmax l.
Proof.
  assert (G : forall l a, a <= fold_left Rmax l a /\ forall i, (i < length l)%nat -> nth i l 0 <= fold_left Rmax l a).
  { induction l0 as [|b l0 IH]; intros a; cbn [fold_left length]; [split; [lra|lia]|]. destruct (IH (Rmax a b)) as [A B]. pose proof (Rmax_l a b). pose proof (Rmax_r a b). split; [lra|].
    intros [|i'] Hi; cbn [nth]; [lra|apply B; lia]. }
  destruct l as [|a l]; [cbn; lia|]. intros Hi. destruct (G l a) as [A B]. destruct i as [|i]; cbn [vmax nth]; [exact A|apply B; cbn in Hi; lia].
Qed.
Definition all_pos (p : list R) : Prop := forall i, (i < length p)%nat -> 0 < nth i p 0.
Lemma vsum_pos p : (0 < length p)%nat -> all_pos p -> 0 < vsum p.
Proof.
  destruct p as [|a p]; [cbn; lia|]. intros _ H. pose proof (H 0%nat ltac:(cbn; lia)) as Ha. cbn in Ha. unfold vsum. cbn [fold_right].
  assert (0 <= fold_right Rplus 0 p); [|lra]. assert (Hp : all_pos p) by (intros i Hi; apply (H (S i)); cbn; lia). clear H Ha. revert Hp. induction p as [|b p IH]; intros Hp; cbn [fold_right]; [lra|].
  pose proof (Hp 0%nat ltac:(cbn; lia)) as Hb. cbn in Hb. assert (0 <= fold_right Rplus 0 p) by (apply IH; intros i Hi; apply (Hp (S i)); cbn; lia). lra.
Qed.

(** ** Iterations *)
Lemma lsi_loop_ok lsq A b w fuel : (0 < length A)%nat -> length b = length A -> length w = length A -> (exists m, Forall (fun r => length r = m) A /\ forall p, length p = length A -> length (lsq (zipr_rows p A) (zipr Rmult b p)) = m) ->
  forall p x y, length p = length A -> all_pos p -> x = lsq (zipr_rows p A) (zipr Rmult b p) ->
  lsi_loop lsq A b w fuel p x = Ok y -> exists p', length p' = length A /\ all_pos p' /\ y = lsq (zipr_rows p' A) (zipr Rmult b p').
Proof.
  intros HA Hb Hw Hm. induction fuel as [|fuel IH]; intros p x y Hp Pp Ex E.
  - cbn in E. injection E as <-. exists p. repeat split; assumption.
  - cbn [lsi_loop] in E. cbv zeta in E. set (Ea := zipr (fun e w => Rabs e * w) (zipr Rminus (matvec A x) b) w) in *.
    assert (LE : length Ea = length A) by (unfold Ea, matvec; rewrite !zipr_length, map_length; lia).
    destruct (Req_EM_T (vmax Ea) 0); [discriminate|]. destruct (Rlt_dec _ _); [injection E as <-; exists p; repeat split; assumption|].
    destruct (Req_EM_T (vmax Ea - vmin Ea) 0) as [|NZ]; [discriminate|].
    set (p1 := zipr (fun p ea => p * (1 + 1 / 2 / (vmax Ea - vmin Ea) * (ea - vmin Ea))) p Ea) in *.
    assert (L1 : length p1 = length A) by (unfold p1; rewrite zipr_length; lia).
    assert (P1 : all_pos p1).
    { intros i Hi. rewrite L1 in Hi. unfold p1. rewrite zipr_nth by lia. pose proof (Pp i ltac:(lia)) as Q. pose proof (vmin_le Ea i ltac:(lia)) as B1. pose proof (vmax_ge Ea i ltac:(lia)) as B2.
      apply Rmult_lt_0_compat; [exact Q|]. assert (0 <= 1 / 2 / (vmax Ea - vmin Ea) * (nth i Ea 0 - vmin Ea)); [|lra].
      apply Rmult_le_pos; [|lra]. apply Rmult_le_pos; [lra|]. left. apply Rinv_0_lt_compat. lra. }
    refine (IH (map (fun v => v / vsum p1) p1) _ y _ _ eq_refl E); [rewrite map_length; exact L1|].
    intros i Hi. rewrite map_length in Hi. rewrite (Fourier_Proofs.map_nth0 (fun v => v / vsum p1) p1 i 0) by exact Hi. apply Rmult_lt_0_compat; [apply P1; exact Hi|]. apply Rinv_0_lt_compat, vsum_pos; [lia|exact P1].
Qed.
Lemma ones_rows A : zipr_rows (repeat 1 (length A)) A = A.
Proof. induction A as [|r A IH]; [reflexivity|]. unfold zipr_rows in *. cbn [length repeat combine map fst snd]. rewrite IH. f_equal. rewrite (map_ext _ (fun v => v)) by (intros; ring). apply map_id. Qed.
Lemma ones_mul b n : n = length b -> zipr Rmult b (repeat 1 n) = b.
Proof. intros ->. induction b as [|v b IH]; [reflexivity|]. unfold zipr in *. cbn [length repeat combine map fst snd]. rewrite IH. f_equal. ring. Qed.
Lemma weighted_error A b p x m : length p = length A -> length b = length A -> Forall (fun r => length r = m) A -> length x = m ->
  sq_error (zipr_rows p A) (zipr Rmult b p) x = total (length A) (fun i => nth i p 0 ^ 2 * residual A b x i ^ 2).
Proof.
  intros Hp Hb HF Hx. unfold sq_error. rewrite zipr_rows_length, Hp, Nat.min_id. apply total_ext. intros i Hi. unfold residual. rewrite zipr_rows_nth by assumption. rewrite zipr_nth by lia.
  assert (LR : length (nth i A []) = m) by (rewrite Forall_forall in HF; apply HF, nth_In; exact Hi).
  rewrite (total_ext (length x) _ (fun k => nth i p 0 * (nth k (nth i A []) 0 * nth k x 0))).
  - rewrite total_scal. ring.
  - intros k Hk. rewrite (Fourier_Proofs.map_nth0 (fun v => nth i p 0 * v) (nth i A []) k 0) by lia. ring.
Qed.
Lemma lsi_fuel lsq A b w y : lsi lsq A b w = Ok y -> length A = length b /\ length A = length w /\ exists fuel, lsi_loop lsq A b w fuel (repeat 1 (length A)) (lsq A b) = Ok y.
Proof.
  unfold lsi. destruct (Nat.eqb_spec (length A) (length b)) as [Hb|]; [|discriminate]. destruct (Nat.eqb_spec (length A) (length w)) as [Hw|]; [|discriminate].
  generalize 100%nat. intros fuel E. split; [exact Hb|]. split; [exact Hw|]. exists fuel. exact E.
Qed.
Lemma lsi_ok lsq A b w m y : least_squares lsq -> (0 < length A)%nat -> Forall (fun r => length r = m) A -> lsi lsq A b w = Ok y ->
  length b = length A /\ length w = length A /\ length y = m /\ exists p, length p = length A /\ all_pos p /\
  forall x, length x = m -> total (length A) (fun i => nth i p 0 ^ 2 * residual A b y i ^ 2) <= total (length A) (fun i => nth i p 0 ^ 2 * residual A b x i ^ 2).
Proof.
  intros Hl HA HF E0. destruct (lsi_fuel lsq A b w y E0) as (Hb & Hw & fuel & E). clear E0.
  assert (LS : forall p, length p = length A -> length (lsq (zipr_rows p A) (zipr Rmult b p)) = m /\ forall x, length x = m -> sq_error (zipr_rows p A) (zipr Rmult b p) (lsq (zipr_rows p A) (zipr Rmult b p)) <= sq_error (zipr_rows p A) (zipr Rmult b p) x).
  { intros p Hp. apply Hl; [rewrite zipr_rows_length; lia|rewrite zipr_length, zipr_rows_length; lia|apply rows_forall; exact HF]. }
  destruct (lsi_loop_ok lsq A b w fuel HA ltac:(lia) ltac:(lia) (ex_intro _ m (Logic.conj HF (fun p Hp => proj1 (LS p Hp)))) (repeat 1 (length A)) (lsq A b) y) as [p [Hp [Pp Ey]]].
  - apply repeat_length.
  - intros i Hi. rewrite repeat_length in Hi. rewrite (nth_indep _ 0 1) by (rewrite repeat_length; exact Hi). rewrite nth_repeat. lra.
  - rewrite ones_rows, ones_mul by exact Hb. reflexivity.
  - exact E.
  - split; [lia|]. split; [lia|]. destruct (LS p Hp) as [L1 L2]. rewrite <- Ey in L1, L2. split; [exact L1|]. exists p. split; [exact Hp|]. split; [exact Pp|]. intros x Hx.
    specialize (L2 x Hx). rewrite !(weighted_error A b p _ m) in L2 by (first [assumption|lia]). exact L2.
Qed.

(** ** Taps *)
Lemma eq_matrix_length nc n : length (eq_matrix nc n) = n.
Proof. unfold eq_matrix. rewrite map_length, seq_length. reflexivity. Qed.
Lemma eq_matrix_rows nc n : Forall (fun r => length r = ((nc + 1) / 2)%nat) (eq_matrix nc n).
Proof. apply Forall_forall. intros r Hr. unfold eq_matrix in Hr. apply in_map_iff in Hr. destruct Hr as [i [<- _]]. cbv zeta. rewrite map_length, seq_length. reflexivity. Qed.
Lemma eq_matrix_nth nc n i k : (i < n)%nat -> (k < (nc + 1) / 2)%nat -> nth k (nth i (eq_matrix nc n) []) 0 =
  if ((k =? (nc + 1) / 2 - 1)%nat && Nat.odd nc)%bool then 1 else 2 * cos (INR i * PI / INR n * (INR k - (INR nc - 1) / 2)).
Proof.
  intros Hi Hk. unfold eq_matrix. rewrite (Fourier_Proofs.map_nth0 _ (seq 0 n) i 0%nat) by (rewrite seq_length; exact Hi). rewrite seq_nth, Nat.add_0_l by exact Hi. cbv zeta.
  rewrite (Fourier_Proofs.map_nth0 _ (seq 0 ((nc + 1) / 2)) k 0%nat) by (rewrite seq_length; exact Hk). rewrite seq_nth, Nat.add_0_l by exact Hk. reflexivity.
Qed.
Lemma half_odd q : ((2 * q + 1) / 2 = q /\ (2 * q + 1 + 1) / 2 = q + 1)%nat.
Proof. split; [rewrite Nat.mul_comm, Nat.div_add_l by lia; cbn; lia|]. replace (2 * q + 1 + 1)%nat with ((q + 1) * 2)%nat by lia. apply Nat.div_mul. lia. Qed.
Lemma half_even q : ((2 * q) / 2 = q /\ (2 * q + 1) / 2 = q)%nat.
Proof. split; [rewrite Nat.mul_comm; apply Nat.div_mul; lia|apply half_odd]. Qed.
Lemma row_amp h n i : symmetric h -> (0 < n)%nat -> (i < n)%nat -> let nc := length h in
  total ((nc + 1) / 2) (fun k => nth k (nth i (eq_matrix nc n) []) 0 * nth k h 0) = amp h (INR i / (2 * INR n)).
Proof.
  cbv zeta. intros Hs Hn Hi. assert (P : 0 < INR n) by (apply lt_0_INR; exact Hn). set (nc := length h). rewrite amp_ampc. unfold ampc. fold nc. rewrite (total_half nc).
  set (w := 2 * PI * (INR i / (2 * INR n))). assert (Ew : w = INR i * PI / INR n) by (unfold w; field; lra).
  assert (T : forall k, (k < nc / 2)%nat -> nth k h 0 * cos (w * (middle h - INR k)) + nth (nc - 1 - k) h 0 * cos (w * (middle h - INR (nc - 1 - k))) = 2 * cos (INR i * PI / INR n * (INR k - (INR nc - 1) / 2)) * nth k h 0).
  { intros k Hk. assert (k < nc)%nat by (pose proof (Nat.div_le_upper_bound nc 2 nc); lia). unfold nc at 1. rewrite (Hs k) by assumption. unfold nc at 1. rewrite mid_rev by assumption. rewrite Ropp_mult_distr_r_reverse, cos_neg.
    rewrite <- Ew. replace (w * (INR k - (INR nc - 1) / 2)) with (- (w * (middle h - INR k))) by (unfold middle; fold nc; ring). rewrite cos_neg. ring. }
  destruct (Nat.odd nc) eqn:O.
  - assert (O' := O). apply Nat.odd_spec in O. destruct O as [q E]. destruct (half_odd q) as [E1 E2]. rewrite E in *. rewrite E1, E2 in *. rewrite Nat.add_1_r. cbn [total]. f_equal.
    + apply total_ext. intros k Hk. rewrite (T k Hk). rewrite eq_matrix_nth by (rewrite ?E2; lia). rewrite E2. destruct (Nat.eqb_spec k (q + 1 - 1)); [lia|]. cbn [andb]. reflexivity.
    + rewrite eq_matrix_nth by (rewrite ?E2; lia). rewrite E2, O'. destruct (Nat.eqb_spec q (q + 1 - 1)); [|lia]. cbn [andb]. 
      pose proof (mid_odd h) as MO. fold nc in MO. rewrite E in MO. rewrite E1 in MO. rewrite (MO O'). rewrite Rmult_0_r, cos_0. ring.
  - assert (E : Nat.even nc = true) by (rewrite <- Nat.negb_odd, O; reflexivity). apply Nat.even_spec in E. destruct E as [q E]. destruct (half_even q) as [E1 E2]. rewrite E in *. rewrite E1, E2 in *. rewrite Rplus_0_r.
    apply total_ext. intros k Hk. rewrite (T k Hk). rewrite eq_matrix_nth by (rewrite ?E2; lia). rewrite O, andb_false_r. reflexivity.
Qed.
Lemma firstn_tab (x : list R) m : (m <= length x)%nat -> firstn m x = tab m (fun k => nth k x 0).
Proof. intros H. apply (list_ext 0); [rewrite firstn_length, tab_length; lia|]. intros i Hi. rewrite firstn_length in Hi. rewrite nth_firstn' by lia. rewrite tab_nth by lia. reflexivity. Qed.
Lemma rev_tab m g : rev (tab m g) = tab m (fun k => g (m - 1 - k)%nat).
Proof.
  apply (list_ext 0); [rewrite rev_length, !tab_length; reflexivity|]. intros i Hi. rewrite rev_length, tab_length in Hi. rewrite rev_nth by (rewrite tab_length; exact Hi). rewrite tab_length, !tab_nth by lia. f_equal. lia.
Qed.
Definition taps_of (nc : nat) (x : list R) : list R := tab nc (fun k => if (k <? nc - nc / 2)%nat then nth k x 0 else nth (nc - 1 - k) x 0).
Lemma taps_ok nc x : length x = ((nc + 1) / 2)%nat ->
  (let* a := hd_get x (nc / 2) in let* h := hd_set (repeat 0 nc) (nc / 2) a in let* h := tl_set h (nc / 2) (rev a) in
   if Nat.odd nc then let* c := vget x (nc / 2) in vset h (nc / 2) c else Ok h) = Ok (taps_of nc x).
Proof.
  intros Hx. assert (D : exists q, (nc = 2 * q /\ Nat.odd nc = false /\ nc / 2 = q /\ (nc + 1) / 2 = q)%nat \/ (nc = 2 * q + 1 /\ Nat.odd nc = true /\ nc / 2 = q /\ (nc + 1) / 2 = q + 1)%nat).
  { destruct (Nat.odd nc) eqn:O.
    - assert (O' := O). apply Nat.odd_spec in O. destruct O as [q ->]. exists q. right. destruct (half_odd q). repeat split; assumption.
    - assert (E : Nat.even nc = true) by (rewrite <- Nat.negb_odd, O; reflexivity). apply Nat.even_spec in E. destruct E as [q ->]. exists q. left. destruct (half_even q). repeat split; assumption. }
  destruct D as [q D]. assert (Hq : (nc / 2 = q)%nat) by (destruct D as [D|D]; lia). assert (Hl : (q <= length x)%nat) by (destruct D as [D|D]; lia). assert (Hn : (2 * q <= nc)%nat) by (destruct D as [D|D]; lia). unfold taps_of. rewrite Hq.
  unfold hd_get, seg. destruct (Nat.leb_spec (0 + q) (length x)); [|lia]. cbn [bind skipn]. rewrite firstn_tab by exact Hl. unfold hd_set. rewrite tab_zero, set_seg_tab by lia. cbn [bind].
  unfold tl_set. rewrite tab_length. destruct (Nat.ltb_spec nc q); [lia|]. rewrite rev_tab, set_seg_tab by lia. cbn [bind].
  destruct D as [(D1 & D2 & _ & D3)|(D1 & D2 & _ & D3)]; rewrite D2.
  - f_equal. apply tab_ext. intros k Hk. destruct (Nat.leb_spec (nc - q) k); destruct (Nat.ltb_spec k (nc - q + q)); destruct (Nat.ltb_spec k (nc - q)); cbn [andb]; try lia.
    + f_equal. lia.
    + destruct (Nat.leb_spec 0 k); destruct (Nat.ltb_spec k (0 + q)); cbn [andb]; try lia. rewrite Nat.sub_0_r. reflexivity.
  - rewrite (vget_ok x q 0) by lia. cbn [bind]. rewrite vset_ok by (rewrite tab_length; lia). f_equal. apply (list_ext 0); [rewrite upd_length, !tab_length; reflexivity|].
    intros k Hk. rewrite upd_length, tab_length in Hk. rewrite nth_upd, tab_length, (Nat.eqb_sym q k). rewrite !tab_nth by exact Hk.
    destruct (Nat.eqb_spec k q) as [->|Hne].
    + destruct (Nat.ltb_spec q nc); [|lia]. cbn [andb]. destruct (Nat.ltb_spec q (nc - q)); [reflexivity|lia].
    + cbn [andb]. destruct (Nat.leb_spec (nc - q) k); destruct (Nat.ltb_spec k (nc - q + q)); destruct (Nat.ltb_spec k (nc - q)); cbn [andb]; try lia.
      * f_equal. lia.
      * destruct (Nat.leb_spec 0 k); destruct (Nat.ltb_spec k (0 + q)); cbn [andb]; try lia. rewrite Nat.sub_0_r. reflexivity.
Qed.
Lemma taps_sym nc x : symmetric (taps_of nc x) /\ length (taps_of nc x) = nc /\ forall k, (k < (nc + 1) / 2)%nat -> nth k (taps_of nc x) 0 = nth k x 0.
Proof.
  assert (Hm : ((nc + 1) / 2 + nc / 2 = nc)%nat).
  { destruct (Nat.odd nc) eqn:O.
    - apply Nat.odd_spec in O. destruct O as [q ->]. destruct (half_odd q). lia.
    - assert (E : Nat.even nc = true) by (rewrite <- Nat.negb_odd, O; reflexivity). apply Nat.even_spec in E. destruct E as [q ->]. destruct (half_even q). lia. }
  assert (Hd : (nc / 2 <= (nc + 1) / 2 <= nc / 2 + 1)%nat). { split; [apply Nat.div_le_mono; lia|]. pose proof (Nat.div_mod nc 2 ltac:(lia)). pose proof (Nat.mod_upper_bound nc 2 ltac:(lia)). lia. }
  unfold taps_of. split; [|split; [apply tab_length|intros k Hk; rewrite tab_nth by lia; destruct (Nat.ltb_spec k (nc - nc / 2)); [reflexivity|lia]]].
  intros k Hk. rewrite tab_length in *. rewrite !tab_nth by lia.
  destruct (Nat.ltb_spec k (nc - nc / 2)); destruct (Nat.ltb_spec (nc - 1 - k) (nc - nc / 2)); try lia.
  - f_equal. lia.
  - f_equal. lia.
  - reflexivity.
Qed.
Lemma design_ok lsq nc D W h : least_squares lsq -> (0 < length D)%nat -> design_rif_eq lsq nc D W = Ok h ->
  length W = length D /\ length h = nc /\ symmetric h /\ exists p, length p = length D /\ all_pos p /\
  forall h', length h' = nc -> symmetric h' ->
    total (length D) (fun i => nth i p 0 ^ 2 * (amp h (INR i / (2 * INR (length D))) - nth i D 0) ^ 2) <=
    total (length D) (fun i => nth i p 0 ^ 2 * (amp h' (INR i / (2 * INR (length D))) - nth i D 0) ^ 2).
Proof.
  intros Hl HD E. unfold design_rif_eq in E. destruct (Nat.eqb_spec (length W) (length D)) as [HW|]; [|discriminate]. cbn [negb] in E. set (n := length D) in *.
  destruct (lsi lsq (eq_matrix nc n) D W) as [x| | |] eqn:EL; try discriminate. cbn [bind] in E.
  destruct (lsi_ok lsq (eq_matrix nc n) D W ((nc + 1) / 2) x Hl) as (_ & _ & Lx & p & Lp & Pp & HM); [rewrite eq_matrix_length; exact HD|apply eq_matrix_rows|exact EL|]. rewrite eq_matrix_length in *.
  pose proof (taps_ok nc x Lx) as TK. cbv zeta in TK. rewrite TK in E. injection E as <-. destruct (taps_sym nc x) as (S1 & S2 & S3). split; [exact HW|]. split; [exact S2|]. split; [exact S1|]. exists p. split; [exact Lp|]. split; [exact Pp|].
  assert (Conv : forall g y, length g = nc -> symmetric g -> length y = ((nc + 1) / 2)%nat -> (forall k, (k < (nc + 1) / 2)%nat -> nth k g 0 = nth k y 0) -> forall i, (i < n)%nat -> residual (eq_matrix nc n) D y i = amp g (INR i / (2 * INR n)) - nth i D 0).
  { intros g y Lg Sg Ly Hgy i Hi. unfold residual. f_equal. rewrite <- (row_amp g n i Sg HD Hi). cbv zeta. rewrite Lg, Ly. apply total_ext. intros k Hk. rewrite (Hgy k Hk). reflexivity. }
  intros h' Lh' Sh'. assert (Lf : length (firstn ((nc + 1) / 2) h') = ((nc + 1) / 2)%nat).
  { rewrite firstn_length, Lh'. apply Nat.min_l. pose proof (Nat.div_mod (nc + 1) 2 ltac:(lia)). destruct nc; [cbn; lia|lia]. }
  specialize (HM (firstn ((nc + 1) / 2) h') Lf).
  rewrite (total_ext n _ (fun i => nth i p 0 ^ 2 * residual (eq_matrix nc n) D x i ^ 2)) by (intros i Hi; rewrite (Conv (taps_of nc x) x S2 S1 Lx S3 i Hi); reflexivity).
  rewrite (total_ext n (fun i => nth i p 0 ^ 2 * (amp h' _ - _) ^ 2) (fun i => nth i p 0 ^ 2 * residual (eq_matrix nc n) D (firstn ((nc + 1) / 2) h') i ^ 2)); [exact HM|].
  intros i Hi. rewrite (Conv h' _ Lh' Sh' Lf); [reflexivity| |exact Hi]. intros k Hk. rewrite nth_firstn' by exact Hk. reflexivity.
Qed.
Lemma total_le n f g : (forall i, (i < n)%nat -> f i <= g i) -> total n f <= total n g.
Proof. intros H. induction n as [|n IH]; cbn [total]; [lra|]. pose proof (H n ltac:(lia)). assert (total n f <= total n g) by (apply IH; intros; apply H; lia). lra. Qed.
Lemma total_lt n f g : (0 < n)%nat -> (forall i, (i < n)%nat -> f i < g i) -> total n f < total n g.
Proof.
  intros Hn H. destruct n as [|n]; [lia|]. cbn [total]. pose proof (H n ltac:(lia)). assert (total n f <= total n g) by (apply total_le; intros; left; apply H; lia). lra.
Qed.
Lemma exists_or_all n (P : nat -> Prop) : (forall i, (i < n)%nat -> P i \/ ~ P i) -> (exists i, (i < n)%nat /\ P i) \/ (forall i, (i < n)%nat -> ~ P i).
Proof.
  intros H. induction n as [|n IH]; [right; intros; lia|]. destruct (IH ltac:(intros; apply H; lia)) as [[i [A B]]|A]; [left; exists i; split; [lia|exact B]|].
  destruct (H n ltac:(lia)) as [B|B]; [left; exists n; split; [lia|exact B]|]. right. intros i Hi. destruct (Nat.eq_dec i n) as [->|]; [exact B|apply A; lia].
Qed.
Lemma minimax n (p W e e' : nat -> R) c : (0 < n)%nat -> (forall i, (i < n)%nat -> 0 < p i) -> (forall i, (i < n)%nat -> 0 <= W i) ->
  total n (fun i => p i ^ 2 * e i ^ 2) <= total n (fun i => p i ^ 2 * e' i ^ 2) -> (forall i, (i < n)%nat -> c <= W i * Rabs (e i)) ->
  exists i, (i < n)%nat /\ c <= W i * Rabs (e' i).
Proof.
  intros Hn Hp HW HT Hc. destruct (exists_or_all n (fun i => c <= W i * Rabs (e' i))) as [E|A]; [intros i _; destruct (Rle_dec c (W i * Rabs (e' i))); [left|right]; assumption|exact E|].
  exfalso. assert (T : total n (fun i => p i ^ 2 * e' i ^ 2) < total n (fun i => p i ^ 2 * e i ^ 2)); [|lra]. apply total_lt; [exact Hn|]. intros i Hi.
  pose proof (A i Hi) as A1. pose proof (Hc i Hi) as C1. pose proof (HW i Hi) as W1. pose proof (Hp i Hi) as P1. assert (LT : W i * Rabs (e' i) < W i * Rabs (e i)) by lra.
  assert (L2 : Rabs (e' i) < Rabs (e i)). { destruct (Rlt_le_dec (Rabs (e' i)) (Rabs (e i))) as [Q|Q]; [exact Q|]. pose proof (Rmult_le_compat_l _ _ _ W1 Q). lra. }
  apply Rmult_lt_compat_l; [apply pow_lt; exact P1|]. rewrite <- (pow2_abs (e' i)), <- (pow2_abs (e i)). pose proof (Rabs_pos (e' i)). nra.
Qed.
