From Coq Require Import List Arith ZArith Reals Lia Lra Field.
From Verif Require Import Base BaseLemmas ComplexSys RField Filters_Model Filters_Proofs Fourier_Proofs Del_Model Chn_Spec Chn_Proofs Vec_Model Vec_Proofs Fdt_Model Fdt_Proofs Fdt_Proofs2 Fdt_Proofs3 Fdt_Proofs4
  Equi_Model Equi_Spec Equi_Proofs Equi_Proofs3.
Import ListNotations.
Local Open Scope R_scope.

(** ** Bands *)
Definition matches (l : nat) (s : band) (g : gband) : Prop :=
  let '(lo, hi, a, w) := g in
  roundZ (2 * b_fb s * INR l) = Z.of_nat lo /\ Z.min (roundZ (2 * b_fh s * INR l)) (Z.of_nat l - 1) = Z.of_nat hi /\ b_att s = a /\ b_w s = w.
Fixpoint levelM (M : nat -> R) (g : list gband) (j : nat) : R :=
  match g with
  | [] => M j
  | (lo, hi, a, _) :: g' =>
      if (lo <=? j)%nat && (j <=? hi)%nat then a else
      match g' with
      | (lo', _, a', _) :: _ => if (hi <? j)%nat && (j <? lo')%nat then a + (a' - a) * (INR (j - hi) / INR (lo' - hi)) else levelM M g' j
      | [] => M j
      end
  end.
Fixpoint weightM (M : nat -> R) (g : list gband) (j : nat) : R :=
  match g with
  | [] => M j
  | (lo, hi, _, w) :: g' => if (lo <=? j)%nat && (j <=? hi)%nat then w + / 10 ^ 10 else weightM M g' j
  end.
Lemma levelM_1 g j : levelM (fun _ => 1) g j = level_at g j.
Proof. induction g as [|[[[lo hi] a] w] g IH]; [reflexivity|]. cbn [levelM level_at]. rewrite IH. reflexivity. Qed.
Lemma weightM_1 g j : weightM (fun _ => / 10 ^ 10) g j = weight_at g j.
Proof. induction g as [|[[[lo hi] a] w] g IH]; [reflexivity|]. cbn [weightM weight_at]. rewrite IH. reflexivity. Qed.
Lemma levelM_before M l p g j : ordered l p g -> (j < p)%nat -> levelM M g j = M j.
Proof.
  revert p. induction g as [|[[[lo hi] a] w] g IH]; intros p Ho Hj; [reflexivity|]. cbn [ordered] in Ho. destruct Ho as (A & B & C0). cbn [levelM].
  destruct (Nat.leb_spec lo j); [lia|]. cbn [andb]. destruct g as [|[[[lo' hi'] a'] w'] g']; [reflexivity|]. destruct (Nat.ltb_spec hi j); [lia|]. cbn [andb]. apply (IH (S hi)); [exact C0|lia].
Qed.
Lemma levelM_ext M M' g j : M j = M' j -> levelM M g j = levelM M' g j.
Proof. intros H. induction g as [|[[[lo hi] a] w] g IH]; [exact H|]. cbn [levelM]. rewrite IH, H. reflexivity. Qed.
Lemma weightM_ext M M' g j : M j = M' j -> weightM M g j = weightM M' g j.
Proof. intros H. induction g as [|[[[lo hi] a] w] g IH]; [exact H|]. cbn [weightM]. rewrite IH. reflexivity. Qed.
Lemma weightM_before M l p g j : ordered l p g -> (j < p)%nat -> weightM M g j = M j.
Proof.
  revert p. induction g as [|[[[lo hi] a] w] g IH]; intros p Ho Hj; [reflexivity|]. cbn [ordered] in Ho. destruct Ho as (A & B & C0). cbn [weightM].
  destruct (Nat.leb_spec lo j); [lia|]. cbn [andb]. apply (IH (S hi)); [exact C0|lia].
Qed.
Lemma set_segZ_tab l M i n v : (i + n <= l)%nat -> set_segZ (tab l M) (Z.of_nat i) (Z.of_nat n) v = Ok (tab l (fun k => if (i <=? k)%nat && (k <? i + n)%nat then v (Z.of_nat (k - i)) else M k)).
Proof.
  intros H. unfold set_segZ. destruct (Z.ltb_spec (Z.of_nat n) 0); [lia|]. destruct (Z.ltb_spec (Z.of_nat i) 0); [lia|]. rewrite !Nat2Z.id.
  exact (set_seg_tab l n i M (fun k => v (Z.of_nat k)) H).
Qed.
Lemma bands_ok l : forall spec g p M V, Forall2 (matches l) spec g -> ordered l p g ->
  eq_bands l spec (tab l M, tab l V) = Ok (tab l (levelM M g), tab l (weightM V g)).
Proof.
  induction spec as [|s rest IH]; intros g p M V HF Ho.
  - inversion HF. reflexivity.
  - inversion HF as [|? [[[lo hi] a] w] ? g' Hs HF' E1 E2]. subst. destruct Hs as (Elo & Ehi & Ea & Ew). cbn [ordered] in Ho. destruct Ho as (A & B & C0).
    cbn [eq_bands]. cbv zeta. rewrite Elo, Ehi. rewrite Z.min_l by lia. replace (Z.of_nat hi - Z.of_nat lo + 1)%Z with (Z.of_nat (hi - lo + 1)) by lia.
    rewrite set_segZ_tab by lia. cbn [bind]. rewrite set_segZ_tab by lia. cbn [bind].
    set (M1 := fun k => if (lo <=? k)%nat && (k <? lo + (hi - lo + 1))%nat then b_att s else M k). set (V1 := fun k => if (lo <=? k)%nat && (k <? lo + (hi - lo + 1))%nat then b_w s + eps else V k).
    assert (IB : forall k, ((lo <=? k)%nat && (k <? lo + (hi - lo + 1))%nat = (lo <=? k)%nat && (k <=? hi)%nat)%bool).
    { intros k. destruct (Nat.leb_spec lo k); [|reflexivity]. cbn [andb]. destruct (Nat.ltb_spec k (lo + (hi - lo + 1))); destruct (Nat.leb_spec k hi); try reflexivity; lia. }
    destruct rest as [|s' rest'].
    + inversion HF'; subst. f_equal. f_equal; apply tab_ext; intros k _; cbn [levelM weightM]; [unfold M1; rewrite IB; reflexivity|unfold V1, eps; rewrite IB; reflexivity].
    + inversion HF' as [|? [[[lo' hi'] a'] w'] ? g'' Hs' HF'' E1 E2]. subst. assert (Hs2 := Hs'). destruct Hs' as (Elo' & Ehi' & Ea' & Ew'). subst a' w'. rewrite Elo'. assert (C1 := C0). cbn [ordered] in C0. destruct C0 as (A' & B' & C').
      replace (Z.of_nat lo' - Z.of_nat hi + 1)%Z with (Z.of_nat (lo' - hi + 1)) by lia. rewrite set_segZ_tab by lia. cbn [bind].
      rewrite (IH ((lo', hi', b_att s', b_w s') :: g'') (S hi)) by assumption.
      f_equal. f_equal; apply tab_ext; intros k Hk.
      * destruct (linspace_spec (K := Rfield) (b_att s) (b_att s') (lo' - hi + 1)) as (_ & LS & _).
        assert (RV : forall j, (hi <= j <= lo')%nat -> nth (Z.to_nat (Z.of_nat (j - hi))) (linspace (K := Rfield) (b_att s) (b_att s') (Z.to_nat (Z.of_nat (lo' - hi + 1)))) 0 = b_att s + (b_att s' - b_att s) * (INR (j - hi) / INR (lo' - hi))).
        { intros j Hj. rewrite !Nat2Z.id. etransitivity; [exact (LS (j - hi)%nat ltac:(lia) ltac:(lia))|]. cbn. rewrite !cnat_R. replace (lo' - hi + 1 - 1)%nat with (lo' - hi)%nat by lia. assert (0 < INR (lo' - hi)) by (apply lt_0_INR; lia). field. lra. }
        set (M2 := fun k0 : nat => if (hi <=? k0)%nat && (k0 <? hi + (lo' - hi + 1))%nat then nth (Z.to_nat (Z.of_nat (k0 - hi))) (linspace (K := Rfield) (b_att s) (b_att s') (Z.to_nat (Z.of_nat (lo' - hi + 1)))) 0 else M1 k0).
        change (levelM M2 ((lo', hi', b_att s', b_w s') :: g'') k = levelM M ((lo, hi, b_att s, b_w s) :: (lo', hi', b_att s', b_w s') :: g'') k).
        assert (M2a : forall j, (j < hi)%nat -> M2 j = M1 j) by (intros j Hj; unfold M2; destruct (Nat.leb_spec hi j); [lia|reflexivity]).
        assert (M2b : forall j, (hi <= j <= lo')%nat -> M2 j = b_att s + (b_att s' - b_att s) * (INR (j - hi) / INR (lo' - hi))).
        { intros j Hj. unfold M2. destruct (Nat.leb_spec hi j); [|lia]. destruct (Nat.ltb_spec j (hi + (lo' - hi + 1))); [|lia]. cbn [andb]. apply RV. exact Hj. }
        assert (M2c : forall j, (lo' < j)%nat -> M2 j = M j).
        { intros j Hj. unfold M2. destruct (Nat.leb_spec hi j); [|lia]. destruct (Nat.ltb_spec j (hi + (lo' - hi + 1))); [lia|]. cbn [andb]. unfold M1. destruct (Nat.leb_spec lo j); [|reflexivity]. destruct (Nat.ltb_spec j (lo + (hi - lo + 1))); [lia|reflexivity]. }
        destruct (Nat.lt_ge_cases lo' k) as [Q|Q].
        { rewrite (levelM_ext M2 M) by (apply M2c; exact Q). cbn [levelM]. destruct (Nat.leb_spec lo k); [|lia]. destruct (Nat.leb_spec k hi); [lia|]. cbn [andb]. destruct (Nat.ltb_spec hi k); [|lia]. destruct (Nat.ltb_spec k lo'); [lia|]. cbn [andb]. reflexivity. }
        destruct (Nat.eq_dec k lo') as [->|Q1].
        { cbn [levelM]. destruct (Nat.leb_spec lo lo'); [|lia]. destruct (Nat.leb_spec lo' hi); [lia|]. cbn [andb]. destruct (Nat.ltb_spec lo' lo'); [lia|]. rewrite andb_false_r. destruct (Nat.leb_spec lo' lo'); [|lia]. destruct (Nat.leb_spec lo' hi'); [|lia]. reflexivity. }
        rewrite (levelM_before M2 l lo') by (cbn [ordered]; repeat split; lia || assumption).
        { cbn [levelM]. destruct (Nat.le_gt_cases hi k) as [Q2|Q2].
          - rewrite M2b by lia. destruct (Nat.leb_spec lo k); [|lia]. destruct (Nat.leb_spec k hi); cbn [andb].
            + replace (k - hi)%nat with 0%nat by lia. change (INR 0) with 0. unfold Rdiv. ring.
            + destruct (Nat.ltb_spec hi k); [|lia]. destruct (Nat.ltb_spec k lo'); [|lia]. reflexivity.
          - rewrite M2a by exact Q2. unfold M1. rewrite IB. destruct (Nat.leb_spec lo k); destruct (Nat.leb_spec k hi); try lia; cbn [andb]; [reflexivity|].
            destruct (Nat.ltb_spec hi k); [lia|]. cbn [andb]. destruct (Nat.leb_spec lo' k); [lia|]. cbn [andb].
            pose proof (levelM_before M l lo' ((lo', hi', b_att s', b_w s') :: g'') k) as LB. rewrite <- LB at 1 by (first [cbn [ordered]; repeat split; lia || assumption|lia]).
            cbn [levelM]. destruct (Nat.leb_spec lo' k); [lia|]. reflexivity. }
      * change (weightM V1 ((lo', hi', b_att s', b_w s') :: g'') k = weightM V ((lo, hi, b_att s, b_w s) :: (lo', hi', b_att s', b_w s') :: g'') k).
        destruct (Nat.le_gt_cases k hi) as [Q|Q].
        { rewrite (weightM_before V1 l (S hi)) by (assumption || lia). unfold V1, eps. rewrite IB. cbn [weightM]. destruct (Nat.leb_spec lo k); destruct (Nat.leb_spec k hi); try lia; cbn [andb]; [reflexivity|].
          destruct (Nat.leb_spec lo' k); [lia|]. cbn [andb]. symmetry. apply (weightM_before V l (S hi')); [assumption|lia]. }
        rewrite (weightM_ext V1 V).
        { cbn [weightM]. destruct (Nat.leb_spec lo k); [|lia]. destruct (Nat.leb_spec k hi); [lia|]. reflexivity. }
        { unfold V1. rewrite IB. destruct (Nat.leb_spec lo k); [|lia]. destruct (Nat.leb_spec k hi); [lia|]. reflexivity. }
Qed.
(** ** Existence of least-squares solutions *)
Lemma normal_eq n m : forall (c : nat -> nat -> R) (b : nat -> R),
  { x : nat -> R | forall k, (k < m)%nat -> total n (fun i => c k i * (total m (fun k' => c k' i * x k') - b i)) = 0 }.
Proof.
  assert (TA : forall n u v, total n (fun k => u k + v k) = total n u + total n v) by (clear; intros m' u v; induction m' as [|m' IH]; cbn [total]; [ring|rewrite IH; ring]).
  induction m as [|m IH]; intros c b; [exists (fun _ => 0); intros; lia|].
  destruct (IH c (c m)) as [y Hy]. set (r := fun i => c m i - total m (fun k' => c k' i * y k')).
  assert (Or : forall k, (k < m)%nat -> total n (fun i => c k i * r i) = 0).
  { intros k Hk. specialize (Hy k Hk). rewrite (total_ext n _ (fun i => - (c k i * (total m (fun k' => c k' i * y k') - c m i)))) by (intros i _; unfold r; ring). rewrite total_opp, Hy. ring. }
  set (rr := total n (fun i => r i * r i)).
  destruct (Req_EM_T rr 0) as [Z|NZ].
  - destruct (IH c b) as [x Hx]. exists (fun k => if (k <? m)%nat then x k else 0).
    assert (ES : forall i, total (S m) (fun k' => c k' i * (if (k' <? m)%nat then x k' else 0)) = total m (fun k' => c k' i * x k')).
    { intros i. cbn [total]. rewrite Nat.ltb_irrefl, Rmult_0_r, Rplus_0_r. apply total_ext. intros k Hk. destruct (Nat.ltb_spec k m); [reflexivity|lia]. }
    assert (R0 : forall i, (i < n)%nat -> r i = 0).
    { intros i Hi. assert (P : forall N, (N <= n)%nat -> 0 <= total N (fun i => r i * r i)) by (intros; apply total_pos; intros; nra).
      assert (Mo : forall N, (i < N)%nat -> (N <= n)%nat -> r i * r i <= total N (fun i => r i * r i)).
      { induction N as [|N IHN]; intros A B; [lia|]. cbn [total]. pose proof (P N ltac:(lia)). destruct (Nat.eq_dec i N) as [->|]; [lra|]. pose proof (IHN ltac:(lia) ltac:(lia)). pose proof (Rle_0_sqr (r N)) as Q. unfold Rsqr in Q. lra. }
      pose proof (Mo n Hi (le_n n)) as Q. fold rr in Q. rewrite Z in Q. nra. }
    intros k Hk. rewrite (total_ext n _ (fun i => c k i * (total m (fun k' => c k' i * x k') - b i))) by (intros i _; rewrite ES; reflexivity).
    destruct (Nat.eq_dec k m) as [->|Hne]; [|apply Hx; lia].
    rewrite (total_ext n _ (fun i => total m (fun k' => y k' * (c k' i * (total m (fun k' => c k' i * x k') - b i))))).
    + assert (SW : forall N M f, total N (fun i => total M (fun j => f i j)) = total M (fun j => total N (fun i => f i j))) by (clear -TA; intros N M f; induction N as [|N IHN]; cbn [total]; [rewrite total_const; ring|rewrite IHN, <- TA; reflexivity]).
      rewrite SW. rewrite (total_ext m _ (fun _ => 0)); [rewrite total_const; ring|]. intros k' Hk'. rewrite total_scal, (Hx k' Hk'). ring.
    + intros i Hi. assert (E : c m i = total m (fun k' => c k' i * y k')) by (pose proof (R0 i Hi) as Q; unfold r in Q; lra). rewrite E. set (u := total m (fun k' => c k' i * x k') - b i).
      rewrite Rmult_comm, <- total_scal. apply total_ext. intros; ring.
  - set (t := total n (fun i => b i * r i) / rr). destruct (IH c (fun i => b i - t * c m i)) as [x Hx]. exists (fun k => if (k <? m)%nat then x k else t).
    assert (ES : forall i, total (S m) (fun k' => c k' i * (if (k' <? m)%nat then x k' else t)) = total m (fun k' => c k' i * x k') + c m i * t).
    { intros i. cbn [total]. rewrite Nat.ltb_irrefl. f_equal. apply total_ext. intros k Hk. destruct (Nat.ltb_spec k m); [reflexivity|lia]. }
    assert (Hx' : forall k, (k < m)%nat -> total n (fun i => c k i * (total m (fun k' => c k' i * x k') + c m i * t - b i)) = 0).
    { intros k Hk. rewrite <- (Hx k Hk). apply total_ext. intros; ring. }
    intros k Hk. rewrite (total_ext n _ (fun i => c k i * (total m (fun k' => c k' i * x k') + c m i * t - b i))) by (intros i _; rewrite ES; reflexivity).
    destruct (Nat.eq_dec k m) as [->|Hne]; [|apply Hx'; lia].
    assert (SW : forall N M f, total N (fun i => total M (fun j => f i j)) = total M (fun j => total N (fun i => f i j))) by (clear -TA; intros N M f; induction N as [|N IHN]; cbn [total]; [rewrite total_const; ring|rewrite IHN, <- TA; reflexivity]).
    set (u := fun i => total m (fun k' => c k' i * x k') + c m i * t - b i) in *. change (forall k, (k < m)%nat -> total n (fun i => c k i * u i) = 0) in Hx'. change (total n (fun i => c m i * u i) = 0).
    assert (U1 : total n (fun i => total m (fun k' => c k' i * y k') * u i) = 0).
    { rewrite (total_ext n _ (fun i => total m (fun k' => y k' * (c k' i * u i)))).
      - rewrite SW. rewrite (total_ext m _ (fun _ => 0)); [rewrite total_const; ring|]. intros k' Hk'. rewrite total_scal, (Hx' k' Hk'). ring.
      - intros i _. rewrite Rmult_comm, <- total_scal. apply total_ext. intros; ring. }
    assert (U2 : total n (fun i => r i * u i) = 0).
    { rewrite (total_ext n _ (fun i => total m (fun k' => x k' * (c k' i * r i)) + (t * (r i * (r i + total m (fun k' => c k' i * y k'))) + - (b i * r i)))).
      - rewrite !TA, total_opp, total_scal. rewrite SW. rewrite (total_ext m _ (fun _ => 0)) by (intros k' Hk'; rewrite total_scal, (Or k' Hk'); ring). rewrite total_const.
        rewrite (total_ext n (fun i => r i * (r i + _)) (fun i => r i * r i + total m (fun k' => y k' * (c k' i * r i)))).
        + rewrite TA. fold rr. rewrite SW. rewrite (total_ext m _ (fun _ => 0)) by (intros k' Hk'; rewrite total_scal, (Or k' Hk'); ring). rewrite total_const. unfold t. field. exact NZ.
        + intros i _. rewrite Rmult_plus_distr_l. f_equal. rewrite <- total_scal. apply total_ext. intros; ring.
      - intros i _. unfold u. replace (r i + total m (fun k' => c k' i * y k')) with (c m i) by (unfold r; ring).
        rewrite (total_ext m (fun k' => x k' * (c k' i * r i)) (fun k' => r i * (c k' i * x k'))) by (intros; ring). rewrite total_scal. ring. }
    rewrite (total_ext n _ (fun i => r i * u i + total m (fun k' => c k' i * y k') * u i)) by (intros i _; unfold r; ring). rewrite TA, U1, U2. ring.
Qed.
Definition ls_solver (A : list (list R)) (b : list R) : list R :=
  let m := length (nth 0 A []) in
  tab m (proj1_sig (normal_eq (length A) m (fun k i => nth k (nth i A []) 0) (fun i => nth i b 0))).
Lemma ls_solver_ok : least_squares ls_solver.
Proof.
  assert (TA : forall n u v, total n (fun k => u k + v k) = total n u + total n v) by (clear; intros m' u v; induction m' as [|m' IH]; cbn [total]; [ring|rewrite IH; ring]).
  intros A b m HA Hb HF. unfold ls_solver. assert (L0 : length (nth 0 A []) = m) by (rewrite Forall_forall in HF; apply HF, nth_In; exact HA). rewrite L0.
  destruct (normal_eq (length A) m (fun k i => nth k (nth i A []) 0) (fun i => nth i b 0)) as [x Hx]. cbn [proj1_sig]. split; [apply tab_length|]. intros x' Lx'.
  set (n := length A) in *. set (a := fun k i => nth k (nth i A []) 0) in *. change (forall k, (k < m)%nat -> total n (fun i => a k i * (total m (fun k' => a k' i * x k') - nth i b 0)) = 0) in Hx.
  assert (R1 : forall i, residual A b (tab m x) i = total m (fun k => a k i * x k) - nth i b 0).
  { intros i. unfold residual. rewrite tab_length. f_equal. apply total_ext. intros k Hk. rewrite tab_nth by exact Hk. reflexivity. }
  assert (R2 : forall i, residual A b x' i = residual A b (tab m x) i + total m (fun k => a k i * (nth k x' 0 - x k))).
  { intros i. rewrite R1. unfold residual. rewrite Lx'. rewrite (total_ext m (fun k => a k i * (nth k x' 0 - x k)) (fun k => nth k (nth i A []) 0 * nth k x' 0 + - (a k i * x k))) by (intros; unfold a; ring). rewrite TA, total_opp. unfold a. ring. }
  unfold sq_error. fold n. set (d := fun i => total m (fun k => a k i * (nth k x' 0 - x k))).
  rewrite (total_ext n (fun i => residual A b x' i ^ 2) (fun i => residual A b (tab m x) i ^ 2 + (2 * (d i * residual A b (tab m x) i) + d i ^ 2))) by (intros i _; rewrite R2; fold (d i); ring).
  rewrite !TA, total_scal.
  assert (OR : total n (fun i => d i * residual A b (tab m x) i) = 0).
  { rewrite (total_ext n _ (fun i => total m (fun k => (nth k x' 0 - x k) * (a k i * (total m (fun k' => a k' i * x k') - nth i b 0))))).
    - assert (SW : forall N M f, total N (fun i => total M (fun j => f i j)) = total M (fun j => total N (fun i => f i j))) by (clear -TA; intros N M f; induction N as [|N IHN]; cbn [total]; [rewrite total_const; ring|rewrite IHN, <- TA; reflexivity]).
      rewrite SW. rewrite (total_ext m _ (fun _ => 0)); [rewrite total_const; ring|]. intros k Hk. rewrite total_scal, (Hx k Hk). ring.
    - intros i _. rewrite R1. unfold d. rewrite Rmult_comm, <- total_scal. apply total_ext. intros; ring. }
  rewrite OR. assert (0 <= total n (fun i => d i ^ 2)) by (apply total_pos; intros; apply pow2_ge_0). lra.
Qed.
