(** Proofs for wavelets: polyphase matrices. *)
From Coq Require Import Field.
From Verif Require Import Base BaseLemmas Poly_Model Poly_Spec Poly_Proofs Tod_Model Tod_Spec.
Local Open Scope cring_scope.
Section Pp.
  Context {K : cfield}.
  Add Field Kf_tod : (fth K).

  Lemma zpow_nat_ (z : K) n : zpow z (Z.of_nat n) = cpow z n.
  Proof. unfold zpow. destruct (Z.leb_spec 0 (Z.of_nat n)); [|lia]. rewrite Nat2Z.id. reflexivity. Qed.
  Lemma zpow_S (z : K) n : z <> 0 -> zpow z (n + 1) = z * zpow z n.
  Proof.
    intros Hz. unfold zpow. destruct (Z.leb_spec 0 n).
    - destruct (Z.leb_spec 0 (n + 1)); [|lia]. replace (Z.to_nat (n + 1)) with (S (Z.to_nat n)) by lia. reflexivity.
    - replace (Z.to_nat (- n)) with (S (Z.to_nat (- (n + 1)))) by lia. cbn [cpow]. destruct (Z.leb_spec 0 (n + 1)).
      + replace (n + 1)%Z with 0%Z by lia. cbn [Z.to_nat cpow Z.opp]. field. exact Hz.
      + field. exact Hz.
  Qed.
  Lemma zpow_plus (z : K) n k : z <> 0 -> zpow z (n + Z.of_nat k) = cpow z k * zpow z n.
  Proof.
    intros Hz. induction k as [|k IH]; [rewrite Z.add_0_r; cbn [cpow]; ring|]. replace (n + Z.of_nat (S k))%Z with (n + Z.of_nat k + 1)%Z by lia. rewrite zpow_S, IH by exact Hz. cbn [cpow]. ring.
  Qed.
  Lemma zpow_add (z : K) a b : z <> 0 -> zpow z (a + b) = zpow z a * zpow z b.
  Proof.
    intros Hz. destruct (Z.le_gt_cases 0 b).
    - replace b with (Z.of_nat (Z.to_nat b)) by lia. rewrite zpow_plus, zpow_nat_ by exact Hz. ring.
    - set (k := Z.to_nat (- b)). replace a with (a + b + Z.of_nat k)%Z at 2 by lia. rewrite zpow_plus by exact Hz.
      assert (E : cpow z k * zpow z b = 1). { rewrite <- zpow_plus by exact Hz. replace (b + Z.of_nat k)%Z with 0%Z by lia. reflexivity. }
      replace (cpow z k * zpow z (a + b) * zpow z b) with (zpow z (a + b) * (cpow z k * zpow z b)) by ring. rewrite E. ring.
  Qed.

  Definition cf (l : laurent K) : Prop := p_roots (l_pol l) = false.
  Lemma cf_value (l : laurent K) z : cf l -> pval (p_coefs (l_pol l)) z = value (l_pol l) z.
  Proof. intros E. unfold value. rewrite E. reflexivity. Qed.
  Lemma add_coef (p q : poly K) : p_roots (p_add p q) = false. Proof. reflexivity. Qed.
  Lemma mac_cf (a b c : laurent K) : cf (laurent_mac a b c). Proof. reflexivity. Qed.
  Lemma mac_ok (a b c : laurent K) z : cf a -> cf b -> cf c -> z <> 0 -> lval (laurent_mac a b c) z = lval a z + lval b z * lval c z.
  Proof.
    intros Ca Cb Cc Hz. unfold lval. rewrite (cf_value (laurent_mac a b c)) by apply mac_cf. rewrite (cf_value a), (cf_value b), (cf_value c) by assumption. unfold laurent_mac. cbn [l_pol l_n0].
    set (n0 := Z.min (l_n0 a) (l_n0 b + l_n0 c)). rewrite add_ok, !shift_ok by (try exact Ca; apply mul_mode_coefs; exact Cb). rewrite mul_ok by (unfold fits; rewrite Cb; discriminate).
    assert (A : zpow z (l_n0 a) = cpow z (Z.to_nat (l_n0 a - n0)) * zpow z n0) by (rewrite <- zpow_plus by exact Hz; f_equal; lia).
    assert (B : zpow z (l_n0 b) * zpow z (l_n0 c) = cpow z (Z.to_nat (l_n0 b + l_n0 c - n0)) * zpow z n0) by (rewrite <- zpow_plus, <- zpow_add by exact Hz; f_equal; lia).
    rewrite A. replace (value (l_pol b) z * zpow z (l_n0 b) * (value (l_pol c) z * zpow z (l_n0 c))) with (value (l_pol b) z * value (l_pol c) z * (zpow z (l_n0 b) * zpow z (l_n0 c))) by ring. rewrite B. ring.
  Qed.
  Definition cfm (m : polyphase K) : Prop := cf (h00 m) /\ cf (h01 m) /\ cf (h10 m) /\ cf (h11 m).
  Lemma mmul_assoc (a b c : mat2 K) : mmul (mmul a b) c = mmul a (mmul b c).
  Proof. unfold mmul. cbn [Tod_Spec.m00 Tod_Spec.m01 Tod_Spec.m10 Tod_Spec.m11]. f_equal; ring. Qed.
  Lemma mmul_id_r (a : mat2 K) : mmul a mid = a.
  Proof. destruct a. unfold mmul, mid. cbn [Tod_Spec.m00 Tod_Spec.m01 Tod_Spec.m10 Tod_Spec.m11]. f_equal; ring. Qed.
  Lemma mmul_id_l (a : mat2 K) : mmul mid a = a.
  Proof. destruct a. unfold mmul, mid. cbn [Tod_Spec.m00 Tod_Spec.m01 Tod_Spec.m10 Tod_Spec.m11]. f_equal; ring. Qed.
  Lemma mdet_mul (a b : mat2 K) : mdet (mmul a b) = mdet a * mdet b.
  Proof. unfold mdet, mmul. cbn [Tod_Spec.m00 Tod_Spec.m01 Tod_Spec.m10 Tod_Spec.m11]. ring. Qed.
  Lemma step_ok (m : polyphase K) e z : cfm m -> p_roots (l_pol (e_lau e)) = false -> z <> 0 -> cfm (pp_step m e) /\ ppval (pp_step m e) z = mmul (mstage z e) (ppval m z).
  Proof.
    intros (C0 & C1 & C2 & C3) Ce Hz. unfold pp_step, mstage, ppval, mmul, cfm. destruct (e_predict e); cbn [h00 h01 h10 h11 Tod_Spec.m00 Tod_Spec.m01 Tod_Spec.m10 Tod_Spec.m11].
    - split; [repeat split; assumption|]. rewrite !mac_ok by assumption. f_equal; ring.
    - split; [repeat split; assumption|]. rewrite !mac_ok by assumption. f_equal; ring.
  Qed.
  Lemma steps_ok z : z <> 0 -> forall es (m : polyphase K), cfm m -> Forall (fun e => p_roots (l_pol (e_lau e)) = false) es -> cfm (fold_left pp_step es m) /\ ppval (fold_left pp_step es m) z = mmul (mstages z es) (ppval m z).
  Proof.
    intros Hz. induction es as [|e es IH]; intros m C F; cbn [fold_left mstages]; [split; [exact C|symmetry; apply mmul_id_l]|].
    inversion F as [|? ? Fe Fs]; subst. destruct (step_ok m e z C Fe Hz) as (C' & E). destruct (IH _ C' Fs) as (C2 & E2). split; [exact C2|]. rewrite E2, E, mmul_assoc. reflexivity.
  Qed.
  Lemma stages_det z (es : list (lift_elem K)) : mdet (mstages z es) = 1.
  Proof.
    induction es as [|e es IH]; cbn [mstages]; [unfold mdet, mid; cbn [Tod_Spec.m00 Tod_Spec.m01 Tod_Spec.m10 Tod_Spec.m11]; ring|]. rewrite mdet_mul, IH. unfold mstage, mdet. destruct (e_predict e); cbn [Tod_Spec.m00 Tod_Spec.m01 Tod_Spec.m10 Tod_Spec.m11]; ring.
  Qed.
  Lemma scale_lval (l : laurent K) s z : cf l -> cf (l_scale l s) /\ lval (l_scale l s) z = s * lval l z.
  Proof.
    intros C. assert (C' : cf (l_scale l s)) by (unfold cf, l_scale, p_scale; cbn [l_pol]; rewrite C; reflexivity). split; [exact C'|].
    unfold lval. rewrite cf_value, (cf_value l) by assumption. unfold l_scale. cbn [l_pol l_n0]. rewrite scale_ok. ring.
  Qed.
  Definition pp0 : polyphase K := mkpp (mklau p_one 0) (mklau (p_const 0) 0) (mklau (p_const 0) 0) (mklau p_one 0).
  Lemma pp0_val z : ppval pp0 z = mid.
  Proof. unfold ppval, pp0, mid, lval, p_one, p_const, p_of. cbn [h00 h01 h10 h11 l_pol l_n0 p_coefs]. rewrite !pval_cons, !pval_nil. unfold zpow. cbn [Z.leb Z.compare Z.to_nat cpow]. f_equal; ring. Qed.
  Lemma polyphase_ok (w : lift K) z : by_coefs w -> z <> 0 -> cfm (polyphase_of w) /\ ppval (polyphase_of w) z = mmul (M2 (li_K w) 0 0 (1 / li_K w)) (mstages z (li_steps w)).
  Proof.
    intros B Hz. destruct (steps_ok z Hz (li_steps w) pp0) as ((C0 & C1 & C2 & C3) & E); [repeat split|exact B|]. rewrite pp0_val, mmul_id_r in E.
    unfold polyphase_of. fold pp0. set (m := fold_left pp_step (li_steps w) pp0) in *. split.
    - repeat split; apply (scale_lval _ _ z); assumption.
    - rewrite <- E. unfold ppval, mmul. cbn [h00 h01 h10 h11 Tod_Spec.m00 Tod_Spec.m01 Tod_Spec.m10 Tod_Spec.m11]. rewrite !(fun l s C => proj2 (scale_lval l s z C)) by assumption. f_equal; ring.
  Qed.
  (** ** Delays *)
  Definition rows (m : polyphase K) : Prop := l_n0 (h00 m) = l_n0 (h01 m) /\ l_n0 (h10 m) = l_n0 (h11 m) /\ (l_n0 (h00 m) <= 0)%Z /\ (l_n0 (h10 m) <= 0)%Z.
  Lemma step_rows m e : rows m -> rows (pp_step m e).
  Proof. intros (A & B & C & D). unfold pp_step, rows, laurent_mac. destruct (e_predict e); cbn [h00 h01 h10 h11 l_n0]; lia. Qed.
  Lemma steps_rows es : forall m, rows m -> rows (fold_left pp_step es m).
  Proof. induction es as [|e es IH]; intros m H; [exact H|]. cbn [fold_left]. apply IH, step_rows, H. Qed.
  Lemma polyphase_rows (w : lift K) : rows (polyphase_of w).
  Proof. unfold polyphase_of. fold pp0. assert (R : rows (fold_left pp_step (li_steps w) pp0)) by (apply steps_rows; unfold rows, pp0; cbn [h00 h01 h10 h11 l_n0]; lia). exact R. Qed.
  (** ** QMF *)
  Lemma compose_ok (p q : poly K) x : value (p_compose p q) x = pval (p_coefs p) (value q x) /\ p_roots (p_compose p q) = false.
  Proof.
    unfold p_compose. rewrite <- (rev_involutive (p_coefs p)) at 2. destruct (rev (p_coefs p)) as [|c t].
    - cbn [rev]. rewrite pval_nil. unfold p_const. rewrite value_of, pval_cons, pval_nil. split; [ring|reflexivity].
    - assert (G : forall t (r : poly K), p_roots r = false -> value (fold_left (fun r c => p_add (p_mul r q) (p_const c)) t r) x = pval (rev t) (value q x) + cpow (value q x) (length t) * value r x /\ p_roots (fold_left (fun r c => p_add (p_mul r q) (p_const c)) t r) = false).
      { clear c t. induction t as [|c t IH]; intros r Hr; cbn [fold_left rev length cpow].
        - rewrite pval_nil. split; [ring|exact Hr].
        - destruct (IH (p_add (p_mul r q) (p_const c)) (add_coef _ _)) as (E1 & E2). split; [|exact E2]. rewrite E1, pval_app, rev_length, pval_cons, pval_nil, add_ok, mul_ok by (unfold fits; rewrite Hr; discriminate).
          unfold p_const. rewrite value_of, pval_cons, pval_nil. ring. }
      destruct (G t (p_const c) eq_refl) as (E1 & E2). split; [|exact E2]. rewrite E1. cbn [rev]. rewrite pval_app, rev_length, pval_cons, pval_nil. unfold p_const. rewrite value_of, pval_cons, pval_nil. ring.
  Qed.
  Lemma z2_ok (x : K) : value (p_mul p_z p_z) x = x * x.
  Proof. rewrite mul_ok by (unfold fits, p_z, p_of; discriminate). rewrite !value_z. reflexivity. Qed.
  Lemma branch_ok (l : laurent K) md x : cf l -> x <> 0 -> value (p_compose (p_shift (l_pol l) (Z.to_nat md)) (p_mul p_z p_z)) x = cpow (x * x) (Z.to_nat md) * (lval l (x * x) * zpow (x * x) (- l_n0 l)).
  Proof.
    intros C Hx. rewrite (proj1 (compose_ok _ _ _)), z2_ok. assert (X : x * x <> 0) by (apply mul_ne; exact Hx). rewrite <- value_of. change (p_of (p_coefs (p_shift (l_pol l) (Z.to_nat md)))) with (p_shift (l_pol l) (Z.to_nat md)).
    rewrite shift_ok by exact C. f_equal. unfold lval. rewrite (cf_value l) by exact C. rewrite <- (Radd_0_l (F_R (fth K)) (value (l_pol l) (x * x))) at 1.
    assert (E : zpow (x * x) (l_n0 l) * zpow (x * x) (- l_n0 l) = 1) by (rewrite <- zpow_add by exact X; rewrite Z.add_opp_diag_r; reflexivity).
    replace (value (l_pol l) (x * x) * zpow (x * x) (l_n0 l) * zpow (x * x) (- l_n0 l)) with (value (l_pol l) (x * x) * (zpow (x * x) (l_n0 l) * zpow (x * x) (- l_n0 l))) by ring. rewrite E. ring.
  Qed.
  Lemma branch_roots (l : laurent K) k q : p_roots (p_compose (p_shift (l_pol l) k) q) = false. Proof. apply compose_ok. exact 0. Qed.
  Lemma qmf_ok (m : polyphase K) : cfm m -> rows m -> exists q d0 d1, qmf_of m = Ok q /\ (0 <= d0)%Z /\ (0 <= d1)%Z /\ q_g0 q = p_empty /\ q_g1 q = p_empty /\ forall x, x <> 0 ->
    value (q_h0 q) x = zpow (x * x) d0 * (lval (h00 m) (x * x) + x * lval (h01 m) (x * x)) /\ value (q_h1 q) x = zpow (x * x) d1 * (lval (h10 m) (x * x) + x * lval (h11 m) (x * x)).
  Proof.
    intros (C0 & C1 & C2 & C3) (R1 & R2 & R3 & R4). unfold qmf_of. set (md := (- _)%Z). destruct (Z.ltb_spec md 0); [unfold md in *; lia|].
    eexists. exists (md - l_n0 (h00 m))%Z, (md - l_n0 (h10 m))%Z. split; [reflexivity|]. split; [lia|]. split; [lia|]. split; [reflexivity|]. split; [reflexivity|]. intros x Hx. cbn [q_h0 q_h1].
    assert (X : x * x <> 0) by (apply mul_ne; exact Hx).
    assert (F : fits (K := K) p_z (p_compose (p_shift (l_pol (h01 m)) (Z.to_nat md)) (p_mul p_z p_z))) by (unfold fits, p_z, p_of; discriminate).
    assert (P : forall n, zpow (x * x) (md - n) = cpow (x * x) (Z.to_nat md) * zpow (x * x) (- n)). { intros n. rewrite <- zpow_plus by exact X. f_equal. lia. }
    rewrite !add_ok, !mul_ok by (unfold fits, p_z, p_of; discriminate). rewrite !branch_ok, !value_z by assumption. rewrite !P, <- R1, <- R2. split; ring.
  Qed.
  Lemma pp_det (w : lift K) z : li_K w <> 0 -> mdet (mmul (M2 (li_K w) 0 0 (1 / li_K w)) (mstages z (li_steps w))) = 1.
  Proof. intros H. rewrite mdet_mul, stages_det. unfold mdet. cbn [Tod_Spec.m00 Tod_Spec.m01 Tod_Spec.m10 Tod_Spec.m11]. field. exact H. Qed.
  Lemma modulation_det (w : lift K) (h0 h1 : K -> K) d0 d1 z : by_coefs w -> li_K w <> 0 -> (forall x, x <> 0 ->
    h0 x = zpow (x * x) d0 * (lval (h00 (polyphase_of w)) (x * x) + x * lval (h01 (polyphase_of w)) (x * x)) /\ h1 x = zpow (x * x) d1 * (lval (h10 (polyphase_of w)) (x * x) + x * lval (h11 (polyphase_of w)) (x * x))) -> z <> 0 ->
    h0 z * h1 (- z) - h0 (- z) * h1 z = - ((1 + 1) * z * zpow (z * z) (d0 + d1)).
  Proof.
    intros B HK V Hz. assert (Hn : - z <> 0) by (intros E; apply Hz; replace z with (- - z) by ring; rewrite E; ring). destruct (V z Hz) as (-> & ->). destruct (V (- z) Hn) as (-> & ->). replace (- z * - z) with (z * z) by ring. assert (Z2 : z * z <> 0) by (apply mul_ne; exact Hz).
    pose proof (pp_det w (z * z) HK) as D. rewrite <- (proj2 (polyphase_ok w (z * z) B Z2)) in D. unfold mdet, ppval in D. cbn [Tod_Spec.m00 Tod_Spec.m01 Tod_Spec.m10 Tod_Spec.m11] in D. rewrite zpow_add by exact Z2.
    set (a := lval (h00 _) _) in *. set (b := lval (h01 _) _) in *. set (c := lval (h10 _) _) in *. set (d := lval (h11 _) _) in *. set (p := zpow (z * z) d0). set (r := zpow (z * z) d1).
    transitivity (- ((1 + 1) * z * (p * r) * (a * d - b * c))); [ring|]. rewrite D. ring.
  Qed.
End Pp.
