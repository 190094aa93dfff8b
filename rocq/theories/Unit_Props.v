(** C89: labels of the axes of the figures. *)
From Coq Require Import List Arith ZArith Reals String DecimalString Lia Lra.
From Flocq Require Import Core.
From Verif Require Import Base Unit_Model Unit_Spec Unit_Proofs.
Import ListNotations.
Local Open Scope R_scope.

(** Every label announces a power of ten and reads within 2^-22 of that power of the value. *)
Theorem C89_label : forall t u l, valeur t u = Ok l ->
  exists e, announces u (lab_suffix l) e /\ Rabs (read_value l e - t) <= / 2 ^ 22 * powerRZ 10 e.
Proof.
  intros t u l H. unfold valeur in H. apply valeur4_ok in H; [|rewrite calc_digits; lia].
  destruct H as (S & _ & E). exists (fst (calc_expo t u)). rewrite S. split; [apply suffixe_an|exact E].
Qed.
Print Assumptions C89_label.

(** With a unit, the relative error is below 2^-22 from 1e-6 on, and the number printed is about between 1 and 1000. *)
Theorem C89_unit : forall t u l, u <> ""%string -> / 1000000 <= Rabs t -> valeur t u = Ok l ->
  exists e, announces u (lab_suffix l) e /\ Rabs (read_value l e - t) <= / 2 ^ 22 * Rabs t /\
    (Rabs t < 1000000000000 -> 1 <= Rabs t / powerRZ 10 e < 1000).
Proof.
  intros t u l U T H. unfold valeur in H. apply valeur4_ok in H; [|rewrite calc_digits; lia].
  destruct H as (S & _ & E). exists (fst (calc_expo t u)). rewrite S. split; [apply suffixe_an|].
  destruct (calc_unit t u U) as (A & _ & C & _). split; [|intros L; exact (A (conj T L))].
  eapply Rle_trans; [exact E|]. apply Rmult_le_compat_l; [left; apply Rinv_0_lt_compat, pow_lt; lra|].
  destruct (Rlt_dec (Rabs t) 1000000000000) as [L|L].
  - destruct (A (conj T L)) as [A1 _]. pose proof (p10_pos (fst (calc_expo t u))) as P. unfold p10 in *.
    apply Rmult_le_compat_r with (r := powerRZ 10 (fst (calc_expo t u))) in A1; [|lra].
    unfold Rdiv in A1. rewrite Rmult_assoc, Rinv_l, Rmult_1_l, Rmult_1_r in A1 by lra. exact A1.
  - rewrite (C ltac:(lra)). fold (p10 9). rewrite p10p9. lra.
Qed.
Print Assumptions C89_unit.

(** Without unit: no exponent from 0.1 on, a number between 1 and 10 and its exponent below. *)
Theorem C89_no_unit : forall t l, valeur t "" = Ok l ->
  exists e, announces "" (lab_suffix l) e /\ (/ 10 <= Rabs t \/ t = 0 -> e = 0%Z) /\
    (t <> 0 -> Rabs t < / 10 -> 1 <= Rabs t / powerRZ 10 e < 10 /\ Rabs (read_value l e - t) <= / 2 ^ 22 * Rabs t).
Proof.
  intros t l H. unfold valeur in H. apply valeur4_ok in H; [|rewrite calc_digits; lia].
  destruct H as (S & _ & E). exists (fst (calc_expo t "")). rewrite S. split; [apply suffixe_an|].
  destruct (calc_nounit t) as (A & C). split; [exact A|]. intros N L. specialize (C N L). split; [exact C|].
  eapply Rle_trans; [exact E|]. apply Rmult_le_compat_l; [left; apply Rinv_0_lt_compat, pow_lt; lra|].
  destruct C as [C _]. pose proof (p10_pos (fst (calc_expo t ""))) as P. unfold p10 in *.
  apply Rmult_le_compat_r with (r := powerRZ 10 (fst (calc_expo t ""))) in C; [|lra].
  unfold Rdiv in C. rewrite Rmult_assoc, Rinv_l, Rmult_1_l, Rmult_1_r in C by lra. exact C.
Qed.
Print Assumptions C89_no_unit.

(** No label with fewer decimals would be as near, and there are at most eight of them. *)
Theorem C89_shortest : forall t u l, valeur t u = Ok l -> (lab_digits l <= 8)%nat /\
  exists e, announces u (lab_suffix l) e /\ forall i n, (i < lab_digits l)%nat -> / 2 ^ 22 * powerRZ 10 e <= Rabs (IZR n / 10 ^ i * powerRZ 10 e - Rabs t).
Proof.
  intros t u l H. unfold valeur in H. apply valeur4_ok in H; [|rewrite calc_digits; lia].
  destruct H as (S & D & _). rewrite D. rewrite calc_digits. split; [apply ndigits_le|].
  exists (fst (calc_expo t u)). rewrite S. split; [apply suffixe_an|]. intros i n I.
  set (e := fst (calc_expo t u)) in *. pose proof (ndigits_min _ _ n I) as M. rewrite scaled_abs in M.
  pose proof (p10_pos e) as P. fold (p10 e).
  replace (IZR n / 10 ^ i * p10 e - Rabs t) with ((IZR n / 10 ^ i - Rabs t * p10 (- e)) * p10 e).
  - rewrite Rabs_mult, (Rabs_pos_eq (p10 e)) by lra. apply Rmult_le_compat_r; [lra|exact M].
  - rewrite Rmult_minus_distr_r, (Rmult_assoc (Rabs t)), p10_inv. ring.
Qed.
Print Assumptions C89_shortest.

(** Every value below 2e18 with a unit, below 2e9 without, has a label. *)
Theorem C89_total : forall t u, (u <> ""%string -> Rabs t <= 2000000000000000000) -> (u = ""%string -> Rabs t <= 2000000000) ->
  exists l, valeur t u = Ok l.
Proof.
  intros t u HU HN. unfold valeur. set (e := fst (calc_expo t u)).
  assert (B : Rabs (t * p10 (- e)) <= 2000000000).
  { rewrite scaled_abs. pose proof (p10_pos e) as P. apply Rmult_le_reg_r with (p10 e); [lra|]. rewrite Rmult_assoc, p10_inv, Rmult_1_r.
    assert (Q : forall x, Rabs t / p10 e < x -> Rabs t <= x * p10 e).
    { intros x H. apply Rmult_lt_compat_r with (r := p10 e) in H; [|lra]. unfold Rdiv in H. rewrite Rmult_assoc, Rinv_l, Rmult_1_r in H by lra. lra. }
    destruct (string_dec u "") as [->|U].
    - specialize (HN eq_refl). destruct (calc_nounit t) as (A & C). fold e in A, C.
      destruct (Req_dec t 0) as [Z|Z]; [rewrite (A (or_intror Z)), p10z; lra|].
      destruct (Rle_dec (/ 10) (Rabs t)) as [L|L]; [rewrite (A (or_introl L)), p10z; lra|].
      destruct (C Z ltac:(lra)) as [_ C2]. apply Q in C2. lra.
    - specialize (HU U). destruct (calc_unit t u U) as (A & A6 & A9 & A0). fold e in A, A6, A9, A0.
      destruct (Req_dec t 0) as [Z|Z]; [rewrite Z, Rabs_R0; lra|].
      destruct (Rlt_dec (Rabs t) (/ 1000000)) as [L|L].
      { rewrite (A6 L Z), p10m6. lra. }
      destruct (Rlt_dec (Rabs t) 1000000000000) as [L2|L2].
      { destruct (A ltac:(lra)) as [_ C2]. apply Q in C2. lra. }
      rewrite A9, p10p9 by lra. lra. }
  unfold valeur4. fold e. destruct (Z.of_nat (snd (calc_expo t u)) =? 0)%Z.
  - set (r := ZnearestA _). pose proof (Znearest_half (Zle_bool 0) (t * p10 (- e))) as H. fold r in H.
    assert (-2000000001 <= IZR r <= 2000000001) by (revert H B; unfold Rabs; repeat destruct (Rcase_abs _); lra).
    destruct H0 as [H1 H2]. apply le_IZR in H1, H2.
    destruct (Z.leb_spec (-2147483648) r); [|lia]. destruct (Z.leb_spec r 2147483647); [|lia]. cbn. eauto.
  - destruct (Z.ltb_spec (Z.of_nat (snd (calc_expo t u))) 0); [lia|]. eauto.
Qed.
Print Assumptions C89_total.

(** With a number of decimals chosen by the caller, the nearest decimal is printed. *)
Theorem C89_digits : forall t u nb l, valeur3 t u nb = Ok l -> (0 <= nb)%Z /\ lab_digits l = Z.to_nat nb /\
  exists e, announces u (lab_suffix l) e /\
  forall n, Rabs (read_value l e - t) <= Rabs (IZR n / 10 ^ Z.to_nat nb * powerRZ 10 e - t).
Proof.
  intros t u nb l. unfold valeur3, valeur4. set (e := fst (calc_expo t u)).
  assert (G : forall ch n d, Rabs (IZR (Znearest ch (t * p10 (- e) * 10 ^ d)) / 10 ^ d * p10 e - t) <= Rabs (IZR n / 10 ^ d * p10 e - t)).
  { intros ch n d. pose proof (p10_pos e) as P. pose proof (pow10_pos d) as P2.
    assert (Q : forall k, Rabs (IZR k / 10 ^ d * p10 e - t) = Rabs (IZR k - t * p10 (- e) * 10 ^ d) * (p10 e / 10 ^ d)).
    { intros k. assert (0 < p10 e / 10 ^ d) by (apply Rmult_lt_0_compat; [lra|apply Rinv_0_lt_compat; lra]).
      rewrite <- (Rabs_pos_eq (p10 e / 10 ^ d)) at 1 by lra. rewrite <- Rabs_mult. f_equal.
      rewrite Rmult_minus_distr_r. f_equal; [field; lra|].
      replace (t * p10 (- e) * 10 ^ d * (p10 e / 10 ^ d)) with (t * (p10 (- e) * p10 e)) by (field; lra). rewrite p10_inv. ring. }
    rewrite 2 Q. apply Rmult_le_compat_r; [apply Rmult_le_pos; [lra|left; apply Rinv_0_lt_compat; lra]|]. apply near_best. }
  destruct (Z.eqb_spec nb 0) as [->|N].
  - destruct (_ && _)%bool; [|discriminate]. intros H. injection H as <-. cbn [lab_digits lab_suffix]. split; [lia|]. split; [reflexivity|].
    exists e. split; [apply suffixe_an|]. intros n. unfold read_value. cbn [lab_num lab_digits].
    specialize (G (Zle_bool 0) n 0%nat). cbn [pow] in G. rewrite Rmult_1_r in G. exact G.
  - destruct (Z.ltb_spec nb 0); [discriminate|]. intros H1. injection H1 as <-. cbn [lab_digits lab_suffix]. split; [lia|]. split; [reflexivity|].
    exists e. split; [apply suffixe_an|]. intros n. unfold read_value. cbn [lab_num lab_digits]. apply G.
Qed.
Print Assumptions C89_digits.

(** Ticks of an axis: one exponent and one number of decimals for all of them; each label reads within 2^-22 of
    the power of ten, so that two ticks further apart than 2^-21 times the power of ten have different labels. *)
Theorem C89_axis : forall tics u, exists e, announces u (suffixe u e) e /\ e = fst (commun tics u) /\
  (forall t l, In t tics -> valeur4 t u e (Z.of_nat (snd (commun tics u))) = Ok l ->
     lab_suffix l = suffixe u e /\ lab_digits l = snd (commun tics u) /\ Rabs (read_value l e - t) <= / 2 ^ 22 * powerRZ 10 e) /\
  (forall t1 t2 l, In t1 tics -> In t2 tics -> / 2 ^ 21 * powerRZ 10 e < Rabs (t1 - t2) ->
     valeur4 t1 u e (Z.of_nat (snd (commun tics u))) = Ok l -> valeur4 t2 u e (Z.of_nat (snd (commun tics u))) <> Ok l).
Proof.
  intros tics u. 
  assert (exists e, e = fst (commun tics u) /\ announces u (suffixe u e) e) as (e & E & A).
  { destruct tics; [|apply commun_an; right; discriminate]. exists 0%Z. split; [reflexivity|].
    destruct u; [apply an_none|]. apply (an_unit _ ""); [discriminate|cbn; tauto]. }
  exists e. split; [exact A|]. split; [exact E|].
  assert (F : forall t l, In t tics -> valeur4 t u e (Z.of_nat (snd (commun tics u))) = Ok l ->
     lab_suffix l = suffixe u e /\ lab_digits l = snd (commun tics u) /\ Rabs (read_value l e - t) <= / 2 ^ 22 * powerRZ 10 e).
  { intros t l I H. apply valeur4_ok in H; [exact H|]. rewrite E. apply commun_digits, I. }
  split; [exact F|]. intros t1 t2 l I1 I2 D H1 H2.
  destruct (F _ _ I1 H1) as (_ & _ & D1). destruct (F _ _ I2 H2) as (_ & _ & D2).
  assert (Rabs (t1 - t2) <= / 2 ^ 21 * powerRZ 10 e); [|lra].
  replace (/ 2 ^ 21) with (/ 2 ^ 22 + / 2 ^ 22) by (change (2 ^ 22) with (2 * 2 ^ 21); field).
  replace (t1 - t2) with ((read_value l e - t2) - (read_value l e - t1)) by ring.
  eapply Rle_trans; [apply Rabs_triang|]. rewrite Rabs_Ropp. lra.
Qed.
Print Assumptions C89_axis.

Lemma unit_small t e : / 1000000 <= Rabs t < 1000000000000 -> 1 <= Rabs t * p10 (- e) < 1000 -> (e = -6 \/ e = -3 \/ e = 0 \/ e = 3 \/ e = 6 \/ e = 9)%Z -> fst (calc_expo t "Hz") = e.
Proof.
  intros T H E. unfold calc_expo. cbn [str_empty].
  assert (A2 : nul t = true -> Rabs t = 0) by (intros X; apply nul_t in X; subst; apply Rabs_R0).
  repeat (destruct E as [E|E]); subst e; cbn [Z.opp] in H; rewrite ?p10m3, ?p10m6, ?p10m9, ?p10p3, ?p10p6, ?p10z in H;
  repeat match goal with |- context [if ?c then _ else _] => destruct c eqn:? end; cbn [fst];
  rewrite ?Bool.andb_true_iff, ?Bool.andb_false_iff, ?ltb_t, ?geb_t, ?ltb_f, ?geb_f in *;
  rewrite ?p10m3, ?p10m6, ?p10p3, ?p10p6, ?p10z in *; try reflexivity; exfalso; intuition lra.
Qed.

(** Finding: the common exponent is not the smallest one, it depends on the order of the ticks (it is that of the
    last tick that is not null) ... *)
Theorem C89_common_exponent_refuted :
  fst (commun [1; 2000] "Hz") = 3%Z /\ fst (commun [2000; 1] "Hz") = 0%Z.
Proof.
  assert (N1 : nul 1 = false) by (unfold nul; destruct (Req_EM_T 1 0); [lra|reflexivity]).
  assert (N2 : nul 2000 = false) by (unfold nul; destruct (Req_EM_T 2000 0); [lra|reflexivity]).
  unfold commun. cbn [fst fold_left]. rewrite N1, N2.
  split; apply unit_small; rewrite ?(Rabs_pos_eq 1), ?(Rabs_pos_eq 2000) by lra; cbn [Z.opp]; rewrite ?p10m3, ?p10z; try lra; auto.
Qed.
Print Assumptions C89_common_exponent_refuted.

(** ... so that different ticks can get the same label, here 0 KHz for 0 and 0.0001, and 1 KHz. *)
Theorem C89_distinct_refuted :
  let tics := [0; 1 / 10000; 1000] in
  exists l, valeur4 0 "Hz" (fst (commun tics "Hz")) (Z.of_nat (snd (commun tics "Hz"))) = Ok l /\
            valeur4 (1 / 10000) "Hz" (fst (commun tics "Hz")) (Z.of_nat (snd (commun tics "Hz"))) = Ok l.
Proof.
  cbv zeta. exists (mklabel 0 0 " KHz").
  assert (N0 : nul 0 = true) by (apply nul_t; reflexivity).
  assert (N1 : nul (1 / 10000) = false) by (unfold nul; destruct (Req_EM_T (1 / 10000) 0); [lra|reflexivity]).
  assert (N2 : nul 1000 = false) by (unfold nul; destruct (Req_EM_T 1000 0); [lra|reflexivity]).
  assert (E : fst (commun [0; 1 / 10000; 1000] "Hz") = 3%Z).
  { unfold commun. cbn [fst fold_left]. rewrite N0, N1, N2. apply unit_small; rewrite ?(Rabs_pos_eq 1000) by lra; cbn [Z.opp]; rewrite ?p10m3; try lra; auto. }
  assert (SH : forall a n, Rabs (IZR n / 10 ^ 0 - a) < eps -> ndigits a = 0%nat).
  { intros a n H. destruct (ndigits a) eqn:K; [reflexivity|]. exfalso. pose proof (ndigits_min a 0 n ltac:(lia)). lra. }
  assert (EP : eps = / 4194304) by (unfold eps; f_equal; ring).
  assert (D : snd (commun [0; 1 / 10000; 1000] "Hz") = 0%nat).
  { unfold commun in E |- *. cbn [fst] in E. rewrite E. cbn [snd fold_left]. unfold ndigits3. cbn [Z.opp]. rewrite p10m3.
    rewrite (SH _ 0%Z), (SH _ 0%Z), (SH _ 1%Z); [reflexivity| | |]; rewrite EP, ?Rabs_R0, ?(Rabs_pos_eq (1 / 10000)), ?(Rabs_pos_eq 1000) by lra; cbn [pow];
    apply Rabs_def1; lra. }
  rewrite E, D. unfold valeur4. cbn [Z.of_nat Z.eqb Z.opp]. rewrite p10m3.
  assert (R0 : forall x, Rabs x < / 2 -> ZnearestA x = 0%Z).
  { intros x H. apply Znearest_imp. rewrite Rminus_0_r. exact H. }
  rewrite (R0 (0 * / 1000)), (R0 (1 / 10000 * / 1000)); [split; reflexivity| |]; apply Rabs_def1; lra.
Qed.
Print Assumptions C89_distinct_refuted.

(** Finding: an integer value above 2^31 without unit is converted to int, which is undefined. *)
Theorem C89_integer_refuted : valeur 3000000000 "" = UB.
Proof.
  assert (C : calc_expo 3000000000 "" = (0%Z, ndigits 3000000000)).
  { unfold calc_expo. cbn [str_empty]. rewrite Rabs_pos_eq by lra.
    replace (ltb 3000000000 70000) with false by (symmetry; apply ltb_f; lra). cbn [andb].
    destruct (nul 3000000000) eqn:N; [apply nul_t in N; lra|].
    replace (geb 3000000000 (1 / 10)) with true by (symmetry; apply geb_t; lra). reflexivity. }
  assert (D : ndigits 3000000000 = 0%nat).
  { destruct (ndigits 3000000000) eqn:K; [reflexivity|]. exfalso. pose proof (ndigits_min 3000000000 0 3000000000 ltac:(lia)) as M.
    cbn [pow] in M. replace (3000000000 / 1 - 3000000000) with 0 in M by field. rewrite Rabs_R0 in M. pose proof eps_pos. lra. }
  unfold valeur. rewrite C, D. cbn [fst snd]. unfold valeur4. cbn [Z.of_nat Z.eqb Z.opp]. rewrite p10z, Rmult_1_r.
  replace (ZnearestA 3000000000) with 3000000000%Z; [reflexivity|]. symmetry. apply Znearest_imp.
  rewrite Rminus_diag_eq, Rabs_R0 by reflexivity. lra.
Qed.
Print Assumptions C89_integer_refuted.

(** A concrete case: 1500 Hz is printed 1.5 KHz. *)
Example C89_ex : valeur 1500 "Hz" = Ok (mklabel 15 1 " KHz").
Proof.
  assert (E : fst (calc_expo 1500 "Hz") = 3%Z).
  { apply unit_small; rewrite ?(Rabs_pos_eq 1500) by lra; cbn [Z.opp]; rewrite ?p10m3; try lra; auto. }
  assert (EP : eps = / 4194304) by (unfold eps; f_equal; ring).
  assert (D : ndigits (Rabs (1500 * p10 (Z.opp 3))) = 1%nat).
  { cbn [Z.opp]. rewrite p10m3, Rabs_pos_eq by lra. set (a := 1500 * / 1000).
    assert (S1 : short a 1 = true) by (apply short_iff; exists 15%Z; rewrite EP; unfold a; cbn [pow]; apply Rabs_def1; lra).
    assert (S0 : short a 0 = false).
    { destruct (short a 0) eqn:K; [|reflexivity]. exfalso. apply short_iff in K. destruct K as [n K]. rewrite EP in K. unfold a in K. cbn [pow] in K.
      apply Rabs_def2 in K. assert (1 < IZR n) by lra. assert (IZR n < 2) by lra. apply lt_IZR in H, H0. lia. }
    unfold ndigits. cbn [seq find]. rewrite S0, S1. reflexivity. }
  unfold valeur. rewrite calc_digits, E, D. unfold valeur4. cbn [Z.of_nat Z.eqb Z.opp Z.ltb Z.compare Z.to_nat Pos.of_succ_nat Pos.to_nat Pos.iter_op].
  rewrite p10m3. replace (ZnearestE _) with 15%Z; [reflexivity|]. symmetry. apply Znearest_imp. change (Pos.to_nat 1) with 1%nat. cbn [pow]. apply Rabs_def1; lra.
Qed.
