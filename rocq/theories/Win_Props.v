(** C57 (elementary windows), C58 (Chebyshev and Kaiser windows): theorems. *)
From Coq Require Import Reals Lra Lia ZArith String.
From Verif Require Import Base BaseLemmas RField Vec_Model Vec_Proofs Sig_Proofs Special_Proofs Design_Proofs2 Ra_Model Ra_Proofs Win_Model Win_Spec Win_Proofs Win_Proofs2.
Local Open Scope R_scope.
Notation length := List.length.

(** Every window has the length asked for, and its values are in [0, 1]. *)
Lemma cheb_length n A : length (fenetre_chebychev n A) = n.
Proof.
  destruct (Nat.le_gt_cases 2 n) as [H|H]; [|unfold fenetre_chebychev; destruct (Nat.leb_spec n 1); [apply repeat_length|lia]].
  destruct (cheb_shape n A H) as (g & -> & ->). rewrite map_length, cw_length. lia.
Qed.
Lemma cheb_val n A i : (2 <= n)%nat -> (i < n)%nat -> nth i (fenetre_chebychev n A) 0 = nth i (cw (cheb_beta n A) (n - 1)) 0 / vmax (cw (cheb_beta n A) (n - 1)).
Proof. intros Hn Hi. destruct (cheb_shape n A Hn) as (g & -> & ->). rewrite nth_map0 by (rewrite cw_length; lia). reflexivity. Qed.
Lemma cheb_range n A i : (i < n)%nat -> 0 <= nth i (fenetre_chebychev n A) 0 <= 1.
Proof.
  intros Hi. destruct (Nat.le_gt_cases 2 n) as [H|H].
  - rewrite cheb_val by assumption. assert (N1 : (1 <= n - 1)%nat) by lia. pose proof (cw_max_pos (cheb_beta n A) (n - 1) (beta_ge1 n A) N1) as P. assert (I : In (nth i (cw (cheb_beta n A) (n - 1)) 0) (cw (cheb_beta n A) (n - 1))) by (apply nth_In; rewrite cw_length; lia).
    pose proof (vmax_ge _ _ I). pose proof (cw_nonneg _ _ _ (beta_ge1 n A) N1 I). split; [apply Rmult_le_pos; [assumption|left; apply Rinv_0_lt_compat; exact P]|].
    apply (Rmult_le_reg_r (vmax (cw (cheb_beta n A) (n - 1)))); [exact P|]. unfold Rdiv. rewrite Rmult_assoc, Rinv_l by lra. lra.
  - unfold fenetre_chebychev. destruct (Nat.leb_spec n 1); [|lia]. replace n with 1%nat by lia. replace i with 0%nat by lia. cbn. lra.
Qed.
Theorem C57_length_range : forall type n sym, length (fen type n sym) = n /\ forall i, (i < n)%nat -> 0 <= nth i (fen type n sym) 0 <= 1.
Proof.
  intros type n sym. assert (D : type = CHEBYCHEV \/ type <> CHEBYCHEV) by (destruct type; auto; right; discriminate). destruct D as [-> |D].
  - cbn [fen]. split; [apply cheb_length|]. intros i Hi. apply cheb_range. exact Hi.
  - split; [apply fen_length; exact D|]. intros i Hi. rewrite fen_val by assumption. apply shape_range. apply inter_range. exact Hi.
Qed.
Print Assumptions C57_length_range.
(** The symmetric windows are symmetric (the Chebyshev one always is). *)
Lemma cheb_symmetric n A : symmetric (fenetre_chebychev n A).
Proof.
  intros i Hi. rewrite cheb_length in *. destruct (Nat.le_gt_cases 2 n) as [H|H].
  - rewrite !cheb_val by lia. f_equal. unfold cw. rewrite !nth_map_seq by lia. f_equal. rewrite <- (cc_sym _ _ (Z.of_nat i)). f_equal. lia.
  - replace (n - 1 - i)%nat with i by lia. reflexivity.
Qed.
Theorem C57_symmetric : forall type n, symmetric (fen type n true).
Proof.
  intros type n. assert (D : type = CHEBYCHEV \/ type <> CHEBYCHEV) by (destruct type; auto; right; discriminate). destruct D as [-> |D]; [apply cheb_symmetric|].
  intros i Hi. rewrite fen_length in * by exact D. rewrite !fen_val by (assumption || lia). rewrite inter_sym by exact Hi. symmetry. apply shape_even. auto.
Qed.
Print Assumptions C57_symmetric.
(** The centre of an odd symmetric or even periodic window is 1; the ends of an even symmetric Hann, triangle or Blackman window are 0. *)
Theorem C57_peak : forall type n, type <> CHEBYCHEV -> (0 < n)%nat -> nth (n / 2) (fen type n (Nat.odd n)) 0 = 1.
Proof.
  intros type n D Hn. assert (n / 2 < n)%nat by (apply Nat.div_lt; lia). rewrite fen_val by assumption. rewrite inter_cyclic by (assumption || (split; auto)). unfold Rminus, Rdiv. rewrite Rplus_opp_r, Rmult_0_l. apply shape_0.
Qed.
Print Assumptions C57_peak.
Theorem C57_ends : forall type h, type = HANN \/ type = TRIANGLE \/ type = BLACKMAN -> (1 <= h)%nat -> nth 0 (fen type (2 * h) true) 0 = 0 /\ nth (2 * h - 1) (fen type (2 * h) true) 0 = 0.
Proof.
  intros type h D Hh. assert (E : nth 0 (fen type (2 * h) true) 0 = 0).
  { rewrite fen_val by (try lia; destruct D as [->|[-> | ->]]; discriminate). rewrite inter_even_sym by lia. cbn [INR]. unfold Rdiv. rewrite Rmult_0_l, Rplus_0_r. destruct D as [->|[-> | ->]]; cbn [shape].
    - replace (2 * PI * - / 2) with (- PI) by field. rewrite cos_neg, cos_PI. lra.
    - destruct (Rlt_dec (- / 2) 0); lra.
    - replace (2 * PI * - / 2) with (- PI) by field. replace (2 * - PI) with (- (2 * PI)) by ring. rewrite !cos_neg, cos_PI, cos_2PI. lra. }
  split; [exact E|]. etransitivity; [|exact E]. pose proof (C57_symmetric type (2 * h) 0%nat) as S. destruct (C57_length_range type (2 * h) true) as [L _]. rewrite L in S. symmetry. etransitivity; [apply S; lia|]. f_equal. lia.
Qed.
Print Assumptions C57_ends.

(** Constant overlap-add: M copies of a window of M H samples (periodic if M H is even, symmetric if it is odd), shifted by H,
    add up to a constant. *)
Theorem C57_overlap_hann : forall M H i, (2 <= M)%nat -> (i < H)%nat ->
  overlap (fen HANN (M * H) (Nat.odd (M * H))) M H i = INR M / 2 /\ overlap (fen HAMMING (M * H) (Nat.odd (M * H))) M H i = 54 / 100 * INR M.
Proof.
  intros M H i HM Hi. assert (Cy : cyclic (M * H) (Nat.odd (M * H))) by (split; [nia|reflexivity]). split; rewrite overlap_val by (assumption || discriminate); cbn [shape]; rewrite cola_gen by exact HM; field.
Qed.
Print Assumptions C57_overlap_hann.
Theorem C57_overlap_blackman : forall M H i, (3 <= M)%nat -> (i < H)%nat -> overlap (fen BLACKMAN (M * H) (Nat.odd (M * H))) M H i = 42 / 100 * INR M.
Proof.
  intros M H i HM Hi. assert (Cy : cyclic (M * H) (Nat.odd (M * H))) by (split; [nia|reflexivity]). rewrite overlap_val by (assumption || discriminate). rewrite cola_bm by exact HM. ring.
Qed.
Print Assumptions C57_overlap_blackman.
Theorem C57_overlap_triangle : forall m H i, (1 <= m)%nat -> (i < H)%nat -> overlap (fen TRIANGLE (2 * m * H) false) (2 * m) H i = INR m.
Proof.
  intros m H i Hm Hi. assert (E : Nat.odd (2 * m * H) = false) by (rewrite Nat.odd_mul, Nat.odd_mul; reflexivity). assert (Cy : cyclic (2 * m * H) false) by (split; [nia|symmetry; exact E]).
  rewrite overlap_val by (assumption || discriminate). assert (0 < INR H) by (apply lt_0_INR; lia). assert (1 <= INR m) by (apply (le_INR 1); exact Hm).
  assert (Eh : INR (2 * m * H / 2) = INR m * INR H) by (rewrite <- mult_INR; f_equal; symmetry; apply (Nat.div_unique _ 2 _ 0); lia). pose proof (pos_INR i). apply lt_INR in Hi.
  rewrite cola_tri.
  - rewrite mult_INR. change (INR 2) with 2. field.
  - exact Hm.
  - rewrite Eh, !mult_INR. change (INR 2) with 2. replace ((INR i - INR m * INR H) / (2 * INR m * INR H)) with (INR i / (2 * INR m * INR H) - / 2) by (field; lra). assert (0 <= INR i / (2 * INR m * INR H)) by (apply Rmult_le_pos; [assumption|left; apply Rinv_0_lt_compat; nra]). lra.
  - rewrite Eh, !mult_INR. change (INR 2) with 2. replace ((INR i - INR m * INR H) / (2 * INR m * INR H)) with (- / 2 + INR i / INR H * / (2 * INR m)) by (field; lra). apply Rplus_lt_compat_l. rewrite <- (Rmult_1_l (/ (2 * INR m))) at 2.
    apply Rmult_lt_compat_r; [apply Rinv_0_lt_compat; lra|]. apply (Rmult_lt_reg_r (INR H)); [assumption|]. unfold Rdiv. rewrite Rmult_assoc, Rinv_l by lra. lra.
Qed.
Print Assumptions C57_overlap_triangle.
(** Sum of the coefficients. *)
Theorem C57_sum : forall n, (2 <= n)%nat -> sum (K := Rring) n (fun k => nth k (fen HANN n (Nat.odd n)) 0) = INR n / 2.
Proof.
  intros n Hn. pose proof (proj1 (C57_overlap_hann n 1 0 Hn ltac:(lia))) as E. rewrite Nat.mul_1_r in E. rewrite <- E. unfold overlap. apply rsum_ext. intros k _. f_equal. lia.
Qed.
Print Assumptions C57_sum.
(** Finding: an odd periodic window has not the period n; for n = 3 the copies of the Hann window do not add up to 3/2. *)
Theorem C57_odd_periodic_refuted : overlap (fen HANN 3 false) 3 1 0 > 3 / 2.
Proof.
  unfold overlap. change (0 + 2 * 1)%nat with 2%nat. rewrite !rsum_S. cbn [sum]. change (0 + 0 * 1)%nat with 0%nat. change (0 + 1 * 1)%nat with 1%nat. change (0 + 2 * 1)%nat with 2%nat. rewrite !fen_val by (lia || discriminate).
  change 3%nat with (2 * 1 + 1)%nat. rewrite !inter_odd_per by lia. cbn [shape]. change (2 * 1 + 1)%nat with 3%nat. change (2 * 1)%nat with 2%nat.
  replace (2 * PI * (- INR 1 / INR 3 + INR 0 * (INR 2 / (INR 3 * INR 3)))) with (- (PI - PI / 3)) by (cbn [INR]; field).
  replace (2 * PI * (- INR 1 / INR 3 + INR 1 * (INR 2 / (INR 3 * INR 3)))) with (- (2 * PI / 9)) by (cbn [INR]; field).
  replace (2 * PI * (- INR 1 / INR 3 + INR 2 * (INR 2 / (INR 3 * INR 3)))) with (2 * PI / 9) by (cbn [INR]; field).
  rewrite !cos_neg. replace (PI - PI / 3) with (- (PI / 3) + PI) by ring. rewrite neg_cos, cos_neg, cos_PI3. pose proof PI_RGT_0. assert (1 / 2 < cos (2 * PI / 9)) by (rewrite <- cos_PI3; apply cos_decreasing_1; lra).
  change (cadd (c := Rring)) with Rplus. change (c0 : Rring) with 0. lra.
Qed.
Print Assumptions C57_odd_periodic_refuted.
(** Names: the name of a window is read back, any other name than those of the table is refused. *)
Theorem C57_names : (forall f, parse_fenetre (fenetre2string f) = Ok f) /\
  forall s, (forall f, ~ In (s, f) fen_table) -> parse_fenetre s = Exc.
Proof.
  split; [intros []; reflexivity|]. intros s. unfold parse_fenetre. induction fen_table as [|[k v] l IH]; intros H; [reflexivity|]. cbn [assoc]. destruct (String.eqb_spec k s) as [-> |N]; [exfalso; apply (H v); left; reflexivity|]. apply IH. intros f I. apply (H f). right. exact I.
Qed.
Print Assumptions C57_names.

(** ** C58: Chebyshev window *)
(** The largest coefficient is 1, whatever the attenuation. *)
Theorem C58_chebyshev_normalised : forall n A, (1 <= n)%nat -> In 1 (fenetre_chebychev n A) /\ symmetric (fenetre_chebychev n A) /\ length (fenetre_chebychev n A) = n /\
  forall i, (i < n)%nat -> 0 <= nth i (fenetre_chebychev n A) 0 <= 1.
Proof.
  intros n A Hn. split; [|split; [apply cheb_symmetric|split; [apply cheb_length|intros; apply cheb_range; assumption]]].
  destruct (Nat.le_gt_cases 2 n) as [H|H].
  - destruct (cheb_shape n A H) as (g & -> & Eg). assert (P : 0 < vmax g) by (rewrite Eg; apply cw_max_pos; [apply beta_ge1|lia]). replace 1 with (vmax g / vmax g) by (field; lra). apply (in_map (fun v => v / vmax g)). apply vmax_in. rewrite Eg. intros E. apply (f_equal (@List.length R)) in E. rewrite cw_length in E. discriminate E.
  - unfold fenetre_chebychev. destruct (Nat.leb_spec n 1); [|lia]. replace n with 1%nat by lia. left. reflexivity.
Qed.
Print Assumptions C58_chebyshev_normalised.
Lemma cheb_response n A : (2 <= n)%nat -> exists g, 0 < g /\ forall om, response (fenetre_chebychev n A) om = g * chebT (n - 1) (cheb_beta n A * cos (om / 2)).
Proof.
  intros Hn. destruct (cheb_shape n A Hn) as (w & -> & Ew). assert (P : 0 < vmax w) by (rewrite Ew; apply cw_max_pos; [apply beta_ge1|lia]). pose proof (gN (n - 1) ltac:(lia)) as G.
  exists (INR (n - 1) / sqrt (INR (n - 1)) / vmax w). split; [apply Rdiv_lt_0_compat; assumption|]. intros om'. rewrite response_scale. rewrite Ew at 1. rewrite cw_response. unfold Rdiv. ring.
Qed.
(** Response: outside the main lobe (edge where beta cos(om / 2) = 1, beta = cosh(acosh(10^(A/20)) / (n - 1))) the response is at
    least A dB below the peak, which is at frequency 0; the bound is reached with alternating signs (equal ripple). *)
Theorem C58_chebyshev_attenuation : forall n A, (2 <= n)%nat -> 0 <= A ->
  let w := fenetre_chebychev n A in let beta := cosh (acosh (Rpower 10 (A / 20)) / INR (n - 1)) in
  0 < response w 0 /\
  (forall om, Rabs (response w om) <= response w 0) /\
  (forall om, beta * Rabs (cos (om / 2)) <= 1 -> Rabs (response w om) <= response w 0 / Rpower 10 (A / 20)) /\
  (forall om j, beta * cos (om / 2) = cos (INR j * PI / INR (n - 1)) -> response w om = (if Nat.odd j then -1 else 1) * (response w 0 / Rpower 10 (A / 20))).
Proof.
  intros n A Hn HA w beta. destruct (cheb_response n A Hn) as (g & Pg & R). assert (Eb : beta = cheb_beta n A) by (unfold beta, cheb_beta; f_equal; unfold Rdiv; ring). pose proof (beta_ge1 n A) as B1. pose proof (alin_ge1 A HA) as A1.
  assert (R0 : response w 0 = g * Rpower 10 (A / 20)). { unfold w. rewrite R. replace (0 / 2) with 0 by field. rewrite cos_0, Rmult_1_r, beta_peak by assumption. reflexivity. }
  assert (RG : response w 0 / Rpower 10 (A / 20) = g) by (rewrite R0; field; lra). split; [|split; [|split]].
  - rewrite R0. apply Rmult_lt_0_compat; lra.
  - intros om. rewrite R0. unfold w. rewrite R, Rabs_mult, (Rabs_right g) by lra. apply Rmult_le_compat_l; [lra|]. rewrite <- (beta_peak n A Hn HA). apply chebT_abs; [|exact B1]. rewrite Rabs_mult, Rabs_right by lra. pose proof (COS_bound (om / 2)). assert (Rabs (cos (om / 2)) <= 1) by (apply Rabs_le; lra). pose proof (Rabs_pos (cos (om / 2))). nra.
  - intros om H. rewrite RG. unfold w. rewrite R, Rabs_mult, (Rabs_right g) by lra. rewrite <- (Rmult_1_r g) at 2. apply Rmult_le_compat_l; [lra|]. apply chebT_small. rewrite <- Eb. assert (Q : Rabs (beta * cos (om / 2)) <= 1) by (rewrite Rabs_mult, (Rabs_right beta) by lra; exact H).
    pose proof (Rle_abs (beta * cos (om / 2))). pose proof (Rle_abs (- (beta * cos (om / 2)))) as G. rewrite Rabs_Ropp in G. lra.
  - intros om j H. rewrite RG. unfold w. rewrite R, <- Eb, H, chebT_cos. replace (INR (n - 1) * (INR j * PI / INR (n - 1))) with (INR j * PI) by (field; apply not_0_INR; lia). rewrite <- sign_cos. ring.
Qed.
Print Assumptions C58_chebyshev_attenuation.

(** Kaiser window, for any positive non-decreasing function in place of the Bessel function. *)
Theorem C58_kaiser : forall (I0 : R -> R) n beta, (forall x y, 0 <= x <= y -> 0 < I0 x <= I0 y) -> 0 <= beta ->
  (forall sym, length (fenetre_kaiser1 I0 n beta sym) = n /\ forall i, (i < n)%nat -> 0 < nth i (fenetre_kaiser1 I0 n beta sym) 0 <= 1) /\
  symmetric (fenetre_kaiser1 I0 n beta true) /\
  ((0 < n)%nat -> nth (n / 2) (fenetre_kaiser1 I0 n beta (Nat.odd n)) 0 = 1) /\
  forall i j, (i <= j)%nat -> (j <= n / 2)%nat -> (j < n)%nat -> nth i (fenetre_kaiser1 I0 n beta (Nat.odd n)) 0 <= nth j (fenetre_kaiser1 I0 n beta (Nat.odd n)) 0.
Proof.
  intros I0 n beta HI Hb. pose proof PI_RGT_0 as PP. assert (Hb' : 0 <= beta * PI) by (apply Rmult_le_pos; lra). assert (P0 : 0 < I0 (beta * PI)) by (apply (HI _ (beta * PI)); lra).
  assert (L : forall sym, length (fenetre_kaiser1 I0 n beta sym) = n) by (intros; unfold fenetre_kaiser1; rewrite map_length, inter_length; reflexivity).
  set (f := fun t => I0 (beta * PI * sqrt (1 - 2 * t * (2 * t))) * (1 / I0 (beta * PI))).
  assert (V : forall sym i, (i < n)%nat -> nth i (fenetre_kaiser1 I0 n beta sym) 0 = f (nth i (fen_inter n sym) 0)) by (intros sym i Hi; unfold fenetre_kaiser1; rewrite nth_map0 by (rewrite inter_length; exact Hi); reflexivity).
  assert (MS : forall t u, - / 2 <= t <= u -> u <= 0 -> f t <= f u).
  { intros t u H1 H2. unfold f. apply Rmult_le_compat_r; [left; apply Rdiv_lt_0_compat; lra|]. apply HI. assert (S1 : sqrt (1 - 2 * t * (2 * t)) <= sqrt (1 - 2 * u * (2 * u))) by (apply sqrt_le_1; nra). pose proof (sqrt_pos (1 - 2 * t * (2 * t))). split; [apply Rmult_le_pos; assumption|]. apply Rmult_le_compat_l; assumption. }
  assert (F0 : f 0 = 1) by (unfold f; replace (1 - 2 * 0 * (2 * 0)) with 1 by ring; rewrite sqrt_1, Rmult_1_r; field; lra).
  assert (FE : forall t, f (- t) = f t) by (intros t; unfold f; do 4 f_equal; ring).
  split; [|split; [|split]].
  - intros sym. split; [apply L|]. intros i Hi. rewrite V by exact Hi. pose proof (inter_range n sym i Hi) as B. set (t := nth i (fen_inter n sym) 0) in *. split.
    + unfold f. apply Rmult_lt_0_compat; [|apply Rdiv_lt_0_compat; lra]. apply (HI _ (beta * PI * sqrt (1 - 2 * t * (2 * t)))). split; [|apply Rle_refl]. apply Rmult_le_pos; [exact Hb'|apply sqrt_pos].
    + rewrite <- F0. destruct (Rle_dec t 0); [apply MS; lra|]. rewrite <- FE. apply MS; lra.
  - intros i Hi. rewrite L in *. rewrite !V by lia. rewrite inter_sym by exact Hi. symmetry. apply FE.
  - intros Hn. assert (n / 2 < n)%nat by (apply Nat.div_lt; lia). rewrite V by assumption. rewrite inter_cyclic by (assumption || (split; auto)). unfold Rminus, Rdiv. rewrite Rplus_opp_r, Rmult_0_l. exact F0.
  - intros i j Hij Hj Hn. rewrite !V by lia. assert (Cy : cyclic n (Nat.odd n)) by (split; [lia|reflexivity]). pose proof (inter_range n (Nat.odd n) i ltac:(lia)) as B. rewrite !(inter_cyclic n _ Cy) in * by lia. apply le_INR in Hij, Hj. assert (0 < / INR n) by (apply Rinv_0_lt_compat; apply lt_0_INR; lia).
    apply MS; [split; [apply B|]; apply Rmult_le_compat_r; lra|]. unfold Rdiv. nra.
Qed.
Print Assumptions C58_kaiser.
(** Kaiser parameters: an odd number of coefficients, at least the documented one and at most 2 more, a non-negative shape. *)
Theorem C58_kaiser_param : forall A df, 0 < df -> let '(beta, n) := kaiser_param A df in let spec := (A - 795 / 100) / (2285 / 1000 * (2 * PI * df)) in
  Z.odd n = true /\ (1 <= n)%Z /\ spec <= IZR n /\ (0 < spec -> IZR n < spec + 2) /\ 0 <= beta.
Proof.
  intros A df Hd. unfold kaiser_param. set (spec := (A - 795 / 100) / (2285 / 1000 * (2 * PI * df))). pose proof (ceil_spec spec) as C. set (m := ceilZ spec) in *. cbv zeta.
  set (k := if (m <=? 0)%Z then 1%Z else m). assert (K : (1 <= k)%Z /\ spec <= IZR k /\ (0 < spec -> IZR k < spec + 1)).
  { unfold k. destruct (Z.leb_spec m 0) as [G|G]; [|split; [lia|lra]]. apply IZR_le in G. split; [lia|]. split; [lra|]. intros; lra. }
  destruct K as (K1 & K2 & K3). pose proof PI_RGT_0.
  assert (O : Z.odd (if Z.even k then (k + 1)%Z else k) = true) by (destruct (Z.even k) eqn:E; [change (k + 1)%Z with (Z.succ k); rewrite Z.odd_succ; exact E|rewrite <- Z.negb_even, E; reflexivity]).
  split; [exact O|]. split; [destruct (Z.even k); lia|]. split; [destruct (Z.even k); rewrite ?plus_IZR; lra|]. split; [intros Hs; specialize (K3 Hs); destruct (Z.even k); rewrite ?plus_IZR; lra|].
  apply Rmult_le_pos; [|left; apply Rinv_0_lt_compat; lra]. destruct (Rlt_dec 50 A); [lra|]. destruct (Rle_dec 21 A); [|lra]. destruct (Req_EM_T A 21); [lra|]. pose proof (exp_pos (4 / 10 * ln (A - 21))). unfold Rpower. lra.
Qed.
Print Assumptions C58_kaiser_param.
(** Non-trivial cases. *)
Example C57_case : fen HANN 4 false = [0; 1 / 2; 1; 1 / 2] /\ Nat.odd (2 * 3) = false /\ Nat.odd (3 * 3) = true.
Proof.
  split; [|split; reflexivity]. apply (list_ext 0); [apply fen_length; discriminate|]. intros i Hi. rewrite fen_length in Hi by discriminate. rewrite fen_val by (discriminate || lia). change 4%nat with (2 * 2)%nat. rewrite inter_even_per by lia. cbn [shape].
  assert (D : (i = 0 \/ i = 1 \/ i = 2 \/ i = 3)%nat) by lia. destruct D as [->|[->|[-> | ->]]]; cbn [nth].
  - replace (2 * PI * ((INR 0 - INR 2) / INR (2 * 2))) with (- PI) by (cbn [INR Nat.mul Nat.add]; field). rewrite cos_neg, cos_PI. lra.
  - replace (2 * PI * ((INR 1 - INR 2) / INR (2 * 2))) with (- (PI / 2)) by (cbn [INR Nat.mul Nat.add]; field). rewrite cos_neg, cos_PI2. lra.
  - replace (2 * PI * ((INR 2 - INR 2) / INR (2 * 2))) with 0 by (cbn [INR Nat.mul Nat.add]; field). rewrite cos_0. lra.
  - replace (2 * PI * ((INR 3 - INR 2) / INR (2 * 2))) with (PI / 2) by (cbn [INR Nat.mul Nat.add]; field). rewrite cos_PI2. lra.
Qed.
Example C58_case : (forall x y, 0 <= x <= y -> 0 < 1 + x <= 1 + y) /\ exists om, cosh (acosh (Rpower 10 (60 / 20)) / INR (5 - 1)) * Rabs (cos (om / 2)) <= 1.
Proof.
  split; [intros; lra|]. exists PI. replace (PI / 2) with (PI / 2) by reflexivity. rewrite cos_PI2, Rabs_R0. lra.
Qed.
