(** C50: theorems. *)
From Coq Require Import Reals Lra Lia ZArith.
From Verif Require Import Base BaseLemmas OField RField Filters_Model Filters_Spec Polyphase_Model Polyphase_Spec Interp_Model Interp_Spec Interp_Proofs Interp_Proofs2
  Ra_Model Ra_Spec Ra_Proofs Ra_Proofs2.
Local Open Scope R_scope.

(** Any interpolator f of K points (any type of samples): the output is the resampled stream whatever the blocks, and the
    output buffer is never too small. *)
Theorem C50_resampled : forall (A : Type) (d : A) (K : nat) (itp : list A -> R -> res A) (f : list A -> R -> A) (r : R), 0 < r -> (0 < K)%nat ->
  (forall w phi, length w = K -> 0 <= phi < 1 -> itp w phi = Ok (f w phi)) ->
  forall blocks, exists s y, run (ra_step itp r) (ra_init d K) blocks = Ok (s, y) /\ resampled d K f r (concat blocks) y.
Proof.
  intros A d K itp f r Hr HK Hi blocks. destruct (run_init A d K itp f r Hr HK Hi blocks) as (s & E). do 2 eexists. split; [exact E|]. apply gall_spec. exact Hr.
Qed.
Print Assumptions C50_resampled.
(** The number of outputs is the ratio times the number of inputs, rounded up. *)
Theorem C50_count : forall (A : Type) (d : A) (K : nat) (f : list A -> R -> A) (r : R) x y, 0 < r -> resampled d K f r x y ->
  r * INR (length x) <= INR (length y) < r * INR (length x) + 1.
Proof.
  intros A d K f r x y Hr [H _]. replace (length y) with (cnt r (length x)); [apply cnt_bound; exact Hr|].
  destruct (Nat.lt_trichotomy (cnt r (length x)) (length y)) as [T|[T|T]]; [|exact T|]; exfalso.
  - apply H in T. apply cnt_iff in T; [lia|exact Hr].
  - apply (cnt_iff r (length x) (length y) Hr) in T. apply H in T. lia.
Qed.
Print Assumptions C50_count.
(** resampled determines the output. *)
Theorem C50_unique : forall (A : Type) (d : A) (K : nat) (f : list A -> R -> A) (r : R) x y z, resampled d K f r x y -> resampled d K f r x z -> y = z.
Proof.
  intros A d K f r x y z [Hy Vy] [Hz Vz]. assert (L : length y = length z).
  { destruct (Nat.lt_trichotomy (length y) (length z)) as [T|[T|T]]; [|exact T|]; exfalso.
    - apply Hz in T. apply Hy in T. lia.
    - apply Hy in T. apply Hz in T. lia. }
  apply (list_ext d); [exact L|]. intros k Hk. destruct (Vy k Hk) as (i & phi & E & B & ->). destruct (Vz k ltac:(lia)) as (i' & phi' & E' & B' & ->).
  assert (i = Int_part (INR k / r)) by (symmetry; apply int_part_eq; lra). assert (i' = Int_part (INR k / r)) by (symmetry; apply int_part_eq; lra).
  assert (i = i') by congruence. clear H H0. subst i'. replace phi' with phi by lra. reflexivity.
Qed.
Print Assumptions C50_unique.

(** Linear interpolator: output k is the linear interpolation of the stream at the instant k / r - 1. *)
Lemma lin_total w phi : length w = 2%nat -> itp_lin w phi = Ok ((1 - phi) * nth 0 w 0 + phi * nth 1 w 0).
Proof.
  intros L. unfold itp_lin. rewrite itrp_step_ok; [|lia|reflexivity|lia]. f_equal. destruct w as [|a [|b [|? ?]]]; try discriminate L. cbn [sum]. change ((0 + 0) mod 2)%nat with 0%nat. change ((1 + 0) mod 2)%nat with 1%nat. cbn.
  match goal with |- @eq _ ?a ?b => change (@eq R a b) end. ring.
Qed.
Theorem C50_linear : forall (r : R) (blocks : list (list R)), 0 < r -> exists s y, run (ra_step itp_lin r) (ra_init (A := Rfield) 0 2) blocks = Ok (s, y) /\
  (forall k, (k < length y)%nat <-> INR k / r < INR (length (concat blocks))) /\
  forall k i phi, (k < length y)%nat -> INR k / r = IZR i + phi -> 0 <= phi < 1 ->
    nth k y 0 = (1 - phi) * before 0 (concat blocks) (i - 1) + phi * before 0 (concat blocks) i.
Proof.
  intros r blocks Hr. destruct (C50_resampled Rfield 0 2 itp_lin (fun w phi => (1 - phi) * nth 0 w 0 + phi * nth 1 w 0) r Hr ltac:(lia)) with (blocks := blocks) as (s & y & E & H & V).
  { intros w phi L _. apply lin_total. exact L. }
  exists s, y. split; [exact E|]. split; [exact H|]. intros k i phi Hk Ek B. destruct (V k Hk) as (i' & phi' & E' & B' & Q).
  assert (i = Int_part (INR k / r)) by (symmetry; apply int_part_eq; lra). assert (i' = Int_part (INR k / r)) by (symmetry; apply int_part_eq; lra).
  assert (i' = i) by congruence. clear H0 H1. subst i'. replace phi' with phi in Q by lra. etransitivity; [exact Q|]. unfold last_samples. cbn [seq map nth].
  change (Z.of_nat 2) with 2%Z. change (Z.of_nat 0) with 0%Z. change (Z.of_nat 1) with 1%Z. replace (i - 2 + 1 + 0)%Z with (i - 1)%Z by lia. replace (i - 2 + 1 + 1)%Z with i by lia. reflexivity.
Qed.
Print Assumptions C50_linear.

(** Lagrange interpolator of degree d: a polynomial signal of degree at most d comes out as the same polynomial at the
    instants k / r - (d + 1) / 2. *)
Lemma peval_cons (c : R) (p : list R) u : peval (K := Rring) (c :: p) u = c + u * peval (K := Rring) p u.
Proof.
  unfold peval. cbn [length]. rewrite (sum_S_l Rring). cbn [cpow]. change (samp (K := Rring) (c :: p) 0) with c. rewrite <- (sum_mul_l Rring).
  match goal with |- @eq _ ?a ?b => change (@eq R a b) end. change (cadd (c := Rring)) with Rplus. f_equal; [cbn; ring|]. apply (sum_ext Rring). intros i _. cbn [cpow]. change (samp (K := Rring) (c :: p) (S i)) with (samp (K := Rring) p i).
  cbn. ring.
Qed.
Fixpoint mul_shift (s : R) (q : list R) (c : R) : list R := match q with [] => [c] | a :: t => (c + s * a) :: mul_shift s t a end.
Lemma mul_shift_ok s q : forall c u, peval (K := Rring) (mul_shift s q c) u = c + (u + s) * peval (K := Rring) q u.
Proof.
  induction q as [|a t IH]; intros c u; cbn [mul_shift].
  - rewrite peval_cons. unfold peval. cbn. ring.
  - rewrite !peval_cons, IH. match goal with |- @eq _ ?a ?b => change (@eq R a b) end. ring.
Qed.
Lemma mul_shift_len s q : forall c, length (mul_shift s q c) = S (length q).
Proof. induction q as [|a t IH]; intros c; cbn; [reflexivity|]. rewrite IH. reflexivity. Qed.
Lemma poly_shift s (p : list R) : exists q, length q = length p /\ forall u, peval (K := Rring) q u = peval (K := Rring) p (u + s).
Proof.
  induction p as [|c p (q & L & H)]; [exists []; split; [reflexivity|intros; reflexivity]|]. exists (mul_shift s q c). split; [etransitivity; [apply mul_shift_len|]; cbn [length]; f_equal; exact L|].
  intros u. rewrite mul_shift_ok, peval_cons, H. reflexivity.
Qed.
Theorem C50_lagrange : forall (d : nat) (r : R) (p : list R) (blocks : list (list R)), 0 < r -> (length p <= d + 1)%nat ->
  (forall t, (t < length (concat blocks))%nat -> nth t (concat blocks) 0 = peval (K := Rring) p (INR t)) ->
  exists s y, run (ra_step (itp_lagrange d) r) (ra_init (A := Rfield) 0 (d + 1)) blocks = Ok (s, y) /\
  (forall k, (k < length y)%nat <-> INR k / r < INR (length (concat blocks))) /\
  forall k, (k < length y)%nat -> INR d <= INR k / r -> nth k y 0 = peval (K := Rring) p (INR k / r - (INR d + 1) / 2).
Proof.
  intros d r p blocks Hr Hp Hx.
  set (f := fun (w : list R) (phi : R) => sum (K := Rring) (d + 1) (fun i => cmul (c := Rring) (samp (K := Rring) (lagrange_coefs (F := Rfield) d phi) i) (samp (K := Rring) w ((i + 0) mod (d + 1))))).
  assert (T : forall w phi, length w = (d + 1)%nat -> itp_lagrange d w phi = Ok (f w phi)).
  { intros w phi L. unfold itp_lagrange. rewrite itrp_step_ok; [reflexivity|lia|unfold lagrange_coefs; rewrite map_length, seq_length; reflexivity|lia]. }
  destruct (C50_resampled Rfield 0 (d + 1) (itp_lagrange d) f r Hr ltac:(lia)) with (blocks := blocks) as (s & y & E & H & V).
  { intros w phi L _. apply T. exact L. }
  exists s, y. split; [exact E|]. split; [exact H|]. intros k Hk B. destruct (V k Hk) as (i & phi & Ek & Bk & Q). apply H in Hk.
  assert (I1 : (Z.of_nat d <= i)%Z).
  { destruct (Z.le_gt_cases (Z.of_nat d) i) as [G|G]; [exact G|]. exfalso. assert (G' : (i + 1 <= Z.of_nat d)%Z) by lia. apply IZR_le in G'. rewrite plus_IZR, <- INR_IZR_INZ in G'. lra. }
  assert (I2 : (i < Z.of_nat (length (concat blocks)))%Z) by (apply lt_IZR; rewrite <- INR_IZR_INZ; apply Rle_lt_trans with (INR k / r); [lra|exact Hk]).
  etransitivity; [exact Q|].
  destruct (poly_shift (IZR (i - Z.of_nat d)) p) as (q & Lq & Hq).
  set (w := last_samples 0 (concat blocks) (d + 1) i) in *.
  assert (Lw : length w = (d + 1)%nat) by (unfold w, last_samples; rewrite map_length, seq_length; reflexivity).
  assert (Step : itp_lagrange d w phi = Ok (peval (K := Rring) q ((INR d - 1) / 2 + phi))).
  { unfold itp_lagrange. rewrite (lagrange_step Rfield d phi q w 0); [| |exact (Nat.le_trans _ _ _ (Nat.eq_le_incl _ _ Lq) Hp)|exact (Nat.eq_le_incl _ _ (eq_sym Lw))|].
    - do 2 f_equal. change (cnat (K := Rfield)) with (cnat (K := Rring)). rewrite !cnat_R. reflexivity.
    - apply (ofield_distinct Rofield).
    - intros j Hj. rewrite Nat.add_0_r, Nat.mod_small by lia. change (cnat (K := Rfield) j) with (cnat (K := Rring) j). rewrite cnat_R. rewrite Hq. unfold samp, w, last_samples.
      set (g := fun j0 : nat => _). rewrite nth_indep with (d' := g 0%nat) by (rewrite map_length, seq_length; lia). rewrite map_nth, seq_nth by lia. unfold g, before. cbn [Nat.add].
      destruct (Z.ltb_spec (i - Z.of_nat (d + 1) + 1 + Z.of_nat j) 0) as [G|G]; [lia|]. rewrite Hx by lia. f_equal. rewrite INR_IZR_INZ, Z2Nat.id by lia.
      rewrite (INR_IZR_INZ j), <- plus_IZR. f_equal. lia. }
  rewrite (T w phi Lw) in Step. injection Step as Step. etransitivity; [exact Step|]. rewrite Hq. f_equal. rewrite minus_IZR, <- INR_IZR_INZ, Ek. field.
Qed.
Print Assumptions C50_lagrange.

(** ** Cascade (filtre_reechan) *)
(** Every valid ratio is split into halvings or doublings (never both) and a factor in [1/2, 2). *)
Theorem C50_configuration : forall ratio, 0 < ratio < 10 ^ 9 -> exists N nd nu f, (forall fuel, (N <= fuel)%nat -> raa_conf fuel ratio = Ok (nd, nu, f)) /\
  / 2 <= f < 2 /\ ratio * 2 ^ nd = f * 2 ^ nu /\ (nd = 0 \/ nu = 0)%nat.
Proof. exact conf_ok. Qed.
Print Assumptions C50_configuration.
Theorem C50_invalid_ratio : forall fuel ratio, ratio <= 0 \/ 10 ^ 9 <= ratio -> raa_conf fuel ratio = Exc.
Proof. intros fuel ratio H. unfold raa_conf. destruct (Rle_dec ratio 0); [reflexivity|]. destruct (Rle_dec (10 ^ 9) ratio); [reflexivity|]. lra. Qed.
Print Assumptions C50_invalid_ratio.
Lemma repeat_res_ok {B} n (b : B) : repeat_res n (Ok b) = Ok (repeat b n).
Proof. induction n as [|n IH]; [reflexivity|]. cbn [repeat_res bind repeat]. rewrite IH. reflexivity. Qed.
Lemma ups_ok (K : cring) (c : list K) : exists s, fups_init c 2 = Ok s.
Proof. unfold fups_init, imod. cbn. eexists. reflexivity. Qed.
  Lemma count_case ratio nd nu g N : 0 < ratio -> / 2 <= g < 2 -> ratio * 2 ^ nd = g * 2 ^ nu -> (nd = 0 \/ nu = 0)%nat ->
    let M := (N / 2 ^ nd * 2 ^ nu)%nat in ratio * INR N - 2 < g * INR M <= ratio * INR N.
  Proof.
    intros Hr Hg E D M. assert (P : forall n, INR (2 ^ n) = 2 ^ n) by (intros; rewrite pow_INR; reflexivity). pose proof (pos_INR N). destruct D as [-> | ->].
    - unfold M. rewrite Nat.pow_0_r, Nat.div_1_r, mult_INR, P. cbn [pow] in E. rewrite Rmult_1_r in E. replace (g * (INR N * 2 ^ nu)) with (g * 2 ^ nu * INR N) by ring. rewrite <- E. lra.
    - unfold M. rewrite Nat.pow_0_r, Nat.mul_1_r. cbn [pow] in E. rewrite Rmult_1_r in E. assert (Q : (2 ^ nd <> 0)%nat) by (apply Nat.pow_nonzero; lia).
      pose proof (Nat.div_mod N (2 ^ nd) Q) as DM. pose proof (Nat.mod_upper_bound N (2 ^ nd) Q) as UB. apply (f_equal INR) in DM. rewrite plus_INR, mult_INR, P in DM. apply lt_INR in UB. rewrite P in UB.
      pose proof (pos_INR (N mod 2 ^ nd)). set (q := INR (N / 2 ^ nd)) in *. set (m := INR (N mod 2 ^ nd)) in *. rewrite DM, <- E. assert (0 < 2 ^ nd) by (apply pow_lt; lra).
      assert (ratio * m < ratio * 2 ^ nd) by (apply Rmult_lt_compat_l; assumption). assert (0 <= ratio * m) by (apply Rmult_le_pos; lra). split; nra.
  Qed.
Section Run.
  Variables (K : cring) (half : K) (coefs : list K) (nfen : nat) (itp : list K -> R -> res K) (f : list K -> R -> K).
  Hypothesis Hc : coefs <> [].
  Hypothesis HK : (0 < nfen)%nat.
  Hypothesis Hitp : forall w phi, length w = nfen -> 0 <= phi < 1 -> itp w phi = Ok (f w phi).
  Definition pre_chain (nd nu : nat) (x : list K) : list K := Nat.iter nu (upF coefs) (Nat.iter nd (hbF half coefs) x).
  Lemma pre_length nd nu x : length (pre_chain nd nu x) = (length x / 2 ^ nd * 2 ^ nu)%nat.
  Proof. unfold pre_chain. rewrite upF_length, hbF_length. reflexivity. Qed.
  Lemma raa_run fuel ratio nd nu g : ratio <> 1 -> raa_conf fuel ratio = Ok (nd, nu, g) -> 0 < g -> exists s0, raa_init (K := K) coefs fuel ratio nfen = Ok s0 /\
    realizes (raa_step half itp) s0 (fun x => if Rlt_dec (Rabs (g - 1)) (/ 10 ^ 6) then pre_chain nd nu x else gall K (c0 : K) nfen f g (pre_chain nd nu x)).
  Proof.
    intros N1 EC Hg. unfold raa_init. rewrite EC. cbn [bind fst snd]. destruct (ups_ok K coefs) as (u0 & Eu). rewrite Eu, repeat_res_ok. cbn [bind]. eexists. split; [reflexivity|].
    pose proof (chain_ok K _ (hb_step half) (fdec_init coefs 2) _ (hb_realizes K half coefs Hc) nd) as R1. pose proof (chain_ok K _ fups_step u0 _ (up_realizes K coefs u0 Hc Eu) nu) as R2.
    pose proof (realizes_comp _ _ _ _ _ _ R1 R2) as R3. destruct (Rlt_dec (Rabs (g - 1)) (/ 10 ^ 6)) as [G|G].
    - apply (realizes_map (comp (chain_step (hb_step half)) (chain_step fups_step)) (raa_step half itp) (fun s => mkraa ratio g (fst s) (snd s) (ra_init 0%K nfen)) (repeat (fdec_init coefs 2) nd, repeat u0 nu)); [|exact R3].
      intros [d u] x. unfold raa_step, comp. cbn [raa_ratio raa_dec raa_ups raa_f raa_itp fst snd]. destruct (Req_EM_T ratio 1); [contradiction|].
      destruct (chain_step (hb_step half) d x) as [[d' y]| | |]; cbn [bind]; try reflexivity. destruct (chain_step fups_step u y) as [[u' z]| | |]; cbn [bind]; try reflexivity.
      destruct (Rlt_dec (Rabs (g - 1)) (/ 10 ^ 6)); [reflexivity|contradiction].
    - assert (R4 : realizes (ra_step itp g) (ra_init (c0 : K) nfen) (gall K (c0 : K) nfen f g)) by (intros blocks; apply run_init; assumption).
      pose proof (realizes_comp _ _ _ _ _ _ R3 R4) as R5.
      apply (realizes_map (comp (comp (chain_step (hb_step half)) (chain_step fups_step)) (ra_step itp g)) (raa_step half itp) (fun s => mkraa ratio g (fst (fst s)) (snd (fst s)) (snd s)) ((repeat (fdec_init coefs 2) nd, repeat u0 nu), ra_init 0%K nfen)); [|exact R5].
      intros [[d u] i] x. unfold raa_step, comp. cbn [raa_ratio raa_dec raa_ups raa_f raa_itp fst snd]. destruct (Req_EM_T ratio 1); [contradiction|].
      destruct (chain_step (hb_step half) d x) as [[d' y]| | |]; cbn [bind]; try reflexivity. destruct (chain_step fups_step u y) as [[u' z]| | |]; cbn [bind]; try reflexivity.
      destruct (Rlt_dec (Rabs (g - 1)) (/ 10 ^ 6)); [contradiction|]. destruct (ra_step itp g i z) as [[i' t]| | |]; reflexivity.
  Qed.
End Run.
(** For every valid ratio, every filter and interpolator: the output depends on the whole input only, not on the blocks, and its
    length is within 2 samples of ratio * inputs, plus a relative error of 1e-6 when the last factor is that close to 1. *)
Theorem C50_cascade : forall (K : cring) (half : K) (coefs : list K) (nfen : nat) (itp : list K -> R -> res K) (f : list K -> R -> K) (ratio : R),
  coefs <> [] -> (0 < nfen)%nat -> (forall w phi, length w = nfen -> 0 <= phi < 1 -> itp w phi = Ok (f w phi)) -> 0 < ratio < 10 ^ 9 ->
  exists N F, forall fuel, (N <= fuel)%nat -> exists s0, raa_init coefs fuel ratio nfen = Ok s0 /\
    (forall blocks, exists s, run (raa_step half itp) s0 blocks = Ok (s, F (concat blocks))) /\
    forall x, Rabs (INR (length (F x)) - ratio * INR (length x)) < 2 + INR (length (F x)) / 10 ^ 6.
Proof.
  intros K half coefs nfen itp f ratio Hc HK Hi Hr. destruct (conf_ok ratio Hr) as (N & nd & nu & g & EC & Bg & Eg & D). exists N.
  destruct (Req_EM_T ratio 1) as [E1|N1].
  - exists (fun x => x). intros fuel Hf. unfold raa_init. rewrite (EC fuel Hf). cbn [bind fst snd]. destruct (ups_ok K coefs) as (u0 & Eu). rewrite Eu, repeat_res_ok. cbn [bind]. eexists. split; [reflexivity|]. split.
    + intros blocks. match goal with |- exists s, run _ ?s0 _ = _ => set (st := s0); exists st; assert (R1 : raa_ratio st = 1) by exact E1; clearbody st end.
      induction blocks as [|b bs IH]; [reflexivity|]. cbn [run concat]. unfold raa_step at 1. destruct (Req_EM_T (raa_ratio st) 1); [|contradiction]. cbn [bind]. rewrite IH. reflexivity.
    + intros x. rewrite E1, Rmult_1_l. unfold Rminus. rewrite Rplus_opp_r, Rabs_R0. pose proof (pos_INR (length x)). lra.
  - exists (fun x => if Rlt_dec (Rabs (g - 1)) (/ 10 ^ 6) then pre_chain K half coefs nd nu x else gall K (c0 : K) nfen f g (pre_chain K half coefs nd nu x)). intros fuel Hf.
    destruct (raa_run K half coefs nfen itp f Hc HK Hi fuel ratio nd nu g N1 (EC fuel Hf) ltac:(lra)) as (s0 & E0 & R0). exists s0. split; [exact E0|]. split; [exact R0|].
    intros x. pose proof (count_case ratio nd nu g (length x) ltac:(lra) Bg Eg D) as Q. cbn zeta in Q. rewrite <- (pre_length K half coefs) in Q. destruct (Rlt_dec (Rabs (g - 1)) (/ 10 ^ 6)) as [G|G].
    + set (M := INR (length (pre_chain K half coefs nd nu x))) in *. assert (0 <= M) by apply pos_INR. apply Rabs_def2 in G. assert ((g - 1) * M <= M * / 10 ^ 6) by nra. assert (- (M * / 10 ^ 6) <= (g - 1) * M) by nra. unfold Rdiv. apply Rabs_def1; lra.
    + assert (L : length (gall K (c0 : K) nfen f g (pre_chain K half coefs nd nu x)) = cnt g (length (pre_chain K half coefs nd nu x))) by (unfold gall; rewrite map_length, seq_length; reflexivity).
      rewrite L. pose proof (cnt_bound g (length (pre_chain K half coefs nd nu x)) ltac:(lra)). assert (0 <= INR (cnt g (length (pre_chain K half coefs nd nu x))) / 10 ^ 6) by (apply Rmult_le_pos; [apply pos_INR|lra]). apply Rabs_def1; lra.
Qed.
Print Assumptions C50_cascade.
(** A ratio of exactly 1 copies the input. *)
Theorem C50_identity : forall (K : cring) (half : K) coefs nfen itp blocks fuel, exists s0 s, raa_init (K := K) coefs fuel 1 nfen = Ok s0 /\ run (raa_step half itp) s0 blocks = Ok (s, concat blocks).
Proof.
  intros K half coefs nfen itp blocks fuel. assert (EC : raa_conf fuel 1 = Ok (0%nat, 0%nat, 1)).
  { unfold raa_conf. destruct (Rle_dec 1 0); [lra|]. destruct (Rle_dec (10 ^ 9) 1); [lra|]. destruct fuel; cbn; destruct (Rlt_dec 1 (/ 2)); try lra; cbn; destruct (Rle_dec 2 1); try lra; reflexivity. }
  unfold raa_init. rewrite EC. cbn [bind fst snd]. destruct (ups_ok K coefs) as (u0 & Eu). rewrite Eu, repeat_res_ok. cbn [bind].
  match goal with |- exists _ _, Ok ?s0 = _ /\ _ => exists s0, s0; split; [reflexivity|]; set (st := s0); assert (R1 : raa_ratio st = 1) by reflexivity; clearbody st end.
  induction blocks as [|b bs IH]; [reflexivity|]. cbn [run concat]. unfold raa_step at 1. destruct (Req_EM_T (raa_ratio st) 1); [|contradiction]. cbn [bind]. rewrite IH. reflexivity.
Qed.
Print Assumptions C50_identity.
(** Finding: a ratio near 1 (here 1 + 2^-21, a float) is treated as 1: the error on the number of samples has no bound. *)
Theorem C50_near_one_refuted : forall (K : cring) (half : K) (coefs : list K) (nfen : nat) (itp : list K -> R -> res K) (f : list K -> R -> K) (B : R),
  coefs <> [] -> (0 < nfen)%nat -> (forall w phi, length w = nfen -> 0 <= phi < 1 -> itp w phi = Ok (f w phi)) ->
  exists fuel s0 n, raa_init coefs fuel (1 + / 2 ^ 21) nfen = Ok s0 /\
  forall x : list K, (n <= length x)%nat -> exists s y, run (raa_step half itp) s0 [x] = Ok (s, y) /\ INR (length y) < (1 + / 2 ^ 21) * INR (length x) - B.
Proof.
  intros K half coefs nfen itp f B Hc HK Hi. assert (P : 0 < / 2 ^ 21) by (apply Rinv_0_lt_compat, pow_lt; lra). assert (P2 : / 2 ^ 21 < / 10 ^ 6) by lra.
  assert (EC : raa_conf 0 (1 + / 2 ^ 21) = Ok (0%nat, 0%nat, 1 + / 2 ^ 21)).
  { unfold raa_conf. destruct (Rle_dec (1 + / 2 ^ 21) 0); [lra|]. destruct (Rle_dec (10 ^ 9) (1 + / 2 ^ 21)); [lra|]. cbn [norm_up norm_down]. destruct (Rlt_dec _ (/ 2)); [lra|]. cbn [bind]. destruct (Rle_dec 2 _); [lra|]. reflexivity. }
  destruct (raa_run K half coefs nfen itp f Hc HK Hi 0 (1 + / 2 ^ 21) 0 0 (1 + / 2 ^ 21) ltac:(lra) EC ltac:(lra)) as (s0 & E0 & R0).
  destruct (nat_above (2 ^ 21 * (B + 1))) as (n & Hn). exists 0%nat, s0, n. split; [exact E0|]. intros x Hx. destruct (R0 [x]) as (s & Er). do 2 eexists. split; [exact Er|]. cbn [concat]. rewrite app_nil_r.
  destruct (Rlt_dec _ (/ 10 ^ 6)) as [G|G].
  - rewrite pre_length. cbn [Nat.pow]. rewrite Nat.div_1_r, Nat.mul_1_r. apply le_INR in Hx. assert (B + 1 <= / 2 ^ 21 * INR (length x)).
    { apply Rmult_le_reg_l with (2 ^ 21); [apply pow_lt; lra|]. rewrite <- Rmult_assoc, Rinv_r by (apply pow_nonzero; lra). lra. }
    lra.
  - exfalso. apply G. replace (1 + / 2 ^ 21 - 1) with (/ 2 ^ 21) by ring. rewrite Rabs_right by lra. exact P2.
Qed.
Print Assumptions C50_near_one_refuted.
(** Non-trivial cases. *)
Example C50_case_interpolator : forall w phi, length w = 2%nat -> 0 <= phi < 1 -> itp_lin w phi = Ok ((1 - phi) * nth 0 w 0 + phi * nth 1 w 0).
Proof. intros w phi L _. apply lin_total. exact L. Qed.
Example C50_case : exists s y, run (ra_step itp_lin (3 / 2)) (ra_init (A := Rfield) 0 2) [[3]; [9; 0]] = Ok (s, y) /\ length y = 5%nat /\ nth 1 y 0 = 2 /\ nth 2 y 0 = 5.
Proof.
  destruct (C50_linear (3 / 2) [[3]; [9; 0]] ltac:(lra)) as (s & y & E & H & V). exists s, y. split; [exact E|]. cbn [concat app length INR] in H.
  assert (L : length y = 5%nat).
  { assert (A : (4 < length y)%nat) by (apply H; cbn [INR]; lra). assert (Bn : ~ (5 < length y)%nat) by (intros Q; apply H in Q; cbn [INR] in Q; lra). lia. }
  split; [exact L|]. split.
  - rewrite (V 1%nat 0%Z (2 / 3)); [|lia|cbn; lra|lra]. change (0 - 1)%Z with (-1)%Z. cbn. field.
  - rewrite (V 2%nat 1%Z (1 / 3)); [|lia|cbn; lra|lra]. change (1 - 1)%Z with 0%Z. unfold before. change (1 <? 0)%Z with false. change (0 <? 0)%Z with false. change (Z.to_nat 1) with 1%nat. change (Z.to_nat 0) with 0%nat. cbn. field.
Qed.
