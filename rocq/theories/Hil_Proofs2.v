(** Proofs about the FIR Hilbert transformer. *)
From Coq Require Import Reals Lra Lia ZArith String.
From Verif Require Import Base BaseLemmas RField Vec_Model Filters_Model Filters_Spec Filters_Proofs Filters_Props Conv_Lemmas Sig_Proofs Special_Model Special_Proofs Design_Model Design_Spec Design_Proofs Design_Proofs2 Win_Model Win_Spec Win_Proofs Win_Proofs2 Win_Props Rif_Model Rif_Spec Rif_Proofs Rif_Proofs2 Gauss_Proofs Hil_Model Hil_Spec.
Local Open Scope R_scope.
Lemma hil_design m win ty : parse_fenetre win = Ok ty -> exists h, design_rif_hilbert (2 * m + 1) win = Ok h /\ List.length h = (2 * m + 1)%nat /\
  forall i, (i < 2 * m + 1)%nat -> nth i h 0 = ideal_hilbert (Z.of_nat i - Z.of_nat m) * nth i (fen ty (2 * m + 1) true) 0.
Proof.
  intros Hw. pose proof PI_RGT_0 as PP. unfold design_rif_hilbert. rewrite odd_2m. cbn [negb]. rewrite (nom_ok _ _ _ _ Hw). cbn [bind]. set (l := map _ _). assert (Ll : List.length l = (2 * m + 1)%nat) by (unfold l; rewrite map_length, seq_length; reflexivity).
  destruct (vmul_ok l (fen ty (2 * m + 1) true)) as (z & E & _ & L & V); [rewrite fen_len; exact Ll|]. exists z. split; [exact E|]. split; [lia|]. intros i Hi. rewrite V by lia. f_equal. unfold l.
  rewrite (nth_map_seq (fun i => let k := (Z.of_nat i - Z.quot (Z.of_nat (2 * m + 1)) 2)%Z in if Z.even k then 0 else 2 / (IZR k * PI))) by exact Hi. cbv zeta.
  replace (Z.quot (Z.of_nat (2 * m + 1)) 2) with (Z.of_nat m) by (rewrite Z.quot_div_nonneg by lia; apply (Z.div_unique _ 2 _ 1); lia). unfold ideal_hilbert. destruct (Z.even (Z.of_nat i - Z.of_nat m)) eqn:Ev; [reflexivity|].
  field. split; [|lra]. apply not_0_IZR. intros X. rewrite X in Ev. discriminate.
Qed.
Lemma ideal_odd k : ideal_hilbert (- k) = - ideal_hilbert k.
Proof. unfold ideal_hilbert. rewrite Z.even_opp. destruct (Z.even k) eqn:E; [lra|]. rewrite opp_IZR. pose proof PI_RGT_0. field. split; [|lra]. apply not_0_IZR. intros ->. discriminate. Qed.
Lemma hil_anti m win ty h : parse_fenetre win = Ok ty -> design_rif_hilbert (2 * m + 1) win = Ok h -> antisymmetric h.
Proof.
  intros Hw E. destruct (hil_design m win ty Hw) as (h' & E' & L & V). rewrite E in E'. injection E' as <-. intros i Hi. rewrite L in *. rewrite !V by lia. rewrite Ropp_mult_distr_l, <- ideal_odd. f_equal; [f_equal; lia|].
  pose proof (C57_symmetric ty (2 * m + 1) i) as X. rewrite fen_len in X. apply X. exact Hi.
Qed.
(** ** Response *)
(** conv of an antisymmetric filter with a tone *)
Lemma conv_tone (h : list R) m (x : list R) n om phi : List.length h = (2 * m + 1)%nat -> antisymmetric h -> (2 * m <= n < List.length x)%nat ->
  (forall j, (j < List.length x)%nat -> nth j x 0 = cos (om * INR j + phi)) ->
  conv (K := Rring) h x n = amplitude h m om * sin (om * (INR n - INR m) + phi).
Proof.
  intros L A Hn Hx. unfold conv. rewrite (L : @List.length (car Rring) h = (2 * m + 1)%nat). set (th := om * (INR n - INR m) + phi). set (g := fun k : Z => nth (Z.to_nat (k + Z.of_nat m)) h 0 * cos (th - IZR k * om)).
  rewrite (rsum_ext _ _ (fun i => g (Z.of_nat i - Z.of_nat m)%Z)).
  2: { intros i Hi. unfold g, samp, sampZ. destruct (Z.ltb_spec (Z.of_nat n - Z.of_nat i) 0); [lia|]. unfold samp. replace (Z.to_nat (Z.of_nat n - Z.of_nat i)) with (n - i)%nat by lia.
    change (nth i h 0 * nth (n - i) x 0 = nth (Z.to_nat (Z.of_nat i - Z.of_nat m + Z.of_nat m)) h 0 * cos (th - IZR (Z.of_nat i - Z.of_nat m) * om)). rewrite Hx by lia. replace (Z.to_nat (Z.of_nat i - Z.of_nat m + Z.of_nat m)) with i by lia. f_equal. f_equal. unfold th. rewrite minus_INR by lia. rewrite minus_IZR, <- !INR_IZR_INZ. ring. }
  assert (A2 : forall k, (k < m)%nat -> nth (m - 1 - k) h 0 = - nth (m + 1 + k) h 0). { intros k Hk. rewrite A by lia. rewrite L. do 2 f_equal. lia. }
  assert (A0 : nth m h 0 = 0). { pose proof (A m ltac:(lia)) as X. rewrite L in X. replace (2 * m + 1 - 1 - m)%nat with m in X by lia. lra. }
  replace (2 * m + 1)%nat with (m + (1 + m))%nat by lia. rewrite !(sum_split Rring). change (cadd (c := Rring)) with Rplus. cbn [sum]. change (@c0 Rring) with 0. change (cadd (c := Rring)) with Rplus.
  rewrite (sum_rev Rring m). unfold amplitude. rewrite Rmult_comm, <- rsum_mul.
  match goal with |- @eq _ ?a ?b => change (@eq R a b) end. rewrite <- Rplus_assoc, (Rplus_comm (rsum m _)), Rplus_0_l, Rplus_assoc. rewrite <- rsum_add.
  replace (g (Z.of_nat (m + 0) - Z.of_nat m)%Z) with 0. 2: { unfold g. replace (Z.to_nat (Z.of_nat (m + 0) - Z.of_nat m + Z.of_nat m)) with m by lia. rewrite A0. ring. }
  rewrite Rplus_0_l. apply rsum_ext. intros k Hk. unfold g. replace (Z.to_nat (Z.of_nat (m - 1 - k) - Z.of_nat m + Z.of_nat m)) with (m - 1 - k)%nat by lia. replace (Z.to_nat (Z.of_nat (m + (1 + k)) - Z.of_nat m + Z.of_nat m)) with (m + 1 + k)%nat by lia.
  rewrite A2 by exact Hk. replace (Z.of_nat (m - 1 - k) - Z.of_nat m)%Z with (- Z.of_nat (k + 1))%Z by lia. replace (Z.of_nat (m + (1 + k)) - Z.of_nat m)%Z with (Z.of_nat (k + 1)) by lia. rewrite opp_IZR, <- INR_IZR_INZ.
  replace (th - - INR (k + 1) * om) with (th + INR (k + 1) * om) by ring. rewrite cos_plus, cos_minus. rring.
Qed.
(** sum of the sines of odd rank *)
Lemma odd_sines N x : sin x * rsum N (fun j => sin (INR (2 * j + 1) * x)) = sin (INR N * x) * sin (INR N * x).
Proof.
  induction N as [|N IH]; [assert (Z : rsum 0 (fun j => sin (INR (2 * j + 1) * x)) = 0) by reflexivity; rewrite Z; cbn [INR]; rewrite Rmult_0_l, sin_0; ring|].
  rewrite rsum_S, Rmult_plus_distr_l, IH. replace (INR (2 * N + 1) * x) with (INR N * x + (INR N * x + x)) by (rewrite plus_INR, mult_INR; cbn [INR]; ring). replace (INR (S N) * x) with (INR N * x + x) by (rewrite S_INR; ring).
  set (a := INR N * x). rewrite (sin_plus a (a + x)), !sin_plus, !cos_plus. pose proof (sin2_cos2 x) as P1. pose proof (sin2_cos2 a) as P2. unfold Rsqr in *.
  set (sa := sin a) in *. set (ca := cos a) in *. set (sx := sin x) in *. set (cx := cos x) in *. 
  replace (sa * sa + sx * (sa * (ca * cx - sa * sx) + ca * (sa * cx + ca * sx))) with (sa * sa * (1 - sx * sx) + 2 * sa * ca * sx * cx + ca * ca * (sx * sx)) by ring. replace (1 - sx * sx) with (cx * cx) by lra. ring.
Qed.
Lemma odd_sines_pos N x : 0 < x < PI -> 0 <= rsum N (fun j => sin (INR (2 * j + 1) * x)).
Proof.
  intros H. assert (S0 : 0 < sin x) by (apply sin_gt_0; lra). pose proof (odd_sines N x) as E. set (s := rsum N _) in *. assert (0 <= sin x * s) by (rewrite E; apply Rle_0_sqr). apply (Rmult_le_reg_l (sin x)); [exact S0|]. lra.
Qed.
(** only the odd ranks are left *)
Lemma odd_ranks m (f : nat -> R) : (forall k, Nat.odd k = true -> f k = 0) -> rsum m f = rsum ((m + 1) / 2) (fun j => f (2 * j)%nat).
Proof.
  intros H. induction m as [|m IH]; [reflexivity|]. rewrite rsum_S, IH. destruct (parity m) as (q & [-> | ->]).
  - replace ((2 * q + 1) / 2)%nat with q by (apply (Nat.div_unique _ 2 q 1); lia). replace ((S (2 * q) + 1) / 2)%nat with (S q) by (apply (Nat.div_unique _ 2 (S q) 0); lia). rewrite rsum_S. reflexivity.
  - replace ((2 * q + 1 + 1) / 2)%nat with (S q) by (apply (Nat.div_unique _ 2 (S q) 0); lia). replace ((S (2 * q + 1) + 1) / 2)%nat with (S q) by (apply (Nat.div_unique _ 2 (S q) 1); lia). rewrite (H (2 * q + 1)%nat) by apply odd_2m. apply Rplus_0_r.
Qed.
Lemma hil_amplitude m win ty h om : parse_fenetre win = Ok ty -> design_rif_hilbert (2 * m + 1) win = Ok h ->
  amplitude h m om = rsum ((m + 1) / 2) (fun j => 4 / PI * nth (m + 1 + 2 * j) (fen ty (2 * m + 1) true) 0 / INR (2 * j + 1) * sin (INR (2 * j + 1) * om)).
Proof.
  intros Hw E. destruct (hil_design m win ty Hw) as (h' & E' & L & V). rewrite E in E'. injection E' as <-. unfold amplitude. pose proof PI_RGT_0 as PP.
  set (w := fen ty (2 * m + 1) true) in *. rewrite (rsum_ext m _ (fun k => if Nat.odd k then 0 else 4 / PI * nth (m + 1 + k) w 0 / INR (k + 1) * sin (INR (k + 1) * om))).
  - rewrite odd_ranks by (intros k ->; reflexivity). apply rsum_ext. intros j _. rewrite even_2m. reflexivity.
  - intros k Hk. rewrite V by lia. unfold ideal_hilbert. replace (Z.of_nat (m + 1 + k) - Z.of_nat m)%Z with (Z.of_nat (k + 1)) by lia. assert (Ev : Z.even (Z.of_nat (k + 1)) = Nat.odd k).
    { destruct (parity k) as (q & [-> | ->]); [rewrite even_2m; replace (Z.of_nat (2 * q + 1)) with (1 + 2 * Z.of_nat q)%Z by lia; rewrite Z.even_add_mul_2; reflexivity|]. rewrite odd_2m. replace (Z.of_nat (2 * q + 1 + 1)) with (0 + 2 * (Z.of_nat q + 1))%Z by lia. rewrite Z.even_add_mul_2. reflexivity. }
    rewrite Ev. destruct (Nat.odd k); [rring|]. rewrite <- INR_IZR_INZ. assert (0 < INR (k + 1)) by (apply lt_0_INR; lia). match goal with |- @eq _ ?a ?b => change (@eq R a b) end. field. split; lra.
Qed.
(** ** Streams *)
Lemma map_st_length {St A B} (f : St -> A -> res (St * B)) x : forall s s' y, map_st f s x = Ok (s', y) -> List.length y = List.length x.
Proof.
  induction x as [|a x IH]; intros s s' y E; cbn in E; [injection E as _ <-; reflexivity|]. destruct (f s a) as [[s1 b]| | |]; cbn in E; try discriminate. destruct (map_st f s1 x) as [[s2 z]| | |] eqn:E2; cbn in E; try discriminate. injection E as _ <-. cbn. f_equal. eapply IH. exact E2.
Qed.
Lemma combine_app {A B} (a a' : list A) (b b' : list B) : List.length a = List.length b -> combine (a ++ a') (b ++ b') = combine a b ++ combine a' b'.
Proof. revert b. induction a as [|x a IH]; intros [|y b] H; cbn in *; try discriminate; [reflexivity|]. f_equal. apply IH. lia. Qed.
Lemma hil_run blocks : forall (f : fir Rring) (d : delay Rring) f' d' x2 y2, run fir_step f blocks = Ok (f', x2) -> run delay_step d blocks = Ok (d', y2) -> run hil_step (f, d) blocks = Ok ((f', d'), combine y2 x2).
Proof.
  induction blocks as [|b bs IH]; intros f d f' d' x2 y2 E1 E2; [cbn in *; injection E1 as <- <-; injection E2 as <- <-; reflexivity|]. cbn [run] in *.
  match type of E1 with context [@fir_step ?a f b] => destruct (@fir_step a f b) as [[f1 u]| | |] eqn:F1 end; cbn [bind] in *; try discriminate. match type of E2 with context [@delay_step ?a d b] => destruct (@delay_step a d b) as [[d1 v]| | |] eqn:D1 end; cbn [bind] in *; try discriminate.
  assert (HS : hil_step (f, d) b = Ok ((f1, d1), combine v u)).
  { unfold hil_step. cbn [fst snd]. match goal with |- context [@fir_step ?a f b] => change (@fir_step a f b) with (@fir_step Rring f b) end. first [rewrite F1 | change (@fir_step Rring f b) with (@fir_step Rring f b); rewrite F1]. cbn [bind]. match goal with |- context [@delay_step ?a d b] => replace (@delay_step a d b) with (Ok (d1, v)) by (symmetry; exact D1) end. reflexivity. }
  match type of E1 with context [@run ?a ?b ?c ?st f1 bs] => destruct (@run a b c st f1 bs) as [[f2 u2]| | |] eqn:F2 end; cbn [bind] in *; try discriminate. match type of E2 with context [@run ?a ?b ?c ?st d1 bs] => destruct (@run a b c st d1 bs) as [[d2 v2]| | |] eqn:D2 end; cbn [bind] in *; try discriminate. injection E1 as <- <-. injection E2 as <- <-.
  pose proof (IH _ _ _ _ _ _ F2 D2) as H. rewrite HS. cbn [bind]. rewrite H. cbn [bind]. assert (L : List.length v = List.length u); [|pose proof (combine_app v v2 u u2 L) as CA; exact (f_equal (fun l : list (R * R) => Ok ((f2, d2), l)) (eq_sym CA))].
  assert (Lu : List.length u = List.length b). { unfold fir_step in F1. destruct (_ =? 0)%nat; [discriminate|]. eapply map_st_length. exact F1. }
  assert (Lv : List.length v = List.length b). { unfold delay_step in D1. destruct (_ =? 0)%nat; [injection D1 as _ <-; reflexivity|]. eapply map_st_length. exact D1. }
  transitivity (List.length b); [exact Lv|symmetry; exact Lu].
Qed.
