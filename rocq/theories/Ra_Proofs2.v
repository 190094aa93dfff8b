(** Proofs about rate adaptation: cascades. *)
From Coq Require Import Reals Lra Lia ZArith.
From Verif Require Import Base BaseLemmas RField Filters_Model Filters_Spec Polyphase_Model Polyphase_Spec Polyphase_Proofs Polyphase_Proofs2 Ra_Model Ra_Spec Ra_Proofs.
Local Open Scope R_scope.

(** the step function, started from s0, computes F of the whole stream, whatever the blocks *)
Definition realizes {St A B} (step : St -> list A -> res (St * list B)) (s0 : St) (F : list A -> list B) : Prop :=
  forall blocks, exists s, run step s0 blocks = Ok (s, F (concat blocks)).
Definition comp {S1 S2 A B D} (st1 : S1 -> list A -> res (S1 * list B)) (st2 : S2 -> list B -> res (S2 * list D)) (s : S1 * S2) (x : list A) : res ((S1 * S2) * list D) :=
  let* (a, u) := st1 (fst s) x in let* (b, y) := st2 (snd s) u in Ok ((a, b), y).
Lemma run_comp {S1 S2 A B D} (st1 : S1 -> list A -> res (S1 * list B)) (st2 : S2 -> list B -> res (S2 * list D)) blocks : forall s1 s1' u,
  run st1 s1 blocks = Ok (s1', u) -> exists us, concat us = u /\ forall s2 s2' y, run st2 s2 us = Ok (s2', y) -> run (comp st1 st2) (s1, s2) blocks = Ok ((s1', s2'), y).
Proof.
  induction blocks as [|b bs IH]; intros s1 s1' u H.
  - cbn in H. injection H as <- <-. exists []. split; [reflexivity|]. intros s2 s2' y E. cbn in E. injection E as <- <-. reflexivity.
  - cbn [run] in H. destruct (st1 s1 b) as [[a v]| | |] eqn:E1; cbn [bind] in H; try discriminate H. destruct (run st1 a bs) as [[a' w]| | |] eqn:E2; cbn [bind] in H; try discriminate H.
    injection H as <- <-. destruct (IH _ _ _ E2) as (us & C & Q). exists (v :: us). cbn [concat]. rewrite C. split; [reflexivity|]. intros s2 s2' y E.
    cbn [run] in *. unfold comp at 1. cbn [fst snd]. rewrite E1. cbn [bind]. destruct (st2 s2 v) as [[c z]| | |]; cbn [bind] in *; try discriminate E.
    destruct (run st2 c us) as [[c' z']| | |] eqn:E3; cbn [bind] in E; try discriminate E. injection E as <- <-. rewrite (Q _ _ _ E3). reflexivity.
Qed.
Lemma realizes_comp {S1 S2 A B D} (st1 : S1 -> list A -> res (S1 * list B)) (st2 : S2 -> list B -> res (S2 * list D)) s1 s2 F1 F2 :
  realizes st1 s1 F1 -> realizes st2 s2 F2 -> realizes (comp st1 st2) (s1, s2) (fun x => F2 (F1 x)).
Proof.
  intros H1 H2 blocks. destruct (H1 blocks) as (s1' & E1). destruct (run_comp st1 st2 blocks _ _ _ E1) as (us & C & Q). destruct (H2 us) as (s2' & E2). rewrite C in E2. eexists. apply Q. exact E2.
Qed.
(** change of state *)
Lemma run_map {S1 S2 A B} (st1 : S1 -> list A -> res (S1 * list B)) (st2 : S2 -> list A -> res (S2 * list B)) (g : S1 -> S2) :
  (forall s x, st2 (g s) x = let* (s', y) := st1 s x in Ok (g s', y)) -> forall blocks s, run st2 (g s) blocks = let* (s', y) := run st1 s blocks in Ok (g s', y).
Proof.
  intros H blocks. induction blocks as [|b bs IH]; intros s; [reflexivity|]. cbn [run]. rewrite H. destruct (st1 s b) as [[s' y]| | |]; cbn [bind]; try reflexivity.
  rewrite IH. destruct (run st1 s' bs) as [[s2 y2]| | |]; reflexivity.
Qed.
Lemma realizes_map {S1 S2 A B} (st1 : S1 -> list A -> res (S1 * list B)) (st2 : S2 -> list A -> res (S2 * list B)) (g : S1 -> S2) s F :
  (forall s x, st2 (g s) x = let* (s', y) := st1 s x in Ok (g s', y)) -> realizes st1 s F -> realizes st2 (g s) F.
Proof. intros H R blocks. destruct (R blocks) as (s' & E). exists (g s'). rewrite (run_map st1 st2 g H), E. reflexivity. Qed.
Lemma realizes_ext {St A B} (step : St -> list A -> res (St * list B)) s (F G : list A -> list B) : (forall x, F x = G x) -> realizes step s F -> realizes step s G.
Proof. intros H R blocks. destruct (R blocks) as (s' & E). exists s'. rewrite <- H. exact E. Qed.
Lemma realizes_id {St A} (s : St) : realizes (fun s (x : list A) => Ok (s, x)) s (fun x => x).
Proof. intros blocks. exists s. induction blocks as [|b bs IH]; [reflexivity|]. cbn [run bind concat]. rewrite IH. reflexivity. Qed.
Section Chain.
  Variables (K : cring) (St : Type) (step : St -> list K -> res (St * list K)) (s0 : St) (F : list K -> list K).
  Hypothesis H : realizes step s0 F.
  Lemma chain_ok n : realizes (chain_step step) (repeat s0 n) (Nat.iter n F).
  Proof.
    induction n as [|n IH].
    - apply (realizes_map (fun s x => Ok (s, x)) (chain_step step) (fun _ : unit => []) tt); [reflexivity|]. cbn [Nat.iter]. apply realizes_id.
    - cbn [repeat]. apply (realizes_ext _ _ (fun x => Nat.iter n F (F x))).
      { intros x. clear. change (Nat.iter n F (F x) = F (Nat.iter n F x)). induction n as [|n IH]; [reflexivity|]. exact (f_equal F IH). }
      apply (realizes_map (comp step (chain_step step)) (chain_step step) (fun s => fst s :: snd s) (s0, repeat s0 n)).
      + intros s x. unfold comp. cbn [chain_step]. destruct (step (fst s) x) as [[a u]| | |]; cbn [bind]; try reflexivity.
        destruct (chain_step step (snd s) u) as [[b y]| | |]; reflexivity.
      + apply realizes_comp; assumption.
  Qed.
End Chain.
(** the half-band decimator and the oversampler as functions of the stream *)
Definition hbF {K : cring} (half : K) (h x : list K) : list K :=
  map (fun m => let w i := sampZ x (Z.of_nat ((m + 1) * 2) - Z.of_nat (length h) + Z.of_nat i) in
        cadd (sum ((length h + 1) / 2) (fun t => cmul (samp h (2 * t)) (w (2 * t)%nat))) (cmul half (w (length h / 2)%nat))) (seq 0 (length x / 2)).
Definition upF {K : cring} (c x : list K) : list K := map (conv (rev (ups_coefs c 2)) (stuff 2 x)) (seq 0 (length x * 2)).
Lemma list_map_eq {K : cring} (y : list K) (g : nat -> K) n : length y = n -> (forall m, (m < length y)%nat -> samp y m = g m) -> y = map g (seq 0 n).
Proof.
  intros L V. apply (list_ext (c0 : K)); [rewrite map_length, seq_length; exact L|]. intros i Hi. rewrite nth_indep with (l := map g (seq 0 n)) (d' := g 0%nat) by (rewrite map_length, seq_length; lia).
  rewrite map_nth, seq_nth by lia. apply V. exact Hi.
Qed.
Lemma hb_realizes (K : cring) (half : K) h : h <> [] -> realizes (hb_step half) (fdec_init h 2) (hbF half h).
Proof.
  intros H blocks. destruct (hb_run_any K half h blocks H) as (s & y & E & L & V). exists s. rewrite E. do 2 f_equal. apply list_map_eq; [exact L|]. exact V.
Qed.
Lemma up_realizes (K : cring) (c : list K) s0 : c <> [] -> fups_init c 2 = Ok s0 -> realizes fups_step s0 (upF c).
Proof.
  intros H E0 blocks. destruct (fups_run K c 2 blocks s0 ltac:(lia) H E0) as (s & y & E & L & V). exists s. rewrite E. do 2 f_equal. apply list_map_eq; [exact L|]. exact V.
Qed.
Lemma hbF_len1 (K : cring) (half : K) h x : length (hbF half h x) = (length x / 2)%nat.
Proof. unfold hbF. rewrite map_length, seq_length. reflexivity. Qed.
Lemma upF_len1 (K : cring) (c x : list K) : length (upF c x) = (length x * 2)%nat.
Proof. unfold upF. rewrite map_length, seq_length. reflexivity. Qed.
Lemma hbF_length (K : cring) (half : K) h x n : length (Nat.iter n (hbF half h) x) = (length x / 2 ^ n)%nat.
Proof.
  induction n as [|n IH]; [cbn; rewrite Nat.div_1_r; reflexivity|]. change (length (hbF half h (Nat.iter n (hbF half h) x)) = (length x / 2 ^ S n)%nat).
  rewrite hbF_len1, IH, Nat.pow_succ_r', Nat.mul_comm, Nat.div_div by (try apply Nat.pow_nonzero; lia). reflexivity.
Qed.
Lemma upF_length (K : cring) (c x : list K) n : length (Nat.iter n (upF c) x) = (length x * 2 ^ n)%nat.
Proof. induction n as [|n IH]; [cbn; lia|]. change (length (upF c (Nat.iter n (upF c) x)) = (length x * 2 ^ S n)%nat). rewrite upF_len1, IH. cbn [Nat.pow]. lia. Qed.

(** configuration *)
Lemma norm_up_spec n : forall fuel nb f, 0 < f -> / 2 <= f * 2 ^ n -> (n <= fuel)%nat ->
  exists k g, norm_up fuel nb f = Ok ((nb + k)%nat, g) /\ g = f * 2 ^ k /\ / 2 <= g /\ (k <> 0%nat -> g < 1).
Proof.
  induction n as [|n IH]; intros fuel nb f Hf H L.
  - cbn in H. rewrite Rmult_1_r in H. exists 0%nat, f. rewrite Nat.add_0_r. split; [|cbn; repeat split; [ring|lra|lia]]. destruct fuel; cbn; destruct (Rlt_dec f (/ 2)); try lra; reflexivity.
  - destruct (Rlt_dec f (/ 2)) as [G|G].
    + destruct fuel as [|fuel]; [lia|]. cbn [norm_up]. destruct (Rlt_dec f (/ 2)); [|lra].
      destruct (IH fuel (nb + 1)%nat (f * 2)) as (k & g & E & Eg & B & Q); [lra|cbn [pow] in H; lra|lia|].
      exists (S k), g. rewrite E. split; [do 2 f_equal; lia|]. split; [rewrite Eg; cbn [pow]; ring|]. split; [exact B|]. intros _. destruct k as [|k]; [rewrite Eg; cbn; lra|]. apply Q. lia.
    + exists 0%nat, f. rewrite Nat.add_0_r. split; [|cbn; repeat split; [ring|lra|lia]]. destruct fuel; cbn; destruct (Rlt_dec f (/ 2)); try lra; reflexivity.
Qed.
Lemma norm_down_spec n : forall fuel nb f, 0 < f -> f / 2 ^ n < 2 -> (n <= fuel)%nat ->
  exists k g, norm_down fuel nb f = Ok ((nb + k)%nat, g) /\ g * 2 ^ k = f /\ g < 2 /\ (k <> 0%nat -> 1 <= g) /\ (f < 2 -> k = 0%nat).
Proof.
  induction n as [|n IH]; intros fuel nb f Hf H L.
  - cbn in H. unfold Rdiv in H. rewrite Rinv_1, Rmult_1_r in H. exists 0%nat, f. rewrite Nat.add_0_r. split; [|cbn; repeat split; [ring|lra|lia]]. destruct fuel; cbn; destruct (Rle_dec 2 f); try lra; reflexivity.
  - destruct (Rle_dec 2 f) as [G|G].
    + destruct fuel as [|fuel]; [lia|]. cbn [norm_down]. destruct (Rle_dec 2 f); [|lra].
      destruct (IH fuel (nb + 1)%nat (f / 2)) as (k & g & E & Eg & B & Q & _); [lra| |lia|].
      { cbn [pow] in H. assert (0 < 2 ^ n) by (apply pow_lt; lra). replace (f / 2 / 2 ^ n) with (f / (2 * 2 ^ n)) by (field; lra). exact H. }
      exists (S k), g. rewrite E. split; [do 2 f_equal; lia|]. split; [cbn [pow]; lra|]. split; [exact B|]. split; [|lra]. intros _. destruct k as [|k]; [cbn in Eg; lra|]. apply Q. lia.
    + exists 0%nat, f. rewrite Nat.add_0_r. split; [|cbn; repeat split; [ring|lra|lia]]. destruct fuel; cbn; destruct (Rle_dec 2 f); try lra; reflexivity.
Qed.
Lemma pow2_ge n : INR n < 2 ^ n.
Proof. induction n as [|n IH]; [cbn; lra|]. rewrite S_INR. cbn [pow]. assert (1 <= 2 ^ n) by (apply pow_R1_Rle; lra). lra. Qed.
Lemma nat_above x : exists n, x <= INR n.
Proof. destruct (Rle_dec x 0); [exists 0%nat; cbn; lra|]. destruct (archimed x) as [A B]. exists (Z.to_nat (up x)). rewrite INR_IZR_INZ, Z2Nat.id; [lra|]. apply le_IZR. lra. Qed.
Lemma conf_ok ratio : 0 < ratio < 10 ^ 9 -> exists N nd nu f, (forall fuel, (N <= fuel)%nat -> raa_conf fuel ratio = Ok (nd, nu, f)) /\
  / 2 <= f < 2 /\ ratio * 2 ^ nd = f * 2 ^ nu /\ (nd = 0 \/ nu = 0)%nat.
Proof.
  intros [Hp Hm]. destruct (nat_above (/ 2 / ratio)) as (n1 & A1). destruct (nat_above (ratio / 2)) as (n2 & A2).
  assert (P1 : / 2 <= ratio * 2 ^ n1).
  { pose proof (pow2_ge n1). apply Rmult_le_reg_l with (/ ratio); [apply Rinv_0_lt_compat; lra|]. replace (/ ratio * (ratio * 2 ^ n1)) with (2 ^ n1) by (field; lra). unfold Rdiv in A1. rewrite Rmult_comm in A1. lra. }
  destruct (norm_up_spec n1 (n1 + n2 + 10) 0 ratio Hp P1 ltac:(lia)) as (nd & g & _ & Eg & Bg & Qg).
  assert (Hg : 0 < g) by lra.
  assert (P2 : exists m, (m <= n2)%nat /\ g / 2 ^ m < 2).
  { destruct nd as [|nd].
    - exists n2. split; [lia|]. rewrite Eg. cbn [pow]. pose proof (pow2_ge n2). apply Rmult_lt_reg_r with (2 ^ n2); [apply pow_lt; lra|]. replace (ratio * 1 / 2 ^ n2 * 2 ^ n2) with ratio by (field; apply pow_nonzero; lra). lra.
    - exists 0%nat. split; [lia|]. cbn. specialize (Qg ltac:(lia)). lra. }
  destruct P2 as (m & Hm2 & P2). destruct (norm_down_spec m (n1 + n2) 0 g Hg P2 ltac:(lia)) as (nu & f & _ & Ef & Bf & Qf & Zf).
  exists (n1 + n2)%nat, nd, nu, f. split; [|split; [split|split]].
  - intros fuel Hfuel. unfold raa_conf. destruct (Rle_dec ratio 0); [lra|]. destruct (Rle_dec (10 ^ 9) ratio); [lra|].
    destruct (norm_up_spec n1 fuel 0 ratio Hp P1 ltac:(lia)) as (nd' & g' & E' & Eg' & Bg' & Qg'). rewrite E'. cbn [bind].
    assert (En : nd' = nd).
    { assert (U : forall a b, (a < b)%nat -> ratio * 2 ^ b < 1 -> / 2 <= ratio * 2 ^ a -> False).
      { intros a b Hab X1 X2. replace b with (S a + (b - S a))%nat in X1 by lia. rewrite pow_add in X1. cbn [pow] in X1. assert (1 <= 2 ^ (b - S a)) by (apply pow_R1_Rle; lra).
        assert (0 < 2 ^ a) by (apply pow_lt; lra). assert (ratio * (2 * 2 ^ a) <= ratio * (2 * 2 ^ a * 2 ^ (b - S a))) by (apply Rmult_le_compat_l; [lra|]; nra). lra. }
      destruct (Nat.lt_trichotomy nd nd') as [T|[T|T]]; [|congruence|]; exfalso.
      - apply (U nd nd' T); [rewrite <- Eg'; apply Qg'; lia|lra].
      - apply (U nd' nd T); [rewrite <- Eg; apply Qg; lia|lra]. }
    subst nd'. assert (g' = g) by congruence. subst g'.
    destruct (norm_down_spec m fuel 0 g Hg P2 ltac:(lia)) as (nu' & f' & E2 & Ef' & Bf' & Qf' & Zf'). rewrite <- Eg, E2. cbn [bind].
    assert (En : nu' = nu).
    { assert (U : forall a b fa fb, (a < b)%nat -> fa * 2 ^ a = g -> fb * 2 ^ b = g -> fa < 2 -> 1 <= fb -> False).
      { intros a b fa fb Hab X1 X2 X3 X4. replace b with (S a + (b - S a))%nat in X2 by lia. rewrite pow_add in X2. cbn [pow] in X2. assert (1 <= 2 ^ (b - S a)) by (apply pow_R1_Rle; lra).
        assert (0 < 2 ^ a) by (apply pow_lt; lra). assert (fa = fb * (2 * 2 ^ (b - S a))). { apply Rmult_eq_reg_r with (2 ^ a); [|lra]. rewrite X1, <- X2. ring. } nra. }
      destruct (Nat.lt_trichotomy nu nu') as [T|[T|T]]; [|congruence|]; exfalso.
      - apply (U nu nu' f f' T); auto. apply Qf'. lia.
      - apply (U nu' nu f' f T); auto. apply Qf. lia. }
    subst nu'. assert (f' = f). { apply Rmult_eq_reg_r with (2 ^ nu); [|apply pow_nonzero; lra]. congruence. }
    subst f'. reflexivity.
  - destruct nu as [|nu]; [|specialize (Qf ltac:(lia)); lra]. cbn in Ef. lra.
  - exact Bf.
  - rewrite <- Eg. symmetry. exact Ef.
  - destruct nd as [|nd]; [left; reflexivity|]. right. apply Zf. specialize (Qg ltac:(lia)). lra.
Qed.
