(** C45, C56: theorems. *)
From Coq Require Import Reals Lra Lia ZArith.
From Verif Require Import Base BaseLemmas RField ComplexSys Filters_Model Filters_Spec Filters_Proofs Filters_Proofs2 Polyphase_Model Zfe_Proofs Sig_Model Sig_Spec Sig_Proofs
  Ra_Model Ra_Spec Ra_Proofs Ra_Proofs2 Ra_Props Spread_Model Spread_Spec Spread_Proofs.
Local Open Scope R_scope.

Section Sq.
  Variable K : cring.
  Add Ring Kr : (cth K).
  Lemma opp1_sq : (- (1) * - (1) = (1 : K))%K.
  Proof. ring. Qed.
End Sq.
(** DSSS, for every code, every half-band filter, every interpolator: in any partition into whole symbols the output is the
    rate-adapted input times the chips, read cyclically without gap at the boundaries; F is what the rate adapter alone
    (ratio: chips per input sample) gives.  One input sample gives exactly (chips / osf) output samples. *)
Theorem C45_dsss : forall (K : cring) (half : K) (coefs : list K) (nfen : nat) (itp : list K -> R -> res K) (f : list K -> R -> K) (chips : list K) (osf k : nat),
  coefs <> [] -> (0 < nfen)%nat -> (forall w phi, length w = nfen -> 0 <= phi < 1 -> itp w phi = Ok (f w phi)) ->
  (0 < osf)%nat -> (1 <= k)%nat -> length chips = (k * osf)%nat -> 2 * INR k <= 10 ^ 6 ->
  exists N F, (forall x, length (F x) = (k * length x)%nat) /\ forall fuel, (N <= fuel)%nat ->
    (exists r0, raa_init coefs fuel (INR k) nfen = Ok r0 /\ forall blocks, exists r, run (raa_step half itp) r0 blocks = Ok (r, F (concat blocks))) /\
    exists s0, dsss_init coefs nfen fuel chips osf = Ok s0 /\
      forall blocks, Forall (fun b => (length b mod osf)%nat = 0%nat) blocks ->
        exists s, run (dsss_step half itp) s0 blocks = Ok (s, spread chips (F (concat blocks))).
Proof.
  intros K half coefs nfen itp f chips osf k Hc HK Hi Ho Hk L Hk6. assert (Hch : chips <> []) by (intros ->; cbn in L; nia).
  assert (R : 0 < INR k < 10 ^ 9) by (apply le_INR in Hk; cbn [INR] in Hk; lra).
  destruct (conf_ok (INR k) R) as (N & nd & nu & g & EC & Bg & Eg & D). exists N.
  destruct (int_ratio_count K half coefs nfen itp f k N nd nu g Hc HK Hk Hk6 Hi (EC N ltac:(lia)) Bg Eg D) as (r0 & F & E0 & RF & LF & _). exists F. split; [exact LF|].
  intros fuel Hf. assert (Ef : raa_init (K := K) coefs fuel (INR k) nfen = Ok r0) by (rewrite <- E0; unfold raa_init; rewrite (EC fuel Hf), (EC N ltac:(lia)); reflexivity).
  split; [exists r0; split; [exact Ef|exact RF]|].
  exists (mkdsss r0 chips osf 0). split; [|apply dsss_realizes; assumption].
  unfold dsss_init. rewrite L, imod_ok by exact Ho. cbn [bind]. rewrite Nat.mod_mul by lia. cbn [Nat.eqb negb].
  replace (INR (k * osf) / INR osf) with (INR k) by (rewrite mult_INR; field; apply not_0_INR; lia). rewrite Ef. reflexivity.
Qed.
Print Assumptions C45_dsss.
(** A code of +1 and -1 with one chip per input sample: spreading again with the same code gives the data back. *)
Theorem C45_dsss_despread : forall (K : cring) (half : K) (coefs : list K) (nfen : nat) (itp : list K -> R -> res K) (chips : list K), chips <> [] ->
  (forall i, (i < length chips)%nat -> samp chips i = 1%K \/ samp chips i = (- (1))%K) ->
  exists s0, dsss_init coefs nfen 0 chips (length chips) = Ok s0 /\
    forall blocks, Forall (fun b => (length b mod length chips)%nat = 0%nat) blocks ->
      exists s y, run (dsss_step half itp) s0 blocks = Ok (s, y) /\ length y = length (concat blocks) /\
        forall blocks', concat blocks' = y -> Forall (fun b => (length b mod length chips)%nat = 0%nat) blocks' -> exists s', run (dsss_step half itp) s0 blocks' = Ok (s', concat blocks).
Proof.
  intros K half coefs nfen itp chips Hc H1. assert (Hl : (0 < length chips)%nat) by (destruct chips; [congruence|cbn; lia]).
  destruct (C50_identity K half coefs nfen itp [] 0) as (r0 & _ & E0 & _). assert (RF : realizes (raa_step half itp) r0 (fun x => x)).
  { intros blocks. destruct (C50_identity K half coefs nfen itp blocks 0) as (r1 & r & E1 & E). replace r1 with r0 in E by congruence. exists r. exact E. }
  assert (Sq : forall i, (i < length chips)%nat -> (samp chips i * samp chips i = 1)%K).
  { intros i Hi. destruct (H1 i Hi) as [-> | ->]; [apply (Rmul_1_l (cth K))|apply opp1_sq]. }
  exists (mkdsss r0 chips (length chips) 0). split.
  - unfold dsss_init. rewrite imod_ok by exact Hl. cbn [bind]. rewrite Nat.mod_same by lia. cbn [Nat.eqb negb].
    replace (INR (length chips) / INR (length chips)) with 1 by (field; apply not_0_INR; lia). rewrite E0. reflexivity.
  - intros blocks Hb. destruct (dsss_realizes K chips Hc half itp (length chips) Hl r0 _ RF blocks Hb) as (s & E). do 2 eexists. split; [exact E|]. split; [apply spread_length|].
    intros blocks' Eb Hb'. destruct (dsss_realizes K chips Hc half itp (length chips) Hl r0 _ RF blocks' Hb') as (s' & E'). exists s'. rewrite E', Eb. rewrite spread_twice by assumption. reflexivity.
Qed.
Print Assumptions C45_dsss_despread.
(** What is refused: a code that is not a multiple of osf, a block that is not made of whole symbols, osf = 0. *)
Theorem C45_dsss_rejects : forall (K : cring) (half : K) (coefs : list K) (nfen fuel : nat) (itp : list K -> R -> res K) (chips : list K) (osf : nat),
  ((0 < osf)%nat -> (length chips mod osf)%nat <> 0%nat -> dsss_init coefs nfen fuel chips osf = Exc) /\
  dsss_init coefs nfen fuel chips 0 = UB /\
  forall s x, ds_osf s = osf -> (0 < osf)%nat -> (length x mod osf)%nat <> 0%nat -> dsss_step half itp s x = Exc.
Proof.
  intros K half coefs nfen fuel itp chips osf. split; [|split].
  - intros Ho Hm. unfold dsss_init. rewrite imod_ok by exact Ho. cbn [bind]. apply Nat.eqb_neq in Hm. rewrite Hm. reflexivity.
  - reflexivity.
  - intros s x <- Ho Hm. unfold dsss_step. rewrite imod_ok by exact Ho. cbn [bind]. apply Nat.eqb_neq in Hm. rewrite Hm. reflexivity.
Qed.
Print Assumptions C45_dsss_rejects.

(** FHSS: F is what the rate adapter alone gives.  On the first call, slot s is shifted by s * D / nfreqs as long as there are
    oscillators with index s * D; with one more slot the read of the oscillator vector is out of bounds. *)
Theorem C45_fhss : forall (half : Cring) (coefs : list Cring) (nfen : nat) (itp : list Cring -> R -> res Cring) (f : list Cring -> R -> Cring) (hops : list Z) (osf_in osf_out D : nat),
  coefs <> [] -> (0 < nfen)%nat -> (forall w phi, length w = nfen -> 0 <= phi < 1 -> itp w phi = Ok (f w phi)) ->
  (0 < D)%nat -> 0 < INR osf_out / INR osf_in < 10 ^ 9 ->
  exists N F, forall fuel, (N <= fuel)%nat ->
    (exists r0, raa_init coefs fuel (INR osf_out / INR osf_in) nfen = Ok r0 /\ forall x, exists r, raa_step half itp r0 x = Ok (r, F x)) /\
    exists s0, fhss_init coefs nfen fuel hops osf_in osf_out D = Ok s0 /\ forall x,
      ((forall s, (S s * D <= length (F x))%nat -> (s * D < length hops)%nat) -> exists s, fhss_step half itp s0 x = Ok (s, hopped D (length hops) (F x))) /\
      ((exists s, (S s * D <= length (F x))%nat /\ (length hops <= s * D)%nat) -> fhss_step half itp s0 x = UB).
Proof.
  intros half coefs nfen itp f hops osf_in osf_out D Hc HK Hi HD Hr. destruct (C50_cascade Cring half coefs nfen itp f _ Hc HK Hi Hr) as (N & F & HF). exists N, F. intros fuel Hf.
  destruct (HF fuel Hf) as (r0 & E0 & RF & _). assert (RS : forall x, exists r, raa_step half itp r0 x = Ok (r, F x)).
  { intros x. destruct (RF [x]) as (r & E). cbn [run concat] in E. rewrite app_nil_r in E. destruct (raa_step half itp r0 x) as [[r' y]| | |]; cbn [bind] in E; try discriminate E. rewrite app_nil_r in E. exists r'. congruence. }
  split; [exists r0; split; [exact E0|exact RS]|]. exists (mkfhss r0 (ol0 (length hops)) D). split; [unfold fhss_init; rewrite E0; reflexivity|]. intros x. destruct (RS x) as (r & Er). unfold fhss_step. cbn [fh_ra fh_D fh_ol]. rewrite Er. cbn [bind].
  destruct (Nat.eqb_spec D 0) as [Z|_]; [lia|]. assert (Q : (length (F x) / D * D <= length (F x))%nat) by (rewrite Nat.mul_comm; apply Nat.mul_div_le; lia). split.
  - intros Hs. destruct (fh_loop D (length hops) (F x) HD (length (F x) / D)) as ([ol y] & E & _ & L & V); [exact Q|intros s Hq; apply Hs; nia|].
    match goal with |- exists s, bind ?l _ = _ => replace l with (Ok (ol, y)) by (symmetry; exact E) end. cbn [bind]. eexists. do 2 f_equal. apply (list_ext (0, 0)); [unfold hopped; rewrite map_length, seq_length; exact L|].
    intros j Hj. cbn [snd] in *. assert (Hj' : (j < length (F x))%nat) by exact (Nat.lt_le_trans _ _ _ Hj (Nat.eq_le_incl _ _ L)). rewrite V by exact Hj'. unfold hopped. rewrite nth_map_seq by exact Hj'. reflexivity.
  - intros (s & Hl & Hn). assert (Hq : (s < length (F x) / D)%nat) by (apply Nat.div_le_lower_bound; [lia|rewrite Nat.mul_comm; exact Hl]). pose proof (fh_ub D (length hops) (F x) HD s Hn Hl _ Hq) as E.
    match goal with |- bind ?l _ = _ => replace l with (UB : res (list osc * list C)) by (symmetry; exact E) end. reflexivity.
Qed.
Print Assumptions C45_fhss.
(** Finding: the hop sequence is never read, only its length; the oscillator is chosen by the position in the block. *)
Theorem C45_fhss_sequence_refuted : forall coefs nfen fuel hops hops' osf_in osf_out D, length hops = length hops' ->
  fhss_init coefs nfen fuel hops osf_in osf_out D = fhss_init coefs nfen fuel hops' osf_in osf_out D.
Proof. intros coefs nfen fuel hops hops' osf_in osf_out D L. unfold fhss_init. rewrite L. reflexivity. Qed.
Print Assumptions C45_fhss_sequence_refuted.

(** Finding: with the default slot duration (0) no call ends. *)
Theorem C45_fhss_default_slot_refuted : forall half coefs nfen itp fuel hops osf_in osf_out s0 x r y, hops <> [] -> fhss_init coefs nfen fuel hops osf_in osf_out 0 = Ok s0 ->
  raa_step half itp (fh_ra s0) x = Ok (r, y) -> fhss_step half itp s0 x = Diverge.
Proof.
  intros half coefs nfen itp fuel hops osf_in osf_out s0 x r y Hh E0 E. unfold fhss_init in E0. destruct (raa_init coefs fuel _ nfen) as [ra| | |]; cbn [bind] in E0; try discriminate E0.
  injection E0 as <-. cbn [fh_ra] in E. unfold fhss_step. cbn [fh_ra fh_D fh_ol]. rewrite E. cbn [bind Nat.eqb]. rewrite map_length, seq_length. destruct hops; [congruence|reflexivity].
Qed.
Print Assumptions C45_fhss_default_slot_refuted.

(** C56: complex input. *)
Theorem C56_complex : forall (fi : R) (h : list Cring) blocks, exists s, run tbb_step_c (tbb_init fi h) blocks = Ok (s, shifted (- fi) (concat blocks)).
Proof.
  intros fi h. change (realizes tbb_step_c (tbb_init fi h) (shifted (- fi))). unfold tbb_init.
  apply (realizes_map mix_step tbb_step_c (fun o => (o, fir_init h)) (ohc_new (- fi))); [|apply mix_realizes].
  intros o x. unfold tbb_step_c, mix_step. cbn [fst snd]. change (length (x : list Cring)) with (@length C x). destruct (ohc_step o (@length C x)) as [o' w]. reflexivity.
Qed.
Print Assumptions C56_complex.
(** Real input, for every image filter h. *)
Theorem C56_real : forall (fi : R) (h : list Cring) (blocks : list (list R)), h <> [] -> exists s y, run tbb_step_r (tbb_init fi h) blocks = Ok (s, y) /\ length y = length (concat blocks) /\
  forall n, (n < length y)%nat -> samp y n = conv h (shifted (- fi) (map (fun a => (a, 0)) (concat blocks)) : list Cring) n.
Proof.
  intros fi h blocks Hh. pose proof (realizes_comp _ _ _ _ _ _ (mix_realizes (- fi)) (fir_realizes Cring h Hh)) as R1.
  assert (RM : forall bl s, run tbb_step_r s bl = run (comp mix_step (fir_step (K := Cring) : fir Cring -> list C -> res (fir Cring * list C))) s (map (map (fun a => (a, 0))) bl)).
  { induction bl as [|b bl IH]; intros [o g]; [reflexivity|]. cbn [run map]. unfold tbb_step_r at 1, comp at 1, mix_step at 1. cbn [fst snd]. rewrite map_length. destruct (ohc_step o (length b)) as [o' w]. cbn [bind]. rewrite mix_embed.
    match goal with |- bind (bind ?a _) _ = bind (bind ?b _) _ => change b with a; destruct a as [[g' y]| | |] end; cbn [bind]; try reflexivity. rewrite IH. reflexivity. }
  destruct (R1 (map (map (fun a => (a, 0))) blocks)) as (s & E). exists s. eexists. rewrite <- concat_map in E. unfold tbb_init. rewrite RM. split; [exact E|].
  assert (L : forall z, length (shifted (- fi) z) = length z) by (intros; unfold shifted; rewrite map_length, seq_length; reflexivity).
  split; [rewrite map_length, seq_length; rewrite <- (map_length (fun a : R => (a, 0)) (concat blocks)); apply L|].
  intros n Hn. rewrite map_length, seq_length in Hn. unfold samp at 1. rewrite nth_map_seq by exact Hn. reflexivity.
Qed.
Print Assumptions C56_real.
(** A real carrier at fi: once the filter is full, half the DC gain of the filter plus the image at - 2 fi weighted by the
    response of the filter at that frequency. *)
Theorem C56_carrier : forall (fi : R) (h : list R) (N n : nat), (0 < length h <= n + 1)%nat -> (n < N)%nat ->
  exists s y, run tbb_step_r (tbb_init fi (map (fun a => (a, 0)) h)) [map (fun k => cos (2 * PI * fi * INR k)) (seq 0 N)] = Ok (s, y) /\ nth n y (0, 0) = (sum (K := Rring) (length h) (fun k => nth k h 0) / 2 + sum (K := Rring) (length h) (fun k => nth k h 0 * cos (4 * PI * fi * (INR n - INR k))) / 2,
                    - sum (K := Rring) (length h) (fun k => nth k h 0 * sin (4 * PI * fi * (INR n - INR k))) / 2).
Proof.
  intros fi h N n Hn HN. set (x := map (fun k => cos (2 * PI * fi * INR k)) (seq 0 N)). destruct (C56_real fi (map (fun a => (a, 0)) h) [x]) as (s & y & E & L & V).
  { destruct h; [cbn in Hn; lia|discriminate]. }
  exists s, y. split; [exact E|]. cbn [concat] in *. rewrite app_nil_r in *. assert (Lx : length x = N) by (unfold x; rewrite map_length, seq_length; reflexivity).
  assert (Hy : (n < length y)%nat) by (rewrite L, Lx; exact HN). etransitivity; [exact (V n Hy)|]. unfold conv. rewrite map_length.
  assert (T : forall k, (k < length h)%nat -> samp (K := Cring) (map (fun a => (a, 0)) h) k = (nth k h 0, 0) /\
     sampZ (K := Cring) (shifted (- fi) (map (fun a => (a, 0)) x)) (Z.of_nat n - Z.of_nat k) = (/ 2 + cos (4 * PI * fi * (INR n - INR k)) / 2, - sin (4 * PI * fi * (INR n - INR k)) / 2)).
  { intros k Hk. split.
    - unfold samp. change (c0 : Cring) with ((fun a : R => (a, 0)) 0). apply map_nth.
    - unfold sampZ. destruct (Z.ltb_spec (Z.of_nat n - Z.of_nat k) 0) as [G|G]; [lia|]. replace (Z.to_nat (Z.of_nat n - Z.of_nat k)) with (n - k)%nat by lia. unfold samp, shifted.
      rewrite nth_map_seq by (rewrite map_length, Lx; lia). assert (X : nth (n - k) (map (fun a : R => (a, 0)) x) (0, 0) = (cos (2 * PI * fi * INR (n - k)), 0)).
      { etransitivity; [apply (map_nth (fun a : R => (a, 0)) x 0)|]. unfold x. rewrite nth_map_seq by lia. reflexivity. }
      etransitivity; [apply (f_equal (fun z => Cmul z _)); exact X|]. rewrite minus_INR by lia. set (t := 2 * PI * fi * (INR n - INR k)). replace (2 * PI * - fi * (INR n - INR k)) with (- t) by (unfold t; ring). replace (4 * PI * fi * (INR n - INR k)) with (2 * t) by (unfold t; ring).
      cbv zeta. rewrite cos_neg, sin_neg, cos_2a_cos, sin_2a. unfold Cmul. cbn [fst snd]. apply C_ext; cbn [fst snd]; field. }
  revert T. generalize (length h) as m. induction m as [|m IH]; intros T; [apply C_ext; cbn; lra|]. cbn [sum]. rewrite IH by (intros k Hk; apply T; lia). destruct (T m ltac:(lia)) as [-> ->].
  change (cadd (c := Rring)) with Rplus. cbn [cadd cmul Cring]. unfold Cadd, Cmul. cbn [fst snd]. f_equal; field.
Qed.
Print Assumptions C56_carrier.
(** Non-trivial cases. *)
Example C45_case_hypotheses : length [1; -1; 1; 1] = (2 * 2)%nat /\ 2 * INR 2 <= 10 ^ 6 /\ Forall (fun b : list R => (length b mod 2)%nat = 0%nat) [[1; 2]; []; [3; 4; 5; 6]] /\ spread (K := Rring) [1; -1; 1; 1] [5; 6; 7; 8; 9; 10] = [5; -6; 7; 8; 9; -10].
Proof.
  split; [reflexivity|]. split; [cbn; lra|]. split; [repeat constructor|]. unfold spread. cbn. change (0 mod 4)%nat with 0%nat. change (1 mod 4)%nat with 1%nat. change (2 mod 4)%nat with 2%nat. change (3 mod 4)%nat with 3%nat. change (4 mod 4)%nat with 0%nat. change (5 mod 4)%nat with 1%nat. cbv iota. repeat (apply (f_equal2 cons); [match goal with |- @eq _ ?a ?b => change (@eq R a b) end; lra|]); reflexivity.
Qed.
Example C45_case_fhss : (forall s, (S s * 2 <= 5)%nat -> (s * 2 < 3)%nat) /\ (exists s, (S s * 2 <= 6)%nat /\ (3 <= s * 2)%nat) /\ 0 < INR 4 / INR 2 < 10 ^ 9.
Proof. split; [intros; lia|]. split; [exists 2%nat; lia|]. cbn; lra. Qed.
Example C56_case : shifted (- / 4) [(1, 0); (1, 0); (1, 0)] = [(1, 0); (0, -1); (-1, 0)].
Proof.
  unfold shifted. cbn [length seq map nth INR]. unfold Cmul. cbn [fst snd].
  replace (2 * PI * - / 4 * 0) with 0 by ring. replace (2 * PI * - / 4 * 1) with (- (PI / 2)) by field. replace (2 * PI * - / 4 * (1 + 1)) with (- PI) by field.
  rewrite !cos_neg, !sin_neg, cos_0, sin_0, cos_PI2, sin_PI2, cos_PI, sin_PI. repeat f_equal; ring.
Qed.
