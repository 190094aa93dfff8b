(** Property C42: hard demodulation. *)
From Coq Require Import Reals Lra Lia.
From Verif Require Import Base BaseLemmas BitStream_Model BitStream_Spec TeleBits_Model TeleBits_Spec TeleBits_Proofs TeleBits_Props Demod_Model Demod_Spec Demod_Proofs.
Open Scope R_scope.

(** The waveforms of the library, with valid parameters (at most 2^31 - 1 symbols). *)
Inductive library_wave : wave -> Prop :=
| LW_ask M K1 K2 : (2 <= M)%nat -> (Nat.log2 M <= 30)%nat -> K2 <> 0 -> library_wave (wave_ask M K1 K2)
| LW_psk M : (2 <= M)%nat -> (Nat.log2 M <= 30)%nat -> library_wave (wave_psk M)
| LW_qam M w : (2 <= M)%nat -> (Nat.log2 M <= 30)%nat -> wave_qam M = Ok w -> library_wave w
| LW_fsk M : (2 <= M)%nat -> (Nat.log2 M <= 30)%nat -> library_wave (wave_fsk M)
| LW_pi4 : library_wave wave_pi4.

Lemma log2_ok M : (2 <= M)%nat -> (0 < Nat.log2 M)%nat /\ (2 ^ Nat.log2 M <= M)%nat.
Proof. intros H. split; [apply Nat.log2_pos; lia|apply Nat.log2_spec; lia]. Qed.
Lemma lw_ok w : library_wave w -> wave_ok w /\ (forall cnt, distinct (w_M w) (w_pt w cnt)) /\ (0 < w_k w <= 30)%nat /\ (2 ^ w_k w <= w_M w)%nat /\ (2 <= w_M w)%nat.
Proof.
  intros [M K1 K2 HM HL HK|M HM HL|M w' HM HL E|M HM HL|].
  - destruct (log2_ok M HM). split; [intros C; discriminate C|]. split; [intros; apply ask_distinct; assumption|]. cbn. lia.
  - destruct (log2_ok M HM). split; [intros C; apply Nat.eqb_eq in C; subst M; split; reflexivity|]. split; [intros; apply psk_distinct; assumption|]. cbn [wave_psk w_k w_M]. lia.
  - destruct (log2_ok M HM). unfold wave_qam in E. destruct (Nat.eqb_spec (Nat.sqrt M * Nat.sqrt M) M) as [Q|Q]; [|discriminate E].
    injection E as <-. split; [intros C; discriminate C|]. split; [intros cnt; cbn [w_M w_pt]; rewrite <- Q at 1; apply qam_distinct|cbn [w_k w_M]; lia].
    destruct (Nat.sqrt M) as [|[|?]]; lia.
  - destruct (log2_ok M HM). split; [intros C; discriminate C|]. split; [intros; apply fsk_distinct; assumption|]. cbn [wave_fsk w_k w_M]. lia.
  - split; [intros C; discriminate C|]. split; [intros; apply pi4_distinct|]. cbn. lia.
Qed.

(** symbole_plus_proche returns a constellation point at minimal distance, for
    every received point (some symbol being at a squared distance below 1e100). *)
Theorem C42_nearest w cnt p : library_wave w -> (exists j, (j < w_M w)%nat /\ sqdist p (w_pt w cnt j) < huge) ->
  exists r, symbole_plus_proche w cnt p = Ok r /\ closest (w_M w) (w_pt w cnt) p r.
Proof.
  intros LW H. destruct (lw_ok w LW) as (OK & _). destruct (w_real w) eqn:E.
  - destruct (OK E) as [M2 P]. destruct (bpsk_near p) as (r & S & C). exists r. unfold symbole_plus_proche in *. rewrite E. split; [exact S|].
    destruct C as [Hr C]. split; [lia|]. intros j Hj. rewrite !P. apply C. lia.
  - destruct (near_ok w cnt p E H) as (r & S & C & _). exists r. split; assumption.
Qed.
Print Assumptions C42_nearest.

(** Noise-free round trip: for every waveform and every bit stream s (built by any
    program of pushes, pads, concatenations...), decode_symboles(génère_symboles(s)),
    onto any stream s0, appends the bits of s padded to a whole number of symbols. *)
Theorem C42_roundtrip w p l s q l0 s0 : library_wave w ->
  prog_ok p -> denote p = Some l -> exec p = Ok s -> prog_ok q -> denote q = Some l0 -> exec q = Ok s0 ->
  exists sent s1, genere_symboles w s = Ok sent /\ length sent = ngroups (length l) (w_k w) /\
    decode_symboles w s0 sent = Ok s1 /\ shows s1 (l0 ++ l ++ repeat false (ngroups (length l) (w_k w) * w_k w - length l)).
Proof.
  intros LW P D E P0 D0 E0. destruct (lw_ok w LW) as (OK & DI & Hk & HM & _).
  destruct (chain p l s q l0 s0 w OK P D E P0 D0 E0 Hk HM) as (sent & ids & G & Ls & Li & N & Dec).
  destruct (Dec sent eq_refl) as (s1 & D1 & Sh).
  - intros i Hi. destruct (N i Hi) as [Hid Hpt]. rewrite Hpt. apply decides_half; auto.
    + apply half_self; auto.
    + unfold sqdist. pose proof huge_pos. replace _ with 0 by ring. lra.
  - exists sent, s1. split; [exact G|]. split; [exact Ls|]. split; [exact D1|exact Sh].
Qed.
Print Assumptions C42_roundtrip.

(** Noise immunity: the same holds for any received points, as long as each one is
    at less than half the distance between the sent symbol and every other symbol
    of the constellation in force at that position. *)
Theorem C42_noise w p l s q l0 s0 : library_wave w ->
  prog_ok p -> denote p = Some l -> exec p = Ok s -> prog_ok q -> denote q = Some l0 -> exec q = Ok s0 ->
  exists sent, genere_symboles w s = Ok sent /\ length sent = ngroups (length l) (w_k w) /\
    forall rcv, length rcv = length sent ->
      (forall i, (i < length sent)%nat -> sqdist (nth i rcv (0, 0)) (nth i sent (0, 0)) < huge /\
         forall j z, lis_symbole w i j = Ok z -> z <> nth i sent (0, 0) ->
           4 * sqdist (nth i rcv (0, 0)) (nth i sent (0, 0)) < sqdist (nth i sent (0, 0)) z) ->
      exists s1, decode_symboles w s0 rcv = Ok s1 /\ shows s1 (l0 ++ l ++ repeat false (ngroups (length l) (w_k w) * w_k w - length l)).
Proof.
  intros LW P D E P0 D0 E0. destruct (lw_ok w LW) as (OK & DI & Hk & HM & _).
  destruct (chain p l s q l0 s0 w OK P D E P0 D0 E0 Hk HM) as (sent & ids & G & Ls & Li & N & Dec).
  exists sent. split; [exact G|]. split; [exact Ls|]. intros rcv Lr H.
  destruct (Dec rcv Lr) as (s1 & D1 & Sh); [|exists s1; split; assumption].
  intros i Hi. destruct (N i Hi) as [Hid Hpt]. destruct (H i Hi) as [H1 H2]. rewrite Hpt in H1, H2. apply decides_half; auto.
  intros j Hj Hne. apply (H2 j).
  - unfold lis_symbole. destruct (Nat.ltb_spec j (w_M w)); [reflexivity|lia].
  - intros C. apply Hne. apply (DI i); assumption.
Qed.
Print Assumptions C42_noise.

(** A QAM waveform exists exactly for square sizes. *)
Theorem C42_qam_sizes M : wave_qam M = Exc <-> ~ exists m, (m * m = M)%nat.
Proof.
  unfold wave_qam. destruct (Nat.eqb_spec (Nat.sqrt M * Nat.sqrt M) M) as [Q|Q]; split; intros H; try discriminate H; try reflexivity.
  - exfalso. apply H. exists (Nat.sqrt M). exact Q.
  - intros [m Hm]. apply Q. rewrite <- Hm, Nat.sqrt_square. reflexivity.
Qed.
Print Assumptions C42_qam_sizes.

(** The demodulation context of a waveform without memory returns the nearest
    symbol and its index, for every input. *)
Theorem C42_context w x : library_wave w -> (exists j, (j < w_M w)%nat /\ sqdist x (w_pt w 0 j) < huge) ->
  exists r z, ctx_step w 0 x = Ok (r, z) /\ lis_symbole w 0 r = Ok z /\ closest (w_M w) (w_pt w 0) x r.
Proof.
  intros LW H. destruct (C42_nearest w 0 x LW H) as (r & E & C). exists r, (w_pt w 0 r). unfold ctx_step. rewrite E. cbn [bind].
  assert (L : lis_symbole w 0 r = Ok (w_pt w 0 r)) by (unfold lis_symbole; destruct (Nat.ltb_spec r (w_M w)); [reflexivity|destruct C; lia]).
  rewrite L. split; [reflexivity|]. split; [reflexivity|exact C].
Qed.
Print Assumptions C42_context.
(** The context of the pi/4-QPSK, fed sample by sample, returns at step n a nearest
    symbol of the constellation in force at n, for every sequence of received points. *)
Theorem C42_pi4_context xs : length (ctx_pi4_run 0 xs) = length xs /\
  forall n, (n < length xs)%nat -> let (r, z) := nth n (ctx_pi4_run 0 xs) (0%nat, (0, 0)) in
    closest 4 (w_pt wave_pi4 n) (nth n xs (0, 0)) r /\ lis_symbole wave_pi4 n r = Ok z.
Proof.
  assert (G : forall xs c, length (ctx_pi4_run c xs) = length xs /\
    forall n, (n < length xs)%nat -> let (r, z) := nth n (ctx_pi4_run c xs) (0%nat, (0, 0)) in
      closest 4 (w_pt wave_pi4 (c + n)) (nth n xs (0, 0)) r /\ lis_symbole wave_pi4 (c + n) r = Ok z).
  { clear xs. induction xs as [|x xs IH]; intros c; cbn [ctx_pi4_run]; [split; [reflexivity|cbn; lia]|].
    pose proof (ctx_pi4_closest c x) as S. destruct (ctx_pi4_step c x) as [c' o]. destruct S as (-> & C & Z). destruct (IH (S c)) as [L N].
    split; [cbn [length]; now rewrite L|]. intros [|n] Hn; cbn [nth].
    - destruct o as [r z]. cbn [fst snd] in *. rewrite Nat.add_0_r. split; [exact C|]. unfold lis_symbole. destruct C as [C _].
      cbn [wave_pi4 w_M w_pt]. destruct (Nat.ltb_spec r 4); [now rewrite Z|lia].
    - replace (c + S n)%nat with (S c + n)%nat by lia. apply N. cbn in Hn. lia. }
  apply (G xs 0%nat).
Qed.
Print Assumptions C42_pi4_context.

(** For the waveforms without memory (all but pi/4-QPSK), decoding in two calls is
    decoding in one. *)
Lemma loop_add {S} (body : nat -> S -> res S) n m : forall s,
  loop (n + m) body s = (let* t := loop n body s in loop m (fun i => body (n + i)%nat) t).
Proof.
  induction m as [|m IH]; intros s.
  - rewrite Nat.add_0_r. destruct (loop n body s); reflexivity.
  - rewrite Nat.add_succ_r. rewrite loop_S, IH. destruct (loop n body s) as [t| | |]; cbn [bind]; try reflexivity. 
Qed.
Lemma loop_ext {S} (f g : nat -> S -> res S) n : (forall i s, (i < n)%nat -> f i s = g i s) -> forall s, loop n f s = loop n g s.
Proof.
  intros H. induction n as [|n IH]; intros s; [reflexivity|]. rewrite !loop_S, IH by (intros; apply H; lia).
  destruct (loop n g s); cbn [bind]; try reflexivity. apply H. lia.
Qed.
Lemma symdemap_app bs a b k : symdemap bs (a ++ b) k = (let* s := symdemap bs a k in symdemap s b k).
Proof.
  unfold symdemap. rewrite app_length, loop_add.
  assert (E : loop (length a) (fun (i : nat) (bs0 : bitstream) =>
      loop k (fun (j : nat) (bs1 : bitstream) => let* v := vget (a ++ b) i in
        if (32 <=? j)%nat then UB else bs_push bs1 (negb (Z.eqb (Z.land (Z.shiftr v (Z.of_nat j)) 1) 0))) bs0) bs
    = loop (length a) (fun (i : nat) (bs0 : bitstream) =>
      loop k (fun (j : nat) (bs1 : bitstream) => let* v := vget a i in
        if (32 <=? j)%nat then UB else bs_push bs1 (negb (Z.eqb (Z.land (Z.shiftr v (Z.of_nat j)) 1) 0))) bs0) bs).
  { apply loop_ext. intros i s Hi. apply loop_ext. intros j t _. replace (vget (a ++ b) i) with (vget a i); [reflexivity|].
    unfold vget. rewrite nth_error_app1 by assumption. reflexivity. }
  rewrite E. clear E. match goal with |- bind ?X _ = _ => destruct X as [s| | |] end; cbn [bind]; try reflexivity.
  apply loop_ext. intros i s' Hi. apply loop_ext. intros j t _. replace (vget (a ++ b) (length a + i)) with (vget b i); [reflexivity|].
  unfold vget. rewrite nth_error_app2 by lia. f_equal. replace (length a + i - length a)%nat with i by lia. reflexivity.
Qed.
Theorem C42_blocks w bs x y : library_wave w -> w <> wave_pi4 ->
  (forall a, In a (x ++ y) -> exists j, (j < w_M w)%nat /\ sqdist a (w_pt w 0 j) < huge) ->
  decode_symboles w bs (x ++ y) = (let* b := decode_symboles w bs x in decode_symboles w b y).
Proof.
  intros LW NP H.
  assert (M : forall c c' i, w_pt w c i = w_pt w c' i).
  { destruct LW as [ | |M w' HM HL E| | ]; try reflexivity; [|now destruct NP].
    unfold wave_qam in E. destruct (Nat.sqrt M * Nat.sqrt M =? M)%nat; [|discriminate E]. injection E as <-. reflexivity. }
  assert (SP : forall c c' a, symbole_plus_proche w c a = symbole_plus_proche w c' a).
  { intros c c' a. unfold symbole_plus_proche. destruct (w_real w); [reflexivity|].
    assert (E : forall l st, fold_left (near_turn w c a) l st = fold_left (near_turn w c' a) l st).
    { induction l as [|i l IH]; intros st; [reflexivity|]. cbn [fold_left]. rewrite IH. unfold near_turn. rewrite (M c c'). reflexivity. }
    rewrite E. reflexivity. }
  assert (MM : forall l, (forall a, In a l -> In a (x ++ y)) -> exists r, forall c, mapi_res (symbole_plus_proche w) c l = Ok r).
  { induction l as [|a l IH]; intros I; [exists []; reflexivity|]. destruct IH as [t Ht]; [intros b Hb; apply I; now right|].
    destruct (C42_nearest w 0 a LW (H a (I a (or_introl eq_refl)))) as (r & E & _).
    exists (r :: t). intros c. cbn [mapi_res]. rewrite (SP c 0%nat), E. cbn [bind]. rewrite Ht. reflexivity. }
  destruct (MM x) as [rx Hx]; [intros; apply in_or_app; now left|]. destruct (MM y) as [ry Hy]; [intros; apply in_or_app; now right|].
  unfold decode_symboles. rewrite Hx. cbn [bind].
  assert (APP : forall l1 l2 c, mapi_res (symbole_plus_proche w) c (l1 ++ l2) = let* a := mapi_res (symbole_plus_proche w) c l1 in let* b := mapi_res (symbole_plus_proche w) (c + length l1) l2 in Ok (a ++ b)).
  { induction l1 as [|a l1 IH]; intros l2 c; cbn [app mapi_res length].
    - rewrite Nat.add_0_r. cbn [bind]. destruct (mapi_res _ c l2); reflexivity.
    - destruct (symbole_plus_proche w c a); cbn [bind]; try reflexivity. rewrite IH. replace (c + S (length l1))%nat with (S c + length l1)%nat by lia.
      destruct (mapi_res (symbole_plus_proche w) (S c) l1); cbn [bind]; try reflexivity. destruct (mapi_res _ (S c + length l1) l2); reflexivity. }
  rewrite APP, Hx. cbn [bind]. rewrite Hy. cbn [bind]. rewrite map_app, symdemap_app.
  destruct (symdemap bs (map Z.of_nat rx) (w_k w)); cbn [bind]; try reflexivity. rewrite Hy. reflexivity.
Qed.
Print Assumptions C42_blocks.

(** Finding: pi/4-QPSK alternates between two constellations, and decode_symboles
    restarts with the first one at each call: the symbols (index 0, index 3), read
    with one call, give back their bits 00 11, but one call per symbol reads 00 00. *)
Lemma sqd_pt3 : lis_symbole wave_pi4 1 3 = Ok (1, 0).
Proof.
  unfold lis_symbole. cbn [wave_pi4 w_M w_pt]. replace (3 <? 4)%nat with true by reflexivity. f_equal.
  change (cmulr (psk_point 4 3) (polar1 (PI / 4)) = (1, 0)). destruct qpsk_pts as (_ & _ & _ & ->). cbv zeta.
  unfold cmulr, polar1. cbn [fst snd]. rewrite cos_PI4, sin_PI4. 
  assert (0 < sqrt 2) by (apply sqrt_lt_R0; lra).
  assert (S2 : sqrt 2 * sqrt 2 = 2) by (apply sqrt_def; lra).
  assert (S3 : / sqrt 2 * / sqrt 2 = / 2) by (rewrite <- Rinv_mult; now rewrite S2).
  unfold Rdiv. rewrite !Rmult_1_l. f_equal; [|ring]. transitivity (2 * (/ sqrt 2 * / sqrt 2)); [ring|rewrite S3; lra].
Qed.
Lemma pi4_first_alt : symbole_plus_proche wave_pi4 0 (1, 0) = Ok 0%nat.
Proof.
  assert (Q : forall i, w_pt wave_pi4 0 i = psk_point 4 i) by (intros; reflexivity).
  destruct qpsk_pts as (P0 & P1 & P2 & P3). cbv zeta in P0, P1, P2, P3.
  assert (S2 : sqrt 2 * sqrt 2 = 2) by (apply sqrt_def; lra).
  assert (S3 : / sqrt 2 * / sqrt 2 = / 2) by (rewrite <- Rinv_mult; now rewrite S2).
  assert (Pos : 0 < / sqrt 2) by (apply Rinv_0_lt_compat, sqrt_lt_R0; lra).
  set (h := / sqrt 2) in *.
  destruct (near_ok wave_pi4 0 (1, 0) eq_refl) as (r & E & C & F).
  - exists 0%nat. split; [cbn; lia|]. rewrite Q, P0. unfold sqdist. cbn [fst snd]. unfold huge.
    assert (4 < IZR (10 ^ 100)) by (apply IZR_lt; reflexivity). nra.
  - rewrite E. f_equal. destruct C as [Hr C]. specialize (C 0%nat ltac:(cbn; lia)). destruct r as [|r]; [reflexivity|].
    specialize (F 0%nat ltac:(lia)). rewrite !Q in F. rewrite P0 in F. exfalso. change (w_M wave_pi4) with 4%nat in Hr.
    assert (r = 0 \/ r = 1 \/ r = 2)%nat as [-> | [-> | ->]] by lia.
    + rewrite P1 in F. unfold sqdist in F. cbn [fst snd] in F. nra.
    + rewrite P2 in F. unfold sqdist in F. cbn [fst snd] in F. nra.
    + rewrite P3 in F. unfold sqdist in F. cbn [fst snd] in F. nra.
Qed.
Lemma pi4_self c i : (i < 4)%nat -> symbole_plus_proche wave_pi4 c (w_pt wave_pi4 c i) = Ok i.
Proof.
  intros Hi. apply decides_half; [intros C; discriminate C|exact Hi| |].
  - apply half_self; [apply pi4_distinct|exact Hi].
  - unfold sqdist. pose proof huge_pos. replace _ with 0 by ring. lra.
Qed.
Theorem C42_pi4_blocks_refuted : exists bs x y s1 s2, genere_symboles wave_pi4 bs = Ok (x ++ y) /\ length x = 1%nat /\ length y = 1%nat /\
  shows bs [false; false; true; true] /\
  decode_symboles wave_pi4 bs_empty (x ++ y) = Ok s1 /\ shows s1 [false; false; true; true] /\
  (let* b := decode_symboles wave_pi4 bs_empty x in decode_symboles wave_pi4 b y) = Ok s2 /\ shows s2 [false; false; false; false].
Proof.
  assert (P : w_pt wave_pi4 1 3 = (1, 0)) by (pose proof sqd_pt3 as H; change (Ok (w_pt wave_pi4 1 3) = Ok (1, 0)) in H; congruence).
  exists (mkbs [12%N] 0 4), [w_pt wave_pi4 0 0], [w_pt wave_pi4 1 3].
  pose proof (pi4_self 0 0 ltac:(lia)) as A. pose proof (pi4_self 1 3 ltac:(lia)) as B. pose proof pi4_first_alt as C. rewrite <- P in C.
  exists (mkbs [12%N] 0 4), (mkbs [0%N] 0 4).
  split; [reflexivity|]. split; [reflexivity|]. split; [reflexivity|].
  assert (SH : forall n l, length l = 4%nat -> (forall i, (i < 4)%nat -> bs_get (mkbs [n] 0 4) i = Ok (nth i l false)) -> shows (mkbs [n] 0 4) l).
  { intros n l L H. split; [now rewrite L|]. rewrite L. exact H. }
  split; [apply SH; [reflexivity|intros [|[|[|[|i]]]] Hi; try reflexivity; lia]|].
  split; [|split; [apply SH; [reflexivity|intros [|[|[|[|i]]]] Hi; try reflexivity; lia]|split; [|apply SH; [reflexivity|intros [|[|[|[|i]]]] Hi; try reflexivity; lia]]]].
  - unfold decode_symboles. cbn [app mapi_res]. rewrite A. cbn [bind]. rewrite B. cbn [bind mapi_res]. reflexivity.
  - unfold decode_symboles. cbn [app mapi_res]. rewrite A. cbn [bind]. rewrite C. reflexivity.
Qed.
Print Assumptions C42_pi4_blocks_refuted.

(** Non-vacuity: concrete waveforms, streams and received points. *)
Example C42_ex_waves : library_wave (wave_psk 2) /\ library_wave (wave_psk 8) /\ library_wave (wave_ask 4 (-1) 2) /\
  (exists w, wave_qam 16 = Ok w /\ library_wave w /\ w_k w = 4%nat /\ lis_symbole w 0 4 = Ok (-1, INR 1 / INR 3 * 2 - 1)) /\ wave_qam 8 = Exc.
Proof.
  split; [constructor; cbn; lia|]. split; [constructor; cbn; lia|]. split; [constructor; cbn; try lia; lra|]. split; [|reflexivity].
  eexists. split; [reflexivity|]. split; [eapply (LW_qam 16); cbn; try lia; reflexivity|]. split; [reflexivity|].
  unfold lis_symbole. cbn [w_M w_pt]. replace (4 <? 16)%nat with true by reflexivity. f_equal. unfold qam_point. replace (4 mod Nat.sqrt 16)%nat with 0%nat by reflexivity.
  replace (4 / Nat.sqrt 16)%nat with 1%nat by reflexivity. replace (Nat.sqrt 16 - 1)%nat with 3%nat by reflexivity. f_equal. change (INR 0) with 0. unfold Rdiv. ring.
Qed.
Example C42_ex_noise : let w := wave_psk 2 in forall j z, lis_symbole w 0 j = Ok z -> z <> (1, 0) -> 4 * sqdist (0.25, 0.5) (1, 0) < sqdist (1, 0) z.
Proof.
  cbv zeta. intros j z. unfold lis_symbole. cbn [wave_psk w_M w_pt]. destruct (Nat.ltb_spec j 2) as [H|H]; [|discriminate].
  intros E. injection E as <-. unfold psk_point. cbn [Nat.eqb]. destruct j as [|[|j]]; cbn [Nat.eqb]; [|intros C; now destruct C|lia].
  intros _. unfold sqdist. cbn [fst snd]. lra.
Qed.
