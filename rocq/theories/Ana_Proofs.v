(** Proofs for the analogue modulations. *)
From Coq Require Import Reals Lra String.
From Verif Require Import Base BaseLemmas RField ComplexSys DftSys Filters_Model Filters_Spec Filters_Proofs Filters_Props Sig_Model Sig_Spec Sig_Proofs Win_Model Win_Spec Win_Proofs Rif_Model Hil_Model Hil_Spec Hil_Proofs2 Hil_Props Geo_Model Geo_Proofs2 Pll_Model Ana_Model Ana_Spec.
Local Open Scope R_scope.

(** ** Blocks *)
Lemma outs_run {S A B} (step : S -> list A -> res (S * list B)) : forall blocks s us, outs step s blocks = Ok us -> exists s', run step s blocks = Ok (s', concat us) /\ List.length us = List.length blocks.
Proof.
  induction blocks as [|b bs IH]; intros s us E; cbn [outs run] in *; [injection E as <-; exists s; split; reflexivity|].
  destruct (step s b) as [[s1 y]| | |]; cbn [bind] in *; try discriminate. destruct (outs step s1 bs) as [l| | |] eqn:El; cbn [bind] in *; try discriminate. injection E as <-. destruct (IH s1 l El) as (s' & R & L). exists s'. rewrite R. cbn [bind concat List.length]. split; [reflexivity|lia].
Qed.
Lemma run_outs {S A B} (step : S -> list A -> res (S * list B)) : forall blocks s s' y, run step s blocks = Ok (s', y) -> exists us, outs step s blocks = Ok us /\ concat us = y.
Proof.
  induction blocks as [|b bs IH]; intros s s' y E; cbn [outs run] in *; [injection E as <- <-; exists []; split; reflexivity|].
  destruct (step s b) as [[s1 u]| | |]; cbn [bind] in *; try discriminate. destruct (run step s1 bs) as [[s2 v]| | |] eqn:El; cbn [bind] in *; try discriminate. injection E as <- <-. destruct (IH s1 s2 v El) as (us & E2 & <-). rewrite E2. cbn [bind]. eexists. split; reflexivity.
Qed.
(** ** Modulator: the blocks given by the resampler *)
Definition idra (r : unit) (x : list R) : res (unit * list R) := Ok (r, x).
Lemma am_factor {Sra} (ra : Sra -> list R -> res (Sra * list R)) m i s u : am_step ra m i s u =
  let* (r, y) := ra (am_ra s) u in let* (s', z) := am_step idra m i (mkam tt (am_ol s) (am_hil s)) y in Ok (mkam r (am_ol s') (am_hil s'), z).
Proof.
  unfold am_step. cbn [am_ra am_ol am_hil idra bind]. destruct (ra (am_ra s) u) as [[r y]| | |]; cbn [bind]; try reflexivity. destruct m.
  - destruct (_ && _)%bool; [reflexivity|]. destruct (ohc_step (am_ol s) (List.length y)). reflexivity.
  - destruct (ohc_step (am_ol s) (List.length y)). reflexivity.
  - destruct (am_hil s) as [h|]; [|reflexivity]. destruct (hil_step h y) as [[h' z]| | |]; cbn [bind]; try reflexivity. destruct (ohc_step (am_ol s) (List.length z)). reflexivity.
  - destruct (am_hil s) as [h|]; [|reflexivity]. destruct (hil_step h y) as [[h' z]| | |]; cbn [bind]; try reflexivity. destruct (ohc_step (am_ol s) (List.length z)). reflexivity.
Qed.
Lemma am_run {Sra} (ra : Sra -> list R -> res (Sra * list R)) m i : forall blocks r ol h us, outs ra r blocks = Ok us ->
  forall s' y, run (am_step idra m i) (mkam tt ol h) us = Ok (s', y) -> exists s, run (am_step ra m i) (mkam r ol h) blocks = Ok (s, y).
Proof.
  induction blocks as [|b bs IH]; intros r ol h us E s' y H; cbn [outs] in E.
  - injection E as <-. cbn [run] in *. injection H as <- <-. eexists. reflexivity.
  - destruct (ra r b) as [[r1 u]| | |] eqn:Er; cbn [bind] in E; try discriminate. destruct (outs ra r1 bs) as [l| | |] eqn:El; cbn [bind] in E; try discriminate. injection E as <-. cbn [run] in *. rewrite am_factor. cbn [am_ra am_ol am_hil]. rewrite Er. cbn [bind].
    destruct (am_step idra m i (mkam tt ol h) u) as [[[[] ol1 h1] z]| | |]; cbn [bind] in *; try discriminate. cbn [am_ol am_hil]. destruct (run (am_step idra m i) (mkam tt ol1 h1) l) as [[s2 v]| | |] eqn:Ev; cbn [bind] in *; try discriminate. injection H as <- <-.
    destruct (IH r1 ol1 h1 l El s2 v Ev) as (s & R). rewrite R. cbn [bind]. eexists. reflexivity.
Qed.
(** ** Carrier *)
Lemma tone_length t f n : List.length (tone t f n) = n. Proof. unfold tone. rewrite map_length, seq_length. reflexivity. Qed.
Lemma tone_nth t f n k : (k < n)%nat -> nth k (tone t f n) (0, 0) = unit_at (t + 2 * PI * f * INR k). Proof. intros H. unfold tone. apply (nth_map_seq (X := R * R)). exact H. Qed.
Lemma combine_app {A B} (a b : list A) (c d : list B) : List.length a = List.length c -> combine (a ++ b) (c ++ d) = combine a c ++ combine b d.
Proof. revert c. induction a as [|x a IH]; intros [|y c] H; try discriminate; [reflexivity|]. cbn. f_equal. apply IH. cbn in H. lia. Qed.
Definition ost (t nu : R) : (R * R) * (R * R) := (unit_at t, unit_at (2 * PI * nu)).
Lemma ost_new nu : ohc_new nu = ost 0 nu. Proof. unfold ohc_new, ohc_conf, ost, unit_at. rewrite cos_0, sin_0. reflexivity. Qed.
Lemma ost_step t nu n : ohc_step (ost t nu) n = (ost (t + 2 * PI * nu * INR n) nu, tone t nu n). Proof. apply ohc_step_ok. Qed.
Lemma times_app a b c d : List.length a = List.length c -> times_re (a ++ b) (c ++ d) = times_re a c ++ times_re b d.
Proof. intros H. unfold times_re. rewrite combine_app by exact H. apply map_app. Qed.
Lemma sc_run i nu h : forall us t, exists s, run (am_step idra DSB_SC i) (mkam tt (ost t nu) h) us = Ok (s, times_re (concat us) (tone t nu (List.length (concat us)))).
Proof.
  induction us as [|u us IH]; intros t; [eexists; reflexivity|]. cbn [run am_step idra bind am_ra am_ol am_hil]. rewrite ost_step. cbn [bind]. destruct (IH (t + 2 * PI * nu * INR (List.length u))) as (s & E). rewrite E. cbn [bind concat]. exists s. rewrite app_length, tone_app, times_app by (rewrite tone_length; reflexivity). reflexivity.
Qed.
Definition env (i : R) (u : list R) : list R := map (fun v => 1 + i * v / peak u) u.
Lemma dsb_run i nu h : forall us t, (forall u, In u us -> u <> [] -> peak u <> 0) -> exists s, run (am_step idra DSB i) (mkam tt (ost t nu) h) us = Ok (s, times_re (concat (map (env i) us)) (tone t nu (List.length (concat us)))).
Proof.
  induction us as [|u us IH]; intros t Hu; [eexists; reflexivity|]. cbn [run am_step idra bind am_ra am_ol am_hil].
  assert (G : (negb (List.length u =? 0)%nat && (if Req_EM_T (peak u) 0 then true else false))%bool = false).
  { destruct u as [|a u]; [reflexivity|]. cbn [List.length Nat.eqb negb andb]. destruct (Req_EM_T _ _) as [Z|Z]; [|reflexivity]. exfalso. apply (Hu (a :: u)); [left; reflexivity|discriminate|exact Z]. }
  rewrite G. rewrite ost_step. cbn [bind]. destruct (IH (t + 2 * PI * nu * INR (List.length u))) as (s & E); [intros v Hv; apply Hu; right; exact Hv|]. rewrite E. cbn [bind concat map]. exists s. rewrite app_length, tone_app, times_app by (rewrite tone_length; unfold env; rewrite map_length; reflexivity). reflexivity.
Qed.
Definition ssb (sg : R) (z o : list (R * R)) : list R := map (fun p => fst (fst p) * fst (snd p) + sg * snd (fst p) * snd (snd p)) (combine z o).
Lemma ssb_run (m : amode) i nu : est_BLU m = true -> forall us t s0 s z, run hil_step s0 us = Ok (s, z) ->
  exists s', run (am_step idra m i) (mkam tt (ost t nu) (Some s0)) us = Ok (s', ssb (match m with LSB => -1 | _ => 1 end) z (tone t nu (List.length z))).
Proof.
  intros Hm. induction us as [|u us IH]; intros t s0 s z E; cbn [run] in *; [injection E as <- <-; eexists; reflexivity|].
  destruct (hil_step s0 u) as [[s1 z1]| | |] eqn:Eh; cbn [bind] in E; try discriminate. destruct (run hil_step s1 us) as [[s2 z2]| | |] eqn:Er; cbn [bind] in E; try discriminate. injection E as <- <-.
  assert (St : am_step idra m i (mkam tt (ost t nu) (Some s0)) u = Ok (mkam tt (ost (t + 2 * PI * nu * INR (List.length z1)) nu) (Some s1), ssb (match m with LSB => -1 | _ => 1 end) z1 (tone t nu (List.length z1)))).
  { destruct m; try discriminate; cbn [am_step idra bind am_ra am_ol am_hil]; rewrite Eh; cbn [bind]; rewrite ost_step; reflexivity. }
  rewrite St. cbn [bind]. destruct (IH (t + 2 * PI * nu * INR (List.length z1)) s1 s2 z2 Er) as (s' & E'). rewrite E'. cbn [bind]. exists s'. rewrite app_length, tone_app. unfold ssb. rewrite combine_app, map_app by (rewrite tone_length; reflexivity). reflexivity.
Qed.
Lemma times_length a c : List.length a = List.length c -> List.length (times_re a c) = List.length a.
Proof. intros H. unfold times_re. rewrite map_length, combine_length, H. apply Nat.min_id. Qed.
Lemma times_nth a c n : List.length a = List.length c -> (n < List.length a)%nat -> nth n (times_re a c) 0 = nth n a 0 * fst (nth n c (0, 0)).
Proof.
  intros H Hn. unfold times_re. rewrite (nth_indep _ 0 (fst (0, (0, 0)) * fst (snd (0, (0, 0))))) by (rewrite map_length, combine_length, H, Nat.min_id; lia). rewrite (map_nth (fun p : R * (R * R) => fst p * fst (snd p))). rewrite combine_nth by exact H. reflexivity.
Qed.
Lemma ssb_length sg z o : List.length z = List.length o -> List.length (ssb sg z o) = List.length z.
Proof. intros H. unfold ssb. rewrite map_length, combine_length, H. apply Nat.min_id. Qed.
Lemma ssb_nth sg z o n : List.length z = List.length o -> (n < List.length z)%nat -> nth n (ssb sg z o) 0 = fst (nth n z (0, 0)) * fst (nth n o (0, 0)) + sg * snd (nth n z (0, 0)) * snd (nth n o (0, 0)).
Proof.
  intros H Hn. unfold ssb. set (F := fun p : (R * R) * (R * R) => fst (fst p) * fst (snd p) + sg * snd (fst p) * snd (snd p)). rewrite (nth_indep _ 0 (F ((0, 0), (0, 0)))) by (rewrite map_length, combine_length, H, Nat.min_id; lia). rewrite (map_nth F). rewrite combine_nth by exact H. reflexivity.
Qed.
Lemma peak_ok u : u <> [] -> is_peak u (peak u).
Proof.
  induction u as [|a u IH]; [congruence|]. intros _. destruct u as [|b u].
  - unfold is_peak, peak. cbn. rewrite Rmax_left by apply Rabs_pos. split; [intros v [<-|[]]; lra|exists a; split; [left; reflexivity|reflexivity]].
  - destruct (IH ltac:(discriminate)) as (I1 & w & I2 & I3). change (peak (a :: b :: u)) with (Rmax (Rabs a) (peak (b :: u))). set (m := peak (b :: u)) in *. split.
    + intros v [<-|Hv]; [apply Rmax_l|]. eapply Rle_trans; [apply I1; exact Hv|apply Rmax_r].
    + destruct (Rle_dec (Rabs a) m) as [Q|Q]; [rewrite Rmax_right by exact Q; exists w; split; [right; exact I2|exact I3]|rewrite Rmax_left by lra; exists a; split; [left; reflexivity|reflexivity]].
Qed.

(** ** Demodulator *)
Lemma vminus_ok a b : List.length a = List.length b -> vminus a b = Ok (map (fun p => fst p - snd p) (combine a b)).
Proof. intros H. unfold vminus. rewrite H, Nat.eqb_refl. reflexivity. Qed.
Lemma vminus_nth a b n : List.length a = List.length b -> nth n (map (fun p : R * R => fst p - snd p) (combine a b)) 0 = nth n a 0 - nth n b 0.
Proof.
  intros H. replace 0 with ((fun p : R * R => fst p - snd p) (0, 0)) at 1 by (cbn; ring). rewrite (map_nth (fun p : R * R => fst p - snd p)), combine_nth by exact H. reflexivity.
Qed.
Definition shifted (x o : list (R * R)) : list (R * R) := map (fun p => mulz (fst p) (snd p)) (combine x o).
Fixpoint shift_blocks (t nu : R) (blocks : list (list (R * R))) : list (list (R * R)) :=
  match blocks with [] => [] | x :: bs => shifted x (tone t nu (List.length x)) :: shift_blocks (t + 2 * PI * nu * INR (List.length x)) nu bs end.
Lemma shift_concat nu : forall blocks t, concat (shift_blocks t nu blocks) = shifted (concat blocks) (tone t nu (List.length (concat blocks))).
Proof.
  induction blocks as [|x bs IH]; intros t; [reflexivity|]. cbn [shift_blocks concat]. rewrite IH, app_length, tone_app. unfold shifted. rewrite combine_app, map_app by (rewrite tone_length; reflexivity). reflexivity.
Qed.
Lemma shifted_length x t nu : List.length (shifted x (tone t nu (List.length x))) = List.length x.
Proof. unfold shifted. rewrite map_length, combine_length, tone_length. apply Nat.min_id. Qed.
Lemma shifted_nth x t nu n : (n < List.length x)%nat -> nth n (shifted x (tone t nu (List.length x))) (0, 0) = mulz (nth n x (0, 0)) (unit_at (t + 2 * PI * nu * INR n)).
Proof.
  intros H. unfold shifted. set (F := fun p : (R * R) * (R * R) => mulz (fst p) (snd p)). rewrite (nth_indep _ (0, 0) (F ((0, 0), (0, 0)))) by (rewrite map_length, combine_length, tone_length, Nat.min_id; exact H). rewrite (map_nth F), combine_nth by (rewrite tone_length; reflexivity). unfold F. cbn [fst snd]. rewrite tone_nth by exact H. reflexivity.
Qed.
Lemma map_st_len {St A B} (f : St -> A -> res (St * B)) : forall x s s' y, map_st f s x = Ok (s', y) -> List.length y = List.length x.
Proof.
  induction x as [|a x IH]; intros s s' y E; cbn [map_st] in E; [injection E as <- <-; reflexivity|]. destruct (f s a) as [[s1 b]| | |]; cbn [bind] in E; try discriminate. destruct (map_st f s1 x) as [[s2 v]| | |] eqn:E2; cbn [bind] in E; try discriminate. injection E as <- <-. cbn. f_equal. apply (IH _ _ _ E2).
Qed.
Lemma fir_len f x f' y : fir_step (K := Rring) f x = Ok (f', y) -> List.length y = List.length x.
Proof. unfold fir_step. destruct (_ =? 0)%nat; [discriminate|]. apply map_st_len. Qed.
Lemma delay_len {A} (d : delay A) x d' y : delay_step d x = Ok (d', y) -> List.length y = List.length x.
Proof. unfold delay_step. destruct (_ =? 0)%nat; [intros E; injection E as <- <-; reflexivity|]. apply map_st_len. Qed.
Section Dem.
  Variables (Sra Slp Shp : Type).
  Variable ra : Sra -> list R -> res (Sra * list R).
  Variable lp : Slp -> list R -> res (Slp * list R).
  Variable hp : Shp -> list R -> res (Shp * list R).
  Hypothesis Kr : keeps lp. Hypothesis Kh : keeps hp.
  Lemma keeps_empty {S} (f : S -> list R -> res (S * list R)) (K : keeps f) s : exists s', f s [] = Ok (s', []).
  Proof. destruct (K s []) as (s' & y & E & L). destruct y; [|discriminate]. exists s'. exact E. Qed.
  Lemma dsb_empty m s x : est_BLU m = false -> (forall r u, exists r' v, ra r u = Ok (r', v)) -> exists s', ad_step ra lp hp m s x = Ok (s', []).
  Proof.
    intros Hm Ka. unfold ad_step. rewrite Hm. cbn [negb]. destruct (ohc_step (ad_ol s) (List.length x)) as [ol o]. set (r0 := map fst _). destruct (Kr (ad_lp s) r0) as (l & rft & E1 & L1). rewrite E1. cbn [bind]. destruct (Kh (ad_hp s) rft) as (h & u & E2 & L2). rewrite E2. cbn [bind]. rewrite vminus_ok by lia. cbn [bind]. destruct (Ka (ad_ra s) (map (fun p => fst p - snd p) (combine rft u))) as (r & v & E3). rewrite E3. cbn [bind ad_lp ad_hp].
    destruct (keeps_empty lp Kr l) as (l' & E4). rewrite E4. cbn [bind]. destruct (keeps_empty hp Kh h) as (h' & E5). rewrite E5. cbn [bind]. rewrite vminus_ok by reflexivity. cbn. eexists. reflexivity.
  Qed.
  Lemma dsb_run_empty m : est_BLU m = false -> (forall r u, exists r' v, ra r u = Ok (r', v)) -> forall blocks s, exists s', run (ad_step ra lp hp m) s blocks = Ok (s', []).
  Proof.
    intros Hm Ka. induction blocks as [|b bs IH]; intros s; cbn [run]; [eexists; reflexivity|]. destruct (dsb_empty m s b Hm Ka) as (s1 & E). rewrite E. cbn [bind]. destruct (IH s1) as (s2 & E2). rewrite E2. cbn [bind]. eexists. reflexivity.
  Qed.
  (** one band: fir and delay on the shifted signal, block by block *)
  Lemma ssb_dem m nu : est_BLU m = true -> forall blocks t r l h f d f' d' ix rx,
    run (fir_step (K := Rring)) f (map (map snd) (shift_blocks t nu blocks)) = Ok (f', ix) -> run delay_step d (map (map fst) (shift_blocks t nu blocks)) = Ok (d', rx) ->
    exists y1b a b l' h' s', concat y1b = map (fun p => fst p - snd p) (combine rx ix) /\ map (fun b => List.length b) y1b = map (fun b => List.length b) blocks /\ run lp l y1b = Ok (l', a) /\ run hp h y1b = Ok (h', b) /\
      List.length a = List.length b /\ List.length a = List.length (concat blocks) /\ run (ad_step ra lp hp m) (mkad r l h (ost t nu) (Some (f, d))) blocks = Ok (s', map (fun p => fst p - snd p) (combine a b)).
  Proof.
    intros Hm. induction blocks as [|x bs IH]; intros t r l h f d f' d' ix rx Ef Ed; cbn [shift_blocks map run] in Ef, Ed.
    - injection Ef as <- <-. injection Ed as <- <-. exists [], [], [], l, h. eexists. repeat split; reflexivity.
    - set (u := shifted x (tone t nu (List.length x))) in *. assert (Lu : List.length u = List.length x) by (unfold u, shifted; rewrite map_length, combine_length, tone_length; apply Nat.min_id).
      destruct (fir_step (K := Rring) f (map snd u)) as [[f1 i1]| | |] eqn:Ef1; cbn [bind] in Ef; try discriminate. destruct (delay_step d (map fst u)) as [[d1 r1]| | |] eqn:Ed1; cbn [bind] in Ed; try discriminate.
      pose proof (fir_len _ _ _ _ Ef1) as Li. pose proof (delay_len _ _ _ _ Ed1) as Lr. rewrite map_length in Li, Lr.
      destruct (run (fir_step (K := Rring)) f1 _) as [[f2 i2]| | |] eqn:Ef2 in Ef; cbn [bind] in Ef; try discriminate. destruct (run delay_step d1 _) as [[d2 r2]| | |] eqn:Ed2 in Ed; cbn [bind] in Ed; try discriminate. injection Ef as <- <-. injection Ed as <- <-.
      set (y1 := map (fun p : R * R => fst p - snd p) (combine r1 i1)). assert (Ly : List.length y1 = List.length x) by (unfold y1; rewrite map_length, combine_length; rewrite <- (Nat.min_id (List.length x)); apply f_equal2; [exact (eq_trans Lr Lu)|exact (eq_trans Li Lu)]).
      destruct (Kr l y1) as (l1 & a1 & El & La). destruct (Kh h y1) as (h1 & b1 & Eh & Lb).
      destruct (IH (t + 2 * PI * nu * INR (List.length x)) r l1 h1 f1 d1 f2 d2 i2 r2 Ef2 Ed2) as (yb & a & b & l' & h' & s' & C1 & C2 & C3 & C4 & C5 & C6 & C7).
      exists (y1 :: yb), (a1 ++ a), (b1 ++ b), l', h', s'. split; [cbn [concat]; rewrite C1; rewrite combine_app by (etransitivity; [exact Lr|symmetry; exact Li]); rewrite map_app; reflexivity|]. split; [cbn [map]; rewrite C2, Ly; reflexivity|]. split; [cbn [run]; rewrite El; cbn [bind]; rewrite C3; reflexivity|]. split; [cbn [run]; rewrite Eh; cbn [bind]; rewrite C4; reflexivity|]. split; [rewrite !app_length; lia|]. split; [cbn [concat]; rewrite !app_length; lia|].
      assert (St : ad_step ra lp hp m (mkad r l h (ost t nu) (Some (f, d))) x = Ok (mkad r l1 h1 (ost (t + 2 * PI * nu * INR (List.length x)) nu) (Some (f1, d1)), map (fun p => fst p - snd p) (combine a1 b1))).
      { unfold ad_step. rewrite Hm. cbn [negb ad_ol ad_hil ad_ra ad_lp ad_hp]. rewrite ost_step. fold (shifted x (tone t nu (List.length x))). fold u. rewrite Ef1. cbn [bind]. match goal with |- context [@delay_step ?A ?dd ?xx] => replace (@delay_step A dd xx) with (@Ok (delay Rring * list Rring) (d1, r1)) by (symmetry; exact Ed1) end. cbn [bind]. rewrite vminus_ok by (etransitivity; [exact Lr|symmetry; exact Li]). cbn [bind ad_lp ad_hp ad_ra ad_ol ad_hil]. match goal with |- context [lp l ?v] => change v with y1 end. rewrite El. cbn [bind]. rewrite Eh. cbn [bind]. rewrite vminus_ok by lia. reflexivity. }
      cbn [run]. rewrite St. cbn [bind]. rewrite C7. cbn [bind]. rewrite combine_app, map_app by lia. reflexivity.
  Qed.
End Dem.
