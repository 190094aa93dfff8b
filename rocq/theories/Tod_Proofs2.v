(** Proofs for wavelets: several levels, the two wavelets. *)
From Coq Require Import Reals Lra.
From Verif Require Import Base BaseLemmas Filters_Proofs Sig_Proofs Zfe_Proofs Poly_Model Poly_Spec Poly_Proofs RField Tod_Model Tod_Spec Tod_Proofs.
Local Open Scope cring_scope.

Section P.
  Context {K : cring}.
  Add Ring Kr : (cth K).

  Lemma level_length (w : lift K) (u : list K) m : length u = (2 * m)%nat -> length (fst (level w u)) = m /\ length (snd (level w u)) = m.
  Proof.
    intros L. unfold level. assert (E : forall es (p : list K * list K), fold_left lift_one es p = fold_left (one (fun x y => x + y)) es p).
    { induction es as [|e es IH]; intros p; [reflexivity|]. cbn [fold_left]. rewrite lift_one_eq. apply IH. }
    rewrite E. destruct (stages_ok (fun x y => x + y) (li_steps w) (evens u (length u), odds u (length u)) [] m) as (Q1 & Q2 & _).
    - cbn [fst]. rewrite evens_length, L. apply div2_odd.
    - cbn [snd]. rewrite odds_length, L. apply div2_even.
    - split; [exact Q1|exact Q2].
  Qed.
  Lemma skipn_all_app (u r : list K) n : length u = n -> skipn n (u ++ r) = r.
  Proof. intros <-. rewrite skipn_app, skipn_all, Nat.sub_diag. reflexivity. Qed.
  Lemma evens_app (u r : list K) n : length u = n -> evens (u ++ r) n = evens u n.
  Proof. intros L. unfold evens. apply map_ext_in. intros i Hi. apply in_seq in Hi. destruct (halves n) as (H1 & H2 & H3 & H4). apply app_nth1. destruct (Nat.even n); lia. Qed.
  Lemma odds_app (u r : list K) n : length u = n -> odds (u ++ r) n = odds u n.
  Proof. intros L. unfold odds. apply map_ext_in. intros i Hi. apply in_seq in Hi. destruct (halves n) as (H1 & H2 & H3 & H4). apply app_nth1. destruct (Nat.even n); lia. Qed.
  Lemma lift_level (w : lift K) (u r : list K) m : length u = (2 * m)%nat -> lift_step w (u ++ r) (2 * m) = Ok (fst (level w u) ++ snd (level w u) ++ r).
  Proof.
    intros L. unfold lift_step. rewrite split_ok by (rewrite app_length; lia). cbn [bind]. rewrite evens_app, odds_app, skipn_all_app by exact L. rewrite div2_even.
    unfold level. rewrite L. assert (E : forall es (p : list K * list K), fold_left lift_one es p = fold_left (one (fun x y => x + y)) es p).
    { induction es as [|e es IH]; intros p; [reflexivity|]. cbn [fold_left]. rewrite lift_one_eq. apply IH. }
    rewrite E. apply (stages_ok (fun x y => x + y) (li_steps w) (evens u (2 * m), odds u (2 * m)) r m); cbn [fst snd]; rewrite ?evens_length, ?odds_length, ?div2_odd, ?div2_even; reflexivity.
  Qed.
  Lemma stages_0 f (es : list (lift_elem K)) x : stages f es 0 x = Ok x.
  Proof. induction es as [|e es IH]; [reflexivity|]. cbn [stages]. unfold stage. cbn [loop bind]. exact IH. Qed.
  Lemma lift_1 (w : lift K) (x : list K) : (0 < length x)%nat -> lift_step w x 1 = Ok x.
  Proof. intros H. unfold lift_step. rewrite split_ok by lia. cbn [bind]. change (Nat.div2 1) with 0%nat. rewrite stages_0. unfold evens, odds. change (Nat.div2 (1 + 1)) with 1%nat. change (Nat.div2 1) with 0%nat. destruct x as [|a x]; [cbn in H; lia|]. reflexivity. Qed.
  Lemma lift_len (w : lift K) (x : list K) n : (n <= length x)%nat -> exists y, lift_step w x n = Ok y /\ length y = length x.
  Proof. intros H. destruct (lift_ilift w x n H) as (y & E & L & _). exists y. auto. Qed.
  Lemma ilift_len (w : lift K) (x : list K) n : (n <= length x)%nat -> exists y, ilift_step w x n = Ok y /\ length y = length x.
  Proof.
    intros H. destruct (halves n) as (H1 & H2 & H3 & H4). set (m := Nat.div2 n) in *. assert (E : x = firstn m x ++ firstn m (skipn m x) ++ skipn m (skipn m x)) by (rewrite firstn_skipn, firstn_skipn; reflexivity).
    assert (La : length (firstn m x) = m) by (rewrite firstn_length; lia). assert (Lb : length (firstn m (skipn m x)) = m) by (rewrite firstn_length, skipn_length; destruct (Nat.even n); lia).
    destruct (stages_ok (fun x y => x - y) (rev (li_steps w)) (firstn m x, firstn m (skipn m x)) (skipn m (skipn m x)) m La Lb) as (Q1 & Q2 & Q3). cbn [fst snd] in Q3. rewrite <- E in Q3. set (q := fold_left _ _ _) in *.
    assert (Ly : length (fst q ++ snd q ++ skipn m (skipn m x)) = length x) by (rewrite !app_length, !skipn_length; destruct (Nat.even n); lia).
    unfold ilift_step. fold m. rewrite Q3. cbn [bind]. rewrite merge_ok by (rewrite Ly; exact H). eexists. split; [reflexivity|]. rewrite app_length, map_length, seq_length, skipn_length, Ly. lia.
  Qed.

  (** ** dwt *)
  Lemma dwt_levels (w : lift K) q : (0 < q)%nat -> forall c u r fuel, (0 < c)%nat -> length u = (2 ^ c * q)%nat -> (c < fuel)%nat ->
    dwt_loop fuel w (u ++ r) (2 ^ c * q) (2 * q) = Ok (levels w c u ++ r).
  Proof.
    intros Hq. induction c as [|c IH]; intros u r fuel Hc L Hf; [lia|]. destruct fuel as [|fu]; [lia|]. cbn [dwt_loop]. pose proof (Nat.pow_nonzero 2 c ltac:(lia)). replace (2 ^ S c * q)%nat with (2 * (2 ^ c * q))%nat in * by (cbn [Nat.pow]; lia).
    destruct (Nat.ltb_spec (2 * (2 ^ c * q)) (2 * q)); [nia|]. rewrite (lift_level w u r _ L). cbn [bind]. destruct (Nat.eqb_spec (2 * (2 ^ c * q)) 0); [nia|]. rewrite div2_even. cbn [levels]. destruct (level_length w u _ L) as [L1 L2]. destruct (level w u) as [s d]. cbn [fst snd] in *.
    destruct c as [|c].
    - destruct fu as [|fu]; [lia|]. cbn [Nat.pow levels dwt_loop]. destruct (Nat.ltb_spec (1 * q) (2 * q)); [|lia]. rewrite app_assoc. reflexivity.
    - rewrite IH by (try lia; exact L1). rewrite app_assoc. reflexivity.
  Qed.
  Lemma dwt_levels1 (w : lift K) : forall c u fuel, length u = (2 ^ c)%nat -> (S c < fuel)%nat -> dwt_loop fuel w u (2 ^ c) 1 = Ok (levels w c u).
  Proof.
    assert (G : forall c u r fuel, length u = (2 ^ c)%nat -> (S c < fuel)%nat -> dwt_loop fuel w (u ++ r) (2 ^ c) 1 = Ok (levels w c u ++ r)).
    { induction c as [|c IH]; intros u r fuel L Hf; (destruct fuel as [|fu]; [lia|]).
      - cbn [dwt_loop Nat.pow Nat.ltb Nat.leb]. rewrite lift_1 by (rewrite app_length, L; cbn; lia). cbn [bind Nat.eqb Nat.div2 levels]. destruct fu as [|fu]; [lia|]. reflexivity.
      - cbn [dwt_loop]. pose proof (Nat.pow_nonzero 2 c ltac:(lia)). replace (2 ^ S c)%nat with (2 * 2 ^ c)%nat in * by (cbn [Nat.pow]; lia). destruct (Nat.ltb_spec (2 * 2 ^ c) 1); [lia|]. rewrite (lift_level w u r _ L). cbn [bind]. destruct (Nat.eqb_spec (2 * 2 ^ c) 0); [lia|]. rewrite div2_even. cbn [levels]. destruct (level_length w u _ L) as [L1 L2]. destruct (level w u) as [s d]. cbn [fst snd] in *.
        rewrite IH by (try lia; exact L1). rewrite app_assoc. reflexivity. }
    intros c u fuel L Hf. rewrite <- (app_nil_r u) at 1. rewrite G by assumption. rewrite app_nil_r. reflexivity.
  Qed.
  Lemma dwt_div (w : lift K) : forall fuel x n, (n <= length x)%nat -> dwt_loop fuel w x n 0 = Diverge.
  Proof.
    induction fuel as [|fu IH]; intros x n H; [reflexivity|]. cbn [dwt_loop]. destruct (Nat.ltb_spec n 0); [lia|]. destruct (lift_len w x n H) as (y & -> & L). cbn [bind]. destruct (Nat.eqb_spec n 0); [reflexivity|]. apply IH. rewrite L. pose proof (halves n). lia.
  Qed.
  Lemma div2_lt n : (0 < n)%nat -> (Nat.div2 n < n)%nat.
  Proof. intros H. destruct (halves n) as (H1 & H2 & H3 & H4). destruct (Nat.even n); lia. Qed.
  Lemma dwt_loop_total (w : lift K) last : (0 < last)%nat -> forall fuel x n, (n <= length x)%nat -> (n < fuel)%nat -> exists y, dwt_loop fuel w x n last = Ok y /\ length y = length x.
  Proof.
    intros Hl. induction fuel as [|fu IH]; intros x n H Hf; [lia|]. cbn [dwt_loop]. destruct (Nat.ltb_spec n last); [exists x; auto|]. destruct (lift_len w x n H) as (y & -> & L). cbn [bind]. destruct (Nat.eqb_spec n 0); [lia|]. pose proof (div2_lt n ltac:(lia)).
    destruct (IH y (Nat.div2 n)) as (z & Ez & Lz); [lia|lia|]. exists z. split; [exact Ez|congruence].
  Qed.
  Lemma dwt_loop_inj (w : lift K) last : (0 < last)%nat -> forall fuel x x' n y, (n <= length x)%nat -> (n <= length x')%nat -> (n < fuel)%nat -> dwt_loop fuel w x n last = Ok y -> dwt_loop fuel w x' n last = Ok y -> x = x'.
  Proof.
    intros Hl. induction fuel as [|fu IH]; intros x x' n y H H' Hf; [lia|]. cbn [dwt_loop]. destruct (Nat.ltb_spec n last); [congruence|]. destruct (lift_len w x n H) as (u & E & L). destruct (lift_len w x' n H') as (u' & E' & L'). rewrite E, E'. cbn [bind]. destruct (Nat.eqb_spec n 0); [lia|]. pose proof (div2_lt n ltac:(lia)).
    intros D D'. assert (u = u') by (apply (IH u u' (Nat.div2 n) y); [lia|lia|lia|exact D|exact D']). subst u'. exact (lift_inj w x x' n u H H' E E').
  Qed.
  (** ** iwt *)
  Lemma iwt_loop_total (w : lift K) N : forall fuel x n, length x = N -> (0 < n)%nat -> (N < n + fuel)%nat -> exists y, iwt_loop fuel w x n N = Ok y /\ length y = N.
  Proof.
    induction fuel as [|fu IH]; intros x n L Hn Hf; cbn [iwt_loop]; destruct (Nat.ltb_spec N n); try (exists x; auto; fail); [lia|]. destruct (ilift_len w x n ltac:(lia)) as (y & -> & Ly). cbn [bind]. destruct (Nat.eqb_spec n 0); [lia|].
    destruct (IH y (2 * n)%nat) as (z & Ez & Lz); [congruence|lia|lia|]. exists z. auto.
  Qed.
  Lemma iwt_div (w : lift K) : forall fuel x N, iwt_loop fuel w x 0 N = Diverge.
  Proof.
    intros [|fu] x N; cbn [iwt_loop]; (destruct (Nat.ltb_spec N 0); [lia|]); [reflexivity|]. destruct (ilift_len w x 0 ltac:(lia)) as (y & -> & Ly). reflexivity.
  Qed.

  (** a null approximation *)
  Lemma lap_zeros c n0 m j : lap (K := K) c n0 (repeat 0 m) j = 0.
  Proof. apply sum_zero. intros l _. unfold sampZ. destruct (_ <? 0)%Z; [ring|]. unfold samp. rewrite nth_repeat. ring. Qed.
  Lemma one_zeros f e m : (f 0 0 : K) = 0 -> one f (repeat 0 m, repeat 0 m) e = (repeat 0 m, repeat 0 m).
  Proof.
    intros F. assert (G : mixed f e (repeat 0 m) (repeat 0 m) = repeat 0 m). { apply (list_ext 0); [apply mixed_length|]. intros j Hj. rewrite mixed_length, repeat_length in Hj. unfold mixed. rewrite (nth_map_seq (X := K)) by (rewrite repeat_length; exact Hj). rewrite lap_zeros, nth_repeat. exact F. }
    unfold one. cbn [fst snd]. rewrite G. destruct (e_predict e); reflexivity.
  Qed.
  Lemma stages_zeros f es m r : (f 0 0 : K) = 0 -> stages f es m (repeat 0 m ++ repeat 0 m ++ r) = Ok (repeat 0 m ++ repeat 0 m ++ r).
  Proof.
    intros F. destruct (stages_ok f es (repeat 0 m, repeat 0 m) r m) as (_ & _ & E); [apply repeat_length|apply repeat_length|]. cbn [fst snd] in E. rewrite E. assert (G : fold_left (one f) es (repeat 0 m, repeat 0 m) = (repeat 0 m, repeat 0 m)) by (clear E; induction es as [|e es IH]; [reflexivity|cbn [fold_left]; rewrite one_zeros by exact F; exact IH]).
    rewrite G. reflexivity.
  Qed.
  Lemma lift_zeros (w : lift K) n r : lift_step w (repeat 0 n ++ r) n = Ok (repeat 0 n ++ r).
  Proof.
    destruct (lift_step_ok w (repeat 0 n ++ r) n) as (a & b & r' & E & La & Lb & _); [rewrite app_length, repeat_length; lia|]. unfold lift_step. rewrite split_ok by (rewrite app_length, repeat_length; lia). cbn [bind].
    assert (Z : evens (repeat 0 n ++ r) n ++ odds (repeat 0 n ++ r) n = repeat 0 n).
    { rewrite evens_app, odds_app by apply repeat_length. destruct (halves n) as (H1 & _). apply (list_ext 0); [rewrite app_length, evens_length, odds_length, repeat_length; exact H1|]. intros i Hi. rewrite nth_repeat. rewrite app_length, evens_length, odds_length in Hi. destruct (Nat.ltb_spec i (Nat.div2 (n + 1))).
      - rewrite app_nth1 by (rewrite evens_length; assumption). rewrite evens_nth by assumption. apply nth_repeat.
      - rewrite app_nth2 by (rewrite evens_length; assumption). rewrite evens_length, odds_nth by lia. apply nth_repeat. }
    rewrite skipn_all_app by apply repeat_length. rewrite app_assoc, Z. destruct (halves n) as (H1 & H2 & H3 & H4). set (m := Nat.div2 n) in *.
    replace n with (m + (m + (n - 2 * m)))%nat at 1 2 by (destruct (Nat.even n); lia). rewrite !repeat_app, <- !app_assoc. apply stages_zeros. ring.
  Qed.
  Lemma ilift_zeros (w : lift K) n r : ilift_step w (repeat 0 n ++ r) n = Ok (repeat 0 n ++ r).
  Proof.
    unfold ilift_step. destruct (halves n) as (H1 & H2 & H3 & H4). set (m := Nat.div2 n) in *.
    assert (E : stages (fun x y => x - y) (rev (li_steps w)) m (repeat 0 n ++ r) = Ok (repeat 0 n ++ r)).
    { replace n with (m + (m + (n - 2 * m)))%nat by (destruct (Nat.even n); lia). rewrite !repeat_app, <- !app_assoc. apply stages_zeros. ring. }
    rewrite E. cbn [bind]. rewrite merge_ok by (rewrite app_length, repeat_length; lia). rewrite skipn_all_app by apply repeat_length. f_equal. f_equal. apply (list_ext 0); [rewrite map_length, seq_length, repeat_length; reflexivity|]. intros k Hk. rewrite map_length, seq_length in Hk. rewrite (nth_map_seq (X := K)) by exact Hk. rewrite nth_repeat.
    assert (B : forall i, (i < n)%nat -> nth i (repeat (0 : K) n ++ r) 0 = 0) by (intros i Hi; rewrite app_nth1 by (rewrite repeat_length; exact Hi); apply nth_repeat).
    unfold unscr. destruct (Nat.eqb_spec k 0); [apply B; lia|]. apply B. destruct (oddpart_spec k ltac:(lia)) as (v & q & _ & Eq). pose proof (oddpart_le k). rewrite Eq in *. replace (2 * q + 1 - 1)%nat with (2 * q)%nat by lia. rewrite div2_even. destruct (Nat.even n); lia.
  Qed.
  Lemma dwt_zeros (w : lift K) m last r : forall fuel n, (n <= m)%nat -> (n < fuel)%nat -> (0 < last)%nat -> dwt_loop fuel w (repeat 0 m ++ r) n last = Ok (repeat 0 m ++ r).
  Proof.
    induction fuel as [|fu IH]; intros n H Hf Hl; [lia|]. cbn [dwt_loop]. destruct (Nat.ltb_spec n last); [reflexivity|]. replace m with (n + (m - n))%nat at 1 by lia. rewrite repeat_app, <- app_assoc, lift_zeros. cbn [bind]. destruct (Nat.eqb_spec n 0); [lia|]. rewrite app_assoc, <- repeat_app. replace (n + (m - n))%nat with m by lia. pose proof (div2_lt n ltac:(lia)). apply IH; lia.
  Qed.
  Lemma iwt_zeros (w : lift K) q r : forall c fuel, (0 < q)%nat -> length (repeat 0 (2 ^ c * q) ++ r) = (2 * (2 ^ c * q))%nat -> (2 * (2 ^ c * q) < 2 * q + fuel)%nat -> exists fu, (1 <= fu)%nat /\
    forall m, m = (2 ^ c * q)%nat -> iwt_loop fuel w (repeat 0 m ++ r) (2 * q) (2 * m) = iwt_loop fu w (repeat 0 m ++ r) (2 * m) (2 * m).
  Proof.
    intros c fuel Hq Lr Hf. assert (G : forall i fuel, (i <= c)%nat -> (2 * (2 ^ c * q) < 2 * (2 ^ (c - i) * q) + fuel)%nat -> exists fu, (1 <= fu)%nat /\ forall m, m = (2 ^ c * q)%nat -> iwt_loop fuel w (repeat 0 m ++ r) (2 * (2 ^ (c - i) * q)) (2 * m) = iwt_loop fu w (repeat 0 m ++ r) (2 * m) (2 * m)).
    { clear fuel Hf Lr. induction i as [|i IH]; intros fuel Hi Hf.
      - exists fuel. rewrite Nat.sub_0_r in *. split; [lia|]. intros m ->. reflexivity.
      - assert (P : (2 ^ (c - i) = 2 * 2 ^ (c - S i))%nat) by (replace (c - i)%nat with (S (c - S i)) by lia; reflexivity). assert (P2 : (2 ^ (c - i) <= 2 ^ c)%nat) by (apply Nat.pow_le_mono_r; lia). pose proof (Nat.pow_nonzero 2 (c - S i) ltac:(lia)). destruct fuel as [|fuel]; [nia|].
        destruct (IH fuel ltac:(lia) ltac:(nia)) as (fu & F1 & F2). exists fu. split; [exact F1|]. intros m Hm. rewrite <- F2 by exact Hm. cbn [iwt_loop]. set (n := (2 * (2 ^ (c - S i) * q))%nat). assert (n <= m)%nat by (subst n m; nia). destruct (Nat.ltb_spec (2 * m) n); [lia|].
        replace m with (n + (m - n))%nat at 1 by lia. rewrite repeat_app, <- app_assoc, ilift_zeros. cbn [bind]. destruct (Nat.eqb_spec n 0); [subst n; nia|]. rewrite app_assoc, <- repeat_app. replace (n + (m - n))%nat with m by lia. f_equal. subst n. rewrite P. lia. }
    destruct (G c fuel (le_n c)) as (fu & F1 & F2); [rewrite Nat.sub_diag; cbn [Nat.pow]; lia|]. exists fu. split; [exact F1|]. intros m Hm. rewrite <- F2 by exact Hm. rewrite Nat.sub_diag. cbn [Nat.pow]. f_equal. lia.
  Qed.
End P.
