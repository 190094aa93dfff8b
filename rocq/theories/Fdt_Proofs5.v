From Coq Require Import List Arith ZArith Reals Lia Lra Field.
From Verif Require Import Base BaseLemmas DftSys ComplexSys Filters_Model Filters_Proofs Fourier_Model Fourier_Proofs Fourier_Proofs2 Fourier_Proofs3 Fourier_Spec
  Freq_Proofs2 Chn_Spec Chn_Proofs Fdt_Model Fdt_Spec Fdt_Proofs Fdt_Proofs2 Fdt_Proofs3 Fdt_Proofs4.
Import ListNotations.
Local Open Scope R_scope.

(** ** Configuration *)
Definition Wf (c : scfg) (w : list R) : nat -> R := unit_window (sNf c) (fun i => nth i w 0).
Definition cnt_at (c : scfg) (k : nat) : R := Rmax (sweep_count (sNf c) (sw_step c) (sw_bf c) (sw_hf c) (nsubs c) k) 1.
Definition conf_state (c : scfg) (w : list R) (M : nat -> R) (k : nat) : spst :=
  {| sp_f := tab (sNf c) (Wf c w); sp_mask := tab (sNf c) (mask_at (sNf c) (sw_bf c) (sw_hf c));
     sp_cnt := if sw c then tab (sNs c) (cnt_at c) else []; sp_mag := tab (sNs c) M; sp_k := k;
     sp_plan := {| fp_n := sNf c; fp_norm := true |} |}.
Definition valid (c : scfg) (w : list R) : Prop :=
  (0 < nsubs c)%nat /\ (0 < sNf c <= 2 ^ 29)%nat /\ length w = sNf c /\ (sw_hf c <= sNf c)%nat /\ (sw_bf c <= sNf c / 2)%nat.
Lemma rsum_total (l : list R) : Fdt_Model.rsum l = total (length l) (fun i => nth i l 0).
Proof.
  induction l as [|a l IH] using rev_ind; [reflexivity|]. rewrite app_length. cbn [length]. rewrite Nat.add_1_r. cbn [total].
  rewrite app_nth2 by lia. rewrite Nat.sub_diag. cbn [nth].
  assert (R0 : forall (l : list R) a, Fdt_Model.rsum (l ++ [a]) = Fdt_Model.rsum l + a).
  { clear. induction l as [|b l IH]; intros a; [unfold Fdt_Model.rsum; cbn; ring|]. unfold Fdt_Model.rsum in *. cbn [app fold_right]. rewrite IH. ring. }
  rewrite R0, IH. f_equal. apply total_ext. intros k Hk. rewrite app_nth1 by exact Hk. reflexivity.
Qed.
Lemma tab_const_sub n (v : R) : tab n (fun _ => v) = repeat v n.
Proof. unfold tab. induction n as [|n IH] using nat_ind; [reflexivity|]. rewrite seq_S, map_app, IH. cbn [map]. symmetry. apply repeat_cons. Qed.
Lemma total_loop_seg c (v : nat -> nat -> R) (M : nat -> R) n q : (forall i, (i < q)%nat -> (i * sw_step c + sNf c <= n)%nat) ->
  forall body, (forall i M', (i < q)%nat -> body i (tab n M') = seg_add (tab n M') (i * sw_step c) (tab (sNf c) (v i))) ->
  loop q body (tab n M) = Ok (tab n (fun k => M k + total q (fun i => if covers (sNf c) (sw_step c) i k then v i (k - i * sw_step c)%nat else 0))).
Proof.
  intros H body HB. induction q as [|q IH]; [cbn [loop total]; f_equal; apply tab_ext; intros; ring|].
  rewrite loop_S, IH by (intros; first [apply H; lia|apply HB; lia]). cbn [bind]. rewrite HB by lia. rewrite seg_add_tab by (apply H; lia).
  f_equal. apply tab_ext. intros k Hk. cbn [total]. unfold covers. ring.
Qed.
Lemma sp_conf_ok c w : valid c w -> sp_conf c w = Ok (conf_state c w (fun _ => 0) 0).
Proof.
  intros (Hs & HN & Lw & Hh & Hb). unfold sp_conf. destruct (Nat.eqb_spec (nsubs c) 0); [lia|]. cbv zeta.
  set (N := sNf c) in *.
  assert (N2 : (2 * (N / 2) <= N)%nat) by (pose proof (Nat.div_mod N 2 ltac:(lia)); lia).
  assert (E1 : (if (0 <? sw_hf c)%nat then let* a := hd_set (repeat 1 N) (sw_hf c) (repeat 0 (sw_hf c)) in tl_set a (sw_hf c) (repeat 0 (sw_hf c)) else Ok (repeat 1 N)) =
    Ok (tab N (fun k => if (sw_hf c <=? k)%nat && (k <? N - sw_hf c)%nat then 1 else 0))).
  { destruct (Nat.ltb_spec 0 (sw_hf c)) as [A|A].
    - unfold hd_set. rewrite tab_one, <- (tab_const_sub (sw_hf c) 0). rewrite set_seg_tab by lia. cbn [bind].
      unfold tl_set. rewrite !tab_length. destruct (Nat.ltb_spec N (sw_hf c)); [lia|]. rewrite set_seg_tab by lia. f_equal. apply tab_ext. intros k Hk. cbn [Nat.leb andb Nat.add].
      destruct (Nat.leb_spec (N - sw_hf c) k); destruct (Nat.ltb_spec k (N - sw_hf c + sw_hf c)); destruct (Nat.ltb_spec k (sw_hf c)); destruct (Nat.leb_spec (sw_hf c) k); destruct (Nat.ltb_spec k (N - sw_hf c)); cbn [andb]; try reflexivity; lia.
    - replace (sw_hf c) with 0%nat by lia. rewrite tab_one. f_equal. apply tab_ext. intros k Hk. destruct (Nat.ltb_spec k (N - 0)); [reflexivity|lia]. }
  rewrite E1. cbn [bind]. clear E1.
  assert (E2 : (if (0 <? sw_bf c)%nat then if (N / 2 <? sw_bf c)%nat then UB else set_seg (tab N (fun k => if (sw_hf c <=? k)%nat && (k <? N - sw_hf c)%nat then 1 else 0)) (N / 2 - sw_bf c) (repeat 0 (2 * sw_bf c))
      else Ok (tab N (fun k => if (sw_hf c <=? k)%nat && (k <? N - sw_hf c)%nat then 1 else 0))) = Ok (tab N (mask_at N (sw_bf c) (sw_hf c)))).
  { destruct (Nat.ltb_spec 0 (sw_bf c)) as [A|A].
    - destruct (Nat.ltb_spec (N / 2) (sw_bf c)); [lia|]. rewrite <- (tab_const_sub (2 * sw_bf c) 0). rewrite set_seg_tab by lia. f_equal. apply tab_ext. intros k Hk. unfold mask_at.
      replace (N / 2 - sw_bf c + 2 * sw_bf c)%nat with (N / 2 + sw_bf c)%nat by lia. destruct ((N / 2 - sw_bf c <=? k)%nat && (k <? N / 2 + sw_bf c)%nat); cbn [andb negb]; rewrite ?andb_true_r, ?andb_false_r; reflexivity.
    - f_equal. apply tab_ext. intros k Hk. unfold mask_at. destruct (Nat.leb_spec (N / 2 - sw_bf c) k); destruct (Nat.ltb_spec k (N / 2 + sw_bf c)); cbn [andb negb]; rewrite ?andb_true_r; try reflexivity. lia. }
  rewrite E2. cbn [bind]. clear E2.
  assert (E3 : (if sw c then let* k := loop (nsubs c) (fun i k => seg_add k (i * sw_step c) (tab N (mask_at N (sw_bf c) (sw_hf c)))) (repeat 0 (sNs c)) in Ok (map (fun v => Rmax v 1) k) else Ok []) =
    Ok (if sw c then tab (sNs c) (cnt_at c) else [])).
  { destruct (sw c) eqn:Sw; [|reflexivity]. rewrite tab_zero. rewrite (total_loop_seg c (fun _ => mask_at N (sw_bf c) (sw_hf c)) (fun _ => 0) (sNs c) (nsubs c)).
    - cbn [bind]. rewrite tab_map. f_equal. apply tab_ext. intros k Hk. unfold cnt_at, sweep_count. fold N. rewrite Rplus_0_l. reflexivity.
    - intros i Hi. unfold sNs. rewrite Sw. fold N. nia.
    - intros; reflexivity. }
  rewrite E3. cbn [bind]. clear E3. unfold conf_state. fold N. rewrite tab_zero. f_equal. f_equal.
  - rewrite (tab_list (map _ w)), map_length, Lw. apply tab_ext. intros i Hi. rewrite (map_nth0 _ w i 0) by lia. unfold Wf, unit_window. fold N. f_equal. f_equal. f_equal.
    rewrite rsum_total, map_length, Lw. apply total_ext. intros j Hj. rewrite (map_nth0 _ w j 0) by lia. ring.
Qed.

(** ** One block *)
Definition block_power (c : scfg) (f : nat -> R) (x : list C) (k : nat) : R :=
  if sw c && (1 <? nsubs c)%nat then sweep_power (sNf c) (sw_step c) (sw_bf c) (sw_hf c) (nsubs c) f x k
  else total (nsubs c) (fun i => sub_power (sNf c) f x i k).
Definition final (c : scfg) (M : nat -> R) (k : nat) : R :=
  dB (M k / INR (nmeans c * nsubs c * sNf c) / (if sw c then cnt_at c k else 1) + flt_min).
Lemma sub_ok c w M q junk x i : valid c w -> (i < nsubs c)%nat -> length x = BS c ->
  (let* xi := seg x (i * sNf c) (sNf c) in sp_sub (conf_state c w M q) junk xi) = Ok (tab (sNf c) (sub_power (sNf c) (Wf c w) x i)).
Proof.
  intros (Hs & HN & Lw & Hh & Hb) Hi Lx. assert (HB : (sNf c * nsubs c <= BS c)%nat) by (unfold sNf; rewrite Nat.mul_comm; apply Nat.mul_div_le; lia).
  assert (Hi2 : (i * sNf c + sNf c <= length x)%nat) by nia.
  unfold seg. apply Nat.leb_le in Hi2. rewrite Hi2. apply Nat.leb_le in Hi2. cbn [bind].
  pose proof (sp_sub_ok (conf_state c w M q) junk (firstn (sNf c) (skipn (i * sNf c) x))) as K. cbv zeta in K.
  cbn [conf_state sp_f sp_plan fp_norm] in K. rewrite tab_length in K. rewrite K; [|reflexivity|rewrite firstn_length, skipn_length; lia|exact HN].
  f_equal. apply tab_ext. intros k Hk. unfold sub_power. apply periodogram_ext. intros j Hj. unfold windowed. rewrite tab_nth by exact Hj.
  assert (ES : smp (firstn (sNf c) (skipn (i * sNf c) x)) j = smp x (i * sNf c + j)) by (unfold smp; rewrite nth_firstn' by exact Hj; apply nth_skipn').
  rewrite ES. reflexivity.
Qed.
Lemma sp_step_ok c w M q junk x : valid c w -> length x = BS c ->
  sp_step c junk (conf_state c w M q) x =
  if (S q =? nmeans c)%nat then Ok (conf_state c w (fun _ => 0) 0, tab (sNs c) (final c (fun k => M k + block_power c (Wf c w) x k)))
  else Ok (conf_state c w (fun k => M k + block_power c (Wf c w) x k) (S q), []).
Proof.
  intros V Lx. assert (V' := V). destruct V' as (Hs & HN & Lw & Hh & Hb). unfold sp_step. rewrite Lx, Nat.eqb_refl. cbn [negb]. cbv zeta.
  set (E := block_power c (Wf c w) x).
  match goal with |- bind ?o _ = _ => assert (EO : o = Ok (tab (sNs c) (fun k => M k + E k))) end.
  { destruct (Nat.ltb_spec 1 (nsubs c)) as [A|A].
    - destruct (sw c) eqn:Sw.
      + change (sp_mag (conf_state c w M q)) with (tab (sNs c) M).
        rewrite (total_loop_seg c (fun i k => sub_power (sNf c) (Wf c w) x i k * mask_at (sNf c) (sw_bf c) (sw_hf c) k)).
        * f_equal. apply tab_ext. intros k Hk. f_equal. unfold E, block_power. rewrite Sw. destruct (Nat.ltb_spec 1 (nsubs c)); [|lia]. cbn [andb]. unfold sweep_power. apply total_ext. intros i Hi. destruct (covers _ _ i k); ring.
        * intros i Hi. unfold sNs. rewrite Sw. nia.
        * intros i M' Hi. pose proof (sub_ok c w M q junk x i V Hi Lx) as K. destruct (seg x (i * sNf c) (sNf c)) as [xi| | |]; try discriminate K. cbn [bind] in K |- *. rewrite K. cbn [bind].
          change (sp_mask (conf_state c w M q)) with (tab (sNf c) (mask_at (sNf c) (sw_bf c) (sw_hf c))). rewrite tab_combine. reflexivity.
      + change (sp_mag (conf_state c w M q)) with (tab (sNs c) M). assert (Ens : sNs c = sNf c) by (unfold sNs; rewrite Sw; reflexivity). rewrite Ens.
        assert (G : forall p, (p <= nsubs c)%nat -> loop p (fun i mag => let* xi := seg x (i * sNf c) (sNf c) in let* y := sp_sub (conf_state c w M q) junk xi in Ok (radd mag y)) (tab (sNf c) M) = Ok (tab (sNf c) (fun k => M k + total p (fun i => sub_power (sNf c) (Wf c w) x i k)))).
        { induction p as [|p IH]; intros Hp; [cbn [loop total]; f_equal; apply tab_ext; intros; ring|]. rewrite loop_S, IH by lia. cbn [bind].
          pose proof (sub_ok c w M q junk x p V ltac:(lia) Lx) as K. destruct (seg x (p * sNf c) (sNf c)) as [xi| | |]; try discriminate K. cbn [bind] in K |- *. rewrite K. cbn [bind]. rewrite tab_radd. f_equal. apply tab_ext. intros k Hk. cbn [total]. ring. }
        rewrite G by lia. f_equal. apply tab_ext. intros k Hk. unfold E, block_power. rewrite Sw. reflexivity.
    - assert (E1 : nsubs c = 1%nat) by lia.
      assert (EN : sNf c = BS c) by (unfold sNf; rewrite E1; apply Nat.div_1_r).
      assert (Ens : sNs c = sNf c) by (unfold sNs; rewrite E1; destruct (sw c); lia). 
      pose proof (sub_ok c w M q junk x 0 V ltac:(lia) Lx) as K. unfold seg in K. cbn [Nat.mul Nat.add skipn] in K.
      assert (LE : (sNf c <=? length x)%nat = true) by (apply Nat.leb_le; lia). rewrite LE in K. cbn [bind] in K. rewrite firstn_all2 in K by lia. rewrite K. cbn [bind].
      change (sp_mag (conf_state c w M q)) with (tab (sNs c) M). rewrite Ens, tab_radd. f_equal. apply tab_ext. intros k Hk. f_equal. unfold E, block_power. rewrite E1. destruct (sw c); cbn [andb Nat.ltb Nat.leb total]; ring. }
  rewrite EO. cbn [bind]. clear EO. change (sp_k (conf_state c w M q)) with q.
  destruct (Nat.eqb_spec (S q) (nmeans c)) as [H|H]; [|reflexivity].
  assert (ES : {| sp_f := sp_f (conf_state c w M q); sp_mask := sp_mask (conf_state c w M q); sp_cnt := sp_cnt (conf_state c w M q); sp_mag := repeat 0 (sNs c); sp_k := 0; sp_plan := sp_plan (conf_state c w M q) |} = conf_state c w (fun _ => 0) 0).
  { unfold conf_state. cbn. rewrite tab_zero. reflexivity. }
  rewrite ES. clear ES. f_equal. f_equal. unfold conf_state. cbn [sp_cnt]. rewrite tab_map. unfold final. destruct (sw c).
  - rewrite tab_combine, tab_map. reflexivity.
  - rewrite tab_map. apply tab_ext. intros k Hk. unfold pow2db, dB. assert (D1 : forall v : R, v / 1 = v) by (intros v; field). rewrite D1. reflexivity.
Qed.

(** ** A stream of blocks *)
Definition spectrum (c : scfg) (f : nat -> R) (g : list (list C)) : list R :=
  tab (sNs c) (final c (fun k => total (length g) (fun b => block_power c f (nth b g []) k))).
Lemma groups_small {A} nm (l : list A) : (length l < nm)%nat -> groups nm l = [].
Proof. intros H. unfold groups. rewrite Nat.div_small by exact H. reflexivity. Qed.
Lemma groups_cons {A} nm (g l : list A) : (0 < nm)%nat -> length g = nm -> groups nm (g ++ l) = g :: groups nm l.
Proof.
  intros Hn Lg. unfold groups. rewrite app_length, Lg. replace (nm + length l)%nat with (length l + 1 * nm)%nat by lia. rewrite Nat.div_add by lia.
  rewrite Nat.add_1_r. cbn [seq map]. f_equal.
  - cbn [Nat.mul skipn]. rewrite firstn_app, Lg, Nat.sub_diag, firstn_all2 by lia. cbn [firstn]. apply app_nil_r.
  - rewrite <- seq_shift, map_map. apply map_ext. intros q. f_equal. rewrite skipn_app. replace (S q * nm)%nat with (nm + q * nm)%nat by lia. rewrite Lg.
    rewrite (skipn_all2 g) by lia. cbn [app]. f_equal. lia.
Qed.
Lemma sp_run_ok c w junk : valid c w -> (0 < nmeans c)%nat -> forall blocks pd, Forall (fun x => length x = BS c) blocks -> (length pd < nmeans c)%nat ->
  exists s, run (sp_step c junk) (conf_state c w (fun k => total (length pd) (fun b => block_power c (Wf c w) (nth b pd []) k)) (length pd)) blocks =
    Ok (s, concat (map (spectrum c (Wf c w)) (groups (nmeans c) (pd ++ blocks)))).
Proof.
  intros V Hnm. induction blocks as [|x bs IH]; intros pd HF Hpd.
  - rewrite app_nil_r, groups_small by exact Hpd. eexists. reflexivity.
  - inversion_clear HF as [|? ? Lx HF']. cbn [run]. rewrite sp_step_ok by assumption.
    assert (ET : forall k, total (length pd) (fun b => block_power c (Wf c w) (nth b pd []) k) + block_power c (Wf c w) x k = total (length (pd ++ [x])) (fun b => block_power c (Wf c w) (nth b (pd ++ [x]) []) k)).
    { intros k. rewrite app_length. cbn [length]. rewrite Nat.add_1_r. cbn [total]. rewrite app_nth2, Nat.sub_diag by lia. cbn [nth]. f_equal. apply total_ext. intros b Hb. rewrite app_nth1 by exact Hb. reflexivity. }
    assert (L1 : length (pd ++ [x]) = S (length pd)) by (rewrite app_length; cbn; lia).
    replace (pd ++ x :: bs) with ((pd ++ [x]) ++ bs) by (rewrite <- app_assoc; reflexivity).
    destruct (Nat.eqb_spec (S (length pd)) (nmeans c)) as [H|H]; cbn [bind].
    + destruct (IH [] HF' Hnm) as [s E]. cbn [length total] in E. cbn [app] in E.
      rewrite E. cbn [bind]. eexists. f_equal. f_equal. rewrite groups_cons by lia. cbn [map concat]. f_equal.
      unfold spectrum. apply tab_ext. intros k Hk. unfold final. rewrite <- ET. reflexivity.
    + destruct (IH (pd ++ [x]) HF' ltac:(lia)) as [s E]. rewrite L1 in E.
      assert (EC : conf_state c w (fun k => total (length pd) (fun b => block_power c (Wf c w) (nth b pd []) k) + block_power c (Wf c w) x k) (S (length pd)) =
        conf_state c w (fun k => total (S (length pd)) (fun b => block_power c (Wf c w) (nth b (pd ++ [x]) []) k)) (S (length pd))).
      { unfold conf_state. f_equal. apply tab_ext. intros k Hk. rewrite ET, L1. reflexivity. }
      rewrite EC, E. cbn [bind app]. eexists. reflexivity.
Qed.
