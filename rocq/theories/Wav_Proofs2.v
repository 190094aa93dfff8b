From Coq Require Import Reals Lra.
From Flocq Require Import Core IEEE754.BinarySingleNaN IEEE754.Binary IEEE754.Bits.
From Verif Require Import Base BaseLemmas Dbl Wav_Model Wav_Spec Wav_Proofs.
Open Scope Z_scope.

Definition op_ints (o : wop) : list Z :=
  match o with WInt l => l | _ => map (fun x => Ztrunc (v32 x)) (op_floats o) end.
Definition octets (f : wfmt) : Z := match f with PCM_FLOAT => 4 | PCM_16 => 2 end.
(** frame counter after a session *)
Definition pos_of (c : Z) (os : list wop) : Z :=
  (fold_right (fun o a => Z.quot (Z.of_nat (op_len o)) c + a) 0 os) mod 2 ^ 32.
(** the bytes of one call *)
Definition op_bytes (f : wfmt) (o : wop) : list Z :=
  match f with PCM_FLOAT => flat_map enc32 (op_floats o) | PCM_16 => flat_map enc16 (op_ints o) end.
Definition op_ok (f : wfmt) (o : wop) : Prop :=
  match f, o with
  | PCM_FLOAT, _ => True
  | PCM_16, WInt l => Forall is16 l
  | PCM_16, _ => Forall fits16 (op_floats o)
  end.

Lemma inter_len {A} (l : list (A * A)) : length (flat_map (fun p => [fst p; snd p]) l) = (2 * length l)%nat.
Proof. induction l; cbn [flat_map length app]; [reflexivity|]. rewrite IHl. lia. Qed.
Lemma op_floats_len o : length (op_floats o) = op_len o.
Proof. destruct o; cbn [op_floats op_len]; [apply map_length|reflexivity|apply inter_len]. Qed.
Lemma op_ints_len o : length (op_ints o) = op_len o.
Proof. rewrite <- op_floats_len. destruct o; cbn [op_ints]; rewrite ?map_length; try reflexivity. cbn [op_floats]. now rewrite map_length. Qed.

Lemma ecris_ok e o : e_open e = true -> e_off e = length (e_file e) -> ncanaux (e_cfg e) <> 0 -> op_ok (format (e_cfg e)) o ->
  ecris e o = Ok (mkecr (e_cfg e) (e_file e ++ op_bytes (format (e_cfg e)) o) (length (e_file e ++ op_bytes (format (e_cfg e)) o))
    ((e_pos e + Z.quot (Z.of_nat (op_len o)) (ncanaux (e_cfg e))) mod 2 ^ 32) true).
Proof.
  intros Ho Hf Hc Hok. unfold ecris, ecris_c, ecris_16, ecris_f. rewrite Ho.
  assert (Hp : forall b n, e_put e b n = Ok (mkecr (e_cfg e) (e_file e ++ b) (length (e_file e ++ b)) ((e_pos e + Z.quot n (ncanaux (e_cfg e))) mod 2 ^ 32) true)).
  { intros b n. unfold e_put. rewrite (proj2 (Z.eqb_neq _ _) Hc), Hf, fwrite_end, Ho, app_length. reflexivity. }
  destruct (format (e_cfg e)) eqn:F; destruct o as [l|l|l]; cbn [op_ok] in Hok.
  - unfold e_raw16. rewrite Hp. reflexivity.
  - cbn [op_floats] in Hok. rewrite (mapr_int16 l Hok). cbn [bind]. unfold e_raw16. rewrite Hp, map_length. reflexivity.
  - cbn [op_floats] in Hok. unfold interleave. rewrite (mapr_int16 _ Hok). cbn [bind]. unfold e_raw16. rewrite Hp, map_length. rewrite inter_len. reflexivity.
  - unfold e_rawf. rewrite Hp, map_length. reflexivity.
  - unfold e_rawf. rewrite Hp. reflexivity.
  - unfold e_rawf, interleave. rewrite Hp, inter_len. reflexivity.
Qed.

Lemma ecris_all_ok cfg os : ncanaux cfg <> 0 -> Forall (op_ok (format cfg)) os -> forall f p,
  ecris_all (mkecr cfg f (length f) (p mod 2 ^ 32) true) os =
  Ok (mkecr cfg (f ++ flat_map (op_bytes (format cfg)) os) (length (f ++ flat_map (op_bytes (format cfg)) os))
     ((p + fold_right (fun o a => Z.quot (Z.of_nat (op_len o)) (ncanaux cfg) + a) 0 os) mod 2 ^ 32) true).
Proof.
  intros Hc H. induction H as [|o os Ho _ IH]; intros f p.
  - cbn [ecris_all flat_map fold_right]. now rewrite app_nil_r, Z.add_0_r.
  - cbn [ecris_all]. rewrite ecris_ok by (auto; reflexivity). cbn [bind e_cfg e_file e_pos].
    rewrite Zplus_mod_idemp_l. rewrite IH. cbn [flat_map fold_right]. rewrite <- !app_assoc, Z.add_assoc. reflexivity.
Qed.

Lemma header_length junk cfg freq bps pos : length (header junk cfg freq bps pos) = 44%nat.
Proof. unfold header. rewrite !app_length, !le_length. reflexivity. Qed.

Lemma session_ok junk cfg os : ncanaux cfg <> 0 -> rate_ok (freq_ech cfg) -> Forall (op_ok (format cfg)) os ->
  exists bps, 0 <= bps < 2 ^ 32 /\
  wav_session junk cfg os = Ok (header junk cfg (Ztrunc (v64 (freq_ech cfg))) bps (pos_of (ncanaux cfg) os)
     ++ flat_map (op_bytes (format cfg)) os).
Proof.
  intros Hc Hr Ho. destruct (bps_ok (freq_ech cfg) (octets (format cfg)) Hr) as (b & Eb & Hb).
  { destruct (format cfg); cbn; auto. }
  exists b. split; [exact Hb|]. unfold wav_session, e_init.
  change (fwrite [] 0 (repeat 0 44)) with (repeat 0 44). change 44%nat with (length (repeat 0 44)) at 2.
  change 0 with (0 mod 2 ^ 32) at 3. rewrite (ecris_all_ok cfg os Hc Ho (repeat 0 44) 0). cbn [bind].
  unfold e_ferme. cbn [e_open e_cfg e_file e_pos]. rewrite Z.add_0_l.
  rewrite (uint32_ok _ 1000000000 (proj1 Hr) (proj2 Hr)) by reflexivity. cbn [bind].
  fold (octets (format cfg)). rewrite Eb. cbn [bind e_file]. rewrite fwrite_start by (now rewrite header_length). reflexivity.
Qed.

(** ** Opening *)
Lemma charge_ok fuel junk cfg freq bps pos d : 1 <= ncanaux cfg <= 65535 -> 0 <= freq < 2 ^ 32 -> 0 <= bps < 2 ^ 32 ->
  charge fuel (header junk cfg freq bps pos ++ d) =
  Ok (mklec (header junk cfg freq bps pos ++ d) 44 0
     (s32 ((8 * ((pos * octets (format cfg) * ncanaux cfg) mod 2 ^ 32)) mod 2 ^ 32 / (octets (format cfg) * 8 * ncanaux cfg)))
     (match format cfg with PCM_FLOAT => 3 | PCM_16 => 1 end) (ncanaux cfg) freq (octets (format cfg) * 8)).
Proof.
  intros Hc Hf Hb. unfold charge.
  assert (Hl : (length (header junk cfg freq bps pos ++ d) <? 44)%nat = false).
  { apply Nat.ltb_ge. rewrite app_length, header_length. lia. }
  rewrite Hl. set (f := header junk cfg freq bps pos ++ d).
  assert (E0 : sub 0 4 f = [82; 73; 70; 70]) by reflexivity.
  assert (E1 : sub 36 4 f = [100; 97; 116; 97]) by reflexivity.
  assert (E2 : sub 40 4 f = le 4 ((pos * octets (format cfg) * ncanaux cfg) mod 2 ^ 32)) by reflexivity.
  assert (E3 : sub 22 2 f = le 2 (ncanaux cfg mod 65536)) by reflexivity.
  assert (E4 : sub 34 2 f = le 2 (octets (format cfg) * 8)) by reflexivity.
  assert (E5 : sub 20 2 f = le 2 (match format cfg with PCM_FLOAT => 3 | PCM_16 => 1 end)) by reflexivity.
  assert (E6 : sub 24 4 f = le 4 freq) by reflexivity.
  rewrite E0, E1, E2, E3, E4, E5, E6.
  rewrite !unle2. 2,3,4: (try (apply Z.mod_pos_bound; lia); destruct (format cfg); cbn; lia).
  rewrite !unle4; [|exact Hf|apply Z.mod_pos_bound; lia].
  rewrite (Z.mod_small (ncanaux cfg)) by lia.
  change (unle [82; 73; 70; 70] =? 1179011410) with true. cbn [negb].
  change (unle [100; 97; 116; 97]) with 1635017060.
  assert (Ec : forall fu sz, cherche_data fu f 44 1635017060 sz = Ok (44%nat, sz)) by (intros [|fu] sz; reflexivity).
  rewrite Ec. cbn [bind].
  rewrite (proj2 (Z.ltb_ge 2147483647 _)) by (destruct (format cfg); cbn; lia).
  rewrite (proj2 (Z.eqb_neq _ 0)) by (destruct (format cfg); cbn; lia).
  reflexivity.
Qed.

(** ** Frame counts *)
Lemma pos_whole c os : 1 <= c -> whole_frames c os -> Z.of_nat (total os) < 2 ^ 32 -> pos_of c os * c = Z.of_nat (total os).
Proof.
  intros Hc H Ht. unfold pos_of.
  assert (E : fold_right (fun o a => Z.quot (Z.of_nat (op_len o)) c + a) 0 os * c = Z.of_nat (total os)).
  { clear Ht. unfold total. induction H as [|o os Ho _ IH]; [reflexivity|]. cbn [fold_right map list_sum].
    change (fold_right Nat.add 0%nat (map op_len os)) with (list_sum (map op_len os)).
    rewrite Z.mul_add_distr_r, IH. rewrite Z.quot_div_nonneg by lia. destruct Ho as [k Hk]. rewrite Hk, Z.div_mul by lia.
    rewrite Nat2Z.inj_add, Hk. reflexivity. }
  rewrite Z.mod_small; [exact E|]. split; [apply Z.mul_nonneg_cancel_r with c; lia|].
  assert (fold_right (fun o a => Z.quot (Z.of_nat (op_len o)) c + a) 0 os * 1 <= Z.of_nat (total os)); [|lia].
  rewrite <- E. apply Z.mul_le_mono_nonneg_l; [|lia]. apply Z.mul_nonneg_cancel_r with c; lia.
Qed.
Lemma nech_ok c o T p : 1 <= c -> (o = 2 \/ o = 4) -> p * c = T -> 0 <= T -> T * o < 2 ^ 29 ->
  s32 ((8 * ((p * o * c) mod 2 ^ 32)) mod 2 ^ 32 / (o * 8 * c)) = T / c.
Proof.
  intros Hc Ho Hp HT Hb. replace (p * o * c) with (T * o) by (subst T; ring).
  change (2 ^ 32) with 4294967296. change (2 ^ 29) with 536870912 in Hb.
  rewrite (Z.mod_small (T * o)) by lia. rewrite Z.mod_small by lia.
  replace (8 * (T * o)) with (T * (o * 8)) by ring. replace (o * 8 * c) with (c * (o * 8)) by ring.
  rewrite Z.div_mul_cancel_r by lia. unfold s32. rewrite (proj2 (Z.ltb_lt _ _)); [reflexivity|].
  subst T. rewrite Z.div_mul by lia. nia.
Qed.
Lemma fm_floats os : flat_map (op_bytes PCM_FLOAT) os = flat_map enc32 (flat_map op_floats os).
Proof. induction os; cbn [flat_map]; [reflexivity|]. now rewrite flat_map_app, IHos. Qed.
Lemma fm_ints os : flat_map (op_bytes PCM_16) os = flat_map enc16 (flat_map op_ints os).
Proof. induction os; cbn [flat_map]; [reflexivity|]. now rewrite flat_map_app, IHos. Qed.
Lemma total_floats os : length (flat_map op_floats os) = total os.
Proof. unfold total. induction os; cbn [flat_map map list_sum fold_right]; [reflexivity|]. rewrite app_length, IHos, op_floats_len. reflexivity. Qed.
Lemma total_ints os : length (flat_map op_ints os) = total os.
Proof. unfold total. induction os; cbn [flat_map map list_sum fold_right]; [reflexivity|]. rewrite app_length, IHos, op_ints_len. reflexivity. Qed.

Lemma freq_conv f : rate_ok f -> 0 <= Ztrunc (v64 f) <= 1000000000.
Proof. intros [_ H]. apply trunc_pos_bound, H. Qed.
Lemma config_rate f : rate_ok f -> v64 (b64_of_Z (Ztrunc (v64 f))) = IZR (Ztrunc (v64 f)).
Proof. intros H. apply b64_of_Z_ok. pose proof (freq_conv f H). rewrite Z.abs_eq by lia. apply Z.le_lt_trans with 1000000000; [lia|reflexivity]. Qed.

(** ** Whole round trip *)
Section RT.
  Variables (junk : Z) (cfg : wavcfg) (os : list wop).
  Hypothesis Hc : 1 <= ncanaux cfg <= 65535.
  Hypothesis Hr : rate_ok (freq_ech cfg).
  Hypothesis Hw : whole_frames (ncanaux cfg) os.
  Lemma open_ok : Forall (op_ok (format cfg)) os -> Z.of_nat (total os) * octets (format cfg) < 2 ^ 29 ->
    exists f s h, wav_session junk cfg os = Ok f /\ charge 0 f = Ok s /\ fst (lis_config s) = ncanaux cfg
      /\ v64 (snd (lis_config s)) = IZR (Ztrunc (v64 (freq_ech cfg)))
      /\ lis_nechantillons s = Z.of_nat (total os) / ncanaux cfg
      /\ length h = 44%nat /\ at_ (h ++ flat_map (op_bytes (format cfg)) os) 44 s /\ f = h ++ flat_map (op_bytes (format cfg)) os
      /\ l_fmt s = (match format cfg with PCM_FLOAT => 3 | PCM_16 => 1 end)
      /\ l_freq s = Ztrunc (v64 (freq_ech cfg)).
  Proof.
    intros Ho Ht. destruct (session_ok junk cfg os) as (b & Hb & E); [lia|exact Hr|exact Ho|].
    rewrite E. do 3 eexists. split; [reflexivity|].
    pose proof (freq_conv _ Hr). rewrite charge_ok; [|exact Hc|cbn; lia|exact Hb].
    split; [reflexivity|]. unfold lis_config, lis_nechantillons. cbn [fst snd l_can l_freq l_nech l_fmt].
    split; [reflexivity|]. split; [apply config_rate, Hr|]. split.
    { apply nech_ok; [lia|destruct (format cfg); cbn; auto| |lia|exact Ht]. apply pos_whole; [lia|exact Hw|].
      apply Z.le_lt_trans with (Z.of_nat (total os) * octets (format cfg)); [destruct (format cfg); cbn; lia|].
      eapply Z.lt_trans; [exact Ht|reflexivity]. }
    split; [apply header_length|]. split; [split; reflexivity|]. auto.
  Qed.
End RT.

Lemma roundtrip_float junk cfg os : format cfg = PCM_FLOAT -> 1 <= ncanaux cfg <= 65535 -> rate_ok (freq_ech cfg) ->
  whole_frames (ncanaux cfg) os -> 4 * Z.of_nat (total os) < 2 ^ 29 ->
  exists f s, wav_session junk cfg os = Ok f /\ charge 0 f = Ok s
    /\ fst (lis_config s) = ncanaux cfg /\ v64 (snd (lis_config s)) = IZR (Ztrunc (v64 (freq_ech cfg)))
    /\ lis_nechantillons s = Z.of_nat (total os) / ncanaux cfg
    /\ forall ns, list_sum ns = total os -> exists s', lis_all s ns = Ok (s', flat_map op_floats os).
Proof.
  intros F Hc Hr Hw Ht. destruct (open_ok junk cfg os Hc Hr Hw) as (f & s & h & E1 & E2 & E3 & E4 & E5 & E6 & E7 & E8 & E9 & E10).
  { rewrite F. apply Forall_forall. intros; exact I. } { rewrite F. cbn [octets]. lia. }
  exists f, s. do 5 (split; [assumption|]). intros ns Hn.
  apply (lis_all_f32 ns h [] (flat_map op_floats os) [] s).
  - rewrite E9, F. discriminate.
  - now rewrite total_floats.
  - rewrite F, fm_floats in E7. cbn [app length]. rewrite app_nil_r, E6. exact E7.
Qed.
Lemma roundtrip_16 junk cfg os : format cfg = PCM_16 -> 1 <= ncanaux cfg <= 65535 -> rate_ok (freq_ech cfg) ->
  whole_frames (ncanaux cfg) os -> 2 * Z.of_nat (total os) < 2 ^ 29 -> Forall (op_ok PCM_16) os ->
  exists f s, wav_session junk cfg os = Ok f /\ charge 0 f = Ok s
    /\ fst (lis_config s) = ncanaux cfg /\ v64 (snd (lis_config s)) = IZR (Ztrunc (v64 (freq_ech cfg)))
    /\ lis_nechantillons s = Z.of_nat (total os) / ncanaux cfg
    /\ (exists s', lis_donnees s (total os) = (s', flat_map op_ints os))
    /\ forall ns, list_sum ns = total os -> exists s', lis_all s ns = Ok (s', map b32_of_Z (flat_map op_ints os)).
Proof.
  intros F Hc Hr Hw Ht Ho. destruct (open_ok junk cfg os Hc Hr Hw) as (f & s & h & E1 & E2 & E3 & E4 & E5 & E6 & E7 & E8 & E9 & E10).
  { rewrite F. exact Ho. } { rewrite F. cbn [octets]. lia. }
  exists f, s. do 5 (split; [assumption|]).
  assert (Hb : Forall is16 (flat_map op_ints os)).
  { clear - Ho. induction Ho as [|o os Ho _ IH]; cbn [flat_map]; [constructor|]. apply Forall_app. split; [|exact IH].
    destruct o; cbn [op_ok op_ints] in *; [exact Ho| |]; apply Forall_map; eapply Forall_impl; try exact Ho; intros x Hx; apply Hx. }
  assert (A : at_ (h ++ flat_map enc16 ([] ++ flat_map op_ints os ++ [])) (length h + 2 * length (@nil Z)) s).
  { rewrite F, fm_ints in E7. cbn [app length]. rewrite app_nil_r, E6. exact E7. }
  split. { rewrite <- total_ints. eexists. apply (lis_d16 h [] _ [] s Hb A). }
  intros ns Hn. apply (lis_all_f16 ns h [] _ [] s); [now rewrite E9, F|exact Hb|now rewrite total_ints|exact A].
Qed.

(** ** Chunks *)
Lemma le_S k v : le (S k) v = (v mod 256) :: le k (v / 256). Proof. reflexivity. Qed.
Lemma sub_app_l o n a b : length a = o -> sub o n (a ++ b) = firstn n b.
Proof. intros <-. unfold sub. now rewrite skipn_app, skipn_all, Nat.sub_diag. Qed.
Lemma firstn_len_app {A} (a b : list A) n : length a = n -> firstn n (a ++ b) = a.
Proof. intros <-. rewrite firstn_app, Nat.sub_diag, firstn_all. cbn. apply app_nil_r. Qed.
Lemma skipn_skipn' {A} n m (l : list A) : skipn n (skipn m l) = skipn (m + n) l.
Proof. revert l; induction m; intros l; [reflexivity|]. destruct l; [now rewrite !skipn_nil|]. cbn. apply IHm. Qed.
Lemma odd_nat n : Z.odd (Z.of_nat n) = Nat.odd n.
Proof. induction n; [reflexivity|]. rewrite Nat2Z.inj_succ, Z.odd_succ, <- Z.negb_odd, IHn, Nat.odd_succ, <- Nat.negb_odd. reflexivity. Qed.
Lemma cherche_skip fuel pre id body rest id' sz' tail_ : 
  0 <= id < 2 ^ 32 -> id <> data_id -> Z.of_nat (length body) < 2 ^ 31 - 1 -> 
  length id' = 4%nat -> length sz' = 4%nat ->
  rest = id' ++ sz' ++ tail_ ->
  cherche_data (S fuel) (pre ++ chunk id body ++ rest) (length pre + 8) id (Z.of_nat (length body))
  = cherche_data fuel (pre ++ chunk id body ++ rest) (length pre + length (chunk id body) + 8) (unle id') (unle sz').
Proof.
  intros Hid Hd Hs L1 L2 Hr. cbn [cherche_data]. change data_id with 1635017060 in Hd. rewrite (proj2 (Z.eqb_neq _ _) Hd).
  assert (S : s32 (Z.of_nat (length body)) = Z.of_nat (length body)).
  { unfold s32. rewrite (proj2 (Z.ltb_lt _ _)) by (change (2 ^ 31) with 2147483648 in Hs; lia). reflexivity. }
  rewrite S. rewrite (proj2 (Z.eqb_neq _ 2147483647)) by (change (2 ^ 31) with 2147483648 in Hs; lia).
  assert (Lc : length (chunk id body) = (8 + length body + if Nat.odd (length body) then 1 else 0)%nat).
  { unfold chunk. rewrite !app_length, !le_length. destruct (Nat.odd (length body)); cbn [length]; lia. }
  assert (O : Z.odd (Z.of_nat (length body)) = Nat.odd (length body)) by apply odd_nat.
  rewrite O. set (nsk := if Nat.odd (length body) then Z.of_nat (length body) + 1 else Z.of_nat (length body)).
  assert (En : Z.of_nat (length pre + 8) + nsk = Z.of_nat (length pre + length (chunk id body))).
  { unfold nsk. rewrite Lc. destruct (Nat.odd (length body)); lia. }
  rewrite En. rewrite (proj2 (Z.ltb_ge _ _)) by lia. rewrite Nat2Z.id.
  assert (Lf : (length pre + length (chunk id body) + 8 <=? length (pre ++ chunk id body ++ rest))%nat = true).
  { apply Nat.leb_le. subst rest. rewrite !app_length. lia. }
  rewrite Lf. rewrite app_assoc.
  f_equal.
  - rewrite sub_app_l by (now rewrite app_length). subst rest. now rewrite firstn_len_app.
  - subst rest. rewrite app_assoc. rewrite sub_app_l by (rewrite !app_length; lia). now rewrite firstn_len_app.
Qed.

Definition chunk_ok (c : Z * list Z) : Prop := 0 <= fst c < 2 ^ 32 /\ fst c <> data_id /\ Z.of_nat (length (snd c)) < 2 ^ 31 - 1.
Definition chunks (cs : list (Z * list Z)) : list Z := flat_map (fun c => chunk (fst c) (snd c)) cs.
Lemma cherche_chunks cs : Forall chunk_ok cs -> forall pre idD szD tl, length idD = 4%nat -> length szD = 4%nat -> unle idD = data_id ->
  let D := idD ++ szD ++ tl in
  let F := pre ++ chunks cs ++ D in
  cherche_data (length cs) F (length pre + 8) (unle (sub (length pre) 4 F)) (unle (sub (length pre + 4) 4 F))
  = Ok ((length pre + length (chunks cs) + 8)%nat, unle szD).
Proof.
  induction 1 as [|c cs Hc Hcs IH]; intros pre idD szD tl L1 L2 Hid D F.
  - unfold F, D. cbn [chunks flat_map app length].
    rewrite (sub_app_l (length pre)) by reflexivity. rewrite firstn_len_app by exact L1.
    rewrite (app_assoc pre idD). rewrite sub_app_l by (rewrite app_length; lia). rewrite firstn_len_app by exact L2.
    cbn [cherche_data]. rewrite Hid. change (data_id =? 1635017060) with true. cbn. do 2 f_equal. lia.
  - destruct c as [id body]. destruct Hc as (H1 & H2 & H3). cbn [fst snd] in *.
    assert (EF : F = pre ++ chunk id body ++ (chunks cs ++ D)) by (unfold F; cbn [chunks flat_map fst snd]; now rewrite <- app_assoc).
    assert (S1 : unle (sub (length pre) 4 F) = id).
    { rewrite EF, sub_app_l by reflexivity. unfold chunk. rewrite <- !app_assoc. rewrite firstn_len_app by apply le_length. apply unle4, H1. }
    assert (S2 : unle (sub (length pre + 4) 4 F) = Z.of_nat (length body)).
    { rewrite EF. unfold chunk. rewrite <- !app_assoc. rewrite (app_assoc pre). rewrite sub_app_l by (rewrite app_length, le_length; lia).
      rewrite firstn_len_app by apply le_length. apply unle4. change (2 ^ 31) with 2147483648 in H3. change (2 ^ 32) with 4294967296. lia. }
    rewrite S1, S2. cbn [length].
    assert (R : exists id' sz' t, chunks cs ++ D = id' ++ sz' ++ t /\ length id' = 4%nat /\ length sz' = 4%nat).
    { destruct cs as [|[i b] cs']. - exists idD, szD, tl. auto.
      - cbn [chunks flat_map fst snd]. unfold chunk. rewrite <- !app_assoc. do 3 eexists. split; [reflexivity|]. split; apply le_length. }
    destruct R as (id' & sz' & t & Er & Li & Ls).
    rewrite EF. rewrite (cherche_skip (length cs) pre id body (chunks cs ++ D) id' sz' t) by auto.
    specialize (IH (pre ++ chunk id body) idD szD tl L1 L2 Hid). cbv zeta in IH. fold D in IH.
    rewrite <- app_assoc in IH. rewrite app_length in IH.
    assert (G1 : sub (length pre + length (chunk id body)) 4 (pre ++ chunk id body ++ chunks cs ++ D) = id').
    { rewrite Er. rewrite (app_assoc pre), sub_app_l by (rewrite app_length; lia). now rewrite firstn_len_app. }
    assert (G2 : sub (length pre + length (chunk id body) + 4) 4 (pre ++ chunk id body ++ chunks cs ++ D) = sz').
    { rewrite Er. rewrite (app_assoc pre), (app_assoc (pre ++ chunk id body)), sub_app_l by (rewrite !app_length; lia). now rewrite firstn_len_app. }
    rewrite G1, G2 in IH. rewrite IH. do 2 f_equal. cbn [chunks flat_map fst snd]. rewrite app_length. unfold chunks. lia.
Qed.

(** reading does not depend on where the samples lie *)
Definition same_tail (s s' : lec) : Prop :=
  l_fmt s = l_fmt s' /\ exists p p' t, l_file s = p ++ t /\ l_file s' = p' ++ t /\ l_off s = length p /\ l_off s' = length p'.
Lemma sub_shift (p t : list Z) i n : sub (length p + i) n (p ++ t) = sub i n t.
Proof. unfold sub. rewrite skipn_app. rewrite skipn_all2 by lia. cbn [app]. do 2 f_equal. lia. Qed.
Lemma fread_items_same k n s s' : same_tail s s' -> fread_items k n s = fread_items k n s'.
Proof.
  intros (_ & p & p' & t & E1 & E2 & E3 & E4). unfold fread_items. rewrite E1, E2, E3, E4, !app_length. do 2 f_equal. lia.
Qed.
Lemma same_adv k n s s' m : same_tail s s' -> fread_items k n s = n -> same_tail (adv s (fread_off k n s) m) (adv s' (fread_off k n s') m).
Proof.
  intros H Hn. pose proof (fread_items_same k n s s' H) as Hs. unfold fread_off. rewrite <- Hs, Hn, Nat.eqb_refl.
  destruct H as (Hf & p & p' & t & E1 & E2 & E3 & E4). split; [exact Hf|]. cbn [adv l_file l_off].
  destruct (Nat.eq_dec k 0) as [->|Hk].
  { exists p, p', t. rewrite E3, E4. repeat split; try assumption; lia. }
  assert (k * n <= length t)%nat.
  { unfold fread_items in Hn. rewrite E1, E3, app_length in Hn. replace (length p + length t - length p)%nat with (length t) in Hn by lia.
    pose proof (Nat.mul_div_le (length t) k Hk). nia. }
  exists (p ++ firstn (k * n) t), (p' ++ firstn (k * n) t), (skipn (k * n) t).
  rewrite <- !app_assoc, firstn_skipn. rewrite !app_length, firstn_length. repeat split; try assumption; lia.
Qed.
Lemma lis_same n s s' : same_tail s s' ->
  match lis_flottant s n, lis_flottant s' n with
  | Ok (s1, a), Ok (s1', a') => a = a' /\ same_tail s1 s1'
  | UB, UB => True
  | _, _ => False
  end.
Proof.
  intros H. pose proof H as (Hf & p & p' & t & E1 & E2 & E3 & E4). unfold lis_flottant, lis_donnees. rewrite <- Hf.
  destruct (Z.eqb_spec (l_fmt s) 1).
  - rewrite !map_length, !seq_length. rewrite <- (fread_items_same 2 n s s' H).
    destruct (Nat.eqb_spec (fread_items 2 n s) n) as [Hn|Hn]; [|exact I]. split.
    + f_equal. apply map_ext. intros i. rewrite E1, E2, E3, E4, !sub_shift. reflexivity.
    + apply same_adv; [exact H|exact Hn].
  - rewrite <- (fread_items_same 4 n s s' H). destruct (Nat.eqb_spec (fread_items 4 n s) n) as [Hn|Hn]; [|exact I]. split.
    + apply map_ext. intros i. rewrite E1, E2, E3, E4, !sub_shift. reflexivity.
    + apply same_adv; [exact H|exact Hn].
Qed.
Lemma lis_all_same ns : forall s s', same_tail s s' ->
  match lis_all s ns, lis_all s' ns with
  | Ok (_, a), Ok (_, a') => a = a'
  | UB, UB => True
  | _, _ => False
  end.
Proof.
  induction ns as [|n ns IH]; intros s s' H; cbn [lis_all]; [reflexivity|].
  pose proof (lis_same n s s' H) as L. destruct (lis_flottant s n) as [[s1 a]| | |], (lis_flottant s' n) as [[s1' a']| | |]; try contradiction; cbn [bind]; [|exact I].
  destruct L as [-> L]. specialize (IH s1 s1' L). destruct (lis_all s1 ns) as [[s2 b]| | |], (lis_all s1' ns) as [[s2' b']| | |]; try contradiction; cbn [bind]; [|exact I]. now subst.
Qed.
Lemma charge_chunks f s cs : charge 0 f = Ok s -> Forall chunk_ok cs ->
  exists s', charge (length cs) (firstn 36 f ++ chunks cs ++ skipn 36 f) = Ok s'
    /\ lis_config s' = lis_config s /\ lis_nechantillons s' = lis_nechantillons s /\ same_tail s s'.
Proof.
  intros H Hcs. unfold charge in H. destruct (Nat.ltb_spec (length f) 44) as [?|Hl]; [discriminate|].
  destruct (unle (sub 0 4 f) =? 1179011410) eqn:E0; cbn [negb] in H; [|discriminate].
  destruct (unle (sub 36 4 f) =? 1635017060) eqn:E1.
  2:{ cbn [cherche_data] in H. rewrite E1 in H. discriminate. }
  assert (C0 : cherche_data 0 f 44 (unle (sub 36 4 f)) (unle (sub 40 4 f)) = Ok (44%nat, unle (sub 40 4 f))) by (cbn [cherche_data]; now rewrite E1).
  rewrite C0 in H. cbn [bind] in H.
  assert (Ef : f = firstn 36 f ++ sub 36 4 f ++ sub 40 4 f ++ skipn 44 f).
  { unfold sub. rewrite <- (firstn_skipn 36 f) at 1. f_equal. rewrite <- (firstn_skipn 4 (skipn 36 f)) at 1. f_equal.
    rewrite skipn_skipn'. cbn [Nat.add]. rewrite <- (firstn_skipn 4 (skipn 40 f)) at 1. f_equal. rewrite skipn_skipn'. reflexivity. }
  assert (Es : skipn 36 f = sub 36 4 f ++ sub 40 4 f ++ skipn 44 f).
  { rewrite Ef at 1. rewrite skipn_app, skipn_all2 by (rewrite firstn_length; lia). cbn [app]. rewrite firstn_length. rewrite Nat.min_l by lia. reflexivity. }
  assert (Lp : length (firstn 36 f) = 36%nat) by (rewrite firstn_length; lia).
  assert (L1 : length (sub 36 4 f) = 4%nat) by (unfold sub; rewrite firstn_length, skipn_length; lia).
  assert (L2 : length (sub 40 4 f) = 4%nat) by (unfold sub; rewrite firstn_length, skipn_length; lia).
  set (F := firstn 36 f ++ chunks cs ++ skipn 36 f).
  assert (P : forall o n, (o + n <= 36)%nat -> sub o n F = sub o n f).
  { intros o n Ho. unfold F. rewrite Ef at 3. unfold sub. rewrite !skipn_app, !firstn_app. rewrite !skipn_length, Lp.
    replace (n - (36 - o))%nat with 0%nat by lia. cbn [firstn]. now rewrite !app_nil_r. }
  assert (LF : (length F <? 44)%nat = false).
  { apply Nat.ltb_ge. unfold F. rewrite Es, !app_length, Lp, L1, L2. lia. }
  pose proof (cherche_chunks cs Hcs (firstn 36 f) (sub 36 4 f) (sub 40 4 f) (skipn 44 f) L1 L2 (proj1 (Z.eqb_eq _ _) E1)) as C.
  cbv zeta in C. rewrite <- Es in C. fold F in C. rewrite Lp in C. cbn [Nat.add] in C.
  assert (G : charge (length cs) F = Ok (mklec F (36 + length (chunks cs) + 8) 0 (l_nech s) (l_fmt s) (l_can s) (l_freq s) (l_bits s))).
  { unfold charge. rewrite LF, (P 0%nat 4%nat), E0 by lia. cbn [negb]. rewrite C. cbn [bind].
    rewrite (P 22%nat), (P 34%nat), (P 20%nat), (P 24%nat) by lia.
    destruct ((2147483647 <? unle (sub 34 2 f) * unle (sub 22 2 f)) || (unle (sub 34 2 f) * unle (sub 22 2 f) =? 0)); [discriminate|].
    injection H as <-. reflexivity. }
  exists (mklec F (36 + length (chunks cs) + 8) 0 (l_nech s) (l_fmt s) (l_can s) (l_freq s) (l_bits s)).
  split; [exact G|]. split; [reflexivity|]. split; [reflexivity|].
  destruct ((2147483647 <? unle (sub 34 2 f) * unle (sub 22 2 f)) || (unle (sub 34 2 f) * unle (sub 22 2 f) =? 0)); [discriminate|].
  injection H as <-. split; [reflexivity|]. cbn [l_file l_off].
  exists (firstn 36 f ++ sub 36 4 f ++ sub 40 4 f), (firstn 36 f ++ chunks cs ++ sub 36 4 f ++ sub 40 4 f), (skipn 44 f).
  split; [rewrite Ef at 1; now rewrite <- !app_assoc|]. split; [unfold F; rewrite Es; now rewrite <- !app_assoc|].
  rewrite !app_length, Lp, L1, L2. lia.
Qed.
