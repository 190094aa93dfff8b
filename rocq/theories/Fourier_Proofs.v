(** Proofs about the radix-2 transform. *)
From Coq Require Import Field.
From Verif Require Import Base BaseLemmas DftSys Filters_Model Filters_Proofs Fourier_Model.

Lemma loop_inv {S} (P : nat -> S -> Prop) n body s :
  (forall i s, i < n -> P i s -> exists s', body i s = Ok s' /\ P (Datatypes.S i) s') ->
  P 0 s -> exists s', loop n body s = Ok s' /\ P n s'.
Proof.
  intros H H0. induction n as [|n IH]; [exists s; split; [reflexivity|exact H0]|].
  destruct IH as [s1 [E1 P1]]; [intros i t Hi; apply H; lia|]. destruct (H n s1 ltac:(lia) P1) as [s2 [E2 P2]].
  exists s2. split; [|exact P2]. cbn [loop]. rewrite E1. exact E2.
Qed.
Lemma pset_ok {A} (l : list A) i v : i < length l -> pset l i v = Ok (upd l i v).
Proof. intros H. unfold pset. apply Nat.ltb_lt in H. rewrite H. reflexivity. Qed.

Local Open Scope cring_scope.
Section R2.
Context (F : dsys).
Add Ring Fr : (cth F).
Add Field Ff : (fth F).

Lemma rot_from_length (r w : F) n : length (rot_from r w n) = n.
Proof. revert r. induction n as [|n IH]; intros r; [reflexivity|]. cbn [rot_from length]. rewrite IH. reflexivity. Qed.
Lemma rot_from_nth (r w : F) n i : (i < n)%nat -> nth i (rot_from r w n) 0 = r * cpow w i.
Proof.
  revert r i. induction n as [|n IH]; intros r i Hi; [lia|]. destruct i as [|i]; cbn [rot_from nth cpow]; [ring|].
  rewrite IH by lia. ring.
Qed.
Lemma rotation_length n : length (rotation (F := F) n) = n.
Proof. apply rot_from_length. Qed.
Lemma rotation_nth n i : (i < n)%nat -> nth i (rotation (F := F) n) 0 = wz n (Z.of_nat i).
Proof. intros H. unfold rotation. rewrite rot_from_nth, wz_nat by lia. ring. Qed.

Definition sg (avant : bool) : Z := if avant then 1%Z else (-1)%Z.

(** One pass. *)
Lemma stage_ok avant n pas (E T : list F) :
  (0 < n)%nat -> (0 < pas)%nat -> let N := (2 * (n * pas))%nat in
  length E = N -> length T = N ->
  exists T', stage avant N n (rotation N) E T = Ok T' /\ length T' = N /\
    forall k m, (k < n)%nat -> (m < pas)%nat ->
      let r := wz (2 * n) (sg avant * Z.of_nat k) in
      nth (k * pas + m) T' 0 = nth (2 * k * pas + m) E 0 + r * nth (2 * k * pas + m + pas) E 0 /\
      nth (n * pas + (k * pas + m)) T' 0 = nth (2 * k * pas + m) E 0 - r * nth (2 * k * pas + m + pas) E 0.
Proof.
  intros Hn Hp N HE HT. unfold stage.
  assert (Ep : (N / (2 * n) = pas)%nat) by (unfold N; rewrite Nat.mul_assoc, (Nat.mul_comm (2 * n)); apply Nat.div_mul; lia).
  assert (Eh : (N / 2 = n * pas)%nat) by (unfold N; rewrite Nat.mul_comm; apply Nat.div_mul; lia).
  rewrite Ep, Eh. cbv zeta.
  set (r := fun k => wz (F := F) (2 * n) (sg avant * Z.of_nat k)).
  set (A := fun k m => nth (2 * k * pas + m) E 0 + r k * nth (2 * k * pas + m + pas) E 0).
  set (B := fun k m => nth (2 * k * pas + m) E 0 - r k * nth (2 * k * pas + m + pas) E 0).
  set (P := fun i (T : list F) => length T = N /\ forall k m, (m < pas)%nat -> (k * pas + m < i)%nat ->
     nth (k * pas + m) T 0 = A k m /\ nth (n * pas + (k * pas + m)) T 0 = B k m).
  match goal with |- exists T', loop n ?bd T = _ /\ _ => destruct (loop_inv (fun k T => P (k * pas)%nat T) n bd T) as [T' [E1 P1]] end.
  - intros k S Hk PS.
    rewrite (vget_ok _ _ 0) by (rewrite rotation_length; unfold N; nia). cbn [bind].
    assert (Hr : (if avant then nth (k * pas) (rotation N) 0 else conj (nth (k * pas) (rotation N) 0)) = r k).
    { rewrite rotation_nth by (unfold N; nia).
      assert (C : forall e, wz N (e * Z.of_nat pas) = wz (2 * n) e :> F).
      { intros e. replace N with (2 * n * pas)%nat by (unfold N; lia). apply wz_coh; lia. }
      unfold r, sg. destruct avant.
      - rewrite Nat2Z.inj_mul, C. f_equal. lia.
      - rewrite conj_wz by (unfold N; nia). rewrite Nat2Z.inj_mul.
        replace (- (Z.of_nat k * Z.of_nat pas))%Z with ((-1 * Z.of_nat k) * Z.of_nat pas)%Z by ring. apply C. }
    cbv zeta. rewrite Hr.
    replace (Datatypes.S k * pas)%nat with (k * pas + pas)%nat by lia.
    apply (loop_inv (fun m T => P (k * pas + m)%nat T)); [|rewrite Nat.add_0_r; exact PS].
    intros m U Hm [LU PU].
    assert (B1 : (2 * k * pas + m + pas < N)%nat) by (unfold N; nia).
    assert (B2 : (k * pas + m < n * pas)%nat) by nia.
    rewrite (pget_ok _ _ 0) by (rewrite HE; exact B1). cbn [bind].
    rewrite (pget_ok _ _ 0) by (rewrite HE; lia). cbn [bind].
    rewrite pset_ok by (rewrite LU; unfold N; lia). cbn [bind].
    rewrite pset_ok by (rewrite upd_length, LU; unfold N; lia).
    eexists. split; [reflexivity|]. split; [rewrite !upd_length; exact LU|].
    intros k' m' Hm' Hlt. rewrite !nth_upd, !upd_length, LU.
    assert (D : (k' * pas + m' < k * pas + m)%nat \/ (k' = k /\ m' = m)) 
      by (destruct (Nat.lt_trichotomy k' k) as [C|[->|C]]; [left; nia|lia|exfalso; nia]).
    destruct D as [D|[-> ->]].
    + destruct (PU k' m' Hm' D) as [Q1 Q2].
      destruct (Nat.eqb_spec (n * pas + (k * pas + m)) (k' * pas + m')) as [C|_]; [exfalso; lia|].
      destruct (Nat.eqb_spec (k * pas + m) (k' * pas + m')) as [C|_]; [exfalso; lia|].
      destruct (Nat.eqb_spec (n * pas + (k * pas + m)) (n * pas + (k' * pas + m'))) as [C|_]; [exfalso; lia|].
      destruct (Nat.eqb_spec (k * pas + m) (n * pas + (k' * pas + m'))) as [C|_]; [exfalso; lia|].
      cbn [andb]. split; assumption.
    + rewrite !Nat.eqb_refl.
      destruct (Nat.eqb_spec (n * pas + (k * pas + m)) (k * pas + m)) as [C|_]; [exfalso; lia|].
      destruct (Nat.ltb_spec (k * pas + m) N) as [_|C]; [|unfold N in C; lia].
      destruct (Nat.ltb_spec (n * pas + (k * pas + m)) N) as [_|C]; [|unfold N in C; lia].
      cbn [andb]. split; reflexivity.
  - split; [exact HT|]. intros; lia.
  - exists T'. split; [exact E1|]. destruct P1 as [L1 Q1]. split; [exact L1|].
    intros k m Hk Hm. apply Q1; [exact Hm|nia].
Qed.

(** Partial transforms: after the pass building the transforms of n points. *)
Definition part (s : Z) (x : list F) (n : nat) (E : list F) : Prop :=
  exists pas, (0 < pas)%nat /\ length x = (n * pas)%nat /\ length E = length x /\
  forall k m, (k < n)%nat -> (m < pas)%nat ->
    nth (k * pas + m) E 0 = sum n (fun j => samp x (m + j * pas) * wz n (s * Z.of_nat j * Z.of_nat k)).

Lemma part_init s (x : list F) : (0 < length x)%nat -> part s x 1 x.
Proof.
  intros H. exists (length x). split; [exact H|]. split; [lia|]. split; [reflexivity|].
  intros k m Hk Hm. replace k with 0%nat by lia. cbn [sum]. rewrite Z.mul_0_r, wz_0 by lia.
  unfold samp. rewrite Nat.mul_0_l, Nat.add_0_l, Nat.add_0_r. ring.
Qed.

Lemma part_step avant (x : list F) n E T : (0 < n < length x)%nat -> (exists p, length x = (2 * n * p)%nat) ->
  part (sg avant) x n E -> length T = length x ->
  exists T', stage avant (length x) n (rotation (length x)) E T = Ok T' /\ part (sg avant) x (2 * n) T'.
Proof.
  intros Hn [p Hp] (pas' & Hp' & Lx & LE & HE) LT.
  assert (Hpp : (0 < p)%nat) by nia. assert (E2 : pas' = (2 * p)%nat) by nia. subst pas'.
  assert (LN : length x = (2 * (n * p))%nat) by lia.
  destruct (stage_ok avant n p E T ltac:(lia) Hpp) as (T' & ET & LT' & HT'); [lia|lia|].
  rewrite <- LN in ET, LT'. exists T'. split; [exact ET|]. exists p. split; [exact Hpp|]. split; [lia|]. split; [exact LT'|].
  set (s := sg avant) in *.
  assert (Hs2 : forall j k, wz (2 * n) (s * Z.of_nat (j * 2) * Z.of_nat k) = wz n (s * Z.of_nat j * Z.of_nat k) :> F).
  { intros j k. replace (s * Z.of_nat (j * 2) * Z.of_nat k)%Z with (s * Z.of_nat j * Z.of_nat k * Z.of_nat 2)%Z by lia.
    rewrite (Nat.mul_comm 2 n). apply wz_coh; lia. }
  (* the common form *)
  assert (Key : forall k0 k m, (m < p)%nat -> (k0 < n)%nat -> k mod n = k0 ->
     sum (2 * n) (fun j => samp x (m + j * p) * wz (2 * n) (s * Z.of_nat j * Z.of_nat k)) =
     nth (2 * k0 * p + m) E 0 + wz (2 * n) (s * Z.of_nat k) * nth (2 * k0 * p + m + p) E 0).
  { intros k0 k m Hm Hk0 Hmod.
    replace (2 * k0 * p + m)%nat with (k0 * (2 * p) + m)%nat by lia.
    replace (k0 * (2 * p) + m + p)%nat with (k0 * (2 * p) + (m + p))%nat by lia.
    rewrite !HE by lia. rewrite <- (sum_mul_l F), <- (sum_add F).
    rewrite Nat.mul_comm at 1. rewrite (sum_mul_split F).
    apply sum_ext. intros j Hj. cbn [sum].
    assert (W : wz n (s * Z.of_nat j * Z.of_nat k) = wz n (s * Z.of_nat j * Z.of_nat k0) :> F).
    { rewrite <- Hmod. apply wz_idx_mod. lia. }
    replace (m + (j * 2 + 0) * p)%nat with (m + j * (2 * p))%nat by lia.
    replace (m + (j * 2 + 1) * p)%nat with (m + p + j * (2 * p))%nat by lia.
    rewrite Nat.add_0_r, Hs2, W.
    replace (s * Z.of_nat (j * 2 + 1) * Z.of_nat k)%Z with (s * Z.of_nat (j * 2) * Z.of_nat k + s * Z.of_nat k)%Z by lia.
    rewrite wz_add, Hs2, W by lia. ring. }
  intros k m Hk Hm. destruct (Nat.lt_ge_cases k n) as [Hlt|Hge].
  - rewrite (Key k k m Hm Hlt (Nat.mod_small _ _ Hlt)). apply HT'; assumption.
  - set (k0 := (k - n)%nat). assert (Hk0 : (k0 < n)%nat) by (unfold k0; lia).
    rewrite (Key k0 k m Hm Hk0).
    2:{ replace k with (k0 + 1 * n)%nat by (unfold k0; lia). rewrite Nat.mod_add by lia. apply Nat.mod_small, Hk0. }
    destruct (HT' k0 m Hk0 Hm) as [_ Q]. replace (k * p + m)%nat with (n * p + (k0 * p + m))%nat by (unfold k0; nia).
    rewrite Q. replace (s * Z.of_nat k)%Z with (s * Z.of_nat k0 + s * Z.of_nat n)%Z
      by (replace (Z.of_nat k) with (Z.of_nat k0 + Z.of_nat n)%Z by (unfold k0; lia); ring).
    rewrite (wz_add F (2 * n) (s * Z.of_nat k0)) by lia.
    assert (Hh : wz (2 * n) (s * Z.of_nat n) = - (1) :> F).
    { unfold s, sg. destruct avant; [rewrite Z.mul_1_l; apply wz_half; lia|].
      rewrite <- (wz_half F n) by lia. apply wz_mod. rewrite <- (Z.mod_add (-1 * Z.of_nat n) 1) by lia. f_equal. lia. }
    rewrite Hh. ring.
Qed.

Lemma radix2_loop_ok avant (x : list F) p : length x = (2 ^ p)%nat -> forall q i fuel E X S,
  (i + q = p)%nat -> (q < fuel)%nat -> part (sg avant) x (2 ^ i) E -> length X = length x -> length S = length x ->
  (q = 0%nat -> E = X) ->
  exists Y, radix2_loop fuel avant (length x) (2 ^ i) (rotation (length x)) E X S (Nat.even q) = Ok Y /\ part (sg avant) x (2 ^ p) Y.
Proof.
  intros Lx. induction q as [|q IH]; intros i fuel E X S Hi Hf HE LX LS H0; destruct fuel as [|f]; try lia; cbn [radix2_loop].
  - rewrite Lx. replace i with p by lia. rewrite Nat.ltb_irrefl. exists X. split; [reflexivity|].
    rewrite <- (H0 eq_refl). replace p with i by lia. exact HE.
  - assert (Hlt : (2 ^ i < length x)%nat) by (rewrite Lx; apply Nat.pow_lt_mono_r; lia).
    assert (Hpos : (2 ^ i <> 0)%nat) by (apply Nat.pow_nonzero; lia).
    destruct (Nat.ltb_spec (2 ^ i) (length x)) as [_|C]; [|lia].
    assert (Hd : exists r, length x = (2 * 2 ^ i * r)%nat).
    { exists (2 ^ q)%nat. rewrite Lx, <- Hi, Nat.pow_add_r. cbn [Nat.pow]. lia. }
    replace (2 * 2 ^ i)%nat with (2 ^ (i + 1))%nat by (rewrite Nat.pow_add_r; cbn [Nat.pow]; lia).
    assert (Hpt : forall T', part (sg avant) x (2 * 2 ^ i) T' -> part (sg avant) x (2 ^ (i + 1)) T').
    { intros T' HT. replace (2 ^ (i + 1))%nat with (2 * 2 ^ i)%nat by (rewrite Nat.pow_add_r; cbn [Nat.pow]; lia). exact HT. }
    rewrite Nat.even_succ, <- Nat.negb_even. destruct (Nat.even q) eqn:Eq; cbn [negb].
    + destruct (part_step avant x (2 ^ i) E X ltac:(lia) Hd HE LX) as (T' & ET & PT). rewrite ET. cbn [bind].
      apply Hpt in PT.
      pose proof PT as (_ & _ & _ & LT & _).
      apply IH; try assumption; try lia. reflexivity.
    + destruct (part_step avant x (2 ^ i) E S ltac:(lia) Hd HE LS) as (T' & ET & PT). rewrite ET. cbn [bind].
      apply Hpt in PT.
      pose proof PT as (_ & _ & _ & LT & _).
      apply IH; try assumption; try lia. intros ->. discriminate.
Qed.

Lemma paire_ok p : (p <= 30)%nat -> negb (Z.land (Z.of_nat (2 ^ p)) 0x55555555 =? 0)%Z = Nat.even p.
Proof.
  intros H. rewrite Nat2Z.inj_pow. change (Z.of_nat 2) with 2%Z.
  do 31 (destruct p as [|p]; [reflexivity|]). lia.
Qed.

Lemma map_nth0 {A B} (f : A -> B) (l : list A) i d d' : (i < length l)%nat -> nth i (map f l) d' = f (nth i l d).
Proof. intros H. rewrite nth_indep with (d' := f d) by (rewrite map_length; exact H). apply map_nth. Qed.

Lemma radix2_ok junk avant (x : list F) p : (p <= 30)%nat -> length x = (2 ^ p)%nat ->
  radix2 junk avant x (rotation (length x)) = Ok (DFT (sg avant) x).
Proof.
  intros Hp Lx. unfold radix2. rewrite rotation_length, Nat.eqb_refl. cbn [negb].
  destruct (Nat.eqb_spec (length x) 1) as [H1|H1].
  - f_equal. apply (list_ext (0 : F)); [rewrite DFT_length; reflexivity|]. intros i Hi.
    fold (samp (DFT (sg avant) x) i). rewrite DFT_nth by exact Hi. unfold dft. cbv zeta. rewrite H1. cbn [sum].
    replace i with 0%nat by lia. rewrite Z.mul_0_r, wz_0 by lia. rewrite rt_1. unfold samp. field. apply (F_1_neq_0 (fth F)).
  - replace (negb (Z.land (Z.of_nat (length x)) 1431655765 =? 0)%Z) with (Nat.even p) by (rewrite Lx; symmetry; apply paire_ok; exact Hp).
    assert (Hpos : (0 < length x)%nat) by (rewrite Lx; pose proof (Nat.pow_nonzero 2 p); lia).
    destruct (radix2_loop_ok avant x p Lx p 0 (S (length x)) x (repeat junk (length x)) (repeat junk (length x))) as (Y & EY & (pas & Hpas & L1 & L2 & HY)).
    + lia.
    + rewrite Lx. pose proof (Nat.pow_gt_lin_r 2 p). lia.
    + apply part_init. exact Hpos.
    + apply repeat_length.
    + apply repeat_length.
    + intros ->. exfalso. apply H1. rewrite Lx. reflexivity.
    + change (2 ^ 0)%nat with 1%nat in EY. rewrite EY. cbn [bind]. f_equal.
      rewrite <- Lx in L1, HY. assert (pas = 1)%nat by nia. subst pas.
      apply (list_ext (0 : F)); [rewrite map_length, DFT_length; exact L2|].
      rewrite map_length, L2. intros i Hi. rewrite (map_nth0 _ _ _ (0 : F)) by lia.
      fold (samp (DFT (sg avant) x) i). rewrite DFT_nth by exact Hi. unfold dft. cbv zeta. f_equal.
      replace i with (i * 1 + 0)%nat at 1 by lia. rewrite HY by lia. apply sum_ext. intros j Hj.
      replace (0 + j * 1)%nat with j by lia. reflexivity.
Qed.
End R2.
