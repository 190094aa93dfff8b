(** Property C41: Levinson recursions. *)
From Coq Require Import QArith Qcanon Lia Field. Close Scope Q_scope. Close Scope Qc_scope.
From Verif Require Import Base BaseLemmas Fields Filters_Model Filters_Spec Filters_Proofs Filters_Props Levinson_Model Levinson_Spec Levinson_Proofs.

Section Props.
Context {K : cfield}.
Add Ring Kr2 : (cth K).
Open Scope cring_scope.

(** levinson(l, c, y) returns x with T x = y, where T is the Toeplitz matrix of
    first row l and first column c, for every size, whenever the leading blocks
    of T are non-singular (no division by zero then occurs). *)
Theorem C41_levinson (eqb : K -> K -> bool) (l c y : list K) : (forall a b, eqb a b = true <-> a = b) ->
  let n := length l in (1 <= n)%nat -> length c = n -> length y = n -> samp l 0 = samp c 0 -> strongly_regular (toeplitz l c) n ->
  exists x, levinson eqb l c y = Ok x /\ length x = n /\
    forall i, (i < n)%nat -> sum n (fun j => toeplitz l c i j * samp x j) = samp y i.
Proof. exact (levinson_ok eqb l c y). Qed.
(** ... and this is the only solution. *)
Theorem C41_unique (l c x x' y : list K) n : length x = n -> length x' = n -> strongly_regular (toeplitz l c) n ->
  (forall i, (i < n)%nat -> sum n (fun j => toeplitz l c i j * samp x j) = samp y i) ->
  (forall i, (i < n)%nat -> sum n (fun j => toeplitz l c i j * samp x' j) = samp y i) -> x = x'.
Proof.
  intros L L' SR H H'. apply (list_ext (0 : K)); [congruence|]. intros i Hi. rewrite L in Hi.
  assert (E : 1 * samp x i + (- (1)) * samp x' i = 0).
  { apply (SR n (le_n n) (fun j => 1 * samp x j + (- (1)) * samp x' j)); [|exact Hi]. intros q Hq. rewrite mulrow_lin. unfold mulrow. rewrite H, H' by exact Hq.
    ring. }
  unfold samp in E. transitivity (nth i x' 0 + (1 * nth i x 0 + - (1) * nth i x' 0)); [ring|rewrite E; ring].
Qed.
(** It throws exactly when the dimensions differ, are zero, or l(0) <> c(0). *)
Theorem C41_levinson_throws (eqb : K -> K -> bool) (l c y : list K) : (forall a b, eqb a b = true <-> a = b) ->
  (levinson eqb l c y = Exc <-> (length c <> length l \/ length y <> length l \/ l = [] \/ samp l 0 <> samp c 0)).
Proof.
  intros Heq. unfold levinson. destruct (Nat.eqb_spec (length c) (length l)) as [Lc|Lc]; cbn [negb]; [|split; [intros; now left|reflexivity]].
  destruct (Nat.eqb_spec (length y) (length l)) as [Ly|Ly]; cbn [negb]; [|split; [intros; now right; left|reflexivity]].
  destruct l as [|l0 l']; [split; [intros; now right; right; left|reflexivity]|].
  destruct c as [|c0' c']; [discriminate Lc|]. destruct y as [|y0 y']; [discriminate Ly|]. unfold samp. cbn [nth].
  destruct (eqb l0 c0') eqn:E; cbn [negb].
  - apply Heq in E. split; [intros; discriminate|]. intros [H|[H|[H|H]]]; congruence.
  - split; [|reflexivity]. intros _. right. right. right. intros C. apply Heq in C. congruence.
Qed.

(** levinson_reel(r), n+1 correlations r_0 .. r_n: a_0 = 1 and R (a_1 .. a_n) = -(r_1 .. r_n),
    where R is the n x n matrix r_vers_R of (r_0 .. r_(n-1)) as documented. *)
Theorem C41_levinson_real (r : list K) n : length r = S n -> (1 <= n)%nat -> strongly_regular (toeplitz r r) n ->
  exists a, levinson_reel r = Ok a /\ length a = S n /\ samp a 0 = 1 /\
    forall i, (i < n)%nat -> sum n (fun j => r_vers_R r i j * samp a (S j)) = - samp r (S i).
Proof.
  intros Lr Hn SR. destruct (levinson_reel_ok r) as (a & E & La & A0 & H); [lia|replace (length r - 1)%nat with n by lia; exact SR|].
  exists a. split; [exact E|]. split; [congruence|]. split; [exact A0|]. intros i Hi.
  specialize (H (S i) ltac:(lia)). unfold mulrow in H. rewrite Lr, (sum_S_l K), A0 in H.
  change (sym r (S i) 0) with (samp r (S i)) in H.
  rewrite (sum_ext K n _ (fun j => sym r (S i) (S j) * nth (S j) a 0)) by (intros j Hj; rewrite r_vers_R_sym; reflexivity).
  set (q := sum n _) in *. transitivity (samp r (S i) * 1 + q - samp r (S i)); [ring|]. rewrite H. ring.
Qed.
(** The matrix built by r_vers_R is the symmetric Toeplitz matrix of r. *)
Theorem C41_covariance_matrix (r : list K) i j : r_vers_R r i j = toeplitz r r i j /\ r_vers_R r i j = r_vers_R r j i
  /\ r_vers_R r (S i) (S j) = r_vers_R r i j.
Proof. rewrite !r_vers_R_sym. repeat split. unfold sym, toeplitz. destruct (Nat.leb_spec j i), (Nat.leb_spec i j); f_equal; lia. Qed.
(** Fewer than two correlations: throws. *)
Theorem C41_levinson_real_short (r : list K) : (length r < 2)%nat -> levinson_reel r = Exc.
Proof. destruct r as [|a [|b t]]; cbn; intros; try reflexivity; lia. Qed.
(** The hypothesis holds for every matrix whose quadratic form vanishes only at 0
    (e.g. any positive definite correlation matrix). *)
Theorem C41_definite (T : nat -> nat -> K) n : definite T n -> strongly_regular T n.
Proof. apply definite_sr. Qed.

(** lpc: the residual e and the coefficients a satisfy x_n = e_n - (a_1 x_(n-1) + a_2 x_(n-2) + ...),
    the documentation having the opposite sign (see below). *)
Theorem C41_lpc (r x : list K) m : length r = S m -> (1 <= m)%nat -> strongly_regular (toeplitz r r) m ->
  exists a e, lpc r x = Ok (a, e) /\ levinson_reel r = Ok a /\ length e = length x /\
    forall n, (n < length x)%nat -> samp x n = samp e n - sum m (fun k => samp a (S k) * sampZ x (Z.of_nat n - Z.of_nat (S k))).
Proof.
  intros Lr Hm SR. destruct (C41_levinson_real r m Lr Hm SR) as (a & E & La & A0 & _).
  assert (Ha : a <> []) by (intros ->; discriminate La).
  destruct (C10_convolution K a [x] Ha) as (s & e & R & Le & N). cbn [run concat] in R, Le, N. rewrite app_nil_r in Le, N.
  unfold lpc. rewrite E. cbn [bind]. destruct (fir_step (fir_init a) x) as [[s1 y1]| | |] eqn:F; cbn [bind] in R; try discriminate R.
  exists a, y1. cbn [bind snd]. assert (e = y1 ++ []) by congruence. rewrite app_nil_r in H. subst e. split; [reflexivity|]. split; [reflexivity|]. split; [exact Le|].
  intros n Hn. rewrite N by lia. unfold conv. rewrite La, (sum_S_l K), A0. rewrite Z.sub_0_r. 
  replace (sampZ x (Z.of_nat n)) with (samp x n).
  - ring.
  - unfold sampZ, samp. destruct (Z.ltb_spec (Z.of_nat n) 0); [lia|]. now rewrite Nat2Z.id.
Qed.
End Props.

Print Assumptions C41_levinson.
Print Assumptions C41_unique.
Print Assumptions C41_levinson_throws.
Print Assumptions C41_levinson_real.
Print Assumptions C41_covariance_matrix.
Print Assumptions C41_levinson_real_short.
Print Assumptions C41_definite.
Print Assumptions C41_lpc.

(** ** Examples over the rationals *)
Definition qeqb (a b : Qcfield) : bool := if Qc_eq_dec a b then true else false.
Lemma qeqb_ok a b : qeqb a b = true <-> a = b.
Proof. unfold qeqb. destruct (Qc_eq_dec a b); split; intros; congruence. Qed.
Definition qs (l : list Z) : list Qcfield := map (fun z => qc z 1) l.
Definition vals (r : res (list Qcfield)) : res (list Q) := let* y := r in Ok (map (fun v : Qc => this v) y).
(** [2 1 0; 1 2 1; 0 1 2] x = [4 8 8] gives x = [1 2 3]; then a non-symmetric system *)
Example C41_case : vals (levinson qeqb (qs [2;1;0]%Z) (qs [2;1;0]%Z) (qs [4;8;8]%Z)) = vals (Ok (qs [1;2;3]%Z)).
Proof. vm_compute. reflexivity. Qed.
Example C41_case2 : vals (levinson qeqb (qs [1;5;6]%Z) (qs [1;2;3]%Z) (qs [1-10+18;2-2+15;3-4+3]%Z)) = vals (Ok (qs [1;-2;3]%Z)).
Proof. vm_compute. reflexivity. Qed.
(** the hypothesis on the leading blocks holds for [2 1; 1 2] *)
Example C41_regular_case : strongly_regular (toeplitz (qs [2;1]%Z) (qs [2;1]%Z)) 2.
Proof.
  apply C41_definite. intros v H. unfold mulrow, toeplitz, samp, qs, qc in H. cbn [sum map nth Nat.leb Nat.sub] in H.
  set (a := v 0%nat : Qc) in *. set (b := v 1%nat : Qc) in *.
  assert (E : ((a + b) * (a + b) + a * a + b * b)%Qc = 0%Qc).
  { transitivity ((0 + a * ((0 + Q2Qc (2 # 1) * a) + Q2Qc (1 # 1) * b)) + b * ((0 + Q2Qc (1 # 1) * a) + Q2Qc (2 # 1) * b))%Qc; [|exact H].
    change (Q2Qc (1 # 1)) with 1%Qc. replace (Q2Qc (2 # 1)) with (1 + 1)%Qc by (apply Qc_is_canon; reflexivity). ring. }
  assert (SQ : forall x : Qc, (0 <= x * x)%Qc).
  { intros x. unfold Qcle, Qcmult. cbn [this Q2Qc]. rewrite (Qred_correct (this x * this x)). change (Qred 0) with 0%Q. destruct (this x) as [n d]. unfold Qle, Qmult. cbn [Qnum Qden]. rewrite Z.mul_0_l, Z.mul_1_r. apply Z.square_nonneg. }
  assert (Z : forall x y z : Qc, (0 <= x)%Qc -> (0 <= y)%Qc -> (0 <= z)%Qc -> (x + y + z)%Qc = 0%Qc -> y = 0%Qc /\ z = 0%Qc).
  { intros x y z Hx Hy Hz S0. assert (Y : (y <= 0)%Qc).
    { rewrite <- S0. rewrite <- (Qcplus_0_l y) at 1. rewrite <- (Qcplus_0_r (0 + y)). apply Qcplus_le_compat; [apply Qcplus_le_compat; [exact Hx|apply Qcle_refl]|exact Hz]. }
    assert (ZZ : (z <= 0)%Qc).
    { rewrite <- S0. rewrite <- (Qcplus_0_l z) at 1. apply Qcplus_le_compat; [|apply Qcle_refl]. rewrite <- (Qcplus_0_l 0). apply Qcplus_le_compat; assumption. }
    split; apply Qcle_antisym; assumption. }
  destruct (Z _ _ _ (SQ (a + b)%Qc) (SQ a) (SQ b) E) as [A B]. apply Qcmult_integral in A, B.
  intros i Hi. destruct i as [|[|i]]; [destruct A; assumption|destruct B; assumption|lia].
Qed.
(** levinson_reel on [2 1]: a = [1, -1/2] *)
Example C41_real_case : vals (levinson_reel (qs [2;1]%Z)) = vals (Ok [qc 1 1; qc (-1) 2]).
Proof. vm_compute. reflexivity. Qed.
(** Finding: lpc documents x_n = sum_k a_k x_(n-k) + e_n; with the a and e it
    returns, this is false (the sign of a_k, k >= 1, is opposite). *)
Theorem C41_lpc_documented_refuted : exists (r x a e : list Qcfield), lpc r x = Ok (a, e) /\
  samp x 1 <> (samp a 1 * samp x 0 + samp e 1)%K.
Proof.
  exists (qs [2;1]%Z), (qs [1;1]%Z).
  destruct (lpc (qs [2;1]%Z) (qs [1;1]%Z)) as [[a e]| | |] eqn:E; [|exfalso; vm_compute in E; discriminate E..].
  exists a, e. split; [reflexivity|]. vm_compute in E. injection E as <- <-. intros C. apply (f_equal (fun q : Qc => this q)) in C. vm_compute in C. discriminate C.
Qed.
Print Assumptions C41_lpc_documented_refuted.
